(** Prop_Size.v - property C91: how large the result graph is. *)
From Coq Require Import String List NArith ZArith Bool Lia Arith Sorted.
From Verif Require Import Base ThUni ThCons Syl Utf Lattice Dag DagProofs PronDag Dict Parser.
From Verif Require Import Spec OrderProofs DictProofs Prop_Syl ParserSpec ParserFacts ParserInv ParserResult ParserListed ParserDict ParserLiteral ParserPool ParserProduct.
From Verif Require Import Prop_Output Prop_Parser Grammar GrammarWord TextGrammar TextProof Prop_Span Prop_Product Prop_Program Prop_Pool Prop_Every.
Import ListNotations.
Local Open Scope list_scope.
Local Open Scope nat_scope.
Notation zn := Z.of_nat.

(** ** Candidates for the edges *)
Definition saids : list Said :=
  flat_map (fun a => flat_map (fun b => flat_map (fun c => flat_map (fun e => map (fun t => say a b c e t)
    [SAMAN; EK; THO; TRI; CHATTAWA])
    [EC_NONE; KOK; KOT; KOP; KONG; KON; KOM; KOEY; KOEW]) vowelCodes) [SEC_NONE; SEC_RA; SEC_LA; SEC_WA])
    [KA; KHA; NGA; JA; CHA; YA; DA; TA; THA; NA; BA; PA; PHA; FA; MA; RA; LA; WA; SA; HA; ICS_A].
Lemma said_in v : wellFormed v -> exists x, In x saids /\ v = sylAt x (endPos v).
Proof.
  destruct v as [a b c e t l p]. intros (L & A & B & C & T). cbn [literal iCons1 iCons2 vowel tone endPos] in *. subst l.
  exists (say a b c e t). split; [|reflexivity]. unfold saids.
  apply in_flat_map. exists a. split; [destruct a; cbn; tauto|].
  apply in_flat_map. exists b. split; [exact B|].
  apply in_flat_map. exists c. split; [exact C|].
  apply in_flat_map. exists e. split; [destruct e; cbn; tauto|].
  apply in_map. destruct t; cbn; tauto.
Qed.
(** Between which places the syllables read at [p] go. *)
Definition spans (p : nat) : list (Z * Z) :=
  flat_map (fun k => [(zn p, zn (p + k)); (zn p, marker p (p + k)); (marker p (p + k), zn (p + k)); (marker p (p + k), zn (p + k + 1))])
    (seq 1 13).
Fixpoint run (l : list N) : nat :=
  match l with c :: l => if thaiChar c then 0 else S (run l) | [] => 0 end.
Definition both (f : Z) (v : Syl) (e : nat) : list (Z * Syl) := [(f, v); (f, setEndPos v (zn (e + 1)))].
Definition literals (w : list N) (p : nat) : list (Z * Syl) :=
  let q := p + run (skipn p w) in
  both (zn p) (SylLiteral (zn q) (between w p q)) q ++ both (zn p) (SylLiteral (zn (p + 1)) [fullStop]) (p + 1).
(** What the dictionary lists. *)
Definition keys (dict : option Dict) : list (list N) :=
  match dict with Some d => match mTrie d with Some t => map fst t | None => [] end | None => [] end.
Definition stringsOf (dict : option Dict) (k : list N) : list SylString :=
  match dict with
  | Some d => match matchGetData d (mkMatch 0 k []) with Ok s => match MakeSylStrings s with Ok l => l | _ => [] end | _ => [] end
  | None => []
  end.
Definition listedMoves (dict : option Dict) (p : nat) : list (Z * Syl) :=
  flat_map (fun k => flat_map (fun s => flat_map (fun m => both (fst m) (snd m) (p + length k)) (along (zn p) (shiftEndPos (zn p) s)))
    (stringsOf dict k)) (keys dict).
Definition edgeOf (m : Z * Syl) : Z * Z * Syl := (fst m, endPos (snd m), snd m).
Definition candidates (w : list N) (dict : option Dict) (p : nat) : list (Z * Z * Syl) :=
  flat_map (fun ft => map (fun x => (fst ft, snd ft, sylAt x (snd ft))) saids) (spans p) ++
  map edgeOf (literals w p) ++ map edgeOf (listedMoves dict p).
Definition K (dict : option Dict) : nat :=
  52 * length saids + 4 + 2 * fold_right plus 0 (map (fun k => fold_right plus 0 (map (@length Syl) (stringsOf dict k))) (keys dict)).

Lemma flat_map_len {A B} (f : A -> list B) l : length (flat_map f l) = fold_right plus 0 (map (fun a => length (f a)) l).
Proof. induction l as [|a l IH]; cbn [flat_map map fold_right]; [reflexivity|]. rewrite app_length, IH. reflexivity. Qed.
Lemma fold_ext {A} (f g : A -> nat) l : (forall a, f a = g a) -> fold_right plus 0 (map f l) = fold_right plus 0 (map g l).
Proof. intros H. induction l as [|a l IH]; cbn; [reflexivity|]. rewrite H, IH. reflexivity. Qed.
Lemma fold_mul {A} (f : A -> nat) k l : fold_right plus 0 (map (fun a => k * f a) l) = k * fold_right plus 0 (map f l).
Proof. induction l as [|a l IH]; cbn [map fold_right]; lia. Qed.
Lemma fold_const {A} k (l : list A) : fold_right plus 0 (map (fun _ => k) l) = k * length l.
Proof. induction l as [|a l IH]; cbn [map fold_right length]; lia. Qed.
Lemma along_len s : forall x, length (along x s) = length s.
Proof. induction s as [|v s IH]; intros x; cbn; [reflexivity|]. rewrite IH. reflexivity. Qed.
Lemma candidates_len w dict p : length (candidates w dict p) = K dict.
Proof.
  unfold candidates, K. rewrite !app_length, !map_length.
  assert (A : length (flat_map (fun ft : Z * Z => map (fun x => (fst ft, snd ft, sylAt x (snd ft))) saids) (spans p)) = 52 * length saids).
  { rewrite flat_map_len, (fold_ext _ (fun _ => length saids)) by (intros; apply map_length). rewrite fold_const.
    change (length (spans p)) with 52. lia. }
  rewrite A. change (length (literals w p)) with 4.
  assert (B : length (listedMoves dict p) = 2 * fold_right plus 0 (map (fun k => fold_right plus 0 (map (@length Syl) (stringsOf dict k))) (keys dict))).
  { unfold listedMoves. rewrite flat_map_len, <- fold_mul. apply fold_ext. intros k. rewrite flat_map_len, <- fold_mul. apply fold_ext. intros s.
    rewrite flat_map_len. rewrite (fold_ext _ (fun _ => 2)) by reflexivity. rewrite fold_const, along_len. unfold shiftEndPos. rewrite map_length. reflexivity. }
  rewrite B. lia.
Qed.

Section Size.
Variable w : list N.
Variable dict : option Dict.
Variable brk : list nat.
Notation n := (length w).
Hypothesis sorted : StronglySorted lt brk.
Hypothesis inside : Forall (fun x => x <= n) brk.
Hypothesis dictWF : dictOKo dict.
Notation D := (entry dict).

Lemma edges_way fuel d : ParseU16F libthai_ct fuel w dict brk = Ok d ->
  forall f x v, InE d f x v <-> OnWay D w brk f v /\ endPos v = x.
Proof.
  intros E.
  pose proof (defined_Rs w dict brk sorted inside dictWF fuel d E) as Df.
  pose proof (transparent libthai_ct w dict brk inside fuel d E) as T.
  pose proof (ParseU16F_inv libthai_ct w dict brk dictWF fuel d E) as G.
  intros f x v. rewrite (InE_PHas _ _ _ _ _ d ct_ok dictWF G), T, (edges_moves _ _ _ sorted inside dictWF Df f x v). split.
  - intros ((v0 & M & Ex & Ev) & Ev' & C). assert (v0 = v) as ->; [|auto].
    apply canon_eq; [eapply way_canon; eauto|exact C|apply syl_eqb_spoken; exact Ev|congruence].
  - intros (M & Ex). split; [exists v; split; [exact M|split; [exact Ex|apply syl_eqb_spoken; reflexivity]]|].
    split; [exact Ex|eapply way_canon; eauto].
Qed.

Lemma skipn_cons (l : list N) : forall p c, nth_error l p = Some c -> skipn p l = c :: skipn (S p) l.
Proof. induction l as [|x l IH]; intros [|p] c H; cbn in H; try discriminate; [injection H as ->; reflexivity|]. apply IH. exact H. Qed.
Lemma run_foreign p q : foreignTo w p q -> q = p + run (skipn p w).
Proof.
  intros [A B F E]. remember (q - p) as k eqn:Ek. assert (q = p + k) as -> by lia. f_equal. clear A Ek.
  revert p B F E. induction k as [|k IH]; intros p B F E.
  - rewrite Nat.add_0_r in *. destruct E as [->|(c & Ec & T)]; [rewrite skipn_all; reflexivity|].
    rewrite (skipn_cons w p c Ec). cbn [run]. rewrite T. reflexivity.
  - destruct (nth_error w p) as [c|] eqn:Ec; [|apply nth_error_None in Ec; lia].
    assert (X : thaiChar c = false).
    { destruct (thaiChar c) eqn:T; [|reflexivity]. exfalso. apply (F p ltac:(lia)). exists c. auto. }
    pose proof (skipn_cons w p c Ec) as Y.
    rewrite Y. cbn [run]. rewrite X. f_equal. apply IH; [lia| |].
    + intros j Hj. apply F. lia.
    + replace (S p + k) with (p + S k) by lia. exact E.
Qed.

(** What an edge of the graph can be. *)
Definition Known (f : Z) (v : Syl) : Prop :=
  exists p, p < n /\ (literal v = [] /\ In (f, endPos v) (spans p) \/ In (f, v) (literals w p) \/ In (f, v) (listedMoves dict p)).
Lemma span_at p k f t : 1 <= k <= 13 ->
  (f = zn p /\ t = zn (p + k)) \/ (f = zn p /\ t = marker p (p + k)) \/
  (f = marker p (p + k) /\ t = zn (p + k)) \/ (f = marker p (p + k) /\ t = zn (p + k + 1)) -> In (f, t) (spans p).
Proof.
  intros Hk H. unfold spans. apply in_flat_map. exists k. split; [apply in_seq; lia|].
  cbn [In]. destruct H as [(-> & ->)|[(-> & ->)|[(-> & ->)|(-> & ->)]]]; auto.
Qed.
Lemma names_at g : forall p f v, In (f, v) (along (zn p) (names (zn p) g)) ->
  exists i, i < length g /\ f = zn (p + i) /\ literal v = [] /\ exists k, 1 <= k <= 2 /\ endPos v = zn (p + i + k) /\ p + i + k <= p + length g + 1.
Proof.
  induction g as [|c g IH]; intros p f v H; [destruct H|]. destruct g as [|c2 g].
  - cbn [names along In] in H. destruct H as [H|[]]. injection H as <- <-. exists 0. cbn [length]. split; [lia|]. split; [f_equal; lia|].
    split; [reflexivity|]. exists 2. split; [lia|]. cbn [nameOf endPos SylOf]. split; [lia|]. lia.
  - change (names (zn p) (c :: c2 :: g)) with (nameOf c (zn p + 1) :: names (zn p + 1) (c2 :: g)) in H.
    cbn [along] in H. destruct H as [H|H].
    + injection H as <- <-. exists 0. cbn [length]. split; [lia|]. split; [f_equal; lia|]. split; [reflexivity|].
      exists 1. split; [lia|]. cbn [nameOf endPos SylOf]. split; [lia|]. lia.
    + replace (endPos (nameOf c (zn p + 1))) with (zn (S p)) in H by (cbn [nameOf endPos SylOf]; lia).
      replace (zn p + 1)%Z with (zn (S p)) in H by lia. destruct (IH (S p) f v H) as (i & A & B & C & k & X & Y & Z).
      exists (S i). cbn [length] in *. split; [lia|]. split; [rewrite B; f_equal; lia|]. split; [exact C|]. exists k. split; [exact X|].
      split; [rewrite Y; f_equal; lia|lia].
Qed.
Lemma keys_in k strs : D k strs -> In k (keys dict) /\ stringsOf dict k = strs.
Proof.
  intros (d & v & Ed & H & _ & data & E1 & E2). unfold keys, stringsOf. rewrite Ed, E1, E2. split; [|reflexivity].
  destruct H as (t & Et & t1 & t2 & -> & _). rewrite Et. apply in_map_iff. exists (k, v). split; [reflexivity|].
  apply in_or_app. right. left. reflexivity.
Qed.
Lemma pass_known p lk es e lk' f v : p < n -> Pass D w brk p lk es e lk' -> In (f, v) es ->
  Known f v /\ (endPos v = zn e -> Known f (setEndPos v (zn (e + 1)))).
Proof.
  intros Lp P Hi. destruct P as [q F|q k r strs W ((Et & _ & Dk) & _)|q s r W _ _ S|q pre x r lk' W _ _ Ls R].
  - destruct Hi as [Hi|[]]. injection Hi as <- <-. apply run_foreign in F. subst q.
    split; [|intros _]; exists p; (split; [exact Lp|]); right; left; unfold literals; apply in_or_app; left; unfold both.
    + left. reflexivity.
    + right. left. reflexivity.
  - apply keys_in in Dk. destruct Dk as (Ik & <-). apply in_flat_map in Hi. destruct Hi as (s & Is & Hi).
    assert (X : forall m, In m (both f v (p + length k)) -> In m (listedMoves dict p)).
    { intros m Hm. unfold listedMoves. apply in_flat_map. exists k. split; [exact Ik|]. apply in_flat_map. exists s. split; [exact Is|].
      apply in_flat_map. exists (f, v). split; [exact Hi|exact Hm]. }
    split; [|intros _]; exists p; (split; [exact Lp|]); right; right; apply X; unfold both; [left|right; left]; reflexivity.
  - pose proof W as [A B _ _ _].
    inversion S as [g r' Ng _ _ Eg E1 E2|r' Er E1 E2|c Hc Ec E1 E2]; subst.
    + destruct (names_at g p f v Hi) as (i & Li & -> & Lv & k & Hk & Ek & _).
      assert (Lg : p + i < n).
      { apply (f_equal (@List.length N)) in Eg. rewrite between_len, app_length in Eg by lia. lia. }
      split.
      * exists (p + i). split; [exact Lg|]. left. split; [exact Lv|]. apply (span_at _ k); [lia|]. left. auto.
      * intros X. exists (p + i). split; [exact Lg|]. left. split; [destruct v; exact Lv|]. apply (span_at _ (k + 1)); [lia|]. left.
        split; [reflexivity|]. cbn [setEndPos endPos]. rewrite Ek in X. f_equal. lia.
    + destruct Hi as [Hi|[]]. injection Hi as <- <-. replace (zn p + 1)%Z with (zn (p + 1)) by lia. split.
      * exists p. split; [exact Lp|]. right. left. unfold literals. apply in_or_app. right. left. reflexivity.
      * intros X. cbn [endPos SylLiteral] in X. apply Nat2Z.inj in X. rewrite <- X. exists p. split; [exact Lp|].
        right. left. unfold literals. apply in_or_app. right. right. left. reflexivity.
    + destruct Hi as [Hi|[]]. injection Hi as <- <-. split.
      * exists p. split; [exact Lp|]. left. split; [reflexivity|]. apply (span_at _ 1); [lia|]. left. split; [reflexivity|]. cbn [nameOf endPos SylOf]. lia.
      * intros X. cbn [nameOf endPos SylOf] in X. exists p. split; [exact Lp|]. left. split; [reflexivity|]. apply (span_at _ 2); [lia|]. left.
        split; [reflexivity|]. cbn [setEndPos endPos]. lia.
  - pose proof W as [A B _ _ _]. pose proof (reads_len _ _ _ _ _ _ R) as L.
    assert (Ls' : q <= seenTo w p q) by (unfold seenTo; destruct (nth_error w p); [destruct (_ && _)|]; lia).
    rewrite between_len in L by lia.
    set (e := seenTo w p q - length r) in *.
    assert (He : e = p + (e - p) /\ 1 <= e - p <= 12) by (destruct pre; lia). destruct He as (He & Hk).
    unfold moves in Hi. destruct pre as [y|].
    + destruct Hi as [Hi|[Hi|[]]]; injection Hi as <- <-; cbn [endPos sylAt SylOf].
      * split.
        -- exists p. split; [exact Lp|]. left. split; [reflexivity|]. apply (span_at _ (e - p)); [lia|]. right. left. split; [reflexivity|]. rewrite <- He. reflexivity.
        -- intros X. unfold marker in X. lia.
      * split.
        -- exists p. split; [exact Lp|]. left. split; [reflexivity|]. apply (span_at _ (e - p)); [lia|]. right. right. left. rewrite <- He. auto.
        -- intros _. exists p. split; [exact Lp|]. left. split; [reflexivity|]. apply (span_at _ (e - p)); [lia|]. right. right. right. rewrite <- He. auto.
    + destruct Hi as [Hi|[]]; injection Hi as <- <-; cbn [endPos sylAt SylOf]. split.
      * exists p. split; [exact Lp|]. left. split; [reflexivity|]. apply (span_at _ (e - p)); [lia|]. left. rewrite <- He. auto.
      * intros _. exists p. split; [exact Lp|]. left. split; [reflexivity|]. apply (span_at _ (e - p + 1)); [lia|]. left.
        split; [reflexivity|]. cbn [setEndPos endPos]. f_equal. lia.
Qed.
Lemma way_known f v : OnWay D w brk f v -> Known f v.
Proof.
  intros (p & lk & es & e & lk' & _ & St & _ & Hi). destruct St as [es e lk' P _|es e lk' P _].
  - apply (pass_known p lk es e lk' f v) in Hi; [apply Hi| |exact P]. eapply pass_lt; eauto.
  - apply extend_in in Hi. destruct Hi as [(Hi & _)|(v0 & Hi & X & ->)].
    + apply (pass_known p lk es e lk' f v) in Hi; [apply Hi| |exact P]. eapply pass_lt; eauto.
    + apply (pass_known p lk es e lk' f v0) in Hi; [apply Hi; exact X| |exact P]. eapply pass_lt; eauto.
Qed.
Lemma edges_known fuel d : ParseU16F libthai_ct fuel w dict brk = Ok d ->
  incl (edgesF d) (flat_map (candidates w dict) (seq 0 n)).
Proof.
  intros E ((f & t) & v) I. pose proof (ParseU16F_inv libthai_ct w dict brk dictWF fuel d E) as G.
  pose proof (proj1 (edges_way fuel d E f t v) I) as (Wy & <-). apply way_known in Wy. destruct Wy as (p & Lp & H).
  apply in_flat_map. exists p. split; [apply in_seq; lia|]. unfold candidates. rewrite !in_app_iff. destruct H as [(L & H)|[H|H]].
  - left. apply in_flat_map. exists (f, endPos v). split; [exact H|]. cbn [fst snd].
    assert (Wf : wellFormed v).
    { pose proof (orig_content libthai_ct w dict brk ct_ok dictWF f (endPos v) v (gi_orig _ _ _ _ _ _ G _ _ _ I)) as [b e _ H2 H3 _ _|X _]; [|exact X].
      exfalso. rewrite L in H3. symmetry in H3. revert H3. apply text_nonempty. exact H2. }
    destruct (said_in v Wf) as (x & Ix & Ex). apply in_map_iff. exists x. split; [rewrite <- Ex; reflexivity|exact Ix].
  - right. left. apply (in_map edgeOf) in H. exact H.
  - right. right. apply (in_map edgeOf) in H. exact H.
Qed.
End Size.

(** ** C91: the result graph grows linearly with the text *)
Lemma C91_lemma dict : dictOKo dict -> exists K, forall w brk fuel d,
  StronglySorted lt brk -> Forall (fun x => x <= length w) brk ->
  ParseU16F libthai_ct fuel w dict brk = Ok d -> length (edgesF d) <= K * length w.
Proof.
  intros Dk. exists (K dict). intros w brk fuel d S I E.
  pose proof (ParseU16F_inv libthai_ct w dict brk Dk fuel d E) as G.
  assert (ND : NoDup (edgesF d)).
  { apply (FOP_NoDup _ syl_eqb); [intros x; apply syl_eqb_spoken; reflexivity|]. apply dwf_nodup. apply (gi_wf _ _ _ _ _ _ G). }
  pose proof (NoDup_incl_length ND (edges_known w dict brk S I Dk fuel d E)) as L.
  rewrite flat_map_len, (fold_ext _ (fun _ => K dict)) in L by (intros; apply candidates_len).
  rewrite fold_const, seq_length in L. exact L.
Qed.
(** Whatever the dictionary: there is a bound on the number of edges per letter
    of the text. *)
Theorem C91_linear_graph dict : dictOKo dict -> exists K, forall w brk fuel d,
  StronglySorted lt brk -> Forall (fun x => x <= length w) brk ->
  ParseU16F libthai_ct fuel w dict brk = Ok d -> length (edgesF d) <= K * length w.
Proof. exact (C91_lemma dict). Qed.
Print Assumptions C91_linear_graph.

(** ** How many pronunciations there are *)
Fixpoint stepsOf (f : Z) (s : SylString) : list (Z * Z * Syl) :=
  match s with [] => [] | v :: s => (f, endPos v, v) :: stepsOf (endPos v) s end.
Lemma steps_rank s : forall f a b v, increasing f (map endPos s) -> In (a, b, v) (stepsOf f s) -> (nodeRank f <= nodeRank a)%Z.
Proof.
  induction s as [|u s IH]; intros f a b v Inc H; [exact (False_ind _ H)|]. cbn [map increasing] in Inc. destruct Inc as (A & B).
  destruct H as [H|H]; [injection H as <- <- <-; lia|]. specialize (IH _ _ _ _ B H). lia.
Qed.
(** The syllables with their places decide the string. *)
Lemma steps_same s : forall f s', increasing f (map endPos s) -> increasing f (map endPos s') ->
  (forall x, In x (stepsOf f s) <-> In x (stepsOf f s')) -> s = s'.
Proof.
  induction s as [|v s IH]; intros f [|v' s'] I I' H; [reflexivity| | |].
  - destruct (proj2 (H _) (or_introl eq_refl)).
  - destruct (proj1 (H _) (or_introl eq_refl)).
  - cbn [map increasing] in I, I'. destruct I as (A & B), I' as (A' & B'). cbn [stepsOf] in H.
    assert (E : v = v').
    { destruct (proj1 (H (f, endPos v, v)) (or_introl eq_refl)) as [X|X]; [injection X as _ <-; reflexivity|]. pose proof (steps_rank _ _ _ _ _ B' X). lia. }
    subst v'. f_equal. apply (IH (endPos v)); [exact B|exact B'|]. intros ((a & b) & u). split; intros X.
    + destruct (proj1 (H (a, b, u)) (or_intror X)) as [Y|Y]; [|exact Y]. injection Y as -> _ _. pose proof (steps_rank _ _ _ _ _ B X). lia.
    + destruct (proj2 (H (a, b, u)) (or_intror X)) as [Y|Y]; [|exact Y]. injection Y as -> _ _. pose proof (steps_rank _ _ _ _ _ B' X). lia.
Qed.
Lemma syl_dec (a b : Syl) : {a = b} + {a <> b}.
Proof. decide equality; try apply Z.eq_dec; try apply (list_eq_dec N.eq_dec); decide equality. Qed.
Lemma step_dec (a b : Z * Z * Syl) : {a = b} + {a <> b}.
Proof. decide equality; [apply syl_dec|decide equality; apply Z.eq_dec]. Qed.
Fixpoint sublists {A} (l : list A) : list (list A) :=
  match l with [] => [[]] | a :: l => let r := sublists l in r ++ map (cons a) r end.
Lemma sublists_len {A} (l : list A) : length (sublists l) = 2 ^ length l.
Proof. induction l as [|a l IH]; [reflexivity|]. cbn [sublists]. rewrite app_length, map_length, IH. cbn [length Nat.pow]. lia. Qed.
Lemma sublists_filter {A} (p : A -> bool) l : In (filter p l) (sublists l).
Proof. induction l as [|a l IH]; [left; reflexivity|]. cbn [sublists filter]. apply in_or_app. destruct (p a); [right; apply in_map, IH|left; exact IH]. Qed.
Lemma inj_nodup {A B} (g : A -> B) l : (forall x y, In x l -> In y l -> g x = g y -> x = y) -> NoDup l -> NoDup (map g l).
Proof.
  intros H ND. induction ND as [|x l Nx ND IH]; [constructor|]. cbn [map]. constructor; [|apply IH; intros; apply H; [right|right|]; assumption].
  intros X. apply in_map_iff in X. destruct X as (y & E & Iy). assert (y = x) by (apply H; [right; exact Iy|left; reflexivity|exact E]). congruence.
Qed.
Lemma steps_occur l s : forall s1, In (s1 ++ s) l -> forall f t v, In (f, t, v) (stepsOf (startPos s1) s) -> occurs l f t v.
Proof.
  induction s as [|u s IH]; intros s1 Is f t v H; [exact (False_ind _ H)|]. destruct H as [H|H]; [injection H as <- <- <-; exists s1, s; auto|].
  apply (IH (s1 ++ [u])); [rewrite <- app_assoc; exact Is|]. rewrite ParserLiteral.startPos_last. exact H.
Qed.
Lemma C91_lemma4 dict : dictOKo dict -> exists K, forall w brk l,
  StronglySorted lt brk -> Forall (fun x => x <= length w) brk -> pronounced libthai_ct w dict brk l -> length l <= K ^ length w.
Proof.
  intros Dk. destruct (C91_lemma dict Dk) as (K & HK). exists (2 ^ K). intros w brk l S I P. pose proof (pron_nodup _ _ _ _ _ Dk P) as ND.
  destruct P as (fuel & d & E & L). specialize (HK w brk fuel d S I E).
  destruct (C25_full_cover libthai_ct w dict brk fuel d Dk E) as (l' & L' & Wp & Oc). rewrite L in L'. injection L' as <-.
  rewrite <- Nat.pow_mul_r. apply Nat.le_trans with (2 ^ length (edgesF d)); [|apply Nat.pow_le_mono_r; lia].
  rewrite <- sublists_len. set (g := fun s : SylString => filter (fun x => if in_dec step_dec x (stepsOf 0 s) then true else false) (edgesF d)).
  rewrite <- (map_length g l). apply NoDup_incl_length.
  - apply inj_nodup; [|exact ND]. intros s s' Is Is' Eg. destruct (Wp s Is) as (_ & Inc & _), (Wp s' Is') as (_ & Inc' & _).
    apply (steps_same s 0 s' Inc Inc'). 
    assert (G : forall s x, In s l -> In x (stepsOf 0 s) <-> In x (g s)).
    { intros s0 ((a & b) & v) Is0. unfold g. rewrite filter_In. destruct (in_dec step_dec (a, b, v) (stepsOf 0 s0)) as [X|X].
      - split; [intros _; split; [|reflexivity]|intros _; exact X]. apply Oc. exact (steps_occur l s0 [] Is0 a b v X).
      - split; [intros Y; destruct (X Y)|intros (_ & Y); discriminate Y]. }
    intros x. rewrite (G s x Is), (G s' x Is'), Eg. reflexivity.
  - intros x X. apply in_map_iff in X. destruct X as (s & <- & _). apply sublists_filter.
Qed.
(** Whatever the dictionary: the number of pronunciations is at most
    exponential in the length of the text. *)
Theorem C91_exponential_bound dict : dictOKo dict -> exists K, forall w brk l,
  StronglySorted lt brk -> Forall (fun x => x <= length w) brk -> pronounced libthai_ct w dict brk l -> length l <= K ^ length w.
Proof. exact (C91_lemma4 dict). Qed.
Print Assumptions C91_exponential_bound.

(** Ways to choose [n] times from a list. *)
Fixpoint choicesOf (l0 : list SylString) (n : nat) : list (list SylString) :=
  match n with O => [[]] | S n => flat_map (fun c => map (cons c) (choicesOf l0 n)) l0 end.
Lemma choicesOf_len l0 n : length (choicesOf l0 n) = length l0 ^ n.
Proof.
  induction n as [|n IH]; [reflexivity|]. cbn [choicesOf Nat.pow]. rewrite flat_map_len, (fold_ext _ (fun _ => length l0 ^ n)) by (intros; rewrite map_length; exact IH).
  rewrite fold_const. lia.
Qed.
Lemma choicesOf_in l0 n : forall ss, In ss (choicesOf l0 n) <-> Forall2 (@In SylString) ss (repeat l0 n).
Proof.
  induction n as [|n IH]; intros ss; cbn [choicesOf repeat].
  - split; [intros [<-|H]; [constructor|exact (False_ind _ H)]|intros H; inversion H; left; reflexivity].
  - split.
    + intros H. apply in_flat_map in H. destruct H as (c & Hc & H). apply in_map_iff in H. destruct H as (r & <- & H). constructor; [exact Hc|apply IH, H].
    + intros H. inversion H as [|c y r ? Hc Hr]; subst. apply in_flat_map. exists c. split; [exact Hc|]. apply in_map, IH, Hr.
Qed.
Lemma nodup_app {A} (l1 l2 : list A) : NoDup l1 -> NoDup l2 -> (forall a, In a l1 -> In a l2 -> False) -> NoDup (l1 ++ l2).
Proof.
  intros N1 N2 H. induction N1 as [|a l1 Ha N1 IH1]; cbn [app]; [exact N2|]. constructor.
  - rewrite in_app_iff. intros [Q|Q]; [exact (Ha Q)|exact (H a (or_introl eq_refl) Q)].
  - apply IH1. intros b B1 B2. exact (H b (or_intror B1) B2).
Qed.
Lemma choicesOf_nodup l0 n : NoDup l0 -> NoDup (choicesOf l0 n).
Proof.
  intros ND. induction n as [|n IH]; cbn [choicesOf]; [repeat constructor; intros []|].
  revert IH. generalize (choicesOf l0 n). intros X IH. induction ND as [|c l Nc ND IHl]; cbn [flat_map]; [constructor|]. apply nodup_app; [|exact IHl|].
  - apply inj_nodup; [|exact IH]. intros x y _ _ E. injection E as E. exact E.
  - intros a A B. apply in_map_iff in A. destruct A as (x & <- & _). apply in_flat_map in B. destruct B as (c' & Ic & B).
    apply in_map_iff in B. destruct B as (y & E & _). injection E as -> _. exact (Nc Ic).
Qed.
(** No pronunciation begins with another. *)
Lemma increasing_last s : forall f v, increasing f (map endPos (s ++ [v])) -> (nodeRank f < nodeRank (endPos v))%Z.
Proof.
  induction s as [|u s IH]; intros f v; cbn [app map increasing]; [tauto|]. intros (A & B). specialize (IH _ _ B). lia.
Qed.
Lemma last_pos s v : str_endPos (s ++ [v]) = endPos v.
Proof. unfold str_endPos. rewrite last_last. destruct s; reflexivity. Qed.
Lemma no_prefix z a r : wellPositioned z a -> wellPositioned z (a ++ r) -> r = [].
Proof.
  intros (Na & _ & Ea) (_ & Inc & Er). destruct (exists_last Na) as (a0 & u & ->). rewrite last_pos in Ea.
  destruct r as [|x r]; [reflexivity|exfalso]. destruct (exists_last (l := x :: r)) as (r0 & v & E); [discriminate|]. rewrite E in *.
  rewrite app_assoc, last_pos in Er. rewrite <- app_assoc in Inc. cbn [app] in Inc.
  assert (X : forall b f, increasing f (map endPos (b ++ u :: r0 ++ [v])) -> (nodeRank (endPos u) < nodeRank (endPos v))%Z).
  { induction b as [|y b IH]; intros f; cbn [app map increasing]; intros (_ & B); [exact (increasing_last _ _ _ B)|exact (IH _ B)]. }
  specialize (X a0 0%Z Inc). rewrite Ea, Er in X. lia.
Qed.
Lemma shift_inj k a : (0 <= k)%Z -> forall b, shiftEndPos k a = shiftEndPos k b -> a = b.
Proof.
  intros Hk. induction a as [|x a IH]; intros [|y b] E; cbn [shiftEndPos map] in E; [reflexivity|discriminate E|discriminate E|].
  injection E as A B C D F G H E2. f_equal; [|apply IH; exact E2]. destruct x as [x1 x2 x3 x4 x5 x6 x7], y as [y1 y2 y3 y4 y5 y6 y7]. cbn [endPos iCons1 iCons2 vowel eCons tone literal] in *. subst.
  f_equal. unfold shiftPos in H. repeat match type of H with context [Z.ltb ?p 0] => destruct (Z.ltb_spec p 0) end; lia.
Qed.
Lemma inTurn_inj z l0 u : (forall s, In s l0 -> wellPositioned z s) -> forall n off ss ss',
  Forall2 (@In SylString) ss (repeat l0 n) -> Forall2 (@In SylString) ss' (repeat l0 n) ->
  inTurn off (repeat u n) ss = inTurn off (repeat u n) ss' -> ss = ss'.
Proof.
  intros W. induction n as [|n IH]; intros off ss ss' F F' E; cbn [repeat] in *; inversion F as [|s y r ? Hs Hr]; inversion F' as [|s' y' r' ? Hs' Hr']; subst; [reflexivity|].
  cbn [inTurn] in E. assert (X : s = s').
  { apply app_eq_app in E. destruct E as (m & [(E1 & _)|(E1 & _)]); unfold shiftEndPos in E1; apply map_eq_app in E1; destruct E1 as (a & b & -> & E1 & E2);
      apply (shift_inj _ _ (Nat2Z.is_nonneg _)) in E1; subst a; (assert (b = []) as -> by (match goal with H : In (?x ++ b) l0 |- _ => apply (no_prefix z x b); apply W; assumption end)); rewrite app_nil_r; reflexivity. }
  subst s'. apply app_inv_head in E. f_equal. eapply IH; eassumption.
Qed.
Lemma C91_lemma2 u dict l0 n : dictOKo dict -> u <> [] -> follows libthai_ct u u -> 1 <= n -> pronounced libthai_ct u dict [] l0 ->
  exists l, pronounced libthai_ct (concat (repeat u n)) dict (wordEnds 0 (repeat u n)) l /\ length l = length l0 ^ n.
Proof.
  intros Dk Nu Fo Hn P0.
  destruct (C55_word_by_word libthai_ct dict (repeat u n) (repeat l0 n) libthai_ok Dk) as (l & P & E).
  - destruct n; [lia|discriminate].
  - clear Hn. induction n as [|n IH]; [exact I|]. cbn [repeat sentence]. split; [exact Nu|]. split; [destruct n; [exact I|exact Fo]|exact IH].
  - clear - P0. induction n; cbn [repeat]; constructor; assumption.
  - exists l. split; [exact P|].
    assert (W : forall s, In s l0 -> wellPositioned (Z.of_nat (length u)) s).
    { destruct P0 as (fuel & d & Ed & L). destruct (C25_full_cover libthai_ct u dict [] fuel d Dk Ed) as (l' & L' & Wp & _). rewrite L in L'. injection L' as <-. exact Wp. }
    rewrite <- choicesOf_len, <- (map_length (inTurn 0 (repeat u n))).
    apply Nat.le_antisymm; (apply NoDup_incl_length; [|intros s I]).
    + exact (pron_nodup _ _ _ _ _ Dk P).
    + apply E in I. destruct I as (ss & F & ->). apply in_map, choicesOf_in, F.
    + apply inj_nodup; [|apply choicesOf_nodup, (pron_nodup _ _ _ _ _ Dk P0)]. intros ss ss' A B Eq. apply choicesOf_in in A, B.
      eapply inTurn_inj; eassumption.
    + apply in_map_iff in I. destruct I as (ss & <- & I). apply E. exists ss. split; [apply choicesOf_in, I|reflexivity].
Qed.

(** A word written [n] times, with the breaks between: as many pronunciations
    as ways to choose one of it [n] times. *)
Theorem C91_repeated u dict l0 n : dictOKo dict -> u <> [] -> follows libthai_ct u u -> 1 <= n -> pronounced libthai_ct u dict [] l0 ->
  exists l, pronounced libthai_ct (concat (repeat u n)) dict (wordEnds 0 (repeat u n)) l /\ length l = length l0 ^ n.
Proof. exact (C91_lemma2 u dict l0 n). Qed.
Print Assumptions C91_repeated.
(** So no power of the length bounds their number, not even without a
    dictionary. *)
Lemma repeat_len (u : list N) n : length (concat (repeat u n)) = length u * n.
Proof. induction n as [|n IH]; cbn [repeat concat]; [rewrite Nat.mul_0_r; reflexivity|]. rewrite app_length, IH, Nat.mul_succ_r. lia. Qed.
Definition exPhlao : list N := letters "เพลา".
Lemma phlao_listed : exists l0, pronounced libthai_ct exPhlao None [] l0 /\ length l0 = 4.
Proof. eexists. split; [apply listing_pronounced; vm_compute; reflexivity|reflexivity]. Qed.
Lemma C91_lemma3 : ~ exists c e, forall w brk l, StronglySorted lt brk -> Forall (fun x => x <= length w) brk ->
  pronounced libthai_ct w None brk l -> length l <= c * (length w + 1) ^ e.
Proof.
  intros (c & e & H). destruct (pow_beats (S e) (c * 2 ^ e)) as (n & Hn & L). destruct phlao_listed as (l0 & P0 & E0).
  destruct (C91_lemma2 exPhlao None l0 n ltac:(intros d X; discriminate X) ltac:(discriminate) ltac:(apply followsb_sound; vm_compute; reflexivity) Hn P0) as (l & P & El).
  assert (S : StronglySorted lt (wordEnds 0 (repeat exPhlao n))).
  { apply wordEnds_sorted. apply Forall_forall. intros x Hx. apply repeat_spec in Hx. subst x. discriminate. }
  assert (F : Forall (fun x => x <= length (concat (repeat exPhlao n))) (wordEnds 0 (repeat exPhlao n))).
  { apply Forall_forall. intros x Hx. apply wordEnds_le in Hx. exact Hx. }
  specialize (H _ _ l S F P). rewrite El, repeat_len, E0 in H. change (length exPhlao) with 4 in H.
  assert (A : (4 * n + 1) ^ e <= 2 ^ e * (2 * n + 1) ^ e) by (rewrite <- Nat.pow_mul_l; apply Nat.pow_le_mono_l; lia).
  assert (B : 2 ^ n <= 4 ^ n) by (apply Nat.pow_le_mono_l; lia).
  cbn [Nat.pow] in L. pose proof (Nat.pow_gt_lin_r 2 n ltac:(lia)).
  assert (C : 2 ^ n <= c * (2 ^ e * (2 * n + 1) ^ e)) by (eapply Nat.le_trans; [exact B|]; eapply Nat.le_trans; [exact H|]; apply Nat.mul_le_mono_l, A).
  assert (2 ^ n * (2 * n + 1) <= c * (2 ^ e * (2 * n + 1) ^ e) * (2 * n + 1)) by (apply Nat.mul_le_mono_r; exact C). nia.
Qed.
Theorem C91_polynomial_listing_refuted : ~ exists c e, forall w brk l, StronglySorted lt brk -> Forall (fun x => x <= length w) brk ->
  pronounced libthai_ct w None brk l -> length l <= c * (length w + 1) ^ e.
Proof. exact C91_lemma3. Qed.
Print Assumptions C91_polynomial_listing_refuted.
(** Ten edges, thirty-two pronunciations; and a word with four readings by the
    rules alone, three times. *)
Example C91_case : (follows libthai_ct exPhlao exPhlao /\ exists l, let ws := repeat exPhlao 3 in
    pronounced libthai_ct (concat ws) None (wordEnds 0 ws) l /\ length l = 64) /\ dictOKo (Some exDict) /\ exists d l, let ws := repeat (letters "กา") 5 in
  StronglySorted lt (wordEnds 0 ws) /\ Forall (fun x => x <= length (concat ws)) (wordEnds 0 ws) /\
  ParseU16F libthai_ct 100 (concat ws) (Some exDict) (wordEnds 0 ws) = Ok d /\ length (edgesF d) = 10 /\ 
  pronounced libthai_ct (concat ws) (Some exDict) (wordEnds 0 ws) l /\ length l = 32.
Proof.
  split; [split; [apply followsb_sound; vm_compute; reflexivity|]; eexists; cbv zeta; split; [eexists 3000, _; split; vm_compute; reflexivity|vm_compute; reflexivity]|].
  split; [exact exDict_ok|]. eexists _, _. cbv zeta. split; [repeat constructor|]. split; [repeat constructor; vm_compute; lia|].
  split; [vm_compute; reflexivity|]. split; [vm_compute; reflexivity|]. split; [eexists 100, _; split; vm_compute; reflexivity|]. vm_compute. reflexivity.
Qed.
