(** ParserListed.v - the facts about the result graph restated for the listed
    pronunciations, and the exact result for two kinds of text. *)
From Coq Require Import String List NArith ZArith Bool Arith Lia Sorted.
From Verif Require Import Spec Base ThUni ThCons Syl OrderProofs Lattice LatticeProofs
  Dag DagProofs PronDag PathProofs GroupProofs ListDagProofs Dict DictProofs Parser Wp
  ParserSpec ParserRules ParserActs ParserLoop ParserFacts ParserInv ParserResult Prop_Syl.
Import ListNotations.
Local Open Scope nat_scope.

(** ** Vocabulary *)
(** Where the syllable after the string [s] starts. *)
Definition startPos (s : SylString) : Z := match s with [] => 0%Z | _ => str_endPos s end.
(** [l] is the list of pronunciations that parsing returns. *)
Definition pronounced ct w dict brk (l : list SylString) : Prop :=
  exists fuel d, ParseU16F ct fuel w dict brk = Ok d /\ DAGSylStrings d 0 = Ok l.
(** Syllable [v] occurs in some pronunciation, spanning [f] to [t]. *)
Definition occurs (l : list SylString) (f t : Z) (v : Syl) : Prop :=
  exists s1 s2, In (s1 ++ v :: s2) l /\ f = startPos s1 /\ t = endPos v.

Section Listed.
Variable ct : CType.
Variable w : list N.
Variable dict : option Dict.
Variable brk : list nat.
Notation n := (length w).
Notation zn := Z.of_nat.
Notation rk := nodeRank.

Lemma path_edge d (G : GInv ct w dict brk n d) p : forall x m, Path d x p m ->
  forall s1 v s2, map edgeVal p = s1 ++ v :: s2 ->
  InE d (match s1 with [] => x | _ => str_endPos s1 end) (endPos v) v.
Proof.
  induction p as [|e p IH]; intros x m P s1 v s2 E; [destruct s1; discriminate|].
  inversion P as [|x' e' p' m' He Hp]; subst. apply out_InE in He.
  pose proof (gi_end _ _ _ _ _ _ G _ _ _ He) as Ee.
  destruct s1 as [|u s1]; cbn [map app] in E; injection E as E1 E2.
  - subst v. rewrite Ee. exact He.
  - specialize (IH _ _ Hp s1 v s2 E2). destruct s1 as [|u2 s1].
    + subst u. cbn [str_endPos last]. change (str_endPos [edgeVal e]) with (endPos (edgeVal e)).
      rewrite Ee. exact IH.
    + rewrite str_endPos_cons by discriminate. exact IH.
Qed.

Lemma listed_occurs d l : GInv ct w dict brk n d -> DAGSylStrings d 0 = Ok l ->
  forall f t v, occurs l f t v <-> InE d f t v.
Proof.
  intros G E f t v. pose proof (res_acyclic ct w dict brk d G) as A. split.
  - intros (s1 & s2 & H & -> & ->).
    destruct (DAGSylStrings_spec d 0 A) as (paths & _ & E' & C). rewrite E in E'. injection E' as ->.
    apply in_map_iff in H. destruct H as (p & Hp & H). apply C in H. destruct H as (_ & m & P & _).
    exact (path_edge d G p _ _ P s1 v s2 Hp).
  - intros H. destruct (res_cover ct w dict brk d G) as (l' & E' & _ & X). rewrite E in E'. injection E' as <-.
    destruct (X f t v H) as (s1 & s2 & H1 & H2 & H3). exists s1, s2. auto.
Qed.

Hypothesis dictWF : dictOKo dict.
Lemma pron_inv l : pronounced ct w dict brk l ->
  exists d, GInv ct w dict brk n d /\ DAGSylStrings d 0 = Ok l.
Proof. intros (fuel & d & E & L). exists d. split; [|exact L]. eapply ParseU16F_inv; eauto. Qed.
Lemma occurs_orig l f t v : pronounced ct w dict brk l -> occurs l f t v -> Orig ct w dict brk f t v.
Proof.
  intros P O. destruct (pron_inv l P) as (d & G & L). apply (listed_occurs d l G L) in O.
  exact (gi_orig _ _ _ _ _ _ G _ _ _ O).
Qed.
Lemma pron_positioned l s : pronounced ct w dict brk l -> In s l -> wellPositioned (zn n) s.
Proof.
  intros P Hs. destruct (pron_inv l P) as (d & G & L).
  destruct (res_cover ct w dict brk d G) as (l' & E' & X & _). rewrite L in E'. injection E' as <-. auto.
Qed.

(** Some syllable of a complete pronunciation lies over each position. *)
Lemma increasing_hit (s : SylString) : forall x k, increasing x (map endPos s) -> s <> [] ->
  (rk x <= 101 * zn k)%Z -> (101 * zn k < rk (str_endPos s))%Z ->
  exists s1 v s2, s = s1 ++ v :: s2 /\
    touches (match s1 with [] => x | _ => str_endPos s1 end) (endPos v) k.
Proof.
  induction s as [|a s IH]; intros x k I N L1 L2; [congruence|]. cbn [map increasing] in I. destruct I as (I1 & I2).
  destruct (Z_lt_le_dec (101 * zn k) (rk (endPos a))) as [L|L].
  - exists [], a, s. split; [reflexivity|]. cbv iota. unfold touches. lia.
  - destruct s as [|b s]; [change (str_endPos [a]) with (endPos a) in L2; lia|]. rewrite str_endPos_cons in L2 by discriminate.
    destruct (IH (endPos a) k I2 ltac:(discriminate) L L2) as (s1 & v & s2 & E & T).
    exists (a :: s1), v, s2. split; [cbn [app]; congruence|].
    destruct s1 as [|c s1]; [exact T|]. rewrite str_endPos_cons by discriminate. exact T.
Qed.

Hypothesis ctOK : ctype_ok ct.

Definition literalSpan (f t : Z) (v : Syl) : Prop :=
  exists b e, f = zn b /\ b < e <= n /\ literal v = text w b e /\
    (t = zn e \/ t = zn (e + 1) /\ nth_error w e = Some 46%N) /\
    ((forall i, b <= i < e -> ~ tokenAt ct w i) \/ e = b + 1 /\ nth_error w b = Some 46%N).

Lemma nth_text b e i : b <= i < e -> nth_error (text w b e) (i - b) = nth_error w i.
Proof.
  intros H. unfold text. rewrite <- (firstn_skipn b w) at 2.
  assert (Lb : length (firstn b w) = b \/ n <= b) by (rewrite firstn_length; lia).
  destruct Lb as [Lb|Lb].
  - rewrite nth_error_app2 by lia. rewrite Lb.
    rewrite <- (firstn_skipn (e - b) (skipn b w)) at 2.
    destruct (lt_dec (i - b) (length (firstn (e - b) (skipn b w)))) as [X|X].
    + rewrite nth_error_app1 by exact X. reflexivity.
    + rewrite firstn_length in X. rewrite skipn_length in X.
      rewrite (proj2 (nth_error_None _ _)); [|rewrite firstn_length, skipn_length; lia].
      symmetry. apply nth_error_None. rewrite firstn_skipn, skipn_length. lia.
  - rewrite firstn_skipn. rewrite (skipn_all2 w Lb), firstn_nil.
    rewrite (proj2 (nth_error_None w i)) by lia. destruct (i - b); reflexivity.
Qed.

Lemma occurs_literal l f t v : pronounced ct w dict brk l -> occurs l f t v ->
  (literal v <> [] -> literalSpan f t v) /\
  (literal v = [] -> wellFormed v /\ forall k, touches f t k -> tokenAt ct w k).
Proof.
  intros P O. pose proof (orig_content ct w dict brk ctOK dictWF f t v (occurs_orig l f t v P O)) as C.
  destruct C as [b e H1 H2 H3 H4 H5|H1 H2].
  - split; [intros _; exists b, e; auto|]. intros E. exfalso. rewrite E in H3.
    symmetry in H3. revert H3. apply text_nonempty. exact H2.
  - split; [|auto]. intros E. exfalso. apply E. apply H1.
Qed.

Lemma verbatim l s k c : pronounced ct w dict brk l -> In s l -> nth_error w k = Some c ->
  ~ tokenAt ct w k ->
  exists s1 v s2 b, s = s1 ++ v :: s2 /\ startPos s1 = zn b /\ b <= k /\
    nth_error (literal v) (k - b) = Some c.
Proof.
  intros P Hs Hk NT. destruct (pron_positioned l s P Hs) as (N & I & E).
  assert (Lk : k < n) by (apply nth_error_Some; congruence).
  destruct (increasing_hit s 0 k I N) as (s1 & v & s2 & Es & T).
  - change (rk 0) with 0%Z. lia.
  - rewrite E, rk_zn. lia.
  - assert (O : occurs l (startPos s1) (endPos v) v) by (exists s1, s2; subst s; auto).
    destruct (occurs_literal l _ _ _ P O) as (A & B).
    destruct (literal v) as [|x lv] eqn:El.
    + exfalso. apply NT. apply (proj2 (B eq_refl)). exact T.
    + destruct (A ltac:(discriminate)) as (b & e & H1 & H2 & H3 & H4 & H5).
      exists s1, v, s2, b. split; [exact Es|]. split; [exact H1|].
      destruct T as (T1 & T2). fold (startPos s1) in T1. rewrite H1, rk_zn in T1.
      assert (k < e).
      { destruct H4 as [H4|(H4 & H6)]; rewrite H4, rk_zn in T2; [lia|].
        destruct (Nat.eq_dec k e) as [->|]; [|lia]. exfalso. apply NT. apply tok_dot. exact H6. }
      split; [lia|]. rewrite H3, nth_text by lia. exact Hk.
Qed.

(** ** Tone *)
Definition shortVowel (v : Syl) : bool := existsb (Z.eqb (vowel v)) shortVowels.
(** A syllable that ends in a stop, or in a short vowel. *)
Definition deadSyl (v : Syl) : bool :=
  match eCons v with
  | EC_NONE => shortVowel v
  | KOK | KOT | KOP => true
  | _ => false
  end.
Lemma shortVowel_ok v : validVowel (vowel v) -> IsShortVowel (vowel v) = shortVowel v.
Proof.
  unfold shortVowel, validVowel, vowelCodes. generalize (vowel v) as x. intros x H. cbn [In] in H.
  repeat (destruct H as [<-|H]; [reflexivity|]). contradiction.
Qed.
Lemma deadSyl_ok v : validVowel (vowel v) ->
  (if ec_eqb EC_NONE (eCons v) then IsShortVowel (vowel v) else IsDeadEndConsClass (eCons v)) = deadSyl v.
Proof.
  intros H. unfold deadSyl. rewrite (shortVowel_ok v H). destruct (eCons v); reflexivity.
Qed.
(** The tone follows from the class of a consonant and a tone mark (or none) of
    the span by the textbook rules; a mark that the textbook does not allow
    there is spoken by its name. *)
Definition toneByRule (b e : nat) (v : Syl) : Prop :=
  exists k m, classIn ct w b e k /\ toneIn w b e m /\
    (Textbook k m (deadSyl v) (shortVowel v) (tone v) \/ unspellable k m /\ tone v = m).

Lemma rule_tone k m a b : k <> IC_INVALID -> m <> T_INVALID ->
  Textbook k m a b (ToneFromWritten k m a b) \/ unspellable k m /\ ToneFromWritten k m a b = m.
Proof.
  intros Hk Hm. destruct (tone_rules_lemma k m a b Hk Hm) as (A & _ & _ & D).
  assert (U : unspellable k m \/ ~ unspellable k m).
  { unfold unspellable. destruct k, m; (left; split; auto; fail) || (right; intros ([H|[H|H]] & [X|X]); discriminate). }
  destruct U as [U|U]; auto.
Qed.

(** A syllable not from the dictionary: everything in it is in the text. *)
Record grounded (f t : Z) (v : Syl) (b e : nat) : Prop := {
  gr_group : inGroup w f t b e;
  gr_sound : soundIn ct w b e (iCons1 v);
  gr_end : endIn w b (e + 1) (eCons v);
  gr_tone : toneByRule b e v
}.

Lemma occurs_grounded l f t v : pronounced ct w dict brk l -> occurs l f t v -> literal v = [] ->
  dictSyl dict v \/ exists b e, e <= b + 20 /\ grounded f t v b e.
Proof.
  intros P O L. pose proof (occurs_orig l f t v P O) as H.
  destruct (occurs_literal l f t v P O) as (_ & W). destruct (W L) as (WF & _).
  assert (VV : validVowel (vowel v)) by apply WF.
  destruct (orig_source ct w dict brk f t v H)
    as [X|X|b e c X1 X0 Xe X2 X3 X4 X5 X6 X7 X8 (k & X9 & X10)|b e X1 X2 X3 X4 X5|b e X1 X2 X3 X4 X5 X6].
  - contradiction.
  - left; exact X.
  - right. exists b, e. split; [lia|]. subst e.
    assert (Ch : charIn w b (b + 1) c) by (exists b; split; [lia|exact X3]).
    constructor; [exact X1|left; exists c; auto|left; exact X8|].
    exists k, SAMAN. split; [left; exists c; auto|]. split; [left; reflexivity|].
    left. unfold deadSyl, shortVowel. rewrite X7, X8, X10. cbn [existsb].
    pose proof (class_valid ct ctOK c k X4 X9) as V.
    destruct k; try congruence; constructor; auto.
  - right. exists b, e. split; [exact X4|]. destruct X5 as (A & B & C & D & c & k & Ch & H1 & H2 & H3 & H4).
    constructor; [exact X1|left; exists c; auto|left; exact C|].
    exists k, SAMAN. split; [left; exists c; auto|]. split; [left; reflexivity|].
    replace (deadSyl v) with (vowel v =? V_A)%Z; [replace (shortVowel v) with (vowel v =? V_A)%Z|].
    + rewrite H4. apply rule_tone; [eapply class_valid; eauto|discriminate].
    + unfold shortVowel. destruct D as [-> | ->]; reflexivity.
    + unfold deadSyl, shortVowel. rewrite C. destruct D as [-> | ->]; reflexivity.
  - right. exists b, e. split; [exact X3|]. constructor; auto.
    destruct X6 as (k & m & A & B & C). exists k, m. split; [exact A|]. split; [exact B|].
    rewrite (deadSyl_ok v VV), (shortVowel_ok v VV) in C. rewrite C.
    apply rule_tone; [eapply classIn_valid; eauto|eapply toneIn_valid; eauto].
Qed.
End Listed.

(** ** Graphs of a single string *)
Lemma single_path g s : forall x p, pwf g -> increasing x (map endPos s) ->
  (forall a b v, InE g a b v -> (nodeRank x <= nodeRank a)%Z -> In (a, b, v) (strEdges x s)) ->
  (forall a b v, In (a, b, v) (strEdges x s) -> Has syl_eqb g a b v) ->
  MaxPath g x p -> p = map (fun v => mkEdge (endPos v) v) s.
Proof.
  induction s as [|v s IH]; intros x p W I In1 In2 (m & P & NO).
  - destruct p as [|e p]; [reflexivity|]. inversion P as [|x' e' p' m' He Hp]; subst. apply out_InE in He.
    destruct (In1 _ _ _ He (Z.le_refl _)).
  - cbn [map increasing] in I. destruct I as (I1 & I2).
    assert (S1 : forall a b u, In (a, b, u) (strEdges (endPos v) s) -> (nodeRank (endPos v) <= nodeRank a)%Z).
    { intros a b u H. apply strEdges_rank with (1 := I2) in H. lia. }
    destruct p as [|e p].
    + inversion P; subst. destruct (In2 m (endPos v) v (or_introl eq_refl)) as (u & Hu & _).
      assert (X : In (mkEdge (endPos v) u) (outEdges g m)) by (apply out_InE; exact Hu).
      unfold NoOut in NO. rewrite NO in X. destruct X.
    + inversion P as [|x' e' p' m' He Hp]; subst. apply out_InE in He.
      destruct (In1 _ _ _ He (Z.le_refl _)) as [E|E].
      2:{ apply S1 in E. lia. }
      injection E as E1 E2. cbn [map]. f_equal; [destruct e; cbn in *; congruence|].
      rewrite <- E1 in Hp. apply (IH (endPos v) p); auto.
      * intros a b u H L. destruct (In1 a b u H ltac:(lia)) as [X|X]; [|exact X].
        injection X as -> _ _. lia.
      * intros a b u H. apply In2. right. exact H.
      * exists m. auto.
Qed.
Lemma nodup_one {A} (l : list A) a : NoDup l -> (forall x, In x l <-> x = a) -> l = [a].
Proof.
  intros N H. destruct l as [|b l]; [destruct (proj2 (H a) eq_refl)|].
  assert (b = a) by (apply H; left; reflexivity). subst b. f_equal.
  destruct l as [|c l]; [reflexivity|]. assert (c = a) by (apply H; right; left; reflexivity). subst c.
  inversion N as [|? ? X _]; subst. exfalso. apply X. left; reflexivity.
Qed.
Lemma single_listed g s N : pwf g -> wellPositioned N s ->
  (forall a b v, InE g a b v -> In (a, b, v) (strEdges 0 s)) ->
  (forall a b v, In (a, b, v) (strEdges 0 s) -> Has syl_eqb g a b v) ->
  DAGSylStrings g 0 = Ok [s].
Proof.
  intros W (Ns & I & E) H1 H2.
  assert (A : Acyclic g).
  { apply rank_acyclic with (rk := nodeRank). intros x y v H. apply H1 in H.
    apply strEdges_rank with (1 := I) in H. lia. }
  destruct (DAGSylStrings_spec g 0 A) as (paths & E1 & E2 & C). rewrite E2.
  set (p0 := map (fun v => mkEdge (endPos v) v) s).
  assert (C' : forall p, In p paths -> p = p0).
  { intros p Hp. apply C in Hp. destruct Hp as (_ & M).
    apply (single_path g s 0 p W I); auto. }
  assert (P : MaxPath g 0 p0).
  { clear C C' E1 E2. exists (str_endPos s).
    assert (X : forall s x, (forall a b v, In (a, b, v) (strEdges x s) -> InE g a b v) ->
      Path g x (map (fun v => mkEdge (endPos v) v) s) (match s with [] => x | _ => str_endPos s end)).
    { clear. induction s as [|v s IH]; intros x H; [constructor|]. cbn [map].
      econstructor; [apply out_InE; apply H; left; reflexivity|]. cbn [target].
      specialize (IH (endPos v) ltac:(intros; apply H; right; assumption)).
      destruct s as [|u s]; [exact IH|]. rewrite str_endPos_cons by discriminate. exact IH. }
    assert (Y : forall s x, increasing x (map endPos s) -> forall a b v b' v',
       In (a, b, v) (strEdges x s) -> In (a, b', v') (strEdges x s) -> v = v').
    { clear. induction s as [|u s IH]; intros x I a b v b' v' H H'; [destruct H|].
      cbn [map increasing] in I. destruct I as (I1 & I2). destruct H as [H|H], H' as [H'|H'].
      - congruence.
      - injection H as <- _ _. apply strEdges_rank with (1 := I2) in H'. lia.
      - injection H' as <- _ _. apply strEdges_rank with (1 := I2) in H. lia.
      - eapply IH; eauto. }
    split.
    - specialize (X s 0%Z). destruct s as [|v s]; [congruence|]. apply X.
      intros a b u H. destruct (H2 a b u H) as (u' & Hu & _). pose proof (H1 _ _ _ Hu) as Hu'.
      rewrite (Y _ _ I _ _ _ _ _ H Hu'). exact Hu.
    - unfold NoOut. destruct (outEdges g (str_endPos s)) as [|e l] eqn:Eo; [reflexivity|exfalso].
      assert (H : In e (outEdges g (str_endPos s))) by (rewrite Eo; left; reflexivity).
      apply out_InE in H. apply H1 in H. pose proof (strEdges_to_end 0 s _ _ _ I H) as Z1.
      apply strEdges_rank with (1 := I) in H. lia. }
  assert (paths = [p0]) as ->.
  { apply nodup_one.
    - eapply enumP_NoDup; [|exact E1]. intros k. apply (out_nodup syl_eqb syl_eqb_refl). exact W.
    - intros x. split; [apply C'|]. intros ->. apply C. split; [|exact P].
      unfold p0. destruct s; [congruence|discriminate]. }
  unfold p0. cbn [map]. rewrite map_map. cbn [edgeVal]. rewrite map_id. reflexivity.
Qed.
Lemma single_union s N : wellPositioned N s ->
  DAGSylStrings (unionDAG syl_eqb dagEmpty (addAll dagEmpty (strEdges 0 s))) 0 = Ok [s].
Proof.
  intros W. apply (single_listed _ s N); [apply punion_wf, dwf_empty|exact W| |].
  - intros a b v H. apply punion_InE in H. destruct H as [[]|H].
    apply addAll_InE in H. destruct H as [[]|H]. exact H.
  - intros a b v H. apply punion_Has. right. apply addAll_Has. right. exists v.
    split; [exact H|apply syl_eqb_refl].
Qed.

(** ** Text without Thai *)
Section NoThai.
Variable ct : CType.
Variable w : list N.
Hypothesis noTok : forall k, ~ tokenAt ct w k.
Hypothesis nonEmpty : w <> [].
Lemma noThai_parse dict brk fuel : 1 <= fuel -> exists d,
  ParseU16F ct fuel w dict brk = Ok d /\ DAGSylStrings d 0 = Ok [[SylLiteral (Z.of_nat (length w)) w]].
Proof.
  intros F. assert (L : 0 < length w) by (destruct w; [congruence|cbn; lia]).
  destruct (SkipNonThai_spec ct w 0 ltac:(lia)) as (A & B & C).
  assert (E : SkipNonThai ct w 0 = length w) by (destruct C as [C|C]; [exact C|destruct (noTok _ C)]).
  unfold ParseU16F. rewrite skipGap_act. unfold gapAct. cbn [sPos sLinked]. rewrite E.
  destruct (Nat.ltb_spec 0 (length w)); [|lia]. rewrite Nat.ltb_irrefl. cbn [bind plain aPos aStop aLinked aEdges sDag].
  destruct fuel as [|fuel]; [lia|]. cbn [poolAdd parseLoop sPos]. rewrite Nat.leb_refl. cbn [sDag].
  destruct fuel; cbn [parseLoop]; eexists; (split; [reflexivity|]);
    rewrite Nat.sub_0_r, firstn_all; cbn [skipn];
    apply (single_union [SylLiteral (Z.of_nat (length w)) w] (Z.of_nat (length w)));
    (split; [discriminate|]); (split; [|reflexivity]);
    cbn [map endPos SylLiteral increasing]; rewrite rk_zn; (split; [change (nodeRank 0) with 0%Z; lia|exact I]).
Qed.
End NoThai.

(** ** Abbreviations *)
(** The text of a list of letter groups, each closed by a full stop. *)
Definition abbrText (gs : list (list N)) : list N := concat (map (fun g => g ++ [46%N]) gs).
(** Sound and class of a consonant, from the letter lists of [Prop_Syl]. *)
Definition letterSound (c : N) : EInitConsSound :=
  match find (fun p => memN c (letters (snd p))) soundGroups with
  | Some p => fst p
  | None => ICS_INVALID
  end.
Definition highLetter (c : N) : bool := memN c (letters "ขฃฉฐถผฝศษสห").
Definition letterName (c : N) (e : nat) : Syl :=
  SylOf (letterSound c) SEC_NONE V_AUU EC_NONE
        (if highLetter c then CHATTAWA else SAMAN) (Z.of_nat e).
(** One group starting at [p]: a letter name each; the last covers the stop. *)
Fixpoint spellGroup (p : nat) (g : list N) : SylString :=
  match g with
  | [] => []
  | [c] => [letterName c (p + 2)]
  | c :: g' => letterName c (p + 1) :: spellGroup (p + 1) g'
  end.
Fixpoint spellOut (p : nat) (gs : list (list N)) : SylString :=
  match gs with
  | [] => []
  | g :: gs' => spellGroup p g ++ spellOut (p + length g + 1) gs'
  end.

Section Abbr.
Variable ct : CType.
Hypothesis ctOK : ctype_ok ct.
Hypothesis dotOK : th_wcisthcons ct 46%N = false.
Notation isCons := (th_wcisthcons ct).
Notation zn := Z.of_nat.

Lemma letterName_tables c : isCons c = true -> exists k,
  InitConsSound c = Ok (letterSound c) /\ InitConsClass c = Ok k /\ ic_eqb HIGH k = highLetter c.
Proof.
  intros Hc. destruct (cons_range _ ctOK c Hc) as (A & B & C & D).
  assert (exists k, k < 46 /\ c = (UTH_KO_KAI + N.of_nat k)%N) as (k & Hk & ->).
  { exists (N.to_nat (c - UTH_KO_KAI)). unfold UTH_KO_KAI, UTH_HO_NOKHUK in *. lia. }
  clear Hc A B.
  do 46 (destruct k as [|k]; [first [(exfalso; apply C; reflexivity)|(exfalso; apply D; reflexivity)|
    (eexists; split; [vm_compute; reflexivity|]; split; [vm_compute; reflexivity|]; vm_compute; reflexivity)]|]). lia.
Qed.

Variable w : list N.
Notation n := (length w).
(** [l] is written in [w] from position [p]. *)
Notation here p l := (skipn p w = l).

Lemma here_nth p c l : here p (c :: l) -> nth_error w p = Some c /\ here (p + 1) l.
Proof.
  revert p. generalize w as u. induction u as [|x u IH]; intros [|p] H; cbn in *; try discriminate.
  - injection H as -> ->. auto.
  - apply IH. exact H.
Qed.
Lemma here_lt p c l : here p (c :: l) -> p < n.
Proof. intros H. apply nth_error_Some. rewrite (proj1 (here_nth _ _ _ H)). discriminate. Qed.
Lemma here_app a : forall p b, here p (a ++ b) -> here (p + length a) b.
Proof.
  induction a as [|c a IH]; intros p b H; cbn [app length] in *; [rewrite Nat.add_0_r; exact H|].
  replace (p + S (length a)) with (p + 1 + length a) by lia. apply IH. exact (proj2 (here_nth _ _ _ H)).
Qed.
Lemma at_here p c l : here p (c :: l) -> at16 w p = Ok c.
Proof. intros H. unfold at16. rewrite (proj1 (here_nth _ _ _ H)). reflexivity. Qed.

Lemma scan_group g : forall k p nc c0 rest, here p (g ++ 46%N :: rest) -> Forall (fun c => isCons c = true) g ->
  nc + length g <= 4 -> length g < k ->
  abbrScan ct k w p nc c0 = Ok (Some (p + length g + 1, nc + length g, 46%N)).
Proof.
  induction g as [|c g IH]; intros k p nc c0 rest H F L K; destruct k as [|k]; cbn [length] in *; try lia;
    cbn [app] in H; cbn [abbrScan]; rewrite (at_here _ _ _ H); cbn [bind].
  - rewrite dotOK. change (46 =? 46)%N with true. cbv iota.
    destruct (Nat.ltb_spec 4 nc); [lia|]. rewrite !Nat.add_0_r, Nat.add_1_r. reflexivity.
  - inversion F as [|? ? F1 F2]; subst. rewrite F1. destruct (Nat.ltb_spec 4 (S nc)); [lia|].
    rewrite (IH k (S p) (S nc) c rest); auto; try lia.
    + replace (S p + length g + 1) with (p + S (length g) + 1) by lia.
      replace (S nc + length g) with (nc + S (length g)) by lia. reflexivity.
    + replace (S p) with (p + 1) by lia. exact (proj2 (here_nth _ _ _ H)).
Qed.

Lemma es_group g : forall fuel p rest, here p (g ++ 46%N :: rest) -> Forall (fun c => isCons c = true) g ->
  g <> [] -> length g <= fuel ->
  abbrEs ct fuel w p (p + length g + 1) = Ok (strEdges (zn p) (spellGroup p g)).
Proof.
  induction g as [|c g IH]; intros fuel p rest H F Ng L; [congruence|].
  destruct fuel as [|fuel]; cbn [length] in *; [lia|]. cbn [app] in H. cbn [abbrEs].
  destruct (Nat.leb_spec (p + S (length g) + 1) p); [lia|].
  rewrite (at_here _ _ _ H). cbn [bind]. inversion F as [|? ? F1 F2]; subst. rewrite F1.
  destruct (Nat.ltb_spec (p + 1) (p + S (length g) + 1)); [|lia].
  pose proof (proj2 (here_nth _ _ _ H)) as H'.
  destruct (letterName_tables c F1) as (k & T1 & T2 & T3).
  destruct g as [|c2 g]; cbn [app] in H'; rewrite (at_here _ _ _ H'); cbn [bind].
  - rewrite dotOK. cbn [negb]. rewrite T1, T2. cbn [bind]. rewrite T3.
    replace (p + S (length (@nil N)) + 1) with (p + 2) by (cbn; lia).
    destruct fuel; cbn [abbrEs]; rewrite Nat.leb_refl; reflexivity.
  - inversion F2 as [|? ? F3 F4]; subst. rewrite F3. cbn [negb]. rewrite T1, T2. cbn [bind]. rewrite T3.
    specialize (IH fuel (p + 1) rest H' F2 ltac:(discriminate) ltac:(lia)).
    replace (p + 1 + length (c2 :: g) + 1) with (p + S (length (c2 :: g)) + 1) in IH by lia.
    rewrite IH. reflexivity.
Qed.

Lemma spellGroup_end p g : g <> [] -> spellGroup p g <> [] /\ str_endPos (spellGroup p g) = zn (p + length g + 1).
Proof.
  revert p. induction g as [|c g IH]; intros p Ng; [congruence|]. cbn [spellGroup length].
  destruct g as [|c2 g].
  - split; [discriminate|]. cbn. f_equal. lia.
  - destruct (IH (p + 1) ltac:(discriminate)) as (A & B). split; [discriminate|].
    rewrite str_endPos_cons by exact A. rewrite B. f_equal. cbn [length]. lia.
Qed.
Lemma strEdges_app a b : forall x, a <> [] -> strEdges x (a ++ b) = strEdges x a ++ strEdges (str_endPos a) b.
Proof.
  induction a as [|v a IH]; intros x N; [congruence|]. cbn [app strEdges].
  destruct a as [|u a]; [reflexivity|]. rewrite IH by discriminate.
  rewrite (str_endPos_cons v (u :: a)) by discriminate. reflexivity.
Qed.
Lemma abbrText_cons g gs : abbrText (g :: gs) = g ++ 46%N :: abbrText gs.
Proof. unfold abbrText. cbn [map concat]. rewrite <- app_assoc. reflexivity. Qed.

Definition abbrGroup (g : list N) : Prop :=
  1 <= length g <= 4 /\ Forall (fun c => isCons c = true) g.

Lemma abbr_loop brk gs : forall p d acc fuel, here p (abbrText gs) -> Forall abbrGroup gs ->
  (p = 0 \/ nth_error w (p - 1) = Some 46%N) -> p <= n -> length gs + 1 <= fuel ->
  parseLoop ct fuel w None brk [mkState p n d false] acc =
  Ok (unionDAG syl_eqb acc (addAll d (strEdges (zn p) (spellOut p gs)))).
Proof.
  induction gs as [|g gs IH]; intros p d acc fuel H F S0 Hp L; (destruct fuel as [|fuel]; [cbn [length] in L; lia|]);
    cbn [parseLoop sPos].
  - assert (n <= p).
    { apply (f_equal (@length N)) in H. rewrite skipn_length in H. cbn in H. lia. }
    destruct (Nat.leb_spec n p); [|lia]. destruct fuel; reflexivity.
  - inversion F as [|? ? (G1 & G2) F']; subst. rewrite abbrText_cons in H.
    assert (Ng : g <> []) by (destruct g; [cbn in G1; lia|discriminate]).
    assert (Hlen : p + length g + 1 <= n).
    { apply (f_equal (@length N)) in H. rewrite skipn_length, app_length in H. cbn [length] in H. lia. }
    destruct (Nat.leb_spec n p); [lia|]. rewrite stepStates_acts. cbn [sPos sStop sLinked].
    assert (A : acts ct w None brk p n false =
                Ok [mkAct (p + length g + 1) n false false (strEdges (zn p) (spellGroup p g))]).
    { unfold acts. destruct (Nat.leb_spec n p); [lia|]. cbn [bind]. unfold abbrAct.
      assert (St : match p with
                   | 0 => Ok true
                   | S i => bind (at16 w i) (fun c => Ok ((c =? 32) || (c =? 46))%N)
                   end = Ok true).
      { destruct p as [|p']; [reflexivity|]. destruct S0 as [S0|S0]; [discriminate|].
        replace (S p' - 1) with p' in S0 by lia. unfold at16. rewrite S0. reflexivity. }
      rewrite St. cbn [bind negb].
      rewrite (scan_group g (n - p) p 0 0%N (abbrText gs)); auto; try lia. cbn [bind].
      change (46 =? 46)%N with true. rewrite andb_false_r.
      replace (p + length g + 1 - p) with (S (length g)) by lia.
      rewrite (es_group g _ p (abbrText gs)); auto; lia. }
    rewrite A. cbn [bind mapM applyAct aStretch aPos aStop aLinked aEdges sDag fold_left poolAdd].
    assert (H2 : here (p + length g + 1) (abbrText gs)).
    { replace (p + length g + 1) with (p + length (g ++ [46%N])) by (rewrite app_length; cbn [length]; lia).
      apply here_app. rewrite <- app_assoc. exact H. }
    rewrite IH; auto; [|right|cbn [length] in L; lia].
    + cbn [spellOut]. destruct (spellGroup_end p g Ng) as (X & Y).
      rewrite strEdges_app by exact X. rewrite Y, addAll_app. reflexivity.
    + replace (p + length g + 1 - 1) with (p + length g) by lia.
      clear - H. revert p H. induction g as [|c g IHg]; intros p H; cbn [app length] in *.
      * rewrite Nat.add_0_r. exact (proj1 (here_nth _ _ _ H)).
      * replace (p + S (length g)) with (p + 1 + length g) by lia. apply IHg.
        exact (proj2 (here_nth _ _ _ H)).
Qed.

Lemma increasing_app a : forall b x, increasing x (map endPos a) -> a <> [] ->
  increasing (str_endPos a) (map endPos b) -> increasing x (map endPos (a ++ b)).
Proof.
  induction a as [|v a IH]; intros b x I1 N I2; [congruence|]. cbn [app map increasing] in *.
  destruct I1 as (A & B). split; [exact A|]. destruct a as [|u a]; [exact I2|].
  apply IH; [exact B|discriminate|]. rewrite str_endPos_cons in I2 by discriminate. exact I2.
Qed.
Lemma spellGroup_inc g : forall p, increasing (zn p) (map endPos (spellGroup p g)).
Proof.
  induction g as [|c g IH]; intros p; [exact I|]. cbn [spellGroup].
  destruct g as [|c2 g].
  - cbn [map increasing letterName endPos SylOf]. rewrite !rk_zn. split; [lia|exact I].
  - cbn [map increasing letterName endPos SylOf]. rewrite !rk_zn. split; [lia|]. apply IH.
Qed.
Lemma spellOut_pos gs : forall p, Forall abbrGroup gs -> gs <> [] ->
  spellOut p gs <> [] /\ increasing (zn p) (map endPos (spellOut p gs)) /\
  str_endPos (spellOut p gs) = zn (p + length (abbrText gs)).
Proof.
  induction gs as [|g gs IH]; intros p F N; [congruence|]. cbn [spellOut].
  inversion F as [|? ? (G1 & G2) F']; subst.
  assert (Ng : g <> []) by (destruct g; [cbn in G1; lia|discriminate]).
  destruct (spellGroup_end p g Ng) as (X & Y). rewrite abbrText_cons, app_length. cbn [length].
  split; [destruct (spellGroup p g); [congruence|discriminate]|].
  destruct gs as [|g2 gs].
  - cbn [spellOut]. rewrite app_nil_r. split; [apply spellGroup_inc|]. rewrite Y. f_equal. cbn. lia.
  - destruct (IH (p + length g + 1) F' ltac:(discriminate)) as (A & B & C). split.
    + apply increasing_app; [apply spellGroup_inc|exact X|]. rewrite Y. exact B.
    + replace (str_endPos (spellGroup p g ++ spellOut (p + length g + 1) (g2 :: gs)))
        with (str_endPos (spellOut (p + length g + 1) (g2 :: gs))).
      * rewrite C. f_equal. lia.
      * clear - A. revert A. generalize (spellOut (p + length g + 1) (g2 :: gs)) as b.
        generalize (spellGroup p g) as a. induction a as [|v a IHa]; intros b A; [reflexivity|].
        cbn [app]. rewrite str_endPos_cons; [apply IHa; exact A|]. destruct a; [exact A|discriminate].
Qed.

Lemma abbr_parse brk gs fuel : w = abbrText gs -> gs <> [] -> Forall abbrGroup gs ->
  Forall (fun x => x = 0 \/ x = n) brk -> length gs + 1 <= fuel -> exists d,
  ParseU16F ct fuel w None brk = Ok d /\ DAGSylStrings d 0 = Ok [spellOut 0 gs].
Proof.
  intros Ew Ng F B L.
  assert (T : forall k, k < n -> tokenAt ct w k).
  { intros k Hk. destruct (nth_error w k) as [c|] eqn:E; [|apply nth_error_None in E; lia].
    exists c. split; [exact E|]. apply nth_error_In in E. rewrite Ew in E. unfold abbrText in E.
    apply in_concat in E. destruct E as (g' & E1 & E2). apply in_map_iff in E1. destruct E1 as (g & <- & E1).
    rewrite Forall_forall in F. destruct (F g E1) as (_ & Fg). rewrite Forall_forall in Fg. unfold tokenChar.
    apply in_app_or in E2. destruct E2 as [E2|[<-|[]]]; [|reflexivity].
    rewrite (Fg c E2), orb_true_r. reflexivity. }
  assert (Hn : 0 < n).
  { rewrite Ew. destruct gs as [|g gs]; [congruence|]. rewrite abbrText_cons, app_length. cbn [length]. lia. }
  unfold ParseU16F. rewrite skipGap_act. unfold gapAct. cbn [sPos sLinked].
  destruct (SkipNonThai_spec ct w 0 ltac:(lia)) as (S1 & S2 & _).
  assert (E0 : SkipNonThai ct w 0 = 0).
  { destruct (Nat.eq_dec (SkipNonThai ct w 0) 0) as [|D]; [assumption|].
    exfalso. apply (S2 0); [lia|]. apply T. exact Hn. }
  rewrite E0, Nat.ltb_irrefl. destruct (Nat.ltb_spec 0 n); [|lia].
  pose proof (NextWordStop_sat ct w brk False) as W.
  assert (BB : Forall (fun b => b <= n) brk).
  { eapply Forall_impl; [|exact B]. cbv beta. intros a. lia. }
  specialize (W (or_intror BB) 0 (T 0 Hn)).
  destruct (NextWordStop ct w 0 brk) as [st| | |]; cbn [Sat] in W; try contradiction.
  assert (st = n).
  { destruct W as [W1 W2 W3 W4 W5]. destruct W5 as [W5|[W5|W5]]; [exact W5| |].
    - destruct W5 as (l1 & l2 & -> & Lb & _). rewrite Forall_forall in B.
      destruct (B st ltac:(apply in_or_app; right; left; reflexivity)); lia.
    - destruct (Nat.eq_dec st n) as [|D]; [assumption|]. exfalso. apply W5. apply T. lia. }
  subst st. cbn [bind poolAdd].
  change (plain _ _) with (mkState 0 n dagEmpty false).
  rewrite (abbr_loop brk gs); auto; [|lia].
  eexists. split; [reflexivity|]. apply (single_union _ (zn n)).
  destruct (spellOut_pos gs 0 F Ng) as (A1 & A2 & A3). split; [exact A1|]. split; [exact A2|].
  rewrite A3, <- Ew. reflexivity.
Qed.
End Abbr.
