(** ParserProduct.v - a text falls into independent parts at a word boundary:
    its pronunciations are the pronunciations of the first part followed by
    those of the second. *)
From Coq Require Import String List NArith ZArith Bool Arith Lia Sorted.
From Verif Require Import Spec Base ThUni ThCons Syl OrderProofs Lattice LatticeProofs
  Dag DagProofs PronDag PathProofs GroupProofs ListDagProofs Dict DictProofs Parser Wp
  ParserSpec ParserRules ParserActs ParserLoop ParserFacts ParserInv ParserPool ParserResult
  ParserListed ParserShift ParserLocal.
Import ListNotations.
Local Open Scope nat_scope.

(** ** Specification vocabulary *)
(** The breaks inside the first [k] characters, and those after them counted
    from there. *)
Definition breaksBefore (k : nat) (brk : list nat) : list nat := filter (fun x => x <=? k) brk.
Definition breaksAfter (k : nat) (brk : list nat) : list nat :=
  map (fun x => x - k) (filter (fun x => k <? x) brk).

(** The word of [b] up to [e] is spelled out letter by letter: one consonant
    alone, or one to four consonants and a full stop. *)
Definition lettersOnly (ct : CType) (b : list N) (e : nat) : Prop :=
  exists g, 1 <= g <= 4 /\
    (forall i, i < g -> exists c, nth_error b i = Some c /\ th_wcisthcons ct c = true) /\
    ((nth_error b g = Some 46%N /\ g < e) \/ (g = 1 /\ e = 1)).

(** A word ends between [a] and [b]. *)
Record wordBoundary (ct : CType) (a b : list N) (brk : list nat) : Prop := {
  wb_a : a <> [];
  wb_b : b <> [];
  wb_thai : tokenAt ct (a ++ b) (length a - 1) \/ tokenAt ct (a ++ b) (length a);
  wb_break : In (length a) brk \/
    ~ (tokenAt ct (a ++ b) (length a - 1) /\ tokenAt ct (a ++ b) (length a));
  wb_dot : nth_error b 0 <> Some 46%N;
  wb_letters : letterStart (a ++ b) (length a) \/
    forall e, wordEnd ct b (breaksAfter (length a) brk) 0 e -> ~ lettersOnly ct b e
}.

(** ** Sorted breaks *)
Lemma sorted_filter (f : nat -> bool) l : StronglySorted lt l -> StronglySorted lt (filter f l).
Proof.
  induction 1 as [|x l S IH F]; cbn [filter]; [constructor|]. destruct (f x); [|exact IH].
  constructor; [exact IH|]. rewrite Forall_forall in *. intros y Hy. apply filter_In in Hy. apply F. tauto.
Qed.
Lemma breaksBefore_sorted k brk : StronglySorted lt brk -> StronglySorted lt (breaksBefore k brk).
Proof. apply sorted_filter. Qed.
Lemma breaksAfter_sorted k brk : StronglySorted lt brk -> StronglySorted lt (breaksAfter k brk).
Proof.
  unfold breaksAfter. induction 1 as [|x l S IH F]; cbn [filter map]; [constructor|].
  destruct (Nat.ltb_spec k x) as [L|L]; [|exact IH]. cbn [map]. constructor; [exact IH|].
  rewrite Forall_forall in *. intros y Hy. apply in_map_iff in Hy. destruct Hy as (z & <- & Hz).
  apply filter_In in Hz. destruct Hz as (Hz & _). apply F in Hz. lia.
Qed.
Lemma breaksBefore_in k brk x : In x (breaksBefore k brk) <-> In x brk /\ x <= k.
Proof. unfold breaksBefore. rewrite filter_In, Nat.leb_le. tauto. Qed.
Lemma breaksAfter_in k brk x : In x (breaksAfter k brk) <-> In (k + x) brk /\ 0 < x.
Proof.
  unfold breaksAfter. rewrite in_map_iff. split.
  - intros (y & <- & Hy). rewrite filter_In, Nat.ltb_lt in Hy.
    replace (k + (y - k)) with y by lia. split; [tauto|lia].
  - intros (H & L). exists (k + x). split; [lia|]. rewrite filter_In, Nat.ltb_lt. split; [exact H|lia].
Qed.

(** The end of a word when the breaks are sorted. *)
Record wordEnd' ct (w : list N) (brk : list nat) (b e : nat) : Prop := {
  we'_lt : b < e;
  we'_le : e <= length w;
  we'_tok : forall k, b <= k < e -> tokenAt ct w k;
  we'_brk : forall x, In x brk -> b < x -> e <= x;
  we'_max : e = length w \/ In e brk \/ ~ tokenAt ct w e
}.
Lemma wordEnd_sorted ct w brk b e : StronglySorted lt brk ->
  wordEnd ct w brk b e <-> wordEnd' ct w brk b e.
Proof.
  intros S. split.
  - intros H. pose proof H as [A B C D E]. constructor; auto.
    + intros x Hx L. eapply wordEnd_break; eauto.
    + destruct E as [E|[E|E]]; auto. apply firstBreak_in in E; tauto.
  - intros [A B C D E]. constructor; auto.
    + intros x Hx. apply firstBreak_in in Hx. apply D; tauto.
    + destruct E as [E|[E|E]]; auto. right; left.
      destruct (sorted_first w brk b e S E A) as (y & Hy & Ly).
      assert (e <= y) by (apply firstBreak_in in Hy; apply D; tauto).
      replace e with y by lia. exact Hy.
Qed.

(** ** Runs without failure *)
Section Runs.
Variable ct : CType.
Variable w : list N.
Variable dict : option Dict.
Variable brk : list nat.
Notation n := (length w).
Notation step := (stepStates ct w dict brk).
Notation Runs := (Run ct w dict brk).
Hypothesis brkOK : Forall (fun b => b <= n) brk.
Hypothesis safe : forall r, Runs r -> sPos r < n -> exists l, step r = Ok l.

Lemma covered_step s : SI ct w brk s -> sPos s < n -> covered ct w dict brk s -> exists l, step s = Ok l.
Proof.
  intros HS Hp ((r & HR & E1 & E2) & _). pose proof (SI_run ct w dict brk r HR) as SR.
  assert (K : forall r, Runs r -> SI ct w brk r -> sPos r = sPos s -> sLinked r = sLinked s ->
    (sStop s <= sPos s <-> sStop r <= sPos r) -> exists l, step s = Ok l).
  { clear r HR E1 E2 SR. intros r HR SR E1 E2 L.
    destruct (safe r HR ltac:(lia)) as (l & El).
    destruct (step_acts ct w dict brk r SR ltac:(lia) l El) as (al & A & _).
    rewrite <- (acts_same ct w dict brk s r HS SR (eq_sym E1) (eq_sym E2) L) in A.
    destruct (acts_step ct w dict brk s al HS A) as (l' & E' & _). exists l'. exact E'. }
  destruct (le_lt_dec (sStop s) (sPos s)) as [A|A], (le_lt_dec (sStop r) (sPos r)) as [B|B].
  - apply (K r); auto. tauto.
  - destruct SR as (_ & _ & _ & Sr2).
    assert (Wst : wordEnd ct w brk (sPos s) (sStop r)) by (rewrite <- E1; apply Sr2; lia).
    eexists. apply (gap_norm ct w dict brk brkOK s HS Hp A _ Wst).
  - pose proof HS as (_ & _ & _ & Ss2).
    assert (Wst : wordEnd ct w brk (sPos r) (sStop s)) by (rewrite E1; apply Ss2; lia).
    pose proof (gap_norm ct w dict brk brkOK r SR ltac:(lia) B _ Wst) as G.
    assert (HR' : Runs (mkState (sPos r) (sStop s) (sDag r) (sLinked r))).
    { eapply Run_step; eauto; [lia|left; reflexivity]. }
    apply (K _ HR' (SI_run ct w dict brk _ HR')); cbn [sPos sStop sLinked]; auto. lia.
  - apply (K r); auto. lia.
Qed.
Lemma loop_defined fuel : forall pool acc, Forall (SI ct w brk) pool -> Forall (covered ct w dict brk) pool ->
  parseLoop ct fuel w dict brk pool acc = NoFuel \/ exists d, parseLoop ct fuel w dict brk pool acc = Ok d.
Proof.
  induction fuel as [|fuel IH]; intros pool acc HP HC; cbn [parseLoop].
  - destruct pool; [right; eauto|left; reflexivity].
  - destruct pool as [|s pool]; [right; eauto|].
    inversion HP as [|? ? Hs Hp]; subst. inversion HC as [|? ? Cs Cp]; subst.
    destruct (Nat.leb_spec n (sPos s)) as [L|L]; [apply IH; assumption|].
    destruct (covered_step s Hs L Cs) as (l & El). rewrite El. cbn [bind]. apply IH.
    + apply poolAdds_Forall; auto using SI_merge.
      rewrite Forall_forall. intros y Hy. eapply SI_step; eauto.
    + apply poolAdds_Forall; auto using covered_merge.
      rewrite Forall_forall. intros y Hy. eapply step_covered; eauto.
Qed.
Lemma parse_defined : exists fuel d, ParseU16F ct fuel w dict brk = Ok d.
Proof.
  exists (enough ct w dict brk).
  pose proof (ParseU16F_terminates ct w dict brk _ (le_n _)) as T.
  pose proof (start_sat ct w dict brk False (or_intror brkOK)) as B.
  unfold ParseU16F in *. fold s0 in *.
  destruct (skipGap ct w brk s0) as [b| | |] eqn:Eb; cbn [bind] in *; try (destruct B; fail).
  pose proof (SI_start ct w dict brk b Eb) as Sb.
  assert (Rb : Runs b) by (exists b; split; [exact Eb|apply RF_here]).
  destruct (loop_defined (enough ct w dict brk) [b] dagEmpty) as [X|X].
  - constructor; [exact Sb|constructor].
  - constructor; [|constructor]. split; [exists b; auto|]. intros f' t' v' H'. exists b. auto.
  - cbn [poolAdd] in T. congruence.
  - exact X.
Qed.
End Runs.

(** A linked state stands on a consonant before its stop. *)
Section Linked.
Variable ct : CType.
Variable w : list N.
Variable dict : option Dict.
Variable brk : list nat.
Hypothesis ctOK : ctype_ok ct.
Notation n := (length w).
Definition linkOK (s : ParseState) : Prop := sLinked s = true ->
  sPos s < sStop s /\ exists c, nth_error w (sPos s) = Some c /\ th_wcisthcons ct c = true.
Lemma linkOK_act s a s' : linkOK s -> ActG ct w dict brk (sPos s) (sStop s) (sLinked s) a ->
  applyAct s a = Ok s' -> linkOK s'.
Proof.
  intros L G E.
  assert (P : sPos s' = aPos a /\ sStop s' = aStop a /\ sLinked s' = aLinked a).
  { unfold applyAct in E. destruct (aStretch a).
    - destruct (stretch (sDag s) (sPos s)); cbn [bind] in E; try discriminate.
      injection E as <-. auto.
    - injection E as <-. auto. }
  destruct P as (P1 & P2 & P3). intros H. rewrite P1, P2 in *. rewrite P3 in H.
  destruct G as [e st es G1 G2 G3 G4 G5|d k strs G1 G2 G3 G4|e es G1 G2 G3 G4 G5|c l em G1 G2 G3 G4 G5 G6 G7|G1 G2 G3 G4];
    cbn [aPos aStop aLinked emAct] in *.
  - destruct (L H) as (X & _). lia.
  - discriminate.
  - discriminate.
  - exact (eg_link _ _ _ _ _ _ G6 H).
  - destruct (L H) as (_ & c & X & Y). rewrite G3 in X. injection X as <-.
    apply (cons_range ct ctOK) in Y. unfold UTH_KO_KAI in Y. lia.
Qed.
Lemma linkOK_run s : Run ct w dict brk s -> linkOK s.
Proof.
  intros (b & A & B). pose proof (SI_start ct w dict brk b A) as Sb.
  assert (Lb : linkOK b).
  { rewrite skipGap_act in A. cbn [s0 sPos sLinked] in A.
    destruct (gapAct ct w brk 0 false) as [a| | |] eqn:Ea; cbn [bind] in A; try discriminate.
    injection A as <-. intros H. cbn [plain sLinked] in H. unfold gapAct in Ea.
    destruct (if _ <? length w then _ else _); cbn [bind] in Ea; try discriminate.
    injection Ea as <-. discriminate. }
  clear A. induction B as [s|s l s1 s2 H1 H2 H3 H4 IH]; [exact Lb|].
  destruct (step_acts ct w dict brk s Sb H1 l H2) as (al & _ & G & F).
  destruct (Forall2_in_r _ _ _ _ F H3) as (a & Ha & Ea). rewrite Forall_forall in G.
  apply IH; [eapply SI_step; eauto|eapply linkOK_act; eauto].
Qed.
End Linked.

(** ** The product *)
Section Product.
Variable ct : CType.
Variables a b : list N.
Variable dict : option Dict.
Variable brk : list nat.
Hypothesis ctOK : ctype_ok ct.
Hypothesis sorted : StronglySorted lt brk.
Notation T := (a ++ b).
Notation ka := (length a).
Notation kb := (length b).
Hypothesis brkOK : Forall (fun x => x <= length T) brk.
Hypothesis WB : wordBoundary ct a b brk.
Notation brkA := (breaksBefore ka brk).
Notation brkB := (breaksAfter ka brk).

Lemma ka_pos : 0 < ka.
Proof. pose proof (wb_a _ _ _ _ WB). destruct a; [congruence|cbn; lia]. Qed.
Lemma kb_pos : 0 < kb.
Proof. pose proof (wb_b _ _ _ _ WB). destruct b; [congruence|cbn; lia]. Qed.
Lemma brkA_ok : Forall (fun x => x <= ka) brkA.
Proof. rewrite Forall_forall. intros y Hy. apply breaksBefore_in in Hy. tauto. Qed.
Lemma brkB_ok : Forall (fun x => x <= kb) brkB.
Proof.
  rewrite Forall_forall in *. intros y Hy. apply breaksAfter_in in Hy.
  destruct Hy as (Hy & _). apply brkOK in Hy. rewrite app_length in Hy. lia.
Qed.
Lemma tok_a i : i < ka -> (tokenAt ct T i <-> tokenAt ct a i).
Proof. intros H. unfold tokenAt. rewrite nth_error_app1 by lia. tauto. Qed.
Lemma tok_b i : tokenAt ct T (ka + i) <-> tokenAt ct b i.
Proof.
  unfold tokenAt. rewrite nth_error_app2 by lia. replace (ka + i - ka) with i by lia. tauto.
Qed.
Lemma tok_lt w i : tokenAt ct w i -> i < length w.
Proof. intros (c & H & _). apply nth_error_Some. congruence. Qed.

Lemma word_a p e : p < ka -> (wordEnd ct T brk p e <-> wordEnd ct a brkA p e).
Proof.
  intros Hp. pose proof ka_pos. pose proof kb_pos.
  rewrite (wordEnd_sorted ct T brk p e sorted),
          (wordEnd_sorted ct a brkA p e (breaksBefore_sorted _ _ sorted)). split.
  - intros [A B C D E]. rewrite app_length in B, E.
    assert (He : e <= ka).
    { destruct (wb_break _ _ _ _ WB) as [I|I]; [apply D; [exact I|lia]|].
      destruct (le_lt_dec e ka) as [|L]; [assumption|exfalso]. apply I. split; apply C; lia. }
    constructor; auto.
    + intros i Hi. apply tok_a; [lia|]. apply C. lia.
    + intros y Hy L. apply breaksBefore_in in Hy. apply D; tauto.
    + destruct E as [E|[E|E]]; [lia| |].
      * right; left. apply breaksBefore_in. auto.
      * destruct (Nat.eq_dec e ka) as [->|]; [auto|]. right; right. intros X. apply E. apply tok_a; [lia|exact X].
  - intros [A B C D E]. constructor; auto.
    + rewrite app_length. lia.
    + intros i Hi. apply tok_a; [lia|]. apply C. lia.
    + intros y Hy L. destruct (le_lt_dec y ka) as [M|M]; [|lia].
      apply D; [apply breaksBefore_in; auto|lia].
    + assert (X : e = ka -> In e brk \/ ~ tokenAt ct T e).
      { intros ->. destruct (wb_break _ _ _ _ WB) as [I|I]; [auto|right].
        intros Y. apply I. split; [|exact Y]. apply tok_a; [lia|]. apply C. lia. }
      destruct E as [E|[E|E]].
      * right. apply X. exact E.
      * apply breaksBefore_in in E. right; left. tauto.
      * destruct (Nat.eq_dec e ka) as [Q|]; [right; apply X; exact Q|].
        right; right. intros Y. apply E. apply tok_a; [lia|exact Y].
Qed.
Lemma word_b p e : wordEnd ct b brkB p e <-> wordEnd ct T brk (ka + p) (ka + e).
Proof.
  rewrite (wordEnd_sorted ct T brk _ _ sorted),
          (wordEnd_sorted ct b brkB p e (breaksAfter_sorted _ _ sorted)). split.
  - intros [A B C D E]. constructor.
    + lia.
    + rewrite app_length. lia.
    + intros i Hi. replace i with (ka + (i - ka)) by lia. apply tok_b. apply C. lia.
    + intros y Hy L. specialize (D (y - ka)). enough (e <= y - ka) by lia. apply D; [|lia].
      apply breaksAfter_in. replace (ka + (y - ka)) with y by lia. split; [exact Hy|lia].
    + destruct E as [E|[E|E]].
      * left. rewrite app_length. lia.
      * right; left. apply breaksAfter_in in E. tauto.
      * right; right. rewrite tok_b. exact E.
  - intros [A B C D E]. rewrite app_length in B, E. constructor.
    + lia.
    + lia.
    + intros i Hi. apply tok_b. apply C. lia.
    + intros y Hy L. apply breaksAfter_in in Hy. destruct Hy as (Hy & _).
      specialize (D (ka + y) Hy). lia.
    + destruct E as [E|[E|E]].
      * left. lia.
      * right; left. apply breaksAfter_in. split; [exact E|lia].
      * right; right. rewrite <- tok_b. exact E.
Qed.
Lemma wordEnd_b' p e : wordEnd ct T brk (ka + p) e -> exists e', e = ka + e' /\ wordEnd ct b brkB p e'.
Proof.
  intros H. exists (e - ka). assert (E : e = ka + (e - ka)) by (destruct H; lia).
  split; [exact E|]. apply word_b. rewrite <- E. exact H.
Qed.

(** ** Gaps *)
Lemma gap_ok w bk pos stop l : Forall (fun x => x <= length w) bk -> pos < length w -> stop <= pos ->
  exists x, gapAct ct w bk pos l = Ok x /\ ActG ct w dict bk pos stop l x.
Proof.
  intros B H1 H2. pose proof (gapAct_sat ct w dict bk False (or_intror B) pos stop l H1 H2) as G.
  destruct (gapAct ct w bk pos l) as [x| | |]; cbn [Sat] in G; try contradiction. eauto.
Qed.
Lemma gap_b pos l : pos < kb ->
  exists x, gapAct ct b brkB pos l = Ok x /\ gapAct ct T brk (ka + pos) l = Ok (mv ka x).
Proof.
  intros Hp. destruct (gap_ok b brkB pos 0 l brkB_ok Hp ltac:(lia)) as (y & Ey & Gy).
  destruct (gap_ok T brk (ka + pos) 0 l brkOK) as (z & Ez & Gz); [rewrite app_length; lia|lia|].
  exists y. split; [exact Ey|]. rewrite Ez. f_equal.
  inversion Gy as [e st es _ A1 A2 A3 A4| | | |]; subst; try (exfalso; lia).
  inversion Gz as [e' st' es' _ B1 B2 B3 B4| | | |]; subst; try (exfalso; lia).
  rewrite ?app_length in B1, B3.
  assert (Ee : e' = ka + e).
  { destruct (Nat.lt_trichotomy e' (ka + e)) as [L|[L|L]]; [exfalso|exact L|exfalso].
    - destruct B3 as [(B3 & _)|(B3 & _)]; [lia|].
      apply (A2 (e' - ka)); [lia|]. apply tok_b. replace (ka + (e' - ka)) with e' by lia. exact B3.
    - destruct A3 as [(A3 & _)|(A3 & _)]; [lia|]. apply (B2 (ka + e)); [lia|]. apply tok_b. exact A3. }
  subst e'.
  assert (Es : st' = ka + st).
  { destruct A3 as [(A3 & ->)|(A3 & A5)].
    - destruct B3 as [(_ & ->)|(B3 & _)]; [lia|]. apply tok_lt in B3. rewrite app_length in B3. lia.
    - destruct B3 as [(B3 & _)|(_ & B5)]; [apply tok_lt in A3; lia|].
      apply word_b in A5. eapply wEnd_fun; eauto. }
  subst st'. unfold mv, mv_act. cbn [aPos aStop aLinked aStretch aEdges]. f_equal.
  destruct A4 as [(A4 & ->)|(-> & ->)], B4 as [(B4 & ->)|(B4 & ->)]; try (exfalso; lia); [|reflexivity].
  cbn [map]. unfold mvEdge. cbn [fst snd]. rewrite !mvNode_nat. f_equal. f_equal.
  unfold mvSyl, SylLiteral, setEndPos. cbn [endPos]. rewrite mvNode_nat.
  replace (ka + e - (ka + pos)) with (e - pos) by lia.
  rewrite skipn_app, skipn_all2 by lia. replace (ka + pos - ka) with pos by lia. reflexivity.
Qed.
(** In the first part: the same, except that a literal that reaches its end
    finds the next word of the whole text. *)
Lemma gap_a pos l : pos < ka ->
  exists x, gapAct ct a brkA pos l = Ok x /\
   ((aPos x < ka /\ aStop x <= ka /\ gapAct ct T brk pos l = Ok x) \/
    (aPos x = ka /\ aStop x = ka /\ exists st, wordEnd ct b brkB 0 st /\
       gapAct ct T brk pos l = Ok (mkAct ka (ka + st) (aLinked x) (aStretch x) (aEdges x)))).
Proof.
  intros Hp. pose proof kb_pos. destruct (gap_ok a brkA pos 0 l brkA_ok Hp ltac:(lia)) as (y & Ey & Gy).
  destruct (gap_ok T brk pos 0 l brkOK) as (z & Ez & Gz); [rewrite app_length; lia|lia|].
  exists y. split; [exact Ey|]. rewrite Ez.
  inversion Gy as [e st es _ A1 A2 A3 A4| | | |]; subst; try (exfalso; lia).
  inversion Gz as [e' st' es' _ B1 B2 B3 B4| | | |]; subst; try (exfalso; lia).
  rewrite ?app_length in B1, B3. cbn [aPos aStop aLinked aStretch aEdges].
  assert (Ee : e' = e).
  { destruct (Nat.lt_trichotomy e' e) as [L|[L|L]]; [exfalso|exact L|exfalso].
    - destruct B3 as [(B3 & _)|(B3 & _)]; [lia|].
      apply (A2 e'); [lia|]. apply tok_a; [lia|exact B3].
    - destruct A3 as [(A3 & _)|(A3 & _)]; [|apply (B2 e); [lia|]; apply tok_a; [apply tok_lt in A3; lia|exact A3]].
      subst e. destruct (wb_thai _ _ _ _ WB) as [X|X]; [apply (B2 (ka - 1)); [lia|exact X]|apply (B2 ka); [lia|exact X]]. }
  subst e'.
  assert (Es : es' = es).
  { destruct A4 as [(A4 & ->)|(-> & ->)], B4 as [(B4 & ->)|(B4 & ->)]; try (exfalso; lia); [|reflexivity].
    rewrite skipn_app. replace (pos - ka) with 0 by lia. cbn [skipn].
    rewrite firstn_app, skipn_length. replace (e - pos - (ka - pos)) with 0 by lia.
    cbn [firstn]. rewrite app_nil_r. reflexivity. }
  subst es'. destruct A3 as [(-> & ->)|(A3 & A5)].
  - right. split; [reflexivity|]. split; [reflexivity|].
    destruct B3 as [(B3 & _)|(B3 & B5)]; [lia|].
    replace ka with (ka + 0) in B5 by lia. destruct (wordEnd_b' 0 st' B5) as (s2 & -> & W).
    exists s2. split; [exact W|reflexivity].
  - left. pose proof (tok_lt _ _ A3). split; [assumption|]. split; [destruct A5; assumption|].
    destruct B3 as [(B3 & _)|(B3 & B5)]; [lia|].
    apply word_a in B5; [|assumption]. rewrite (wEnd_fun _ _ _ _ _ _ A5 B5). reflexivity.
Qed.

(** ** Actions at the start of the second part *)
Lemma acts_b pos stop l r : pos < stop -> stop <= kb -> (pos = 0 -> wordEnd ct b brkB 0 stop) ->
  acts ct b dict brkB pos stop l = Ok r -> acts ct T dict brk (ka + pos) (ka + stop) l = Ok (mv ka r).
Proof.
  intros H1 H2 H3 E.
  assert (ET : a ++ b ++ [] = T) by (rewrite app_nil_r; reflexivity).
  destruct (Nat.eq_dec pos 0) as [->|Np].
  - destruct (wb_letters _ _ _ _ WB) as [LS|NL].
    + pose proof (sim_acts ct a b [] dict brkB brk 0 stop l H1 H2) as S. rewrite ET in S.
      apply S; [|exact E]. right. rewrite ET. exact LS.
    + specialize (NL stop (H3 eq_refl)).
      assert (N0 : abbrAct ct b 0 stop = Ok None).
      { unfold abbrAct. cbn [bind negb]. rewrite Nat.sub_0_r.
        assert (Sc : forall j i nc c, i = nc -> nc <= 4 -> i + j = stop ->
           (forall q, q < i -> exists c, nth_error b q = Some c /\ th_wcisthcons ct c = true) ->
           (0 < i -> nth_error b (i - 1) = Some c) ->
           exists o, abbrScan ct j b i nc c = Ok o /\
             forall e m d, o = Some (e, m, d) -> ((1 <? m) && negb (d =? 46)%N) = true).
        { induction j as [|j IH]; intros i nc c -> L4 Ej Cs Cl; cbn [abbrScan].
          - exists (Some (nc, nc, c)). split; [reflexivity|]. intros e m d X. injection X as <- <- <-.
            rewrite Nat.add_0_r in Ej. subst nc.
            destruct (Cs (stop - 1) ltac:(lia)) as (c' & C1 & C2).
            rewrite (Cl ltac:(lia)) in C1. injection C1 as <-.
            assert ((c =? 46)%N = false) as ->.
            { apply N.eqb_neq. intros ->. apply (cons_range ct ctOK) in C2. unfold UTH_KO_KAI in C2. lia. }
            destruct (Nat.ltb_spec 1 stop) as [|L1]; [reflexivity|exfalso]. apply NL.
            exists 1. split; [lia|]. split; [intros q Hq; apply Cs; lia|]. right. lia.
          - destruct (nth_error b nc) as [c'|] eqn:Ec; [|apply nth_error_None in Ec; lia].
            unfold at16. rewrite Ec. cbn [bind]. destruct (th_wcisthcons ct c') eqn:Is.
            + destruct (Nat.ltb_spec 4 (S nc)); [exists None; split; [reflexivity|discriminate]|].
              apply IH; auto; try lia.
              * intros q Hq. destruct (Nat.eq_dec q nc) as [->|]; [eauto|apply Cs; lia].
              * intros _. replace (S nc - 1) with nc by lia. exact Ec.
            + destruct (N.eqb_spec 46 c') as [Q|Q]; [|exists None; split; [reflexivity|discriminate]].
              subst c'. destruct (Nat.ltb_spec 4 nc); [lia|]. eexists. split; [reflexivity|].
              intros e m d X. injection X as <- <- <-. exfalso.
              destruct nc as [|nc]; [exact (wb_dot _ _ _ _ WB Ec)|].
              apply NL. exists (S nc). split; [lia|]. split; [exact Cs|]. left. split; [exact Ec|lia]. }
        destruct (Sc stop 0 0 0%N) as (o & Eo & Ho); auto; try lia.
        rewrite Eo. cbn [bind]. destruct o as [((e & m) & d)|]; [|reflexivity].
        rewrite (Ho e m d eq_refl). reflexivity. }
      assert (N1 : abbrAct ct T (ka + 0) (ka + stop) = Ok None).
      { destruct (nth_error T (ka - 1)) as [c|] eqn:Ec;
          [|apply nth_error_None in Ec; rewrite app_length in Ec; pose proof ka_pos; lia].
        destruct ((c =? 32)%N || (c =? 46)%N) eqn:Q.
        - pose proof (sim_abbrAct ct a b [] 0 stop) as S. rewrite ET in S.
          apply (S ltac:(right; rewrite ET; right; exists c; split; [exact Ec|];
             apply orb_true_iff in Q; rewrite !N.eqb_eq in Q; exact Q) None N0).
        - unfold abbrAct. destruct (ka + 0) as [|i] eqn:Ei; [pose proof ka_pos; lia|].
          replace i with (ka - 1) by lia. unfold at16. rewrite Ec. cbn [bind]. rewrite Q. reflexivity. }
      unfold acts in *. rewrite N1. rewrite N0 in E. cbn [bind] in *. rewrite sh_leb.
      destruct (Nat.leb_spec stop 0); [lia|].
      assert (EX : forall ex, match dict with Some d => excActs ct b 0 stop d | None => Ok [] end = Ok ex ->
         match dict with Some d => excActs ct T (ka + 0) (ka + stop) d | None => Ok [] end = Ok (map (mv ka) ex)).
      { intros ex. destruct dict as [d|].
        - intros X. pose proof (sim_excActs ct a b [] d 0 stop ltac:(lia) H2) as S. rewrite ET in S. apply S, X.
        - intros X. injection X as <-. reflexivity. }
      destruct (match dict with Some _ => _ | None => _ end) as [ex| | |]; cbn [bind] in *; try discriminate.
      rewrite (EX ex eq_refl). cbn [bind]. destruct ex as [|y ex]; cbn [map].
      * pose proof (sim_ruleActs ct a b [] 0 stop l H1 H2) as S. rewrite ET in S. apply S, E.
      * injection E as <-. reflexivity.
  - pose proof (sim_acts ct a b [] dict brkB brk pos stop l H1 H2) as S. rewrite ET in S.
    apply S; [left; lia|exact E].
Qed.
Lemma mvAct_0 x : mv 0 x = x.
Proof.
  destruct x as [p s l q es]. unfold mv, mv_act. cbn [aPos aStop aLinked aStretch aEdges Nat.add]. f_equal.
  transitivity (map (fun e : Edge => e) es); [|apply map_id]. apply map_ext. intros ((f & t) & v).
  unfold mvEdge. cbn [fst snd]. rewrite !mvNode_0, mvSyl_0. reflexivity.
Qed.
Lemma acts_a pos stop l r : pos < stop -> stop <= ka ->
  acts ct a dict brkA pos stop l = Ok r -> acts ct T dict brk pos stop l = Ok r.
Proof.
  intros H1 H2 E. pose proof (sim_acts ct [] a b dict brkA brk pos stop l H1 H2) as S. cbn [app length Nat.add] in S.
  assert (SS : sameStart [] a b pos) by (right; left; reflexivity).
  rewrite (S SS r E). f_equal. unfold mv, mv_list.
  transitivity (map (fun x : Act => x) r); [|apply map_id]. apply map_ext. apply mvAct_0.
Qed.

(** ** Derivations of the whole text and of its parts *)
Notation RunA := (Run ct a dict brkA).
Notation RunB := (Run ct b dict brkB).
Notation RunT := (Run ct T dict brk).
Hypothesis safeA : forall r, RunA r -> sPos r < ka -> exists l, stepStates ct a dict brkA r = Ok l.
Hypothesis safeB : forall r, RunB r -> sPos r < kb -> exists l, stepStates ct b dict brkB r = Ok l.

(** The state of the whole text that has finished the first part as [r1] and
    stands in the second like [rb]. *)
Record Glued (r1 rb rT : ParseState) : Prop := {
  gl_a : RunA r1; gl_done : sPos r1 = ka; gl_b : RunB rb;
  gl_pos : sPos rT = ka + sPos rb; gl_stop : sStop rT = ka + sStop rb;
  gl_link : sLinked rT = sLinked rb;
  gl_edges : forall f t v, PHas (sDag rT) f t v <->
    PHas (sDag r1) f t v \/
    exists f0 t0, f = mvNode ka f0 /\ t = mvNode ka t0 /\ PHas (sDag rb) f0 t0 v
}.


Lemma skipGap_b : exists x, gapAct ct b brkB 0 false = Ok x /\
  gapAct ct T brk ka false = Ok (mv ka x) /\ skipGap ct b brkB s0 = Ok (plain s0 x).
Proof.
  destruct (gap_b 0 false kb_pos) as (x & E1 & E2). exists x. split; [exact E1|].
  rewrite Nat.add_0_r in E2. split; [exact E2|]. rewrite skipGap_act. cbn [s0 sPos sLinked]. rewrite E1. reflexivity.
Qed.
Lemma done_unlinked r : RunA r -> sPos r = ka -> sLinked r = false.
Proof.
  intros R P. destruct (sLinked r) eqn:E; [|reflexivity].
  destruct (linkOK_run ct a dict brkA ctOK r R E) as (L & _).
  destruct (SI_run ct a dict brkA r R) as (_ & _ & S & _). lia.
Qed.
Lemma syl_eqb_mv k v v' : syl_eqb (mvSyl k v) v' = syl_eqb v v'.
Proof.
  apply eq_true_iff_eq. rewrite !syl_eqb_spoken. unfold mvSyl. rewrite ParserLoop.spoken_setEndPos. tauto.
Qed.
Lemma add_mv d1 d2 dT es : (forall f t v, PHas dT f t v <-> PHas d1 f t v \/
    exists f0 t0, f = mvNode ka f0 /\ t = mvNode ka t0 /\ PHas d2 f0 t0 v) ->
  forall f t v, PHas (addAll dT (map (mvEdge ka) es)) f t v <-> PHas d1 f t v \/
    exists f0 t0, f = mvNode ka f0 /\ t = mvNode ka t0 /\ PHas (addAll d2 es) f0 t0 v.
Proof.
  intros H f t v. rewrite addAll_Has, H. split.
  - intros [[X|(f0 & t0 & -> & -> & X)]|(v0 & X & E)]; [auto| |]; right.
    + exists f0, t0. rewrite addAll_Has. auto.
    + apply in_map_iff in X. destruct X as (((f0 & t0) & v1) & X & Y).
      unfold mvEdge in X. cbn [fst snd] in X. injection X as <- <- <-.
      exists f0, t0. split; [reflexivity|]. split; [reflexivity|]. rewrite addAll_Has. right.
      exists v1. split; [exact Y|]. rewrite syl_eqb_mv in E. exact E.
  - intros [X|(f0 & t0 & -> & -> & X)]; [auto|]. rewrite addAll_Has in X. destruct X as [X|(v0 & X & E)].
    + left; right. eauto.
    + right. exists (mvSyl ka v0). split; [|rewrite syl_eqb_mv; exact E].
      apply in_map_iff. exists (f0, t0, v0). auto.
Qed.

(** Every complete derivation of the first part meets the start of the second. *)
Lemma glue_gap r1 : RunA r1 -> sPos r1 = ka -> forall x, gapAct ct b brkB 0 false = Ok x ->
  Glued r1 (plain s0 x) (plain r1 (mv ka x)).
Proof.
  intros R P x E.
  assert (RB : RunB (plain s0 x)).
  { exists (plain s0 x). split; [|apply RF_here]. rewrite skipGap_act. cbn [s0 sPos sLinked]. rewrite E. reflexivity. }
  constructor; auto; try reflexivity.
  cbn [plain sDag]. apply add_mv. intros f t v. split; [auto|].
  intros [H|(f0 & t0 & _ & _ & (v0 & [] & _))]. exact H.
Qed.
Lemma glue_stop r1 st : RunA r1 -> sPos r1 = ka -> wordEnd ct b brkB 0 st ->
  exists rb, RunB rb /\ Glued r1 rb (mkState ka (ka + st) (sDag r1) false) /\
    skipGap ct b brkB s0 = Ok rb.
Proof.
  intros R P W. destruct skipGap_b as (x & E1 & _ & E3).
  pose proof (glue_gap r1 R P x E1) as G.
  pose proof (gapAct_sat ct b dict brkB False (or_intror brkB_ok) 0 0 false kb_pos (le_n 0)) as S.
  rewrite E1 in S. cbn [Sat] in S.
  inversion S as [e st' es A0 A1 A2 A3 A4| | | |]; subst; try (exfalso; lia).
  assert (e = 0).
  { destruct (Nat.eq_dec e 0) as [|D]; [assumption|exfalso].
    apply (A2 0); [lia|]. apply (we_tok _ _ _ _ _ W). destruct W; lia. }
  subst e. destruct A4 as [(X & _)|(_ & ->)]; [lia|].
  destruct A3 as [(X & _)|(_ & W')]; [pose proof kb_pos; lia|].
  rewrite <- (wEnd_fun _ _ _ _ _ _ W W') in *. clear W' S.
  exists (plain s0 (mkAct 0 st false false [])). split; [apply G|]. split; [|exact E3].
  replace (mkState ka (ka + st) (sDag r1) false) with (plain r1 (mv ka (mkAct 0 st false false []))); [exact G|].
  unfold plain, mv, mv_act. cbn. rewrite Nat.add_0_r. reflexivity.
Qed.
Lemma glue_act r1 rb rT x rb' : Glued r1 rb rT -> sPos rb < kb ->
  ActG ct b dict brkB (sPos rb) (sStop rb) (sLinked rb) x ->
  (forall f t v, PHas (sDag r1) f t v -> (nodeRank t <= nodeRank (Z.of_nat ka))%Z) ->
  SI ct T brk rT -> RunB rb' ->
  applyAct rb x = Ok rb' -> exists rT', applyAct rT (mv ka x) = Ok rT' /\ Glued r1 rb' rT'.
Proof.
  intros [G1 G2 G3 G4 G5 G6 G7] Hp GA Rk (WT & _) RB' E.
  pose proof (SI_run ct b dict brkB rb G3) as (Wb & _).
  unfold applyAct in *. change (aStretch (mv ka x)) with (aStretch x).
  destruct (aStretch x) eqn:Sx.
  - inversion GA; subst x; cbn [aStretch emAct] in Sx; try discriminate.
    assert (P0 : 0 < sPos rb).
    { destruct (sPos rb); [|lia]. exfalso. apply (wb_dot _ _ _ _ WB). assumption. }
    destruct (stretch_spec (sDag rb) (sPos rb) Wb) as (db & Eb & _ & _ & Hb).
    destruct (stretch_spec (sDag rT) (sPos rT) WT) as (dT & ET & _ & _ & HT).
    rewrite ET. rewrite Eb in E. cbn [bind] in *. injection E as <-.
    eexists. split; [reflexivity|]. constructor; auto; cbn [sPos sStop sLinked sDag aPos aStop aLinked mv mv_act]; auto.
    intros f t v. rewrite HT, !G7, G4. split.
    + intros [([H'|(f0 & t0 & -> & -> & H')] & Ne)|(-> & [H'|(f0 & t0 & -> & Et & H')])]; auto.
      * right. exists f0, t0. split; [reflexivity|]. split; [reflexivity|]. apply Hb. left. split; [exact H'|].
        intros ->. apply Ne. apply mvNode_nat.
      * exfalso. apply Rk in H'. rewrite !rk_nat in H'. lia.
      * right. exists f0, (Z.of_nat (sPos rb + 1)). split; [reflexivity|].
        split; [rewrite mvNode_nat; f_equal; lia|]. apply Hb. right. split; [reflexivity|].
        rewrite <- mvNode_nat in Et. apply mvNode_inj in Et. subst t0. exact H'.
    + intros [H'|(f0 & t0 & -> & -> & H')].
      * left. split; [auto|]. intros ->. apply Rk in H'. rewrite !rk_nat in H'. lia.
      * apply Hb in H'. destruct H' as [(H' & Ne)|(-> & H')].
        -- left. split; [right; eauto|]. rewrite <- mvNode_nat. intros X. apply mvNode_inj in X. auto.
        -- right. split; [rewrite mvNode_nat; f_equal; lia|]. right. exists f0, (Z.of_nat (sPos rb)).
           rewrite mvNode_nat. auto.
  - injection E as <-. eexists. split; [reflexivity|].
    constructor; auto; cbn [sPos sStop sLinked sDag aPos aStop aLinked aEdges mv mv_act]; auto.
    apply add_mv. exact G7.
Qed.

Hypothesis dictWF : dictOKo dict.
Lemma run_SInv w bk r : Run ct w dict bk r -> SInv ct w dict bk r.
Proof.
  intros (bb & A & B). pose proof (SI_start ct w dict bk bb A) as Sb.
  assert (S : SInv ct w dict bk bb) by (apply start_inv; auto). clear A.
  induction B as [s|s l s1 s2 H1 H2 H3 H4 IH]; [exact S|].
  destruct (step_acts ct w dict bk s Sb H1 l H2) as (al & _ & G & F).
  destruct (Forall2_in_r _ _ _ _ F H3) as (x & Hx & Ex). rewrite Forall_forall in G.
  apply IH; [eapply SI_step; eauto|]. eapply SInv_step; eauto.
Qed.
Lemma run_tgt w bk r f t v : Run ct w dict bk r -> PHas (sDag r) f t v ->
  (nodeRank t <= nodeRank (Z.of_nat (sPos r)))%Z.
Proof.
  intros R (v' & H & _). exact (proj2 (gi_rank _ _ _ _ _ _ (si_g _ _ _ _ _ (run_SInv w bk r R)) _ _ _ H)).
Qed.

(** Steps of the whole text inside the second part. *)
Lemma glue_acts r1 rb rT : Glued r1 rb rT -> sPos rb < kb ->
  exists al l, acts ct b dict brkB (sPos rb) (sStop rb) (sLinked rb) = Ok al /\
    stepStates ct b dict brkB rb = Ok l /\
    acts ct T dict brk (sPos rT) (sStop rT) (sLinked rT) = Ok (mv ka al).
Proof.
  intros [G1 G2 G3 G4 G5 G6 G7] Hp. destruct (safeB rb G3 Hp) as (l & El).
  pose proof (SI_run ct b dict brkB rb G3) as Sb. pose proof Sb as (_ & _ & S1 & S2).
  destruct (step_acts ct b dict brkB rb Sb Hp l El) as (al & A & _). exists al, l.
  split; [exact A|]. split; [exact El|]. rewrite G4, G5, G6.
  destruct (le_lt_dec (sStop rb) (sPos rb)) as [L|L].
  - unfold acts in *. rewrite sh_leb. destruct (Nat.leb_spec (sStop rb) (sPos rb)); [|lia].
    destruct (gap_b (sPos rb) (sLinked rb) Hp) as (x & E1 & E2). rewrite E1 in A. rewrite E2.
    cbn [bind] in *. injection A as <-. reflexivity.
  - apply acts_b; auto. intros E. rewrite <- E. apply S2. lia.
Qed.
Lemma glue_step r1 rb rT : RunT rT -> Glued r1 rb rT -> sPos rb < kb ->
  exists l, stepStates ct T dict brk rT = Ok l /\
   (forall rT', In rT' l -> exists rb', Glued r1 rb' rT') /\
   (forall lb rb', stepStates ct b dict brkB rb = Ok lb -> In rb' lb -> exists rT', In rT' l /\ Glued r1 rb' rT').
Proof.
  intros RT G Hp. destruct (glue_acts r1 rb rT G Hp) as (al & lb & A & El & AT).
  pose proof (SI_run ct T dict brk rT RT) as ST. pose proof (gl_b _ _ _ G) as RB.
  pose proof (SI_run ct b dict brkB rb RB) as Sb.
  destruct (acts_step ct T dict brk rT _ ST AT) as (l & E & F). exists l. split; [exact E|].
  destruct (step_acts ct b dict brkB rb Sb Hp lb El) as (al' & A' & GA & F').
  rewrite A in A'. injection A' as <-. rewrite Forall_forall in GA.
  assert (Rk : forall f t v, PHas (sDag r1) f t v -> (nodeRank t <= nodeRank (Z.of_nat ka))%Z).
  { intros f t v H. rewrite <- (gl_done _ _ _ G). eapply run_tgt; eauto using gl_a. }
  split.
  - intros rT' Hin. destruct (Forall2_in_r _ _ _ _ F Hin) as (y & Hy & Ey).
    apply in_map_iff in Hy. destruct Hy as (x & <- & Hx).
    destruct (Forall2_in_l _ _ _ _ F' Hx) as (rb' & Hb & Eb).
    destruct (glue_act r1 rb rT x rb' G Hp (GA x Hx) Rk ST) as (z & Ez & Gz); auto.
    { eapply Run_step; eauto. }
    rewrite Ey in Ez. injection Ez as <-. eauto.
  - intros lb' rb' E' Hin. rewrite El in E'. injection E' as <-.
    destruct (Forall2_in_r _ _ _ _ F' Hin) as (x & Hx & Ex).
    destruct (glue_act r1 rb rT x rb' G Hp (GA x Hx) Rk ST) as (z & Ez & Gz); auto.
    { eapply Run_step; eauto. }
    destruct (Forall2_in_l _ _ _ _ F (in_map (mv ka) al x Hx)) as (y & Hy & Ey).
    rewrite Ez in Ey. injection Ey as <-. eauto.
Qed.

(** Steps of the whole text inside the first part. *)
Lemma SI_aT r : SI ct a brkA r -> sPos r < ka -> SI ct T brk r.
Proof.
  intros (W & P & S1 & S2) L. split; [exact W|]. rewrite app_length. split; [lia|].
  split; [rewrite app_length; lia|]. intros H. apply word_a; auto.
Qed.
Lemma first_step r : RunA r -> sPos r < ka ->
  exists la l, stepStates ct a dict brkA r = Ok la /\ stepStates ct T dict brk r = Ok l /\
   (l = la \/ exists r1 st, la = [r1] /\ sPos r1 = ka /\ wordEnd ct b brkB 0 st /\
      l = [mkState ka (ka + st) (sDag r1) (sLinked r1)]).
Proof.
  intros R L. destruct (safeA r R L) as (la & El). exists la.
  pose proof (SI_run ct a dict brkA r R) as Sa. pose proof Sa as (_ & _ & S1 & S2).
  destruct (step_acts ct a dict brkA r Sa L la El) as (al & A & _).
  destruct (le_lt_dec (sStop r) (sPos r)) as [B|B].
  - pose proof El as El'. rewrite stepStates_acts in El'. unfold acts in El'.
    assert (ET : stepStates ct T dict brk r = bind (gapAct ct T brk (sPos r) (sLinked r)) (fun y => mapM (applyAct r) [y])).
    { rewrite stepStates_acts. unfold acts. destruct (Nat.leb_spec (sStop r) (sPos r)); [|lia].
      destruct (gapAct ct T brk (sPos r) (sLinked r)); reflexivity. }
    destruct (Nat.leb_spec (sStop r) (sPos r)); [|lia].
    destruct (gap_a (sPos r) (sLinked r) L) as (x & E1 & X). rewrite E1 in El'. cbn [bind] in El'.
    assert (Sx : aStretch x = false) by (eapply gapAct_plain; exact E1).
    destruct X as [(X1 & X2 & X3)|(X1 & X2 & st & X3 & X4)].
    + rewrite X3 in ET. exists la. split; [exact El|]. split; [rewrite ET; exact El'|auto].
    + rewrite X4 in ET. cbn [bind mapM] in *. unfold applyAct in *. cbn [aStretch aPos aStop aLinked aEdges] in *.
      rewrite Sx in *. cbn [bind] in *. injection El' as <-. eexists. split; [exact El|].
      split; [exact ET|]. right. do 2 eexists. split; [reflexivity|]. cbn [sPos sDag sLinked].
      split; [exact X1|]. split; [exact X3|]. reflexivity.
  - pose proof (acts_a (sPos r) (sStop r) (sLinked r) al B S1 A) as AT.
    exists la. split; [exact El|]. split; [|auto].
    rewrite stepStates_acts in *. rewrite AT. rewrite A in El. exact El.
Qed.
Lemma first_run r : RunA r -> RunT r \/ sPos r = ka /\ exists st, wordEnd ct b brkB 0 st /\
  RunT (mkState ka (ka + st) (sDag r) false).
Proof.
  intros (r0 & A & B).
  assert (R0 : RunA r0) by (exists r0; split; [exact A|apply RF_here]).
  assert (K : RunT r0 \/ sPos r0 = ka /\ exists st, wordEnd ct b brkB 0 st /\ RunT (mkState ka (ka + st) (sDag r0) false)).
  { rewrite skipGap_act in A. cbn [s0 sPos sLinked] in A.
    destruct (gap_a 0 false ka_pos) as (x & E1 & X). rewrite E1 in A. cbn [bind] in A. injection A as <-.
    assert (GT : forall y, gapAct ct T brk 0 false = Ok y -> RunT (plain s0 y)).
    { intros y Ey. exists (plain s0 y). split; [|apply RF_here].
      rewrite skipGap_act. cbn [s0 sPos sLinked]. rewrite Ey. reflexivity. }
    destruct X as [(X1 & X2 & X3)|(X1 & X2 & st & X3 & X4)].
    - left. apply GT. exact X3.
    - right. split; [exact X1|]. exists st. split; [exact X3|]. apply GT in X4.
      unfold plain in X4 at 1. cbn [aPos aStop aEdges aLinked] in X4.
      assert (aLinked x = false) as E.
      { unfold gapAct in E1. destruct (if _ <? length a then _ else _); cbn [bind] in E1; try discriminate.
        injection E1 as <-. reflexivity. }
      rewrite E in X4. exact X4. }
  clear A. induction B as [s|s l s1 s2 H1 H2 H3 H4 IH]; [exact K|].
  assert (R1 : RunA s1) by (eapply Run_step; eauto).
  apply IH; [exact R1|].
  destruct K as [K|(K & _)]; [|lia].
  destruct (first_step s R0 H1) as (la & lT & E1 & E2 & X). rewrite H2 in E1. injection E1 as <-.
  assert (LT : sPos s < length T) by (rewrite app_length; lia).
  destruct X as [->|(r1 & st & -> & P & W & ->)].
  - left. eapply Run_step; eauto.
  - destruct H3 as [<-|[]]. right. split; [exact P|]. exists st. split; [exact W|].
    rewrite <- (done_unlinked r1 R1 P). eapply Run_step; eauto. left. reflexivity.
Qed.
Lemma classify rT : RunT rT -> RunA rT \/ exists r1 rb, Glued r1 rb rT.
Proof.
  intros (r0 & A & B).
  assert (R0 : RunT r0) by (exists r0; split; [exact A|apply RF_here]).
  assert (K : RunA r0 \/ exists r1 rb, Glued r1 rb r0).
  { rewrite skipGap_act in A. cbn [s0 sPos sLinked] in A.
    destruct (gap_a 0 false ka_pos) as (x & E1 & X).
    assert (RA : RunA (plain s0 x)).
    { exists (plain s0 x). split; [|apply RF_here].
      rewrite skipGap_act. cbn [s0 sPos sLinked]. rewrite E1. reflexivity. }
    destruct X as [(X1 & X2 & X3)|(X1 & X2 & st & X3 & X4)].
    - rewrite X3 in A. cbn [bind] in A. injection A as <-. left. exact RA.
    - rewrite X4 in A. cbn [bind] in A. injection A as <-. right.
      assert (P : sPos (plain s0 x) = ka) by exact X1.
      destruct (glue_stop _ st RA P X3) as (rb & _ & G & _). exists (plain s0 x), rb.
      pose proof (done_unlinked _ RA P) as U. cbn [plain sLinked] in U.
      unfold plain at 2. cbn [aPos aStop aEdges aLinked]. rewrite U. exact G. }
  clear A. induction B as [s|s l s1 s2 H1 H2 H3 H4 IH]; [exact K|].
  apply IH; [eapply Run_step; eauto|].
  destruct K as [K|(r1 & rb & G)].
  - pose proof (SI_run ct a dict brkA s K) as (_ & P & S & _).
    destruct (Nat.eq_dec (sPos s) ka) as [E|E].
    + destruct skipGap_b as (x & E1 & E2 & E3).
      right. exists s, (plain s0 x). rewrite stepStates_acts in H2. unfold acts in H2.
      destruct (Nat.leb_spec (sStop s) (sPos s)); [|lia].
      rewrite E, (done_unlinked s K E), E2 in H2. cbn [bind mapM] in H2. unfold applyAct in H2.
      change (aStretch (mv ka x)) with (aStretch x) in H2.
      rewrite (gapAct_plain _ _ _ _ _ _ E1) in H2. cbn [bind] in H2. injection H2 as <-.
      destruct H3 as [<-|[]]. exact (glue_gap s K E x E1).
    + destruct (first_step s K ltac:(lia)) as (la & lT & F1 & F2 & X). rewrite H2 in F2. injection F2 as <-.
      destruct X as [->|(r1 & st & -> & P' & W & ->)].
      * left. eapply Run_step; eauto. lia.
      * destruct H3 as [<-|[]].
        assert (R1 : RunA r1) by (eapply Run_step; eauto; [lia|left; reflexivity]).
        destruct (glue_stop r1 st R1 P' W) as (rb & _ & G & _). right. exists r1, rb.
        rewrite (done_unlinked r1 R1 P'). exact G.
  - right. destruct (glue_step r1 rb s R0 G) as (lT & E & C & _).
    + rewrite app_length in H1. pose proof (gl_pos _ _ _ G). lia.
    + rewrite H2 in E. injection E as <-. destruct (C s1 H3) as (rb' & G'). eauto.
Qed.
Lemma combine r1 rb : RunA r1 -> sPos r1 = ka -> RunB rb -> exists rT, RunT rT /\ Glued r1 rb rT.
Proof.
  intros R P (rb0 & A & B).
  assert (RB0 : RunB rb0) by (exists rb0; split; [exact A|apply RF_here]).
  assert (K : exists rT, RunT rT /\ Glued r1 rb0 rT).
  { destruct (first_run r1 R) as [RT|(_ & st & W & RT)].
    - destruct skipGap_b as (x & E1 & E2 & E3). rewrite A in E3. injection E3 as ->.
      exists (plain r1 (mv ka x)). split; [|exact (glue_gap r1 R P x E1)].
      pose proof (SI_run ct a dict brkA r1 R) as (_ & _ & S & _).
      apply (Run_step ct T dict brk r1 [plain r1 (mv ka x)]); auto.
      + rewrite app_length. pose proof kb_pos. lia.
      + rewrite stepStates_acts. unfold acts. destruct (Nat.leb_spec (sStop r1) (sPos r1)); [|lia].
        rewrite P, (done_unlinked r1 R P), E2. cbn [bind mapM]. unfold applyAct.
        change (aStretch (mv ka x)) with (aStretch x). rewrite (gapAct_plain _ _ _ _ _ _ E1). reflexivity.
      + left. reflexivity.
    - destruct (glue_stop r1 st R P W) as (rb' & _ & G & E). rewrite A in E. injection E as <-. eauto. }
  clear A. induction B as [s|s l s1 s2 H1 H2 H3 H4 IH]; [exact K|].
  apply IH; [eapply Run_step; eauto|]. destruct K as (rT & RT & G).
  destruct (glue_step r1 s rT RT G H1) as (lT & E & _ & C).
  destruct (C l s1 H2 H3) as (rT' & Hin & G'). exists rT'. split; [|exact G'].
  eapply Run_step; eauto. rewrite app_length. pose proof (gl_pos _ _ _ G). lia.
Qed.
Lemma whole_safe r : RunT r -> sPos r < length T -> exists l, stepStates ct T dict brk r = Ok l.
Proof.
  intros R L. rewrite app_length in L. destruct (classify r R) as [RA|(r1 & rb & G)].
  - pose proof (SI_run ct a dict brkA r RA) as (_ & P & S & _).
    destruct (Nat.eq_dec (sPos r) ka) as [E|E].
    + rewrite stepStates_acts. unfold acts. destruct (Nat.leb_spec (sStop r) (sPos r)); [|lia].
      destruct skipGap_b as (x & E1 & E2 & E3).
      rewrite E, (done_unlinked r RA E), E2. cbn [bind mapM]. unfold applyAct.
      change (aStretch (mv ka x)) with (aStretch x). rewrite (gapAct_plain _ _ _ _ _ _ E1).
      eexists. reflexivity.
    + destruct (first_step r RA ltac:(lia)) as (la & lT & _ & F2 & _). eauto.
  - destruct (glue_step r1 rb r R G) as (lT & E & _); [pose proof (gl_pos _ _ _ G); lia|eauto].
Qed.
End Product.

(** ** Lists of pronunciations as chains of edges *)
Fixpoint Chain (d : PronunDAG) (x : Z) (s : SylString) (y : Z) : Prop :=
  match s with
  | [] => x = y
  | v :: s => InE d x (endPos v) v /\ Chain d (endPos v) s y
  end.
Lemma Chain_app d s1 : forall x m s2 y, Chain d x s1 m -> Chain d m s2 y -> Chain d x (s1 ++ s2) y.
Proof.
  induction s1 as [|v s1 IH]; intros x m s2 y; cbn [Chain app]; [intros ->; auto|].
  intros (A & B) C. split; [exact A|]. eapply IH; eauto.
Qed.
Lemma listed_chain ct w dict brk d l : GInv ct w dict brk (length w) d -> DAGSylStrings d 0 = Ok l ->
  forall s, In s l <-> s <> [] /\ Chain d 0 s (Z.of_nat (length w)).
Proof.
  intros G E s. destruct (DAGSylStrings_spec d 0 (res_acyclic _ _ _ _ d G)) as (paths & _ & E' & C).
  rewrite E in E'. injection E' as ->. rewrite in_map_iff. split.
  - intros (p & <- & Hp). apply C in Hp. destruct Hp as (Ne & m & P & NO).
    split; [destruct p; [congruence|discriminate]|].
    assert (m = Z.of_nat (length w)) as <-.
    { destruct (path_last d p _ _ P Ne) as (f & v & H).
      destruct (gi_tgt _ _ _ _ _ _ G _ _ _ H) as [->|(t' & v' & H')]; [reflexivity|exfalso].
      assert (In (mkEdge t' v') (outEdges d m)) as X by (apply out_InE; exact H').
      unfold NoOut in NO. rewrite NO in X. destruct X. }
    clear - P G. induction P as [x|x e p m He P IH]; cbn [map Chain]; [reflexivity|].
    apply out_InE in He. rewrite (gi_end _ _ _ _ _ _ G _ _ _ He). auto.
  - intros (Ne & H).
    assert (exists p, map edgeVal p = s /\ Path d 0 p (Z.of_nat (length w))) as (p & <- & P).
    { clear Ne. revert H. generalize 0%Z as x. induction s as [|v s IH]; intros x H; cbn [Chain] in H.
      - subst x. exists []. split; [reflexivity|constructor].
      - destruct H as (A & B). destruct (IH _ B) as (p & <- & P). exists (mkEdge (endPos v) v :: p).
        split; [reflexivity|]. constructor; [apply out_InE; exact A|exact P]. }
    exists p. split; [reflexivity|]. apply C. split; [intros ->; apply Ne; reflexivity|].
    exists (Z.of_nat (length w)). split; [exact P|]. eapply res_end; eauto.
Qed.

(** Result syllables are determined by what they say and where they end. *)
Definition canon (v : Syl) : Prop := literal v = [] \/ v = SylLiteral (endPos v) (literal v).
Lemma canon_eq u v : canon u -> canon v -> spoken u = spoken v -> endPos u = endPos v -> u = v.
Proof.
  destruct u as [a1 a2 a3 a4 a5 la ea], v as [b1 b2 b3 b4 b5 lb eb]. unfold canon, spoken, SylLiteral.
  cbn [literal endPos iCons1 iCons2 vowel eCons tone]. intros A B S ->.
  destruct la as [|x la], lb as [|y lb]; try discriminate.
  - injection S as -> -> -> -> ->. reflexivity.
  - injection S as -> ->. destruct A as [A|A]; [discriminate|]. destruct B as [B|B]; [discriminate|]. congruence.
Qed.
Lemma canon_setEndPos v e : canon v -> canon (setEndPos v e).
Proof.
  destruct v as [b1 b2 b3 b4 b5 lb eb]. unfold canon, SylLiteral, setEndPos. cbn [literal endPos].
  intros [A|A]; [auto|right]. injection A as -> -> -> -> ->. reflexivity.
Qed.
Lemma orig_canon ct w dict brk f t v : ctype_ok ct -> dictOKo dict -> Orig ct w dict brk f t v -> canon v.
Proof.
  intros ctOK dictWF. induction 1 as [p e L NT _
    |q stop e es f t v W NE LS L A I
    |p stop linked c l em f t v W NE Hc Hl Hem G O I
    |p stop d k strs s f t v W Ed Ap Li Hs I
    |p f v Or IH Hd NL].
  - right. reflexivity.
  - destruct (AbbrG_in _ _ _ _ _ _ _ _ A I)
      as [(p & c & s1 & k1 & j & H1 & H2 & -> & -> & -> & H3 & H4 & H5 & H6 & H7)
         |(p & H1 & H2 & -> & -> & H3 & ->)]; [left; reflexivity|right; reflexivity].
  - left. unfold emEdges in I. cbv zeta in I. destruct (preSyl (emSyl em)) as [pre|] eqn:Ep.
    + destruct I as [I|[I|[]]]; injection I as <- <- <-.
      * assert (wellFormed (setEndPos pre (- (Z.of_nat p * 100 + Z.of_nat (emPos em))))) as X
          by (eapply preOk_wf; [exact ctOK|eapply (eg_pre _ _ _ _ _ _ G); eauto]). apply X.
      * reflexivity.
    + destruct I as [I|[]]; injection I as <- <- <-. reflexivity.
  - left. destruct Ap as (A1 & A2 & A3 & A4 & A5 & _).
    destruct (dict_strings dict dictWF p d k strs s f t v) as (X & _); auto. apply X.
  - apply canon_setEndPos. exact IH.
Qed.
Lemma InE_PHas ct w dict brk k d : ctype_ok ct -> dictOKo dict -> GInv ct w dict brk k d ->
  forall f t v, InE d f t v <-> PHas d f t v /\ endPos v = t /\ canon v.
Proof.
  intros C D G f t v.
  assert (X : forall v, InE d f t v -> endPos v = t /\ canon v).
  { intros u H. split; [exact (gi_end _ _ _ _ _ _ G _ _ _ H)|].
    eapply orig_canon; eauto. exact (gi_orig _ _ _ _ _ _ G _ _ _ H). }
  split.
  - intros H. split; [apply InE_Has; exact H|apply X; exact H].
  - intros ((u & H & E) & Et & Cv). destruct (X u H) as (A & B).
    apply syl_eqb_spoken in E. rewrite <- (canon_eq u v); auto. congruence.
Qed.

(** ** The product of the two lists *)
Section List.
Variable ct : CType.
Variables a b : list N.
Variable dict : option Dict.
Variable brk : list nat.
Hypothesis ctOK : ctype_ok ct.
Hypothesis dictWF : dictOKo dict.
Hypothesis sorted : StronglySorted lt brk.
Notation T := (a ++ b).
Notation ka := (length a).
Notation kb := (length b).
Hypothesis brkOK : Forall (fun x => x <= length T) brk.
Hypothesis WB : wordBoundary ct a b brk.
Notation brkA := (breaksBefore ka brk).
Notation brkB := (breaksAfter ka brk).

Lemma product la lb : pronounced ct a dict brkA la -> pronounced ct b dict brkB lb ->
  exists l, pronounced ct T dict brk l /\
    forall s, In s l <-> exists s1 s2, In s1 la /\ In s2 lb /\ s = s1 ++ shiftEndPos (Z.of_nat ka) s2.
Proof.
  intros (fa & da & Ea & La) (fb & db & Eb & Lb).
  assert (Pa : 0 < ka) by (eapply ka_pos; eauto). assert (Pb : 0 < kb) by (eapply kb_pos; eauto).
  assert (OA : Forall (fun x => x <= ka) brkA) by (eapply brkA_ok; eauto).
  assert (OB : Forall (fun x => x <= kb) brkB) by (eapply brkB_ok; eauto).
  pose proof (run_defined ct a dict brkA OA fa da Ea) as SA.
  pose proof (run_defined ct b dict brkB OB fb db Eb) as SB.
  destruct (parse_defined ct T dict brk brkOK) as (fT & dT & ET).
  { intros r. eapply whole_safe; eauto. }
  pose proof (ParseU16F_inv ct a dict brkA dictWF fa da Ea) as Ga.
  pose proof (ParseU16F_inv ct b dict brkB dictWF fb db Eb) as Gb.
  pose proof (ParseU16F_inv ct T dict brk dictWF fT dT ET) as GT.
  destruct (res_cover ct T dict brk dT GT) as (l & LT & _). exists l. split; [exists fT, dT; auto|].
  pose proof (transparent ct a dict brkA OA fa da Ea) as Ha.
  pose proof (transparent ct b dict brkB OB fb db Eb) as Hb.
  pose proof (transparent ct T dict brk brkOK fT dT ET) as HT.
  set (ca := exists r, Run ct a dict brkA r /\ sPos r = ka).
  set (cb := exists r, Run ct b dict brkB r /\ sPos r = kb).
  assert (Ca : forall r, Run ct a dict brkA r -> ka <= sPos r -> sPos r = ka).
  { intros r R L. destruct (SI_run ct a dict brkA r R) as (_ & P & _). lia. }
  assert (Cb : forall r, Run ct b dict brkB r -> kb <= sPos r -> sPos r = kb).
  { intros r R L. destruct (SI_run ct b dict brkB r R) as (_ & P & _). lia. }
  assert (EP : forall f t v, PHas dT f t v <-> (cb /\ PHas da f t v) \/
    (ca /\ exists f0 t0, f = mvNode ka f0 /\ t = mvNode ka t0 /\ PHas db f0 t0 v)).
  { intros f t v. rewrite HT. split.
    - intros (r & R & P & H). rewrite app_length in P.
      destruct (classify ct a b dict brk ctOK sorted brkOK WB SA SB dictWF r R) as [RA|(r1 & rb & G)].
      + destruct (SI_run ct a dict brkA r RA) as (_ & Q & _). lia.
      + assert (Qb : sPos rb = kb).
        { apply Cb; [apply (gl_b _ _ _ _ _ _ _ _ G)|]. pose proof (gl_pos _ _ _ _ _ _ _ _ G). lia. }
        apply (gl_edges _ _ _ _ _ _ _ _ G) in H. destruct H as [H|(f0 & t0 & -> & -> & H)].
        * left. split; [exists rb; split; [apply (gl_b _ _ _ _ _ _ _ _ G)|exact Qb]|].
          apply Ha. exists r1. split; [apply (gl_a _ _ _ _ _ _ _ _ G)|].
          split; [rewrite (gl_done _ _ _ _ _ _ _ _ G); lia|exact H].
        * right. split; [exists r1; split; [apply (gl_a _ _ _ _ _ _ _ _ G)|apply (gl_done _ _ _ _ _ _ _ _ G)]|].
          exists f0, t0. split; [reflexivity|]. split; [reflexivity|]. apply Hb. exists rb.
          split; [apply (gl_b _ _ _ _ _ _ _ _ G)|]. split; [lia|exact H].
    - assert (K : forall r1 rb, Run ct a dict brkA r1 -> ka <= sPos r1 -> Run ct b dict brkB rb -> kb <= sPos rb ->
         PHas (sDag r1) f t v \/ (exists f0 t0, f = mvNode ka f0 /\ t = mvNode ka t0 /\ PHas (sDag rb) f0 t0 v) ->
         exists r, Run ct T dict brk r /\ length T <= sPos r /\ PHas (sDag r) f t v).
      { intros r1 rb R1 P1 R2 P2 H.
        destruct (combine ct a b dict brk ctOK sorted brkOK WB SA SB dictWF r1 rb R1 (Ca r1 R1 P1) R2) as (rT & RT & G).
        exists rT. split; [exact RT|]. split.
        - rewrite app_length, (gl_pos _ _ _ _ _ _ _ _ G). lia.
        - apply (gl_edges _ _ _ _ _ _ _ _ G). exact H. }
      intros [((rb & R2 & P2) & H)|((r1 & R1 & P1) & f0 & t0 & -> & -> & H)].
      + apply Ha in H. destruct H as (r1 & R1 & P1 & H). apply (K r1 rb); auto. lia.
      + apply Hb in H. destruct H as (rb & R2 & P2 & H). apply (K r1 rb); auto; [lia|].
        right. eauto. }
  assert (EI : forall f t v, InE dT f t v <-> (cb /\ InE da f t v) \/
    (ca /\ exists f0 t0 v0, f = mvNode ka f0 /\ t = mvNode ka t0 /\ v = mvSyl ka v0 /\ InE db f0 t0 v0)).
  { intros f t v. rewrite (InE_PHas _ _ _ _ _ dT ctOK dictWF GT), EP, (InE_PHas _ _ _ _ _ da ctOK dictWF Ga).
    split.
    - intros ([(X & H)|(X & f0 & t0 & -> & -> & H)] & Et & Cv); [tauto|]. right. split; [exact X|].
      exists f0, t0, (setEndPos v t0). split; [reflexivity|]. split; [reflexivity|].
      split; [destruct v; unfold mvSyl, setEndPos; cbn in *; congruence|].
      apply (InE_PHas _ _ _ _ _ db ctOK dictWF Gb). split; [|split; [reflexivity|apply canon_setEndPos; exact Cv]].
      destruct H as (u & H & E). exists u. split; [exact H|].
      apply syl_eqb_spoken. rewrite ParserLoop.spoken_setEndPos. apply syl_eqb_spoken. exact E.
    - intros [(X & H & Et & Cv)|(X & f0 & t0 & v0 & -> & -> & -> & H)]; [tauto|].
      apply (InE_PHas _ _ _ _ _ db ctOK dictWF Gb) in H. destruct H as ((u & H & E) & Et & Cv).
      split; [right; split; [exact X|]|split; [unfold mvSyl; cbn; congruence|apply canon_setEndPos; exact Cv]].
      exists f0, t0. split; [reflexivity|]. split; [reflexivity|]. exists u. split; [exact H|].
      apply syl_eqb_spoken. unfold mvSyl. rewrite ParserLoop.spoken_setEndPos. apply syl_eqb_spoken. exact E. }
  assert (RA : forall f t v, InE da f t v -> (nodeRank f < 101 * Z.of_nat ka /\ nodeRank t <= 101 * Z.of_nat ka)%Z).
  { intros f t v H. destruct (gi_rank _ _ _ _ _ _ Ga _ _ _ H) as (X & Y). rewrite rk_nat in Y. lia. }
  assert (S1 : forall s x0, Chain dT (mvNode ka x0) s (Z.of_nat (length T)) ->
     exists s2, s = map (mvSyl ka) s2 /\ Chain db x0 s2 (Z.of_nat kb)).
  { induction s as [|v s IH]; intros x0 H; cbn [Chain] in H.
    - exists []. split; [reflexivity|]. cbn [Chain]. rewrite app_length, <- mvNode_nat in H.
      eapply mvNode_inj; eauto.
    - destruct H as (H & C). apply EI in H. destruct H as [(_ & H)|(_ & f0 & t0 & v0 & Ef & Et & -> & H)].
      + apply RA in H. rewrite mvNode_rk in H. pose proof (rk_nonneg x0). lia.
      + apply mvNode_inj in Ef. subst f0. rewrite Et in C. destruct (IH _ C) as (s2 & -> & C2).
        exists (v0 :: s2). split; [reflexivity|]. cbn [Chain].
        rewrite (gi_end _ _ _ _ _ _ Gb _ _ _ H). auto. }
  assert (S2 : forall s x, (nodeRank x <= 101 * Z.of_nat ka)%Z -> Chain dT x s (Z.of_nat (length T)) ->
     exists s1 s2, s = s1 ++ map (mvSyl ka) s2 /\ Chain da x s1 (Z.of_nat ka) /\ Chain db 0 s2 (Z.of_nat kb)).
  { induction s as [|v s IH]; intros x L H; pose proof H as H0; cbn [Chain] in H.
    - subst x. rewrite rk_nat, app_length in L. lia.
    - destruct H as (H & C). apply EI in H. destruct H as [(_ & H)|(_ & f0 & t0 & v0 & Ef & Et & -> & H)].
      + destruct (RA _ _ _ H) as (_ & Y). destruct (IH _ Y C) as (s1 & s2 & -> & C1 & C2).
        exists (v :: s1), s2. split; [reflexivity|]. split; [|exact C2]. cbn [Chain]. auto.
      + assert (f0 = 0%Z).
        { subst x. rewrite mvNode_rk in L. pose proof (rk_nonneg f0). unfold nodeRank in *.
          destruct (Z.ltb_spec f0 0); lia. }
        subst f0. rewrite Ef in H0. destruct (S1 _ _ H0) as (s2 & -> & C2). exists [], s2.
        split; [reflexivity|]. split; [|exact C2]. cbn [Chain]. subst x.
        change 0%Z with (Z.of_nat 0). rewrite mvNode_nat, Nat.add_0_r. reflexivity. }
  intros s. rewrite (listed_chain _ _ _ _ dT l GT LT). split.
  - intros (_ & H). destruct (S2 s 0%Z ltac:(change (nodeRank 0) with 0%Z; lia) H) as (s1 & s2 & -> & C1 & C2).
    exists s1, s2. split; [|split; [|reflexivity]].
    + apply (listed_chain _ _ _ _ da la Ga La). split; [|exact C1]. intros ->. cbn [Chain] in C1. lia.
    + apply (listed_chain _ _ _ _ db lb Gb Lb). split; [|exact C2]. intros ->. cbn [Chain] in C2. lia.
  - intros (s1 & s2 & I1 & I2 & ->).
    apply (listed_chain _ _ _ _ da la Ga La) in I1. apply (listed_chain _ _ _ _ db lb Gb Lb) in I2.
    destruct I1 as (N1 & C1), I2 as (N2 & C2).
    assert (XA : ca).
    { destruct s1 as [|v s1]; [congruence|]. destruct C1 as (H & _). apply InE_Has, Ha in H.
      destruct H as (r & R & P & _). exists r. split; [exact R|auto]. }
    assert (XB : cb).
    { destruct s2 as [|v s2]; [congruence|]. destruct C2 as (H & _). apply InE_Has, Hb in H.
      destruct H as (r & R & P & _). exists r. split; [exact R|auto]. }
    split; [destruct s1; [congruence|discriminate]|].
    apply (Chain_app dT s1 0%Z (Z.of_nat ka)).
    + clear - C1 EI XB. revert C1. generalize 0%Z as x. induction s1 as [|v s1 IH]; intros x C1; cbn [Chain] in *; [exact C1|].
      destruct C1 as (A & B). split; [apply EI; auto|auto].
    + rewrite app_length. rewrite <- mvNode_nat.
      replace (Z.of_nat ka) with (mvNode ka 0) at 1 by (change 0%Z with (Z.of_nat 0); rewrite mvNode_nat, Nat.add_0_r; reflexivity).
      clear - C2 EI XA. revert C2. generalize 0%Z as x. induction s2 as [|v s2 IH]; intros x C2; cbn [Chain shiftEndPos map] in *.
      * subst. reflexivity.
      * destruct C2 as (A & B). change (shiftEndPos1 (Z.of_nat ka) v) with (mvSyl ka v) || idtac.
        split; [apply EI; right; split; [exact XA|]; exists x, (endPos v), v; auto|]. apply IH. exact B.
Qed.
End List.
