(** ParserInv.v - termination and the invariant of the parser's main loop. *)
From Coq Require Import String List NArith ZArith Bool Arith Lia Sorted.
From Verif Require Import Spec Base ThUni ThCons Syl OrderProofs Lattice LatticeProofs
  Dag DagProofs PronDag PathProofs GroupProofs ListDagProofs Dict DictProofs Parser Wp
  ParserSpec ParserRules ParserActs ParserLoop ParserFacts.
Import ListNotations.
Local Open Scope nat_scope.

Section Inv.
Variable ct : CType.
Variable w : list N.
Variable dict : option Dict.
Variable brk : list nat.
Notation n := (length w).
Notation isCons := (th_wcisthcons ct).
Notation tokAt := (tokenAt ct w).
Notation rk := nodeRank.
Notation zn := Z.of_nat.

Lemma rk_nat k : rk (zn k) = (101 * zn k)%Z.
Proof. unfold nodeRank. destruct (Z.ltb_spec (zn k) 0); lia. Qed.
Lemma rk_nonneg z : (0 <= rk z)%Z.
Proof. unfold nodeRank. destruct (Z.ltb_spec z 0); lia. Qed.

(** ** Words *)
Lemma firstBreak_step b b' x : firstBreak brk b x -> b <= b' -> b' < x -> firstBreak brk b' x.
Proof.
  intros (l1 & l2 & E & L & F) H1 H2. exists l1, l2. split; [exact E|]. split; [exact H2|].
  eapply Forall_impl; [|exact F]. cbv beta. lia.
Qed.
Lemma firstBreak_exists b x : In x brk -> b < x -> exists y, firstBreak brk b y.
Proof.
  intros Hx L. destruct (nextBrk_cases w b brk) as [(F & _)|(l1 & l2 & E & L1 & F)].
  - rewrite Forall_forall in F. specialize (F x Hx). lia.
  - exists (nextBrk n b brk), l1, l2. auto.
Qed.
Lemma firstBreak_in b x : firstBreak brk b x -> In x brk /\ b < x.
Proof.
  intros (l1 & l2 & -> & L & _). split; [|exact L]. apply in_or_app. right; left; reflexivity.
Qed.
Lemma firstBreak_fun b x y : firstBreak brk b x -> firstBreak brk b y -> x = y.
Proof.
  intros H1 H2. apply (nextBrk_first w) in H1. apply (nextBrk_first w) in H2. congruence.
Qed.
Notation wEnd := (wordEnd ct w brk).
Lemma wEnd_step b b' e : wEnd b e -> b <= b' -> b' < e -> wEnd b' e.
Proof.
  intros [A B C D E] H1 H2. constructor; auto.
  - intros k Hk. apply C. lia.
  - intros x Hx. destruct (firstBreak_in _ _ Hx) as (I1 & I2).
    destruct (firstBreak_exists b x I1 ltac:(lia)) as (y & Hy).
    pose proof (D y Hy). assert (Hy' : firstBreak brk b' y) by (eapply firstBreak_step; eauto; lia).
    rewrite (firstBreak_fun _ _ _ Hx Hy'). assumption.
  - destruct E as [E|[E|E]]; auto. right; left. eapply firstBreak_step; eauto.
Qed.
Lemma wEnd_fun b e e' : wEnd b e -> wEnd b e' -> e = e'.
Proof.
  assert (H : forall e e', wEnd b e -> wEnd b e' -> e < e' -> False).
  { intros x y [A B C D E] [A' B' C' D' E'] L. destruct E as [E|[E|E]].
    - lia.
    - apply D' in E. lia.
    - apply E. apply C'. lia. }
  intros H1 H2. destruct (Nat.lt_trichotomy e e') as [L|[L|L]]; auto; exfalso; eauto.
Qed.
Definition stopOK (pos stop : nat) : Prop := stop <= n /\ (pos < stop -> wEnd pos stop).
Lemma stopOK_step pos stop pos' : stopOK pos stop -> pos < stop -> pos <= pos' -> stopOK pos' stop.
Proof.
  intros (A & B) H1 H2. split; [exact A|]. intros H. eapply wEnd_step; [apply B; exact H1|lia|lia].
Qed.

(** ** Progress and termination *)
Lemma ActG_progress pos stop linked a : pos < n -> stop <= n ->
  ActG ct w dict brk pos stop linked a -> progress w pos stop a.
Proof.
  intros Hp Hs H. unfold progress. destruct H as
    [e st es H1 H2 H3 H4 H5|d k strs H1 H2 H3 H4|e es H1 H2 H3 H4 H5|c l em H1 H2 H3 H4 H5 G H6|H1 H2 H3 H4];
    cbn [aPos aStop emAct].
  - assert (st <= n /\ (e = pos -> pos < st)).
    { destruct H4 as [(-> & ->)|(T & W)]; [lia|]. destruct W. lia. }
    split; [lia|]. split; [lia|]. split; [lia|]. intros. split; [lia|apply H; assumption].
  - destruct H3 as (_ & K & _ & _ & L & _).
    assert (length k > 0) by (destruct k; [congruence|cbn; lia]). lia.
  - lia.
  - destruct G. lia.
  - lia.
Qed.
Lemma acts_progress pos stop linked l : pos < n -> stop <= n ->
  acts ct w dict brk pos stop linked = Ok l -> Forall (progress w pos stop) l.
Proof.
  intros Hp Hs E.
  pose proof (acts_sat ct w dict brk True (or_introl I) (or_introl I) (or_introl I)
                (or_introl I) pos stop linked Hp Hs) as H.
  rewrite E in H. cbn [Sat] in H. eapply Forall_impl; [|exact H].
  intros a. apply ActG_progress; assumption.
Qed.
Lemma acts_fuel pos stop linked : pos < n -> stop <= n ->
  acts ct w dict brk pos stop linked <> NoFuel.
Proof.
  intros Hp Hs E.
  pose proof (acts_sat ct w dict brk True (or_introl I) (or_introl I) (or_introl I)
                (or_introl I) pos stop linked Hp Hs) as H.
  rewrite E in H. exact H.
Qed.

Definition s0 : ParseState := mkState 0 0 dagEmpty false.
(** The state the loop starts with. *)
Lemma start_sat F : (F \/ Forall (fun b => b <= n) brk) ->
  Sat F (skipGap ct w brk s0)
      (fun s => (n = 0 /\ s = mkState 0 0 dagEmpty false) \/
                (0 < n /\ exists a, ActG ct w dict brk 0 0 false a /\ s = plain s0 a)).
Proof.
  intros HB. rewrite skipGap_act. cbn [s0 sPos sLinked].
  destruct (Nat.eq_dec n 0) as [E|E].
  - unfold gapAct, SkipNonThai. rewrite E. cbn [Nat.sub skipNonThaiF Nat.ltb Nat.leb bind Sat].
    left. split; reflexivity.
  - apply Sat_bind. eapply Sat_mono; [apply (gapAct_sat ct w dict brk F HB 0 0 false); lia|].
    intros a _ Ha. cbn [Sat]. right. split; [lia|]. exists a. auto.
Qed.

Lemma start_good s : skipGap ct w brk s0 = Ok s -> good w s.
Proof.
  intros E. pose proof (start_sat True (or_introl I)) as H. rewrite E in H. cbn [Sat] in H.
  destruct H as [(A & ->)|(A & a & Ha & ->)].
  - split; [apply dwf_empty|]. cbn. lia.
  - destruct (ActG_progress 0 0 false a A ltac:(lia) Ha) as (P1 & P2 & _).
    split; [apply addAll_wf, dwf_empty|]. cbn. auto.
Qed.

(** Enough fuel for this input. *)
Definition enough : nat :=
  match skipGap ct w brk s0 with
  | Ok s => potential ct w dict brk [s]
  | _ => 0
  end.
Lemma ParseU16F_terminates fuel : enough <= fuel ->
  ParseU16F ct fuel w dict brk <> NoFuel.
Proof.
  intros L. unfold ParseU16F. fold s0. unfold enough in L.
  pose proof (start_sat True (or_introl I)) as H.
  destruct (skipGap ct w brk s0) as [s| | |] eqn:E; cbn [bind]; try discriminate.
  - apply (parseLoop_fuel ct w dict brk acts_progress acts_fuel); [|exact L].
    cbn [poolAdd]. constructor; [apply start_good; exact E|constructor].
  - destruct H.
Qed.
Lemma ParseU16F_stable fuel : enough <= fuel ->
  ParseU16F ct fuel w dict brk = ParseU16F ct enough w dict brk.
Proof.
  intros L. pose proof (ParseU16F_terminates enough (le_n _)) as H.
  unfold ParseU16F in *. fold s0 in *.
  destruct (skipGap ct w brk s0) as [s| | |]; cbn [bind] in *; try reflexivity.
  apply parseLoop_mono; assumption.
Qed.
Lemma ParseU16F_any fuel : ParseU16F ct fuel w dict brk <> NoFuel ->
  ParseU16F ct fuel w dict brk = ParseU16F ct enough w dict brk.
Proof.
  intros H. destruct (le_lt_dec enough fuel) as [L|L]; [apply ParseU16F_stable; exact L|].
  unfold ParseU16F in *. fold s0 in *.
  destruct (skipGap ct w brk s0) as [s| | |]; cbn [bind] in *; try reflexivity.
  symmetry. apply parseLoop_mono; [assumption|lia].
Qed.

(** ** Where edges come from *)
Inductive Orig : Z -> Z -> Syl -> Prop :=
| O_gap p e : p < e <= n -> (forall i, p <= i < e -> ~ tokAt i) -> (e = n \/ tokAt e) ->
    Orig (zn p) (zn e) (SylLiteral (zn e) (firstn (e - p) (skipn p w)))
| O_abbr q stop e es f t v : wEnd q stop -> noEntry ct w dict q stop -> letterStart w q ->
    q < e <= stop -> AbbrG ct w e q es -> In (f, t, v) es -> Orig f t v
| O_rule p stop linked c l em f t v : wEnd p stop -> noEntry ct w dict p stop ->
    nth_error w p = Some c -> ruleEms ct w p stop linked c = Ok l -> In em l ->
    EmG ct w 1 p stop em ->
    (stop < emPos em -> exists c', nth_error w (p + 1) = Some c' /\ isCons c' = true) ->
    In (f, t, v) (emEdges p em) -> Orig f t v
| O_exc p stop d k strs s f t v : wEnd p stop -> dict = Some d ->
    applicable ct w d p stop k -> listed d k strs -> In s strs ->
    In (f, t, v) (strEdges (zn p) (shiftEndPos (zn p) s)) -> Orig f t v
| O_dot p f v : Orig f (zn p) v -> nth_error w p = Some 46%N -> ~ letterStart w p ->
    Orig f (zn (p + 1)) (setEndPos v (zn (p + 1))).

(** ** Bundles: the edges of one action *)
Record Bundle (p e : nat) (es : list Edge) : Prop := {
  b_rank : forall f t v, In (f, t, v) es ->
     (rk (zn p) <= rk f /\ rk f < rk t /\ rk t <= rk (zn e))%Z;
  b_end : forall f t v, In (f, t, v) es -> endPos v = t;
  b_src : forall f t v, In (f, t, v) es -> f = zn p \/ exists f' v', In (f', f, v') es;
  b_tgt : forall f t v, In (f, t, v) es -> t = zn e \/ exists t' v', In (t, t', v') es;
  b_in : p < e -> exists f v, In (f, zn e, v) es;
  b_out : p < e -> exists t v, In (zn p, t, v) es
}.
Lemma Bundle_nil p : Bundle p p [].
Proof. constructor; cbn; try tauto; lia. Qed.
Lemma Bundle_one p e v : p < e -> endPos v = zn e -> Bundle p e [(zn p, zn e, v)].
Proof.
  intros L E. constructor.
  - intros f t x [H|[]]. injection H as <- <- <-. rewrite !rk_nat. lia.
  - intros f t x [H|[]]. injection H as <- <- <-. exact E.
  - intros f t x [H|[]]. injection H as <- <- <-. left; reflexivity.
  - intros f t x [H|[]]. injection H as <- <- <-. left; reflexivity.
  - intros _. exists (zn p), v. left; reflexivity.
  - intros _. exists (zn e), v. left; reflexivity.
Qed.
Lemma Bundle_cons p m e v es : p < m -> m <= e -> endPos v = zn m -> Bundle m e es ->
  Bundle p e ((zn p, zn m, v) :: es).
Proof.
  intros L1 L2 E [R N S T I O]. constructor.
  - intros f t x [H|H].
    + injection H as <- <- <-. rewrite !rk_nat. lia.
    + destruct (R f t x H). rewrite !rk_nat in *. lia.
  - intros f t x [H|H]; [injection H as <- <- <-; exact E|eapply N; exact H].
  - intros f t x [H|H]; [injection H as <- <- <-; left; reflexivity|].
    right. destruct (S f t x H) as [->|(f' & v' & H')].
    + exists (zn p), v. left; reflexivity.
    + exists f', v'. right; exact H'.
  - intros f t x [H|H].
    + injection H as <- <- <-. destruct (Nat.eq_dec m e) as [->|]; [left; reflexivity|].
      right. destruct O as (t' & v' & H'); [lia|]. exists t', v'. right; exact H'.
    + destruct (T f t x H) as [->|(t' & v' & H')]; [left; reflexivity|].
      right. exists t', v'. right; exact H'.
  - intros _. destruct (Nat.eq_dec m e) as [->|].
    + exists (zn p), v. left; reflexivity.
    + destruct I as (f & x & H); [lia|]. exists f, x. right; exact H.
  - intros _. exists (zn m), v. left; reflexivity.
Qed.

Lemma AbbrG_bundle e p es : AbbrG ct w e p es -> p <= e /\ Bundle p e es.
Proof.
  induction 1 as [|p c s1 k1 es L H1 H2 H3 H4 H5 (L' & IH)|p c s1 k1 E H1 H2 H3 H4 H5|p E H1].
  - split; [lia|apply Bundle_nil].
  - split; [lia|]. apply Bundle_cons; [lia|lia|reflexivity|exact IH].
  - subst e. split; [lia|]. apply Bundle_one; [lia|reflexivity].
  - subst e. split; [lia|]. apply Bundle_one; [lia|reflexivity].
Qed.

Lemma pre_rank p k : 0 < k <= 100 -> rk (- (zn p * 100 + zn (p + k))) = (101 * zn p + zn k)%Z.
Proof.
  intros H. unfold nodeRank. destruct (Z.ltb_spec (- (zn p * 100 + zn (p + k))) 0); lia.
Qed.
Lemma emEdges_bundle p stop em : EmG ct w 1 p stop em -> Bundle p (emPos em) (emEdges p em).
Proof.
  intros G. destruct G. unfold emEdges. cbv zeta.
  destruct (preSyl (emSyl em)) as [pre|].
  - set (k := emPos em - p). assert (Ek : emPos em = p + k) by (unfold k; lia).
    set (x := (- (zn p * 100 + zn (emPos em)))%Z).
    assert (Rx : rk x = (101 * zn p + zn k)%Z).
    { unfold x. rewrite Ek. apply pre_rank. lia. }
    constructor.
    + intros f t v [H|[H|[]]]; injection H as <- <- <-; rewrite ?rk_nat, ?Rx; lia.
    + intros f t v [H|[H|[]]]; injection H as <- <- <-; reflexivity.
    + intros f t v [H|[H|[]]]; injection H as <- <- <-; [left; reflexivity|].
      right. exists (zn p), (setEndPos pre x). left; reflexivity.
    + intros f t v [H|[H|[]]]; injection H as <- <- <-; [|left; reflexivity].
      right. eexists _, _. right; left; reflexivity.
    + intros _. eexists _, _. right; left; reflexivity.
    + intros _. eexists _, _. left; reflexivity.
  - apply Bundle_one; [lia|reflexivity].
Qed.

Lemma rk_shift off p : (0 <= off)%Z -> rk (shiftPos off p) = (rk p + 101 * off)%Z.
Proof.
  intros H. unfold nodeRank, shiftPos. destruct (Z.ltb_spec p 0).
  - destruct (Z.ltb_spec (p - off * 101) 0); lia.
  - destruct (Z.ltb_spec (p + off) 0); lia.
Qed.
Lemma increasing_shift off s : forall x, (0 <= off)%Z -> increasing x (map endPos s) ->
  increasing (shiftPos off x) (map endPos (shiftEndPos off s)).
Proof.
  induction s as [|v s IH]; intros x Ho H; cbn [map increasing shiftEndPos] in *; [exact I|].
  destruct H as (H1 & H2). cbn [endPos setEndPos]. split.
  - rewrite !rk_shift by assumption. lia.
  - apply IH; assumption.
Qed.
Lemma str_endPos_shift off s : s <> [] -> str_endPos (shiftEndPos off s) = shiftPos off (str_endPos s).
Proof.
  intros H. destruct s as [|v s]; [congruence|]. clear H. revert v.
  induction s as [|v2 s IH]; intros v.
  - reflexivity.
  - unfold shiftEndPos in *. cbn [map].
    rewrite !str_endPos_cons by discriminate. exact (IH v2).
Qed.
Lemma strEdges_src s : forall x f t v, In (f, t, v) (strEdges x s) ->
  f = x \/ exists f' v', In (f', f, v') (strEdges x s).
Proof.
  induction s as [|a s IH]; intros x f t v H; cbn [strEdges] in *; [contradiction|].
  destruct H as [H|H]; [injection H as <- <- <-; left; reflexivity|].
  right. destruct (IH _ _ _ _ H) as [->|(f' & v' & H')].
  - exists x, a. left; reflexivity.
  - exists f', v'. right; exact H'.
Qed.
Lemma strEdges_tgt s : forall x f t v, In (f, t, v) (strEdges x s) ->
  t = str_endPos s \/ exists t' v', In (t, t', v') (strEdges x s).
Proof.
  induction s as [|a s IH]; intros x f t v H; cbn [strEdges] in *; [contradiction|].
  destruct s as [|b s].
  - destruct H as [H|[]]. injection H as <- <- <-. left; reflexivity.
  - rewrite str_endPos_cons by discriminate. destruct H as [H|H].
    + injection H as <- <- <-. right. exists (endPos b), b. right; left; reflexivity.
    + destruct (IH _ _ _ _ H) as [->|(t' & v' & H')]; [left; reflexivity|].
      right. exists t', v'. right; exact H'.
Qed.
Lemma strEdges_last s : forall x, s <> [] -> exists f v, In (f, str_endPos s, v) (strEdges x s).
Proof.
  induction s as [|a s IH]; intros x H; [congruence|]. destruct s as [|b s].
  - exists x, a. left; reflexivity.
  - rewrite str_endPos_cons by discriminate.
    destruct (IH (endPos a) ltac:(discriminate)) as (f & v & H'). exists f, v. right; exact H'.
Qed.

Lemma str_bundle p k s : wellPositioned (zn k) s ->
  Bundle p (p + k) (strEdges (zn p) (shiftEndPos (zn p) s)).
Proof.
  intros (N & I & E).
  assert (N' : shiftEndPos (zn p) s <> []) by (destruct s; [congruence|discriminate]).
  assert (E' : str_endPos (shiftEndPos (zn p) s) = zn (p + k)).
  { rewrite str_endPos_shift by assumption. rewrite E. unfold shiftPos.
    destruct (Z.ltb_spec (zn k) 0); lia. }
  assert (I' : increasing (zn p) (map endPos (shiftEndPos (zn p) s))).
  { replace (zn p) with (shiftPos (zn p) 0) at 1 by (unfold shiftPos; cbn; lia).
    apply increasing_shift; [lia|exact I]. }
  constructor.
  - intros f t v H. destruct (strEdges_rank _ _ _ _ _ I' H).
    pose proof (strEdges_to_end _ _ _ _ _ I' H) as X. rewrite E' in X. lia.
  - intros f t v H. symmetry. eapply strEdges_endPos; exact H.
  - intros f t v H. eapply strEdges_src; exact H.
  - intros f t v H. rewrite <- E'. eapply strEdges_tgt; exact H.
  - intros _. rewrite <- E'. apply strEdges_last. exact N'.
  - intros _. destruct (shiftEndPos (zn p) s) as [|a r]; [congruence|].
    exists (endPos a), a. left; reflexivity.
Qed.
Lemma Bundle_app p e a b : Bundle p e a -> Bundle p e b -> Bundle p e (a ++ b).
Proof.
  intros [R N S T I O] [R' N' S' T' I' O']. constructor.
  - intros f t v H. apply in_app_or in H. destruct H; eauto.
  - intros f t v H. apply in_app_or in H. destruct H; eauto.
  - intros f t v H. apply in_app_or in H. destruct H as [H|H].
    + destruct (S f t v H) as [->|(f' & v' & H')]; [auto|].
      right. exists f', v'. apply in_or_app. auto.
    + destruct (S' f t v H) as [->|(f' & v' & H')]; [auto|].
      right. exists f', v'. apply in_or_app. auto.
  - intros f t v H. apply in_app_or in H. destruct H as [H|H].
    + destruct (T f t v H) as [->|(f' & v' & H')]; [auto|].
      right. exists f', v'. apply in_or_app. auto.
    + destruct (T' f t v H) as [->|(f' & v' & H')]; [auto|].
      right. exists f', v'. apply in_or_app. auto.
  - intros L. destruct (I L) as (f & v & H). exists f, v. apply in_or_app. auto.
  - intros L. destruct (O L) as (f & v & H). exists f, v. apply in_or_app. auto.
Qed.
Lemma exc_bundle p k strs : strs <> [] ->
  Forall (fun s => wellPositioned (zn k) s /\ Forall wellFormed s) strs ->
  Bundle p (p + k) (excEdges p strs).
Proof.
  intros N H. induction H as [|s strs (Hs & _) H IH]; [congruence|].
  unfold excEdges. cbn [map concat]. destruct strs as [|s2 strs].
  - cbn [map concat]. rewrite app_nil_r. apply str_bundle. exact Hs.
  - apply Bundle_app; [apply str_bundle; exact Hs|]. apply IH. discriminate.
Qed.
Lemma splitOn_nonempty c s : splitOn c s <> [].
Proof.
  induction s as [|a s IH]; cbn [splitOn]; [discriminate|].
  destruct (Ascii.eqb a c); [discriminate|]. destruct (splitOn c s); discriminate.
Qed.
Lemma mapM_length {A B} (f : A -> Res B) l r : mapM f l = Ok r -> length r = length l.
Proof.
  revert r. induction l as [|a l IH]; intros r H; cbn [mapM] in H; [injection H as <-; reflexivity|].
  destruct (f a); cbn [bind] in H; try discriminate.
  destruct (mapM f l) as [y| | |]; cbn [bind] in H; try discriminate.
  injection H as <-. cbn. rewrite (IH y eq_refl). reflexivity.
Qed.
Lemma listed_nonempty d k strs : listed d k strs -> strs <> [].
Proof.
  intros (data & _ & H) ->. unfold MakeSylStrings in H. apply mapM_length in H.
  match type of H with _ = length ?l => destruct l eqn:E end;
    [exact (splitOn_nonempty _ _ E)|discriminate].
Qed.
Lemma listed_fun d k s s' : listed d k s -> listed d k s' -> s = s'.
Proof. intros (x & A & B) (y & A' & B'). congruence. Qed.

Hypothesis dictWF : dictOKo dict.

Lemma ActG_bundle pos stop linked a : ActG ct w dict brk pos stop linked a ->
  aStretch a = false -> Bundle pos (aPos a) (aEdges a).
Proof.
  intros H NS. destruct H as
    [e st es H1 H2 H3 H4 H5|d k strs H1 H2 H3 H4|e es H1 H2 H3 H4 H5|c l em H1 H2 H3 H4 H5 G H6|H1 H2 H3 H4];
    cbn [aPos aEdges emAct aStretch] in *.
  - destruct H5 as [(L & ->)|(-> & ->)]; [|apply Bundle_nil].
    apply Bundle_one; [exact L|reflexivity].
  - destruct H3 as ((v & K1) & K2 & K3 & _).
    destruct (dictWF d H2 k v K1 K2 K3) as (strs' & L & Hs).
    rewrite (listed_fun _ _ _ _ H4 L) in *.
    apply exc_bundle; [eapply listed_nonempty; exact L|exact Hs].
  - apply AbbrG_bundle in H5. tauto.
  - eapply emEdges_bundle; exact G.
  - discriminate.
Qed.
Lemma ActG_orig pos stop linked a f t v : ActG ct w dict brk pos stop linked a ->
  (pos < stop -> wEnd pos stop) -> In (f, t, v) (aEdges a) -> Orig f t v.
Proof.
  intros H W I. destruct H as
    [e st es H1 H2 H3 H4 H5|d k strs H1 H2 H3 H4|e es H1 H2 H3 H4 H5|c l em H1 H2 H3 H4 H5 G H6|H1 H2 H3 H4];
    cbn [aPos aEdges emAct aStretch] in *.
  - destruct H5 as [(L & ->)|(-> & ->)]; [|contradiction].
    destruct I as [I|[]]. injection I as <- <- <-. apply O_gap; [lia|exact H3|].
    destruct H4 as [(H4 & _)|(H4 & _)]; auto.
  - unfold excEdges in I. apply in_concat in I. destruct I as (es & I1 & I2).
    apply in_map_iff in I1. destruct I1 as (s & <- & Is). eapply O_exc; eauto.
  - eapply O_abbr; eauto.
  - eapply O_rule; eauto.
  - contradiction.
Qed.
Lemma ActG_stop pos stop linked a : pos < n -> stopOK pos stop ->
  ActG ct w dict brk pos stop linked a -> stopOK (aPos a) (aStop a).
Proof.
  intros Hp S H. destruct H as
    [e st es H1 H2 H3 H4 H5|d k strs H1 H2 H3 H4|e es H1 H2 H3 H4 H5|c l em H1 H2 H3 H4 H5 G H6|H1 H2 H3 H4];
    cbn [aPos aStop emAct].
  - destruct H4 as [(-> & ->)|(T & W)]; [split; lia|]. split; [apply W|]. intros _. exact W.
  - eapply stopOK_step; eauto. lia.
  - eapply stopOK_step; eauto. lia.
  - eapply stopOK_step; eauto. destruct G. lia.
  - eapply stopOK_step; eauto. lia.
Qed.

(** ** Graph invariant *)
Record GInv (pos : nat) (d : PronunDAG) : Prop := {
  gi_wf : pwf d;
  gi_end : forall f t v, InE d f t v -> endPos v = t;
  gi_rank : forall f t v, InE d f t v -> (rk f < rk t /\ rk t <= rk (zn pos))%Z;
  gi_orig : forall f t v, InE d f t v -> Orig f t v;
  gi_src : forall f t v, InE d f t v -> f = 0%Z \/ exists f' v', InE d f' f v';
  gi_tgt : forall f t v, InE d f t v -> t = zn pos \/ exists t' v', InE d t t' v'
}.
Record SInv (s : ParseState) : Prop := {
  si_g : GInv (sPos s) (sDag s);
  si_pos : sPos s <= n;
  si_stop : stopOK (sPos s) (sStop s);
  si_in : sPos s = 0 \/ exists f v, InE (sDag s) f (zn (sPos s)) v
}.

Lemma InE_empty f t v : ~ InE (@dagEmpty Syl) f t v.
Proof. intros []. Qed.
Lemma GInv_empty pos : GInv pos dagEmpty.
Proof.
  constructor; [apply dwf_empty|..]; intros f t v H; destruct (InE_empty _ _ _ H).
Qed.
Lemma GInv_union pos a b : GInv pos a -> GInv pos b -> GInv pos (unionDAG syl_eqb a b).
Proof.
  intros [W E R O S T] [W' E' R' O' S' T'].
  assert (K : forall f t v, InE a f t v \/ InE b f t v -> exists v', InE (unionDAG syl_eqb a b) f t v').
  { intros f t v H. assert (PHas (unionDAG syl_eqb a b) f t v) as (v' & H' & _).
    { apply punion_Has. destruct H; [left|right]; apply InE_Has; assumption. }
    exists v'. exact H'. }
  constructor; [apply punion_wf; exact W|..]; intros f t v H; apply punion_InE in H.
  - destruct H; eauto.
  - destruct H; eauto.
  - destruct H; eauto.
  - destruct H as [H|H].
    + destruct (S f t v H) as [->|(f' & v' & H')]; [auto|right].
      destruct (K f' f v' (or_introl H')) as (v2 & H2). exists f', v2. exact H2.
    + destruct (S' f t v H) as [->|(f' & v' & H')]; [auto|right].
      destruct (K f' f v' (or_intror H')) as (v2 & H2). exists f', v2. exact H2.
  - destruct H as [H|H].
    + destruct (T f t v H) as [->|(f' & v' & H')]; [auto|right].
      destruct (K t f' v' (or_introl H')) as (v2 & H2). exists f', v2. exact H2.
    + destruct (T' f t v H) as [->|(f' & v' & H')]; [auto|right].
      destruct (K t f' v' (or_intror H')) as (v2 & H2). exists f', v2. exact H2.
Qed.
Lemma SInv_merge : mergeOK SInv.
Proof.
  intros a b [G P S I] [G' P' S' I'] E _. constructor; cbn [sPos sDag sStop].
  - apply GInv_union; [exact G|rewrite E; exact G'].
  - exact P.
  - exact S.
  - destruct I as [I|(f & v & H)]; [left; exact I|right].
    assert (PHas (unionDAG syl_eqb (sDag a) (sDag b)) f (zn (sPos a)) v) as (v' & H' & _).
    { apply punion_Has. left. apply InE_Has. exact H. }
    exists f, v'. exact H'.
Qed.

Lemma GInv_addAll pos e d es : GInv pos d -> pos <= e -> Bundle pos e es ->
  (pos = 0 \/ exists f v, InE d f (zn pos) v) ->
  (forall f t v, In (f, t, v) es -> Orig f t v) ->
  GInv e (addAll d es) /\
  (e = 0 \/ exists f v, InE (addAll d es) f (zn e) v).
Proof.
  intros [W E R O S T] L [BR BE BS BT BI BO] I HO.
  assert (K : forall f t v, In (f, t, v) es -> exists v', InE (addAll d es) f t v').
  { intros f t v H. assert (PHas (addAll d es) f t v) as (v' & H' & _).
    { apply addAll_Has. right. exists v. split; [exact H|apply syl_eqb_refl]. }
    exists v'. exact H'. }
  split.
  - constructor; [apply addAll_wf; exact W|..]; intros f t v H; apply addAll_InE in H.
    + destruct H; eauto.
    + destruct H as [H|H].
      * destruct (R f t v H). rewrite !rk_nat in *. lia.
      * destruct (BR f t v H) as (_ & X & Y). auto.
    + destruct H; eauto.
    + destruct H as [H|H].
      * destruct (S f t v H) as [->|(f' & v' & H')]; [auto|right].
        exists f', v'. apply addAll_keep. exact H'.
      * destruct (BS f t v H) as [->|(f' & v' & H')].
        -- destruct I as [->|(f' & v' & H')]; [left; reflexivity|right].
           exists f', v'. apply addAll_keep. exact H'.
        -- right. destruct (K _ _ _ H') as (v2 & H2). exists f', v2. exact H2.
    + destruct H as [H|H].
      * destruct (T f t v H) as [->|(t' & v' & H')].
        -- destruct (Nat.eq_dec pos e) as [->|]; [left; reflexivity|right].
           destruct BO as (t' & v' & H'); [lia|].
           destruct (K _ _ _ H') as (v2 & H2). exists t', v2. exact H2.
        -- right. exists t', v'. apply addAll_keep. exact H'.
      * destruct (BT f t v H) as [->|(t' & v' & H')]; [left; reflexivity|right].
        destruct (K _ _ _ H') as (v2 & H2). exists t', v2. exact H2.
  - destruct (Nat.eq_dec pos e) as [->|].
    + destruct I as [I|(f & v & H)]; [left; exact I|right].
      exists f, v. apply addAll_keep. exact H.
    + right. destruct BI as (f & v & H); [lia|].
      destruct (K _ _ _ H) as (v2 & H2). exists f, v2. exact H2.
Qed.

Lemma GInv_stretch pos d d' : GInv pos d -> stretch d pos = Ok d' ->
  (exists f v, InE d f (zn pos) v) -> nth_error w pos = Some 46%N -> ~ letterStart w pos ->
  GInv (pos + 1) d' /\ exists f v, InE d' f (zn (pos + 1)) v.
Proof.
  intros [W E R O S T] ES I Hc HL.
  destruct (stretch_spec d pos W) as (d2 & E2 & W' & H1 & H2).
  rewrite ES in E2. injection E2 as <-.
  assert (NO : forall t v, ~ InE d (zn pos) t v).
  { intros t v H. destruct (R _ _ _ H). lia. }
  assert (K1 : forall f t v, InE d f t v -> t <> zn pos -> exists v', InE d' f t v').
  { intros f t v H N. assert (PHas d' f t v) as (v' & H' & _).
    { apply H2. left. split; [apply InE_Has; exact H|exact N]. }
    exists v'. exact H'. }
  assert (K2 : forall f v, InE d f (zn pos) v -> exists v', InE d' f (zn (pos + 1)) v').
  { intros f v H. assert (PHas d' f (zn (pos + 1)) v) as (v' & H' & _).
    { apply H2. right. split; [reflexivity|apply InE_Has; exact H]. }
    exists v'. exact H'. }
  split.
  - constructor; [exact W'|..]; intros f t v H; apply H1 in H;
      destruct H as [(H & N)|(-> & v0 & H & ->)].
    + eauto.
    + reflexivity.
    + destruct (R _ _ _ H). rewrite !rk_nat in *. lia.
    + destruct (R _ _ _ H). rewrite !rk_nat in *. lia.
    + eauto.
    + apply O_dot; auto.
    + destruct (S _ _ _ H) as [->|(f' & v' & H')]; [auto|right].
      destruct (K1 _ _ _ H') as (v2 & X); [intros ->; exact (NO _ _ H)|]. exists f', v2. exact X.
    + destruct (S _ _ _ H) as [->|(f' & v' & H')]; [auto|right].
      destruct (K1 _ _ _ H') as (v2 & X); [intros ->; exact (NO _ _ H)|]. exists f', v2. exact X.
    + destruct (T _ _ _ H) as [->|(t' & v' & H')]; [congruence|right].
      destruct (Z.eq_dec t' (zn pos)) as [->|N'].
      * destruct (K2 _ _ H') as (v2 & X). exists (zn (pos + 1)), v2. exact X.
      * destruct (K1 _ _ _ H' N') as (v2 & X). exists t', v2. exact X.
    + left; reflexivity.
  - destruct I as (f & v & H). destruct (K2 _ _ H) as (v2 & X). exists f, v2. exact X.
Qed.

Lemma SInv_step s a s' : SInv s -> sPos s < n ->
  ActG ct w dict brk (sPos s) (sStop s) (sLinked s) a -> applyAct s a = Ok s' -> SInv s'.
Proof.
  intros [G P S I] L HA E.
  pose proof (ActG_stop _ _ _ _ L S HA) as S2.
  destruct (ActG_progress _ _ _ _ L (proj1 S) HA) as (P1 & P2 & P3 & _).
  unfold applyAct in E. destruct (aStretch a) eqn:Es.
  - inversion HA; subst a; cbn [aStretch emAct] in Es; try discriminate.
    cbn [aPos aStop aLinked] in *.
    destruct (stretch (sDag s) (sPos s)) as [d'| | |] eqn:Ed; cbn [bind] in E; try discriminate.
    injection E as <-.
    assert (I' : exists f v, InE (sDag s) f (zn (sPos s)) v).
    { destruct I as [I|I]; [|exact I]. exfalso. apply H2. left; exact I. }
    destruct (GInv_stretch _ _ _ G Ed I' H1 H2) as (G' & X).
    constructor; cbn [sPos sDag sStop]; auto.
  - injection E as <-.
    destruct (GInv_addAll (sPos s) (aPos a) (sDag s) (aEdges a)) as (G' & X); auto.
    + eapply ActG_bundle; eauto.
    + intros f t v. eapply ActG_orig; [exact HA|]. apply S.
    + constructor; cbn [sPos sDag sStop]; auto.
Qed.

Section Run.
Variable F : Prop.
Hypothesis ctOK : F \/ ctype_ok ct.
Hypothesis brkOK : F \/ Forall (fun b => b <= n) brk.
Hypothesis tailOK : F \/ forall c, nth_error w (n - 1) = Some c ->
  th_wcisldvowel ct c = true -> c = UTH_SARA_E.

Lemma step_sat s : SInv s -> sPos s < n ->
  Sat F (stepStates ct w dict brk s) (Forall SInv).
Proof.
  intros HS L. rewrite stepStates_acts. apply Sat_bind.
  eapply Sat_mono; [apply (acts_sat ct w dict brk F ctOK brkOK (or_intror dictWF) tailOK)|].
  - exact L.
  - destruct HS as [_ _ (A & _) _]. exact A.
  - cbv beta. intros al _ Hal.
    destruct (mapM_applyAct s al (gi_wf _ _ (si_g _ HS))) as (r & Er & Hr). rewrite Er.
    cbn [Sat]. rewrite Forall_forall. intros x Hx.
    destruct (Forall2_in_r _ _ _ _ Hr Hx) as (a & Ha & Ea).
    rewrite Forall_forall in Hal. eapply SInv_step; eauto.
Qed.

Lemma parseLoop_sat fuel : forall pool acc, Forall SInv pool -> GInv n acc ->
  parseLoop ct fuel w dict brk pool acc <> NoFuel ->
  Sat F (parseLoop ct fuel w dict brk pool acc) (GInv n).
Proof.
  induction fuel as [|fuel IH]; intros pool acc HP HG NFu; cbn [parseLoop] in *.
  - destruct pool; [exact HG|congruence].
  - destruct pool as [|s pool]; [exact HG|]. inversion HP as [|? ? Hs Hp]; subst.
    destruct (Nat.leb_spec n (sPos s)) as [L|L].
    + apply IH; auto. apply GInv_union; [exact HG|].
      replace n with (sPos s) by (pose proof (si_pos _ Hs); lia). apply Hs.
    + pose proof (step_sat s Hs L) as X.
      destruct (stepStates ct w dict brk s) as [l| | |]; cbn [bind] in *; auto.
      apply IH; auto. apply poolAdds_Forall; auto. apply SInv_merge.
Qed.

Lemma start_inv s : skipGap ct w brk s0 = Ok s -> SInv s.
Proof.
  intros E. pose proof (start_sat True (or_introl I)) as H. rewrite E in H. cbn [Sat] in H.
  destruct H as [(A & ->)|(A & a & Ha & ->)].
  - constructor; cbn [sPos sDag sStop]; [apply GInv_empty|lia|split; lia|left; reflexivity].
  - assert (S : SInv s0).
    { constructor; cbn [sPos sDag sStop s0]; [apply GInv_empty|lia|split; lia|left; reflexivity]. }
    apply (SInv_step s0 a _ S); cbn [s0 sPos sStop sLinked]; auto.
    unfold applyAct.
    assert (aStretch a = false) as ->; [|reflexivity].
    inversion Ha; subst; try reflexivity. lia.
Qed.

Lemma ParseU16F_sat fuel : ParseU16F ct fuel w dict brk <> NoFuel ->
  Sat F (ParseU16F ct fuel w dict brk) (GInv n).
Proof.
  intros NFu. unfold ParseU16F in *. fold s0 in *.
  pose proof (start_sat F brkOK) as H.
  destruct (skipGap ct w brk s0) as [s| | |] eqn:E; cbn [bind Sat] in *; auto.
  apply parseLoop_sat; [|apply GInv_empty|exact NFu].
  cbn [poolAdd]. constructor; [apply start_inv; exact E|constructor].
Qed.
End Run.

(** Partial correctness. *)
Lemma ParseU16F_inv fuel d : ParseU16F ct fuel w dict brk = Ok d -> GInv n d.
Proof.
  intros E. pose proof (ParseU16F_sat True (or_introl I) (or_introl I) (or_introl I) fuel) as H.
  rewrite E in H. apply H. discriminate.
Qed.
End Inv.
