(** Prop_Breaks.v - property C70: which word breaks matter. *)
From Coq Require Import String List NArith ZArith Bool Arith Lia Sorted.
From Verif Require Import Spec Base ThUni ThCons Syl OrderProofs Lattice Dag PronDag Dict DictProofs Parser Wp
  ParserSpec ParserFacts ParserInv ParserListed ParserProduct ParserActs Prop_Syl Prop_Parser Prop_Text.
Import ListNotations.
Local Open Scope nat_scope.

(** The position [x] lies inside a stretch of Thai characters and full stops. *)
Definition insideThai (ct : CType) (w : list N) (x : nat) : Prop :=
  0 < x /\ tokenAt ct w (x - 1) /\ tokenAt ct w x.
(** Two lists of breaks in ascending order, within the text, that say the same
    about the positions inside Thai stretches. *)
Record sameBreaks (ct : CType) (w : list N) (b1 b2 : list nat) : Prop := {
  sb_sorted1 : StronglySorted lt b1;
  sb_sorted2 : StronglySorted lt b2;
  sb_inside1 : Forall (fun x => x <= length w) b1;
  sb_inside2 : Forall (fun x => x <= length w) b2;
  sb_same : forall x, insideThai ct w x -> (In x b1 <-> In x b2)
}.

Section Same.
Variables (ct : CType) (w : list N) (b1 b2 : list nat).
Hypothesis S : sameBreaks ct w b1 b2.
Lemma same_end b e : wordEnd ct w b1 b e -> wordEnd ct w b2 b e.
Proof.
  destruct S as [S1 S2 I1 I2 H]. rewrite !wordEnd_sorted by assumption. intros [A B C D E].
  assert (X : forall x, b < x < e -> insideThai ct w x).
  { intros x Hx. split; [lia|]. split; apply C; lia. }
  constructor; auto.
  - intros x Ix Lx. destruct (Nat.le_gt_cases e x) as [L|L]; [exact L|].
    apply (H x (X x (conj Lx L))) in Ix. exact (D x Ix Lx).
  - destruct E as [E|[E|E]]; auto. destruct (Nat.eq_dec e (length w)) as [->|N]; [auto|]. right.
    destruct (nth_error w e) as [c|] eqn:Ec; [|apply nth_error_None in Ec; lia].
    destruct (tokenChar ct c) eqn:Tc.
    + left. apply H; [|exact E]. split; [lia|]. split; [apply C; lia|exists c; auto].
    + right. intros (c' & E' & T'). congruence.
Qed.
End Same.
Lemma same_sym ct w b1 b2 : sameBreaks ct w b1 b2 -> sameBreaks ct w b2 b1.
Proof. intros [A B C D E]. constructor; auto. intros x Hx. symmetry. apply E. exact Hx. Qed.
Lemma same_stop ct w b1 b2 b : ctype_ok ct -> sameBreaks ct w b1 b2 -> tokenAt ct w b ->
  NextWordStop ct w b b1 = NextWordStop ct w b b2.
Proof.
  intros C S T. pose proof S as [_ _ I1 I2 _].
  pose proof (NextWordStop_sat ct w b1 False (or_intror I1) b T) as Q1.
  pose proof (NextWordStop_sat ct w b2 False (or_intror I2) b T) as Q2.
  destruct (NextWordStop ct w b b1) as [e1| | |]; cbn [Sat] in Q1; try contradiction.
  destruct (NextWordStop ct w b b2) as [e2| | |]; cbn [Sat] in Q2; try contradiction.
  f_equal. apply (same_end ct w b1 b2 S) in Q1. exact (wEnd_fun ct w b2 b e1 e2 Q1 Q2).
Qed.
Lemma same_gap ct w b1 b2 s : ctype_ok ct -> sameBreaks ct w b1 b2 -> sPos s <= length w ->
  skipGap ct w b1 s = skipGap ct w b2 s.
Proof.
  intros C S L. destruct (SkipNonThai_spec ct w (sPos s) L) as (A & B & T). unfold skipGap.
  set (s' := if sPos s <? SkipNonThai ct w (sPos s) then _ else s).
  destruct (Nat.ltb_spec (sPos s') (length w)) as [L'|_]; [|reflexivity].
  assert (E : sPos s' = SkipNonThai ct w (sPos s)).
  { subst s'. destruct (Nat.ltb_spec (sPos s) (SkipNonThai ct w (sPos s))); [reflexivity|lia]. }
  rewrite (same_stop ct w b1 b2 (sPos s') C S); [reflexivity|]. rewrite E in *. destruct T as [T|T]; [lia|exact T].
Qed.
Lemma C70_lemma ct w dict b1 b2 fuel : ctype_ok ct -> sameBreaks ct w b1 b2 ->
  ParseU16F ct fuel w dict b1 = ParseU16F ct fuel w dict b2.
Proof.
  intros C S.
  assert (P : forall fuel pool acc, parseLoop ct fuel w dict b1 pool acc = parseLoop ct fuel w dict b2 pool acc).
  { induction fuel0 as [|f IH]; intros [|s pool] acc; try reflexivity. cbn [parseLoop].
    destruct (Nat.leb_spec (length w) (sPos s)) as [L|L]; [apply IH|].
    assert (E : stepStates ct w dict b1 s = stepStates ct w dict b2 s).
    { unfold stepStates. rewrite (same_gap ct w b1 b2 s C S) by lia. reflexivity. }
    rewrite E. apply bind_ext. intros l. apply IH. }
  unfold ParseU16F. rewrite (same_gap ct w b1 b2 _ C S) by (cbn; lia). apply bind_ext. intros s. apply P.
Qed.
(** A decision for examples. *)
Fixpoint ascending (l : list nat) : bool :=
  match l with [] => true | x :: r => forallb (Nat.ltb x) r && ascending r end.
Definition insideb ct (w : list N) x : bool :=
  (0 <? x) && match nth_error w (x - 1), nth_error w x with Some a, Some c => tokenChar ct a && tokenChar ct c | _, _ => false end.
Definition sameBreaksb ct w b1 b2 : bool :=
  ascending b1 && ascending b2 && forallb (fun x => x <=? length w) b1 && forallb (fun x => x <=? length w) b2 &&
  forallb (fun x => negb (insideb ct w x) || eqb (existsb (Nat.eqb x) b1) (existsb (Nat.eqb x) b2)) (seq 0 (length w)).
Lemma ascending_sound l : ascending l = true -> StronglySorted lt l.
Proof.
  induction l as [|x l IH]; cbn [ascending]; [constructor|]. rewrite andb_true_iff, forallb_forall. intros (A & B).
  constructor; [auto|]. apply Forall_forall. intros y Hy. apply Nat.ltb_lt. auto.
Qed.
Lemma existsb_in x l : existsb (Nat.eqb x) l = true <-> In x l.
Proof.
  rewrite existsb_exists. split; [intros (y & I & E); apply Nat.eqb_eq in E; subst; exact I|].
  intros I. exists x. split; [exact I|apply Nat.eqb_refl].
Qed.
Lemma sameBreaksb_sound ct w b1 b2 : sameBreaksb ct w b1 b2 = true -> sameBreaks ct w b1 b2.
Proof.
  unfold sameBreaksb. rewrite !andb_true_iff, !forallb_forall. intros ((((A & B) & C) & D) & E).
  constructor; try (apply ascending_sound; assumption); try (apply Forall_forall; intros x Hx; apply Nat.leb_le; auto).
  intros x (P & (c1 & E1 & T1) & (c2 & E2 & T2)).
  assert (L : x < length w) by (apply nth_error_Some; rewrite E2; discriminate).
  specialize (E x). rewrite in_seq in E. specialize (E ltac:(lia)). unfold insideb in E. rewrite E1, E2, T1, T2 in E.
  apply Nat.ltb_lt in P. rewrite P in E. cbn [andb negb orb] in E. apply eqb_prop in E. rewrite <- !existsb_in, E. reflexivity.
Qed.
Lemma same_pronounced ct w dict b1 b2 l : ctype_ok ct -> sameBreaks ct w b1 b2 ->
  pronounced ct w dict b1 l -> pronounced ct w dict b2 l.
Proof. intros C S (fuel & d & E & L). exists fuel, d. rewrite <- (C70_lemma ct w dict b1 b2 fuel C S). auto. Qed.
(** Breaks outside the Thai stretches, at their ends and at the ends of the
    text do not matter. *)
Theorem C70_breaks_that_matter ct w dict b1 b2 fuel : ctype_ok ct -> sameBreaks ct w b1 b2 ->
  ParseU16F ct fuel w dict b1 = ParseU16F ct fuel w dict b2.
Proof. exact (C70_lemma ct w dict b1 b2 fuel). Qed.
Print Assumptions C70_breaks_that_matter.
(** "ตากลม ab cd": the breaks a word breaker would give, and the one that
    matters; without it the readings are others. *)
Example C70_case : let w := letters "ตากลม ab cd" in
  ctype_ok libthai_ct /\ sameBreaks libthai_ct w [2; 5; 6; 8; 9; 11] [2] /\
  exists l1 l2, pronounced libthai_ct w None [2] l1 /\ pronounced libthai_ct w None [] l2 /\ l1 <> l2.
Proof.
  cbv zeta. split; [exact libthai_ok|]. split.
  - apply sameBreaksb_sound. vm_compute. reflexivity.
  - eexists _, _. split; [apply (listing_pronounced None _ "ตากลม ab cd"); vm_compute; reflexivity|].
    split; [apply (listing_pronounced None _ "ตากลม ab cd"); vm_compute; reflexivity|]. discriminate.
Qed.
