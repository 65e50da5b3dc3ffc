(** Prop_Listing.v - properties C63 and C64: node numbers fit into an int,
    and no pronunciation is listed twice over the same syllable boundaries. *)
From Coq Require Import String List NArith ZArith Bool Arith Lia.
From Verif Require Import Spec Base ThUni ThCons Syl OrderProofs Lattice LatticeProofs
  Dag DagProofs PronDag PathProofs GroupProofs Dict DictProofs Utf Parser ParserSpec Prop_Syl ParserFacts ParserInv
  ParserResult ParserListed Prop_Graph Prop_Parser.
Import ListNotations.
Local Open Scope nat_scope.

(** ** C63 *)
Definition fitsInt (z : Z) : Prop := (- 2 ^ 31 < z < 2 ^ 31)%Z.
Lemma rank_abs z : (Z.abs z <= nodeRank z)%Z.
Proof. unfold nodeRank. destruct (Z.ltb_spec z 0); lia. Qed.
Lemma C63_lemma ct w dict brk fuel d : dictOKo dict -> ParseU16F ct fuel w dict brk = Ok d ->
  (101 * Z.of_nat (length w) < 2 ^ 31)%Z ->
  forall f t v, InE d f t v -> fitsInt f /\ fitsInt t /\ endPos v = t.
Proof.
  intros D P L f t v H. pose proof (ParseU16F_inv ct w dict brk D fuel d P) as G.
  destruct (gi_rank _ _ _ _ _ _ G _ _ _ H) as (R1 & R2). pose proof (rank_abs f). pose proof (rank_abs t).
  rewrite (rk_zn (length w)) in R2. unfold fitsInt. split; [lia|]. split; [lia|]. exact (gi_end _ _ _ _ _ _ G _ _ _ H).
Qed.
Theorem C63_nodes_fit ct w dict brk fuel d : dictOKo dict -> ParseU16F ct fuel w dict brk = Ok d ->
  (101 * Z.of_nat (length w) < 2 ^ 31)%Z ->
  forall f t v, InE d f t v -> fitsInt f /\ fitsInt t /\ endPos v = t.
Proof. exact (C63_lemma ct w dict brk fuel d). Qed.
Print Assumptions C63_nodes_fit.
Lemma listed_fits ct w dict brk l s v : dictOKo dict -> pronounced ct w dict brk l ->
  (101 * Z.of_nat (length w) < 2 ^ 31)%Z -> In s l -> In v s -> fitsInt (endPos v).
Proof.
  intros D (fuel & d & E & L) Sz Hs Hv. pose proof (ParseU16F_inv ct w dict brk D fuel d E) as G.
  destruct (DAGSylStrings_spec d 0 (res_acyclic ct w dict brk d G)) as (paths & _ & L' & C). rewrite L in L'. injection L' as ->.
  apply in_map_iff in Hs. destruct Hs as (p & <- & Hp). apply C in Hp. destruct Hp as (_ & m & Pp & _).
  apply in_map_iff in Hv. destruct Hv as (e & <- & He).
  assert (X : forall x q y, Path d x q y -> In e q -> exists f, InE d f (target e) (edgeVal e)).
  { clear. intros x q y H. induction H as [|x e1 q y H1 H2 IH]; intros I; [destruct I|]. destruct I as [->|I]; [|auto].
    apply out_InE in H1. eauto. }
  destruct (X _ _ _ Pp He) as (f & I). destruct (C63_lemma ct w dict brk fuel d D E Sz f _ _ I) as (_ & Ft & Et).
  rewrite Et. exact Ft.
Qed.
(** The limit is that of the encoding of pre-syllables, not of the text. *)
Example C63_case : exists d f t v, ParseU16F libthai_ct 500 (letters "บริกา") (Some exDict) [] = Ok d /\
  InE d f t v /\ t = (-3)%Z /\ fitsInt f /\ fitsInt t.
Proof.
  eexists _, 0%Z, (-3)%Z, _. split; [vm_compute; reflexivity|]. split; [repeat first [left; reflexivity|right]|].
  split; [reflexivity|]. unfold fitsInt. lia.
Qed.

(** ** C64 *)
Lemma path_same d (E : forall f t v, InE d f t v -> endPos v = t) (W : pwf d) p :
  forall q x m m', Path d x p m -> Path d x q m' ->
  str_eqb (map edgeVal p) (map edgeVal q) = true -> map endPos (map edgeVal p) = map endPos (map edgeVal q) -> p = q.
Proof.
  induction p as [|e p IH]; intros q x m m' P Q S M; destruct q as [|e' q]; try discriminate; [reflexivity|].
  inversion P as [|x1 e1 p1 m1 He Hp]; subst. inversion Q as [|x2 e2 p2 m2 He' Hq]; subst.
  cbn [map str_eqb] in S, M. injection M as M1 M2.
  destruct (syl_eqb (edgeVal e) (edgeVal e')) eqn:S1; cbn [negb] in S; [|discriminate].
  apply out_InE in He, He'. rewrite (E _ _ _ He), (E _ _ _ He') in M1.
  assert (X : e = e').
  { destruct e as [t v], e' as [t' v']. cbn [target edgeVal] in *. subst t'. f_equal.
    pose proof (dwf_nodup _ _ _ W) as N.
    destruct (ForallOrdPairs_In N _ _ He He') as [Y|[Y|Y]].
    - injection Y as Y. exact Y.
    - exfalso. apply Y. split; [reflexivity|exact S1].
    - exfalso. apply Y. split; [reflexivity|]. cbn [snd]. apply (eqv_sym _ syl_equiv). exact S1. }
  subst e'. f_equal. eapply IH; eauto.
Qed.
Lemma C64_lemma ct w dict brk l : dictOKo dict -> pronounced ct w dict brk l ->
  forall i j a b, nth_error l i = Some a -> nth_error l j = Some b ->
  str_eqb a b = true -> map endPos a = map endPos b -> i = j.
Proof.
  intros D P i j a b Hi Hj S M. destruct (pron_inv ct w dict brk D l P) as (d & G & L).
  pose proof (gi_wf _ _ _ _ _ _ G) as W.
  destruct (DAGSylStrings_spec d 0 (res_acyclic ct w dict brk d G)) as (paths & E & L' & C). rewrite L in L'. injection L' as ->.
  assert (ND : NoDup paths).
  { eapply enumP_NoDup; [|exact E]. intros k. apply (out_nodup syl_eqb syl_eqb_refl). exact W. }
  rewrite nth_error_map in Hi, Hj.
  destruct (nth_error paths i) as [p|] eqn:Pi; [|discriminate]. destruct (nth_error paths j) as [q|] eqn:Pj; [|discriminate].
  cbn [option_map] in Hi, Hj. injection Hi as <-. injection Hj as <-.
  destruct (proj1 (C p) (nth_error_In _ _ Pi)) as (_ & m & Pp & _). destruct (proj1 (C q) (nth_error_In _ _ Pj)) as (_ & m' & Pq & _).
  assert (p = q) by (eapply (path_same d (gi_end _ _ _ _ _ _ G) W); eauto). subst q.
  eapply NoDup_nth_error; [exact ND| |congruence]. apply nth_error_Some. congruence.
Qed.
Theorem C64_no_repetition ct w dict brk l : dictOKo dict -> pronounced ct w dict brk l ->
  forall i j a b, nth_error l i = Some a -> nth_error l j = Some b ->
  str_eqb a b = true -> map endPos a = map endPos b -> i = j.
Proof. exact (C64_lemma ct w dict brk l). Qed.
Print Assumptions C64_no_repetition.
(** Over different boundaries the same reading does come twice: the word for
    emerald has its last two syllables once as one led group and once apart. *)
Lemma C64_lemma2 : exists l i j a b, pronounced libthai_ct (letters "มรกต") None [] l /\ i <> j /\
  nth_error l i = Some a /\ nth_error l j = Some b /\ str_eqb a b = true /\ map spoken a = map spoken b.
Proof.
  eexists _, 0, 1, _, _. split; [apply listing_pronounced; vm_compute; reflexivity|]. split; [discriminate|].
  split; [reflexivity|]. split; [reflexivity|]. split; [vm_compute; reflexivity|vm_compute; reflexivity].
Qed.
Theorem C64_repeated_reading_refuted : ~ forall w dict brk l i j a b, dictOKo dict -> pronounced libthai_ct w dict brk l ->
  nth_error l i = Some a -> nth_error l j = Some b -> map spoken a = map spoken b -> i = j.
Proof.
  intros H. destruct C64_lemma2 as (l & i & j & a & b & P & N & A & B & _ & S). apply N.
  apply (H (letters "มรกต") None [] l i j a b); auto. intros d X. discriminate X.
Qed.
Print Assumptions C64_repeated_reading_refuted.
(** The seven readings of a well-known ambiguous word differ in syllables or in
    boundaries. *)
Example C64_case : exists l, pronounced libthai_ct (letters "ตากลม") None [] l /\ length l = 7 /\
  In [2%Z; 5%Z] (map (map endPos) l) /\ In [3%Z; 5%Z] (map (map endPos) l).
Proof.
  eexists. split; [apply listing_pronounced; vm_compute; reflexivity|]. vm_compute. intuition.
Qed.
