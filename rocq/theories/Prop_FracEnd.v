(** Prop_FracEnd.v - the end positions carried by fractions: C82. *)
From Coq Require Import List NArith ZArith Bool String Lia Permutation Sorted.
From Verif Require Import Spec Base ThCons Syl OrderProofs Lattice LatticeProofs Dag DagProofs PathProofs PronDag GroupProofs.
Import ListNotations.
Local Open Scope Z_scope.

(** ** Vocabulary *)
(** [PronunFrac::endPos] of an edge value tells where the edge ends. *)
Definition TellsEnd (d : FracDAG) : Prop := forall x y f, InE d x y f -> fracEndPos f = y.
(** In a lattice: the value of every fraction is the end of one of its
    alternatives. *)
Definition strEnd (s : SylString) : Z := endPos (last s Blank).
Definition TellsEnds (l : PronunLatt) : Prop :=
  forall c f, In c l -> In f c -> exists a, In a (alts f) /\ fracEndPos f = strEnd a.

(** ** Lemmas *)
Record SInv (d : FracDAG) : Prop := {
  s_wf : fwf d;
  s_one : forall x y v, InE d x y v -> (exists s, alts v = [s]) /\ fracEndPos v = y }.
Lemma fracOf_end pos s : fracEndPos (fracOf pos s) = pos.
Proof. reflexivity. Qed.
Lemma single_step d n e d' : SInv d -> mergeSingleAt d n e = Ok d' -> SInv d'.
Proof.
  intros [W S] H. unfold mergeSingleAt in H. destruct (inEdges d n) as [|inE l]; [discriminate H|].
  destruct (firstAlt (edgeVal inE)) as [a| | |]; cbn [bind] in H; try discriminate H.
  destruct (firstAlt (edgeVal e)) as [b| | |]; cbn [bind] in H; try discriminate H.
  destruct (target inE =? n); [discriminate H|]. injection H as <-.
  assert (W1 : fwf (fst (fRemoveEdge d (target inE) n (edgeVal inE)))) by (apply remove_dwf; auto using frac_eqb_refl, frac_eqb_sym; exact frac_eqb_trans).
  assert (W2 : fwf (fst (fRemoveEdge (fst (fRemoveEdge d (target inE) n (edgeVal inE))) n (target e) (edgeVal e))))
    by (apply remove_dwf; auto using frac_eqb_refl, frac_eqb_sym; exact frac_eqb_trans).
  split; [apply add_dwf; auto using frac_eqb_refl, frac_eqb_sym|].
  intros x y v I. apply add_InE in I; auto using frac_eqb_refl, frac_eqb_sym.
  destruct I as [I|(_ & -> & -> & ->)].
  - apply remove_InE in I as (I & _); auto using frac_eqb_refl, frac_eqb_sym; try exact frac_eqb_trans.
    apply remove_InE in I as (I & _); auto using frac_eqb_refl, frac_eqb_sym; try exact frac_eqb_trans.
    apply (S x y v I).
  - split; [exists (a ++ b); apply fracOf_alts|apply fracOf_end].
Qed.
Lemma single_loop fuel : forall d i d', SInv d -> mergeSinglesLoop fuel d i = Ok d' -> SInv d'.
Proof.
  induction fuel as [|fuel IH]; intros d i d' S H; [discriminate H|]. cbn [mergeSinglesLoop] in H.
  destruct (nth_error (mFrom d) i) as [(n, e)|]; [|injection H as <-; exact S].
  destruct ((outDegree d n =? 1)%nat && (inDegree d n =? 1)%nat)%bool; [|eapply IH; eauto].
  destruct (mergeSingleAt d n e) as [d1| | |] eqn:E; cbn [bind] in H; try discriminate H.
  eapply IH; [|exact H]. eapply single_step; eauto.
Qed.

(** What the parallel merge keeps: a fraction of several alternatives is the
    only edge between its nodes. *)
Definition OneOrMore (y : Z) (v : PronunFrac) : Prop :=
  (exists s, alts v = [s]) /\ fracEndPos v = y \/ (2 <= List.length (alts v))%nat /\ fracEndPos v = -1.
Record MInv (d : FracDAG) : Prop := {
  m_wf : fwf d;
  m_one : forall x y v, InE d x y v ->
    (exists s, alts v = [s]) /\ fracEndPos v = y \/
    (2 <= List.length (alts v))%nat /\ fracEndPos v = -1 /\ forall v', InE d x y v' -> v' = v }.
Lemma SInv_MInv d : SInv d -> MInv d.
Proof. intros [W S]. split; [exact W|]. intros x y v I. left. exact (S x y v I). Qed.
Lemma mstep_end to l acc : fracEndPos (fst (fold_left (mstep to) l acc)) = fracEndPos (fst acc).
Proof.
  revert acc. induction l as [|e l IH]; intros acc; [reflexivity|]. cbn [fold_left]. rewrite IH. unfold mstep.
  destruct (target e =? to); [|reflexivity]. cbn [fst]. rewrite fracAdd_insertAll. apply insertAll_endPos.
Qed.
Lemma two_differ d f t : fwf d -> (1 < between d f t)%nat ->
  exists v v', InE d f t v /\ InE d f t v' /\ frac_eqb v v' = false.
Proof.
  intros [_ N _ _] B. unfold between in B.
  assert (F : ForallOrdPairs (fun x y => ~ sameE frac_eqb x y) (filter (direct PronunFrac f t) (edgesF d))) by (apply FOP_filter; exact N).
  assert (G : forall x, In x (filter (direct PronunFrac f t) (edgesF d)) -> exists v, x = (f, t, v) /\ InE d f t v).
  { intros ((a, b), v) I. apply filter_In in I as (I & D). unfold direct in D; cbn [fst snd] in D. apply andb_true_iff in D as (D1 & D2).
    apply Z.eqb_eq in D1, D2. subst. exists v. auto. }
  destruct (filter (direct PronunFrac f t) (edgesF d)) as [|x [|y l]]; cbn [List.length] in B; try lia.
  destruct (G x) as (v & -> & I); [left; reflexivity|]. destruct (G y) as (v' & -> & I'); [right; left; reflexivity|].
  exists v, v'. split; [exact I|]. split; [exact I'|]. apply not_true_is_false. intros E.
  inversion F as [|? ? H _]; subst. rewrite Forall_forall in H. apply (H (f, t, v') (or_introl eq_refl)). split; [reflexivity|exact E].
Qed.
Lemma parallel_step d from to mf : MInv d -> (1 < between d from to)%nat -> fst (mergedFracOf d from to) = mf ->
  MInv (fst (fAddEdge (fst (removeDirectEdges d from to)) from to mf)).
Proof.
  intros [W M] B Emf. unfold mergedFracOf in Emf.
  change (fun (acc : PronunFrac * nat) (e : DAGEdge PronunFrac) =>
            if target e =? to then (fracAdd (fst acc) (edgeVal e), S (snd acc)) else acc) with (mstep to) in Emf.
  destruct (mstep_fold to (outEdges d from) (fracEmpty, O)) as (_ & _ & H3 & _).
  pose proof (mstep_end to (outEdges d from) (fracEmpty, O)) as He. cbn [fst fracEmpty fracEndPos] in He.
  rewrite Emf in H3, He.
  assert (W1 : fwf (fst (removeDirectEdges d from to))) by (apply rd_dwf; exact W).
  assert (L : (2 <= List.length (alts mf))%nat).
  { destruct (two_differ d from to W B) as (v & v' & I & I' & N).
    destruct (M _ _ _ I) as [((s & E) & _)|(_ & _ & U)]; [|rewrite (U v' I'), frac_eqb_refl in N; discriminate N].
    destruct (M _ _ _ I') as [((s' & E') & _)|(_ & _ & U)]; [|rewrite (U v I), frac_eqb_refl in N; discriminate N].
    destruct (H3 (mkEdge to v) s) as (a & A1 & A2); [apply out_InE; exact I|reflexivity|cbn [edgeVal]; rewrite E; left; reflexivity|].
    destruct (H3 (mkEdge to v') s') as (b & B1 & B2); [apply out_InE; exact I'|reflexivity|cbn [edgeVal]; rewrite E'; left; reflexivity|].
    destruct (alts mf) as [|z [|z' l]]; [destruct A1| |cbn [List.length]; lia]. exfalso.
    destruct A1 as [->|[]]. destruct B1 as [->|[]].
    assert (X : frac_eqb v v' = true).
    { unfold frac_eqb. rewrite E, E'. apply alts_eqb_iff. constructor; [|constructor].
      eapply strEq_trans; [apply strEq_sym; exact A2|exact B2]. }
    rewrite X in N. discriminate N. }
  split; [apply add_dwf; auto using frac_eqb_refl, frac_eqb_sym|].
  intros x y v I. unfold fAddEdge in *. rewrite add_InE in I by auto using frac_eqb_refl, frac_eqb_sym.
  setoid_rewrite (add_InE _ frac_eqb) ; auto using frac_eqb_refl, frac_eqb_sym.
  destruct I as [I|(_ & -> & -> & ->)].
  - apply rd_InE in I as (I & N). destruct (M x y v I) as [S|(L2 & P & U)]; [left; exact S|].
    right. split; [exact L2|]. split; [exact P|]. intros v' [I'|(_ & -> & -> & _)]; [|exfalso; apply N; auto].
    apply rd_InE in I' as (I' & _). apply U, I'.
  - right. split; [exact L|]. split; [exact He|]. intros v' [I'|(_ & _ & _ & E)]; [|exact E].
    apply rd_InE in I' as (_ & N). exfalso. apply N. auto.
Qed.
Lemma parallel_loop fuel : forall d i d', MInv d -> mergeParallelsLoop fuel d i = Ok d' -> MInv d'.
Proof.
  induction fuel as [|fuel IH]; intros d i d' M H; [discriminate H|]. cbn [mergeParallelsLoop] in H.
  destruct (nth_error (mFrom d) i) as [(from, e)|]; [|injection H as <-; exact M].
  destruct (outDegree d from =? 1)%nat; [eapply IH; eauto|].
  pose proof (mergedFracOf_cnt d from (target e)) as C. pose proof (parallel_step d from (target e)) as P.
  destruct (mergedFracOf d from (target e)) as (mf, cnt). cbn [fst snd] in *. subst cnt.
  destruct (Nat.ltb_spec 1 (between d from (target e))) as [B|B]; [|eapply IH; eauto].
  eapply IH; [|exact H]. apply (P mf M B eq_refl).
Qed.
Lemma init_SInv d : SInv (fracDAGInit d).
Proof.
  destruct (init_spec d) as (W & H & _). split; [exact W|]. intros x y v I. destruct (H x y v I) as (s & _ & ->).
  split; [exists [s]; apply fracOf_alts|apply fracOf_end].
Qed.

(** ** C82 *)
Lemma C82_lemma d fd : fracDAG d = Ok fd -> forall x y f, InE fd x y f ->
  (fracAltCount f = 1%nat /\ fracEndPos f = y) \/ ((2 <= fracAltCount f)%nat /\ fracEndPos f = -1).
Proof.
  intros H x y f I. unfold fracDAG, mergeFractions in H.
  destruct (mergeSinglesLoop (mergeFuel (fracDAGInit d)) (fracDAGInit d) 0) as [d1| | |] eqn:E1; cbn [bind] in H; try discriminate H.
  assert (M : MInv fd).
  { eapply parallel_loop; [|exact H]. apply SInv_MInv. eapply single_loop; [|exact E1]. apply init_SInv. }
  unfold fracAltCount. destruct (m_one fd M x y f I) as [((s & ->) & P)|(L & P & _)]; [left|right]; auto.
Qed.
(** In the grouped graph the position of a fraction of one reading is the end
    of its edge; that of a fraction of several readings is always -1. *)
Theorem C82_positions d fd : fracDAG d = Ok fd -> forall x y f, InE fd x y f ->
  (fracAltCount f = 1%nat /\ fracEndPos f = y) \/ ((2 <= fracAltCount f)%nat /\ fracEndPos f = -1).
Proof. exact (C82_lemma d fd). Qed.
Print Assumptions C82_positions.
Definition sylTo (i : EInitConsSound) (v : EVowel) (pos : Z) : Syl := SylOf i SEC_NONE v EC_NONE SAMAN pos.
(** Two readings of the text up to 4, as for a word read in two ways. *)
Definition twoWays : PronunDAG := pronDAGOfList [[sylTo KA V_AA 2; sylTo LA V_AA 4]; [sylTo KA V_A (-4); sylTo LA V_AU 4]].
(** A crossing: the nodes 1 and 2 can be joined directly. *)
Definition crossing : PronunDAG := pronDAGOfList
  [[sylTo KA V_AA 1; sylTo LA V_AA 2; sylTo NA V_AA 3]; [sylTo KA V_AA 1; sylTo MA V_AA 3]; [sylTo TA V_AA 2; sylTo NA V_AA 3]].
(** The positions are not those of the ends: *)
Theorem C82_graph_refuted : exists d fd, (forall x y v, InE d x y v -> endPos v = y) /\ fracDAG d = Ok fd /\ ~ TellsEnd fd.
Proof.
  exists twoWays. eexists. split; [|split; [vm_compute; reflexivity|]].
  - intros x y v I. vm_compute in I. repeat destruct I as [I|I]; [injection I as <- <- <-; reflexivity..|destruct I].
  - intros T. pose proof (T _ _ _ (or_introl eq_refl)) as E. vm_compute in E. discriminate E.
Qed.
Print Assumptions C82_graph_refuted.
(** in the lattice a series that was joined keeps the position of its first
    part, even when no fraction has several readings. *)
Theorem C82_lattice_refuted : exists d fd l, (forall x y v, InE d x y v -> endPos v = y) /\
  fracDAG d = Ok fd /\ fracLattice fd = Ok l /\ TellsEnd fd /\ ~ TellsEnds l.
Proof.
  exists crossing. eexists. eexists. split; [|split; [vm_compute; reflexivity|split; [vm_compute; reflexivity|split]]].
  - intros x y v I. vm_compute in I. repeat destruct I as [I|I]; [injection I as <- <- <-; reflexivity..|destruct I].
  - intros x y f I. vm_compute in I. repeat destruct I as [I|I]; [injection I as <- <- <-; reflexivity..|destruct I].
  - intros T. destruct (T _ _ (or_introl eq_refl) (or_introl eq_refl)) as (a & [<-|[]] & E). vm_compute in E. discriminate E.
Qed.
Print Assumptions C82_lattice_refuted.
Example C82_case : exists fd f, fracDAG twoWays = Ok fd /\ InE fd 0 4 f /\ fracAltCount f = 2%nat /\ fracEndPos f = -1 /\
  exists cd g, fracDAG crossing = Ok cd /\ InE cd 2 3 g /\ fracAltCount g = 1%nat /\ fracEndPos g = 3 /\
    exists l, fracLattice cd = Ok l /\ map (map fracEndPos) l = [[1]; [1]; [2]].
Proof.
  eexists. eexists. split; [vm_compute; reflexivity|]. split; [left; reflexivity|]. split; [reflexivity|]. split; [reflexivity|].
  eexists. eexists. split; [vm_compute; reflexivity|]. split; [do 4 right; left; reflexivity|]. split; [reflexivity|]. split; [reflexivity|].
  eexists. split; vm_compute; reflexivity.
Qed.
