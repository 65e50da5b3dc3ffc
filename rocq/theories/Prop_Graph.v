(** Prop_Graph.v - property theorems C08-C14: graph edits, enumeration of the
    paths, grouping into a lattice, graphs built from lists of strings. *)
From Coq Require Import List ZArith Bool Lia Permutation.
From Verif Require Import Base ThCons Syl Lattice Dag PronDag Spec OrderProofs DagProofs
  PathProofs LatticeProofs GroupProofs ListDagProofs.
Import ListNotations.
Local Open Scope Z_scope.

(** Values of edges are compared by an equivalence relation. *)
Record Equiv {T} (veqb : T -> T -> bool) : Prop := {
  eqv_refl : forall x, veqb x x = true;
  eqv_sym : forall x y, veqb x y = true -> veqb y x = true;
  eqv_trans : forall x y z, veqb x y = true -> veqb y z = true -> veqb x z = true
}.
Lemma syl_equiv : Equiv syl_eqb.
Proof. split; [apply syl_eqb_refl|apply syl_eqb_sym|apply syl_eqb_trans]. Qed.
Lemma frac_equiv : Equiv frac_eqb.
Proof. split; [apply frac_eqb_refl|apply frac_eqb_sym|apply frac_eqb_trans]. Qed.

(** ** Edit histories and the mathematical edge set they stand for *)
Section History.
Variable T : Type.
Variable veqb : T -> T -> bool.
Definition EdgeSet := Z -> Z -> T -> Prop.
Inductive History : DAG T -> EdgeSet -> Prop :=
| H_empty : History dagEmpty (fun _ _ _ => False)
| H_add d S f t v : History d S ->
    History (fst (addEdge veqb d f t v))
            (fun a b w => S a b w \/ (a = f /\ b = t /\ veqb v w = true))
| H_remove d S f t v : History d S ->
    History (fst (removeEdge veqb d f t v))
            (fun a b w => S a b w /\ ~ (a = f /\ b = t /\ veqb v w = true))
| H_removeDirect d S f t : History d S ->
    History (fst (removeDirectEdges d f t))
            (fun a b w => S a b w /\ ~ (a = f /\ b = t))
| H_union d S d' S' : History d S -> History d' S' ->
    History (unionDAG veqb d d') (fun a b w => S a b w \/ S' a b w).
End History.
Arguments History {T}.

Section HistoryProofs.
Variable T : Type.
Variable veqb : T -> T -> bool.
Hypothesis E : Equiv veqb.
Let R := eqv_refl _ E. Let Sy := eqv_sym _ E. Let Tr := eqv_trans _ E.
Lemma history_dwf (d : DAG T) S : History veqb d S -> dwf veqb d /\ forall f t v, Has veqb d f t v <-> S f t v.
Proof.
  induction 1 as [|d S f t v H [W I]|d S f t v H [W I]|d S f t H [W I]|d S d' S' H [W I] H' [W' I']].
  - split; [apply dwf_empty|]. intros f t v. split; [intros (w & [] & _)|tauto].
  - split; [apply add_dwf; auto|]. intros a b w. rewrite add_Has; auto. rewrite I. tauto.
  - split; [apply remove_dwf; auto|]. intros a b w. rewrite remove_Has; auto. rewrite I. tauto.
  - split; [apply rd_dwf; auto|]. intros a b w. rewrite rd_Has; auto. rewrite I. tauto.
  - split; [apply union_dwf; auto|]. intros a b w. rewrite union_Has; auto. rewrite I, I'. tauto.
Qed.
Lemma nodup_index (d : DAG T) : dwf veqb d ->
  forall i j x y, nth_error (edgesF d) i = Some x -> nth_error (edgesF d) j = Some y -> i <> j -> ~ sameE veqb x y.
Proof.
  intros W. pose proof (dwf_nodup _ _ _ W) as F. revert F. generalize (edgesF d).
  induction l as [|a l IH]; intros F i j x y Hi Hj N; [destruct i; discriminate|].
  inversion F as [|a' l' F1 F2]; subst. rewrite Forall_forall in F1.
  destruct i as [|i], j as [|j]; simpl in *; try congruence.
  - injection Hi as ->. apply F1. eapply nth_error_In; eauto.
  - injection Hj as ->. intros Q. apply sameE_sym in Q; auto. revert Q. apply F1. eapply nth_error_In; eauto.
  - eapply IH; eauto.
Qed.
End HistoryProofs.

(** ** C08 *)
Lemma C08_lemma T (veqb : T -> T -> bool) (d : DAG T) (S : EdgeSet T) :
  Equiv veqb -> History veqb d S ->
  (* the incoming view is the mirror of the outgoing view, with multiplicity *)
  Permutation (edgesF d) (edgesT d) /\
  (forall n e, In e (outEdges d n) <-> In (mkEdge n (edgeVal e)) (inEdges d (target e))) /\
  (* no edge is stored twice *)
  (forall i j x y, nth_error (edgesF d) i = Some x -> nth_error (edgesF d) j = Some y ->
     i <> j -> ~ sameE veqb x y) /\
  (* degrees count stored edges *)
  (forall n, outDegree d n = length (filter (fun x => fst (fst x) =? n) (edgesF d))) /\
  (forall n, inDegree d n = length (filter (fun x => snd (fst x) =? n) (edgesF d))) /\
  (* the graph is the set obtained by the same operations *)
  (forall f t v, isEdgeExist veqb d f t v = true <-> S f t v) /\
  (forall f t v, (exists e, In e (outEdges d f) /\ target e = t /\ veqb (edgeVal e) v = true) <-> S f t v) /\
  (forall f t v, (exists e, In e (inEdges d t) /\ target e = f /\ veqb (edgeVal e) v = true) <-> S f t v).
Proof.
  intros E H. destruct (history_dwf T veqb E d S H) as [W I].
  split; [apply (dwf_mirror _ _ _ W)|]. split; [|split; [|split; [|split; [|split; [|split]]]]].
  - intros n e. rewrite out_InE, (in_InE T veqb); auto. simpl. tauto.
  - apply nodup_index; auto.
  - apply outDegree_count.
  - intros n. apply (inDegree_count T veqb); auto.
  - intros f t v. rewrite exist_Has. apply I.
  - intros f t v. rewrite <- I. split.
    + intros (e & O & <- & V). apply out_InE in O. exists (edgeVal e). auto.
    + intros (w & O & V). exists (mkEdge t w). rewrite out_InE. auto.
  - intros f t v. rewrite <- I. split.
    + intros (e & O & <- & V). apply (in_InE T veqb) in O; auto. exists (edgeVal e). auto.
    + intros (w & O & V). exists (mkEdge f w). rewrite (in_InE T veqb); auto.
Qed.
Theorem C08_indexes_consistent T (veqb : T -> T -> bool) (d : DAG T) (S : EdgeSet T) :
  Equiv veqb -> History veqb d S ->
  Permutation (edgesF d) (edgesT d) /\
  (forall n e, In e (outEdges d n) <-> In (mkEdge n (edgeVal e)) (inEdges d (target e))) /\
  (forall i j x y, nth_error (edgesF d) i = Some x -> nth_error (edgesF d) j = Some y ->
     i <> j -> ~ sameE veqb x y) /\
  (forall n, outDegree d n = length (filter (fun x => fst (fst x) =? n) (edgesF d))) /\
  (forall n, inDegree d n = length (filter (fun x => snd (fst x) =? n) (edgesF d))) /\
  (forall f t v, isEdgeExist veqb d f t v = true <-> S f t v) /\
  (forall f t v, (exists e, In e (outEdges d f) /\ target e = t /\ veqb (edgeVal e) v = true) <-> S f t v) /\
  (forall f t v, (exists e, In e (inEdges d t) /\ target e = f /\ veqb (edgeVal e) v = true) <-> S f t v).
Proof. exact (C08_lemma T veqb d S). Qed.
Print Assumptions C08_indexes_consistent.

(** A history exercising every operation, with edge values compared modulo 10:
    add 3:0->1, add 13:0->1 (refused), add 4:0->1, add 5:1->2, remove 15:1->2,
    union with {7:2->2, 24:0->1}, removeDirect 2->2. *)
Definition ex_eqb (a b : Z) : bool := a mod 10 =? b mod 10.
Lemma ex_equiv : Equiv ex_eqb.
Proof.
  unfold ex_eqb. split; intros.
  - apply Z.eqb_refl.
  - rewrite Z.eqb_eq in *. auto.
  - rewrite Z.eqb_eq in *. congruence.
Qed.
Definition ex_d1 := fst (addEdge ex_eqb (fst (addEdge ex_eqb (fst (addEdge ex_eqb (fst (addEdge ex_eqb
   dagEmpty 0 1 3)) 0 1 13)) 0 1 4)) 1 2 5).
Definition ex_d2 := fst (addEdge ex_eqb (fst (addEdge ex_eqb dagEmpty 2 2 7)) 0 1 24).
Definition ex_d := fst (removeDirectEdges (unionDAG ex_eqb (fst (removeEdge ex_eqb ex_d1 1 2 15)) ex_d2) 2 2).
Example C08_case : Equiv ex_eqb /\ (exists S, History ex_eqb ex_d S) /\
  edgesF ex_d1 = [(0, 1, 3); (0, 1, 4); (1, 2, 5)] /\ edgesF ex_d = [(0, 1, 3); (0, 1, 4)].
Proof.
  split; [exact ex_equiv|]. split; [|split; reflexivity].
  eexists. apply H_removeDirect. apply H_union; [apply H_remove|]; repeat apply H_add; apply H_empty.
Qed.

(** ** C09 *)
Lemma C09_lemma T (veqb : T -> T -> bool) (d : DAG T) (S : EdgeSet T) :
  Equiv veqb -> History veqb d S ->
  (* return values *)
  (forall f t v, snd (addEdge veqb d f t v) = true <-> ~ S f t v) /\
  (forall f t v, snd (removeEdge veqb d f t v) = true <-> S f t v) /\
  (forall f t, snd (removeDirectEdges d f t) = true <-> exists v, S f t v) /\
  (* a refused operation changes nothing *)
  (forall f t v, snd (addEdge veqb d f t v) = false -> fst (addEdge veqb d f t v) = d) /\
  (forall f t v, snd (removeEdge veqb d f t v) = false -> fst (removeEdge veqb d f t v) = d) /\
  (* frame: the stored edges other than the one concerned are exactly kept *)
  (forall f t v, S f t v \/ Permutation (edgesF (fst (addEdge veqb d f t v))) ((f, t, v) :: edgesF d)) /\
  (forall f t v, S f t v -> exists v', veqb v' v = true /\
     Permutation (edgesF d) ((f, t, v') :: edgesF (fst (removeEdge veqb d f t v)))) /\
  (forall f t a b w, InE (fst (removeDirectEdges d f t)) a b w <-> InE d a b w /\ ~ (a = f /\ b = t)).
Proof.
  intros E H. destruct (history_dwf T veqb E d S H) as [W I].
  pose proof (eqv_refl _ E) as R. pose proof (eqv_sym _ E) as Sy. pose proof (eqv_trans _ E) as Tr.
  split; [|split; [|split; [|split; [|split; [|split; [|split]]]]]].
  - intros f t v. rewrite add_ret, I. tauto.
  - intros f t v. rewrite remove_ret, I; auto. tauto.
  - intros f t. rewrite (rd_ret T veqb); auto. split.
    + intros (v & O). exists v. apply I. exists v. auto.
    + intros (v & O). apply I in O. destruct O as (w & O & _). eauto.
  - intros f t v. unfold addEdge. destruct (isEdgeExist veqb d f t v); simpl; auto. discriminate.
  - intros f t v F. destruct (remove_spec T veqb Sy Tr d f t v W) as [X Y].
    destruct (Has_dec T veqb d f t v) as [Q|Q].
    + destruct (X Q) as (w & _ & _ & _ & _ & Z). congruence.
    + rewrite (Y Q). auto.
  - intros f t v. destruct (Has_dec T veqb d f t v) as [Q|Q]; [left; apply I; auto|right].
    apply add_edges; auto. 
  - intros f t v Q. apply I in Q. destruct (remove_spec T veqb Sy Tr d f t v W) as [X _].
    destruct (X Q) as (w & _ & V & P & _). eauto.
  - intros f t a b w. apply rd_InE.
Qed.
Theorem C09_edit_results T (veqb : T -> T -> bool) (d : DAG T) (S : EdgeSet T) :
  Equiv veqb -> History veqb d S ->
  (forall f t v, snd (addEdge veqb d f t v) = true <-> ~ S f t v) /\
  (forall f t v, snd (removeEdge veqb d f t v) = true <-> S f t v) /\
  (forall f t, snd (removeDirectEdges d f t) = true <-> exists v, S f t v) /\
  (forall f t v, snd (addEdge veqb d f t v) = false -> fst (addEdge veqb d f t v) = d) /\
  (forall f t v, snd (removeEdge veqb d f t v) = false -> fst (removeEdge veqb d f t v) = d) /\
  (forall f t v, S f t v \/ Permutation (edgesF (fst (addEdge veqb d f t v))) ((f, t, v) :: edgesF d)) /\
  (forall f t v, S f t v -> exists v', veqb v' v = true /\
     Permutation (edgesF d) ((f, t, v') :: edgesF (fst (removeEdge veqb d f t v)))) /\
  (forall f t a b w, InE (fst (removeDirectEdges d f t)) a b w <-> InE d a b w /\ ~ (a = f /\ b = t)).
Proof. exact (C09_lemma T veqb d S). Qed.
Print Assumptions C09_edit_results.

(** Union, compared as edge sets. *)
Lemma C09_union_lemma T (veqb : T -> T -> bool) : Equiv veqb ->
  forall a b c f t v,
  let ex d := isEdgeExist veqb d f t v in
  ex (unionDAG veqb a b) = ex a || ex b /\
  ex (unionDAG veqb a a) = ex a /\
  ex (unionDAG veqb a b) = ex (unionDAG veqb b a) /\
  ex (unionDAG veqb (unionDAG veqb a b) c) = ex (unionDAG veqb a (unionDAG veqb b c)).
Proof.
  intros E a b c f t v ex.
  assert (forall x y, ex (unionDAG veqb x y) = ex x || ex y) as U.
  { intros x y. apply eq_true_iff_eq. unfold ex. rewrite orb_true_iff, !exist_Has.
    apply union_Has; destruct E; auto. }
  rewrite !U. destruct (ex a), (ex b), (ex c); auto.
Qed.
Theorem C09_union_laws T (veqb : T -> T -> bool) : Equiv veqb ->
  forall a b c f t v,
  let ex d := isEdgeExist veqb d f t v in
  ex (unionDAG veqb a b) = ex a || ex b /\
  ex (unionDAG veqb a a) = ex a /\
  ex (unionDAG veqb a b) = ex (unionDAG veqb b a) /\
  ex (unionDAG veqb (unionDAG veqb a b) c) = ex (unionDAG veqb a (unionDAG veqb b c)).
Proof. exact (C09_union_lemma T veqb). Qed.
Print Assumptions C09_union_laws.
Example C09_case :
  snd (addEdge ex_eqb ex_d1 0 1 13) = false /\ snd (addEdge ex_eqb ex_d1 0 1 6) = true /\
  snd (removeEdge ex_eqb ex_d1 1 2 15) = true /\ snd (removeEdge ex_eqb ex_d1 2 1 15) = false /\
  edgesF (unionDAG ex_eqb ex_d1 ex_d2) = [(0, 1, 3); (0, 1, 4); (1, 2, 5); (2, 2, 7)] /\
  edgesF (unionDAG ex_eqb ex_d2 ex_d1) = [(0, 1, 24); (0, 1, 3); (1, 2, 5); (2, 2, 7)].
Proof. vm_compute. auto 10. Qed.

(** ** A sample pronunciation graph
    0 -> 2 (ka | na), 2 -> 4 (lit), 4 -> 6 (ka), and 0 -> 6 (na). *)
Definition gKa (pos : Z) : Syl := SylOf KA SEC_NONE V_AA EC_NONE SAMAN pos.
Definition gNa (pos : Z) : Syl := SylOf NA SEC_NONE V_A KOK EK pos.
Definition gLit (pos : Z) : Syl := SylLiteral pos [65%N].
Definition sample : PronunDAG :=
  let a d f t v := fst (pAddEdge d f t v) in
  a (a (a (a (a dagEmpty 0 2 (gKa 2)) 0 2 (gNa 2)) 2 4 (gLit 4)) 4 6 (gKa 6)) 0 6 (gNa 6).
Lemma sample_up x y v : InE sample x y v -> x < y.
Proof. intros H. vm_compute in H. repeat (destruct H as [H|H]; [injection H as <- <- <-; lia|]). destruct H. Qed.
Lemma sample_acyclic : Acyclic sample.
Proof. apply rank_acyclic with (rk := fun x => x). apply sample_up. Qed.
Lemma sample_start x v : ~ InE sample x 0 v.
Proof. intros H. vm_compute in H. repeat (destruct H as [H|H]; [injection H; intros; subst; discriminate|]). destruct H. Qed.
Lemma sample_history : exists S, History syl_eqb sample S.
Proof. eexists. unfold sample, pAddEdge. repeat apply H_add. apply H_empty. Qed.

(** ** C10 *)
Lemma C10_lemma (d : PronunDAG) (S : EdgeSet Syl) (root : Z) :
  History syl_eqb d S -> Acyclic d ->
  exists paths, NoDup paths /\
    (forall p, In p paths <-> p <> [] /\ MaxPath d root p) /\
    DAGSylStrings d root = Ok (map (map edgeVal) paths).
Proof.
  intros H A. destruct (history_dwf _ _ syl_equiv _ _ H) as [W _].
  destruct (DAGSylStrings_spec d root A) as (paths & E & L & C).
  exists paths. split; [|split]; auto.
  eapply enumP_NoDup; [|exact E]. intros k. apply (out_nodup syl_eqb syl_eqb_refl). exact W.
Qed.
Theorem C10_flat_enumeration (d : PronunDAG) (S : EdgeSet Syl) (root : Z) :
  History syl_eqb d S -> Acyclic d ->
  exists paths, NoDup paths /\
    (forall p, In p paths <-> p <> [] /\ MaxPath d root p) /\
    DAGSylStrings d root = Ok (map (map edgeVal) paths).
Proof. exact (C10_lemma d S root). Qed.
Print Assumptions C10_flat_enumeration.
Example C10_case : (exists S, History syl_eqb sample S) /\ Acyclic sample /\
  DAGSylStrings sample 0 =
    Ok [[gKa 2; gLit 4; gKa 6]; [gNa 2; gLit 4; gKa 6]; [gNa 6]].
Proof. split; [apply sample_history|]. split; [apply sample_acyclic|reflexivity]. Qed.

(** ** C11 *)
(** The grouped result of a graph, as GroupedJSONOutput uses it. *)
Definition grouped (d : PronunDAG) : Res PronunLatt := bind (fracDAG d) fracLattice.
Lemma C11_lemma (d : PronunDAG) : Acyclic d -> (forall x v, ~ InE d x 0 v) ->
  exists l flat, grouped d = Ok l /\ DAGSylStrings d 0 = Ok flat /\
    (forall s, (exists c, In c l /\ exists s', ChainDen c s' /\ str_eqb s' s = true) <->
               (exists s', In s' flat /\ str_eqb s' s = true)).
Proof.
  intros A N. destruct (fracDAG_ok d A) as (fd & E & P & _ & L).
  destruct (L N) as [L1 _]. destruct (fracLattice_ok fd (p_acy _ P)) as (l & E2 & L2 & _).
  destruct (DAGSylStrings_spec d 0 A) as (paths & _ & E3 & C).
  exists l, (map (map edgeVal) paths). unfold grouped. rewrite E. cbv beta iota delta [bind].
  split; [exact E2|]. split; [exact E3|]. intros s.
  assert (LEq (PLang d) (LDen l)) as Q by (eapply LEq_trans; eauto).
  specialize (Q s). unfold upTo, PLang, LDen in Q. split.
  - intros (c & I & s' & D & V). apply str_eqb_spoken in V.
    destruct Q as [_ Q]. destruct Q as (s2 & (p & Np & M & ->) & V2).
    { exists s'. split; [exists c; auto|exact V]. }
    exists (map edgeVal p). split; [|apply str_eqb_spoken; exact V2].
    apply in_map. apply C. auto.
  - intros (s' & I & V). apply in_map_iff in I. destruct I as (p & <- & I). apply C in I.
    apply str_eqb_spoken in V. destruct Q as [Q _]. destruct Q as (s2 & (c & Ic & D) & V2).
    { exists (map edgeVal p). split; [exists p; tauto|exact V]. }
    exists c. split; [exact Ic|]. exists s2. split; [exact D|]. apply str_eqb_spoken. exact V2.
Qed.
Theorem C11_grouping_preserves (d : PronunDAG) : Acyclic d -> (forall x v, ~ InE d x 0 v) ->
  exists l flat, grouped d = Ok l /\ DAGSylStrings d 0 = Ok flat /\
    (forall s, (exists c, In c l /\ exists s', ChainDen c s' /\ str_eqb s' s = true) <->
               (exists s', In s' flat /\ str_eqb s' s = true)).
Proof. exact (C11_lemma d). Qed.
Print Assumptions C11_grouping_preserves.
Example C11_case : Acyclic sample /\ (forall x v, ~ InE sample x 0 v) /\
  match grouped sample with
  | Ok l => map (map alts) l = [[ [[gNa 6]] ]; [ [[gKa 2]; [gNa 2]] ; [[gLit 4; gKa 6]] ]]
  | _ => False
  end.
Proof. split; [apply sample_acyclic|]. split; [apply sample_start|]. vm_compute. reflexivity. Qed.
(** The condition on the start node is needed: with an edge into 0 the
    series merge swallows the start node and the grouped result is empty. *)
Theorem C11_start_needed :
  exists d, Acyclic d /\ grouped d = Ok [] /\ DAGSylStrings d 0 = Ok [[gKa 2]].
Proof.
  exists (fst (pAddEdge (fst (pAddEdge dagEmpty 0 2 (gKa 2))) (-1) 0 (gNa 0))).
  split; [|split; vm_compute; reflexivity].
  apply rank_acyclic with (rk := fun x => x). intros x y v H. vm_compute in H.
  destruct H as [H|[H|[]]]; injection H as <- <- <-; lia.
Qed.
Print Assumptions C11_start_needed.

(** ** C12 *)
Lemma C12_lemma (d : PronunDAG) : Acyclic d ->
  exists fd l, fracDAG d = Ok fd /\ fracLattice fd = Ok l.
Proof.
  intros A. destruct (fracDAG_ok d A) as (fd & E & P & _).
  destruct (fracLattice_ok fd (p_acy _ P)) as (l & E2 & _). exists fd, l. auto.
Qed.
(** Neither undefined behaviour ([UB]) nor exhaustion of the loop bound
    ([NoFuel]) nor an exception. *)
Theorem C12_grouping_safe (d : PronunDAG) : Acyclic d ->
  exists fd l, fracDAG d = Ok fd /\ fracLattice fd = Ok l.
Proof. exact (C12_lemma d). Qed.
Print Assumptions C12_grouping_safe.
Theorem C12_self_loop_refuted : exists d, fracDAG d = UB.
Proof. exists (fst (pAddEdge dagEmpty 5 5 (gKa 5))). vm_compute. reflexivity. Qed.
Print Assumptions C12_self_loop_refuted.
Example C12_case : Acyclic sample /\ exists fd, fracDAG sample = Ok fd /\ length (mFrom fd) = 3%nat.
Proof. split; [apply sample_acyclic|]. eexists. split; vm_compute; reflexivity. Qed.

(** ** C13 *)
Lemma C13_lemma (d : PronunDAG) : Acyclic d ->
  exists fd l, fracDAG d = Ok fd /\ fracLattice fd = Ok l /\
    NoParallel fd /\ (forall c, In c l -> noAdjSingles c) /\
    (forall c f, In c l -> In f c -> alts f <> []) /\
    (forall x y f, InE fd x y f -> Sorted.StronglySorted strLt (alts f)).
Proof.
  intros A. destruct (fracDAG_ok d A) as (fd & E & P & NP & _).
  destruct (fracLattice_ok fd (p_acy _ P)) as (l & E2 & _ & NA & _ & C).
  exists fd, l. split; [exact E|]. split; [exact E2|]. split; [exact NP|]. split; [exact NA|]. split.
  - intros c f Ic If. destruct (C c Ic) as (p & _ & (m & Pa & _) & ->).
    assert (forall g, In g (map edgeVal p) -> alts g <> []) as NE.
    { clear - Pa P. induction Pa as [n|n e p m He Hp IH]; simpl; [tauto|].
      intros g [<-|I]; auto. apply out_InE in He. apply (p_alts _ P) in He. tauto. }
    revert If. unfold chainMergeSingles.
    assert (forall c0 cur, (forall g, In g c0 -> alts g <> []) ->
              (forall g, cur = Some g -> alts g <> []) ->
              forall g, In g (mergeFrom cur c0) -> alts g <> []) as G.
    { clear. induction c0 as [|h c0 IH]; intros cur H1 H2 g; simpl.
      - destruct cur as [f|]; simpl; [intros [<-|[]]; auto|tauto].
      - destruct cur as [f|]; destruct (alts h) as [|s [|s' r]] eqn:Eh; simpl.
        + intros [<-|[<-|I]]; auto. { apply H1; left; auto. } revert I. apply IH; auto. { intros; apply H1; right; auto. } discriminate.
        + apply IH; auto. { intros; apply H1; right; auto. } intros g' [= <-]. specialize (H2 f eq_refl).
          unfold altsAppendFirst. destruct (alts f); simpl; congruence.
        + intros [<-|[<-|I]]; auto. { congruence. } revert I. apply IH; auto. { intros; apply H1; right; auto. } discriminate.
        + intros [<-|I]; auto. { apply H1; left; auto. } revert I. apply IH; auto. { intros; apply H1; right; auto. }
        + apply IH; auto. { intros; apply H1; right; auto. } intros g' [= <-]. congruence.
        + intros [<-|I]; auto. { congruence. } revert I. apply IH; auto. { intros; apply H1; right; auto. } }
    apply G; auto. discriminate.
  - apply (p_sorted _ P).
Qed.
Theorem C13_grouping_reduced (d : PronunDAG) : Acyclic d ->
  exists fd l, fracDAG d = Ok fd /\ fracLattice fd = Ok l /\
    NoParallel fd /\ (forall c, In c l -> noAdjSingles c) /\
    (forall c f, In c l -> In f c -> alts f <> []) /\
    (forall x y f, InE fd x y f -> Sorted.StronglySorted strLt (alts f)).
Proof. exact (C13_lemma d). Qed.
Print Assumptions C13_grouping_reduced.
Example C13_case : Acyclic sample /\ between sample 0 2 = 2%nat /\
  match fracDAG sample with Ok fd => between fd 0 2 = 1%nat /\ between fd 2 6 = 1%nat | _ => False end.
Proof. split; [apply sample_acyclic|]. vm_compute. auto. Qed.

(** ** C14 *)
Lemma C14_lemma (l : list SylString) (N : Z) : (forall s, In s l -> wellPositioned N s) ->
  exists flat, DAGSylStrings (pronDAGOfList l) 0 = Ok flat /\
    (forall s, In s l -> exists s', In s' flat /\ str_eqb s' s = true) /\
    ((forall s t p, In s l -> In t l -> In p (interior s) -> In p (interior t) -> s = t) ->
     forall s, In s flat -> In s l).
Proof.
  intros H. destruct (ofList_acyclic l N H) as (A & _ & _).
  destruct (DAGSylStrings_spec (pronDAGOfList l) 0 A) as (paths & _ & E & C).
  exists (map (map edgeVal) paths). split; [exact E|]. split.
  - intros s Hs. destruct (ofList_contains l N H s Hs) as (s' & (p & Np & M & ->) & V).
    exists (map edgeVal p). split; [apply in_map; apply C; auto|]. apply str_eqb_spoken. exact V.
  - intros U s Hs. apply in_map_iff in Hs. destruct Hs as (p & <- & I). apply C in I.
    eapply ofList_exact; eauto. exists p. tauto.
Qed.
Theorem C14_list_graph (l : list SylString) (N : Z) : (forall s, In s l -> wellPositioned N s) ->
  exists flat, DAGSylStrings (pronDAGOfList l) 0 = Ok flat /\
    (forall s, In s l -> exists s', In s' flat /\ str_eqb s' s = true) /\
    ((forall s t p, In s l -> In t l -> In p (interior s) -> In p (interior t) -> s = t) ->
     forall s, In s flat -> In s l).
Proof. exact (C14_lemma l N). Qed.
Print Assumptions C14_list_graph.
(** Strings sharing an interior position generate mixtures. *)
Theorem C14_mixing_refuted :
  exists l N flat s, (forall s, In s l -> wellPositioned N s) /\
    DAGSylStrings (pronDAGOfList l) 0 = Ok flat /\ In s flat /\
    (forall s', In s' l -> str_eqb s' s = false).
Proof.
  exists [[gKa 1; gNa 2]; [gNa 1; gKa 2]], 2.
  eexists. exists [gKa 1; gKa 2]. split; [|split; [vm_compute; reflexivity|split]].
  - intros s [<-|[<-|[]]]; (split; [discriminate|]); split; try reflexivity; simpl; unfold nodeRank; simpl; lia.
  - vm_compute. auto.
  - intros s' [<-|[<-|[]]]; reflexivity.
Qed.
Print Assumptions C14_mixing_refuted.
Example C14_case :
  let l := [[gKa (preNode 0 2); gNa 2; gKa 4]; [gNa 3; gKa 4]] in
  (forall s, In s l -> wellPositioned 4 s) /\
  (forall s t p, In s l -> In t l -> In p (interior s) -> In p (interior t) -> s = t) /\
  DAGSylStrings (pronDAGOfList l) 0 = Ok l.
Proof.
  simpl. split; [|split; [|vm_compute; reflexivity]].
  - intros s [<-|[<-|[]]]; (split; [discriminate|]); split; try reflexivity; simpl; unfold nodeRank, preNode; simpl; lia.
  - intros s t p [<-|[<-|[]]] [<-|[<-|[]]]; auto; vm_compute; intuition congruence.
Qed.
