(** DagProofs.v - the two indexes of a graph and their refinement to a set. *)
From Coq Require Import List ZArith Bool Lia Permutation Sorted.
From Verif Require Import Spec Base Dag.
Import ListNotations.
Local Open Scope Z_scope.

Section DagProofs.
Variable T : Type.
Variable veqb : T -> T -> bool.
Hypothesis veqb_refl : forall x, veqb x x = true.
Hypothesis veqb_sym : forall x y, veqb x y = true -> veqb y x = true.
Hypothesis veqb_trans : forall x y z, veqb x y = true -> veqb y z = true -> veqb x z = true.

Notation DAGT := (DAG T).
Notation MMapT := (MMap T).
Local Notation sameE := (Spec.sameE veqb).
Local Notation Has := (Spec.Has veqb).
Local Notation direct := (Spec.direct T).


Record dwf (d : DAGT) : Prop := {
  dwf_mirror : Permutation (edgesF d) (edgesT d);
  dwf_nodup : ForallOrdPairs (fun x y => ~ sameE x y) (edgesF d);
  dwf_sortF : StronglySorted Z.le (map fst (mFrom d));
  dwf_sortT : StronglySorted Z.le (map fst (mTo d))
}.


Lemma sameE_sym x y : sameE x y -> sameE y x.
Proof. intros [H1 H2]. split; auto. Qed.

Lemma FOP_perm (l l' : list (Z * Z * T)) :
  Permutation l l' ->
  ForallOrdPairs (fun x y => ~ sameE x y) l -> ForallOrdPairs (fun x y => ~ sameE x y) l'.
Proof.
  induction 1; intros H1; auto.
  - inversion H1; subst. constructor; auto. eapply Permutation_Forall; eauto.
  - inversion H1; subst. inversion H3; subst. inversion H2; subst.
    repeat constructor; auto.
    intros Hs. apply sameE_sym in Hs. auto.
Qed.

Lemma FOP_unique l : ForallOrdPairs (fun x y => ~ sameE x y) l ->
  forall x y, In x l -> In y l -> sameE x y -> x = y.
Proof.
  induction 1 as [|a l Ha Hl IH]; simpl; [tauto|].
  rewrite Forall_forall in Ha.
  intros x y [->|Hx] [->|Hy] Hs; auto.
  - exfalso. eapply Ha; eauto.
  - exfalso. eapply Ha; eauto. apply sameE_sym; auto.
Qed.

Lemma FOP_NoDup l : ForallOrdPairs (fun x y => ~ sameE x y) l -> NoDup l.
Proof.
  induction 1 as [|a l Ha Hl IH]; constructor; auto.
  intros Hin. rewrite Forall_forall in Ha. apply (Ha a Hin). split; auto.
Qed.

Lemma FOP_app_inv (l1 l2 : list (Z * Z * T)) a :
  ForallOrdPairs (fun x y => ~ sameE x y) (l1 ++ a :: l2) ->
  ForallOrdPairs (fun x y => ~ sameE x y) (l1 ++ l2).
Proof.
  intros H. apply (FOP_perm _ (a :: l1 ++ l2)) in H.
  - inversion H; auto.
  - apply Permutation_sym, Permutation_middle.
Qed.

Lemma FOP_filter (l : list (Z * Z * T)) g :
  ForallOrdPairs (fun x y => ~ sameE x y) l ->
  ForallOrdPairs (fun x y => ~ sameE x y) (filter g l).
Proof.
  induction 1 as [|a l Ha Hl IH]; simpl; [constructor|].
  destruct (g a); auto. constructor; auto.
  rewrite Forall_forall in *. intros x Hx. apply filter_In in Hx. apply Ha. tauto.
Qed.

(** ** Multimap lemmas *)
Lemma emplace_perm (m : MMapT) k e : Permutation (mmEmplace m k e) ((k, e) :: m).
Proof.
  induction m as [|[k' e'] m IH]; simpl; auto.
  destruct (k <? k'); auto.
  rewrite IH. constructor.
Qed.

Lemma emplace_in (m : MMapT) k e p : In p (mmEmplace m k e) <-> p = (k, e) \/ In p m.
Proof.
  split; intros H.
  - eapply Permutation_in in H; [|apply emplace_perm]. destruct H; auto.
  - eapply Permutation_in; [apply Permutation_sym, emplace_perm|]. destruct H; [left|right]; auto.
Qed.

Lemma emplace_sorted (m : MMapT) k e :
  StronglySorted Z.le (map fst m) -> StronglySorted Z.le (map fst (mmEmplace m k e)).
Proof.
  induction m as [|[k' e'] m IH]; simpl; intros H.
  - repeat constructor.
  - inversion H; subst. destruct (Z.ltb_spec k k'); simpl.
    + constructor; auto. constructor; [lia|]. rewrite Forall_forall in *. intros x Hx.
      apply H3 in Hx. lia.
    + constructor; auto. rewrite Forall_forall in *. intros x Hx.
      apply in_map_iff in Hx. destruct Hx as (p & <- & Hp). apply emplace_in in Hp.
      destruct Hp as [->|Hp]; simpl; [lia|]. apply H3. apply in_map; auto.
Qed.

Lemma in_range (m : MMapT) k e : In e (mmRange m k) <-> In (k, e) m.
Proof.
  unfold mmRange. rewrite in_map_iff. split.
  - intros ([k' e'] & <- & H). apply filter_In in H. simpl in *. destruct H as [H1 H2].
    apply Z.eqb_eq in H2. subst. auto.
  - intros H. exists (k, e). split; auto. apply filter_In. simpl. rewrite Z.eqb_refl. auto.
Qed.

Lemma sorted_remove (m1 m2 : MMapT) x :
  StronglySorted Z.le (map fst (m1 ++ x :: m2)) -> StronglySorted Z.le (map fst (m1 ++ m2)).
Proof.
  induction m1 as [|a m1 IH]; simpl; intros H; inversion H; subst; auto.
  constructor; auto. rewrite Forall_forall in *. intros y Hy. apply H3.
  rewrite map_app, in_app_iff in *. simpl. tauto.
Qed.

Lemma sorted_filter (m : MMapT) g :
  StronglySorted Z.le (map fst m) -> StronglySorted Z.le (map fst (filter g m)).
Proof.
  induction m as [|a m IH]; simpl; intros H; inversion H; subst; [constructor|].
  destruct (g a); simpl; auto. constructor; auto.
  rewrite Forall_forall in *. intros y Hy. apply H3.
  apply in_map_iff in Hy. destruct Hy as (p & <- & Hp). apply filter_In in Hp.
  apply in_map. tauto.
Qed.

Lemma eraseFirst_true (m m' : MMapT) k t v :
  mmEraseFirst veqb m k t v = (m', true) ->
  exists m1 e m2, m = m1 ++ (k, e) :: m2 /\ m' = m1 ++ m2 /\ target e = t /\
                  veqb (edgeVal e) v = true.
Proof.
  revert m'. induction m as [|[k' e'] m IH]; simpl; intros m' H; [discriminate|].
  destruct ((k' =? k) && ((target e' =? t) && veqb (edgeVal e') v)) eqn:E.
  - injection H as <-. apply andb_true_iff in E. destruct E as [E1 E2].
    apply andb_true_iff in E2. destruct E2 as [E2 E3].
    apply Z.eqb_eq in E1, E2. subst. exists [], e', m. auto.
  - destruct (mmEraseFirst veqb m k t v) as [r b] eqn:Er. injection H as <- ->.
    destruct (IH _ eq_refl) as (m1 & e & m2 & -> & -> & H3 & H4).
    exists ((k', e') :: m1), e, m2. auto.
Qed.

Lemma eraseFirst_false (m m' : MMapT) k t v :
  mmEraseFirst veqb m k t v = (m', false) ->
  m' = m /\ forall e, In (k, e) m -> target e = t -> veqb (edgeVal e) v = true -> False.
Proof.
  revert m'. induction m as [|[k' e'] m IH]; simpl; intros m' H.
  - injection H as <-. split; auto.
  - destruct ((k' =? k) && ((target e' =? t) && veqb (edgeVal e') v)) eqn:E; [discriminate|].
    destruct (mmEraseFirst veqb m k t v) as [r b] eqn:Er. injection H as <- ->.
    destruct (IH _ eq_refl) as [-> H2]. split; auto.
    intros e [He|He] Ht Hv.
    + injection He as -> ->. rewrite Z.eqb_refl, Hv in E. subst t.
      rewrite Z.eqb_refl in E. discriminate.
    + eauto.
Qed.

(** ** Edges *)
Lemma InE_mFrom (d : DAGT) f t v : InE d f t v <-> In (f, mkEdge t v) (mFrom d).
Proof.
  unfold InE, edgesF. rewrite in_map_iff. split.
  - intros ([k [t' v']] & H & Hin). unfold fwd in H; simpl in H. injection H as <- <- <-. auto.
  - intros H. exists (f, mkEdge t v). auto.
Qed.

Lemma InE_mTo d f t v : dwf d -> InE d f t v <-> In (t, mkEdge f v) (mTo d).
Proof.
  intros W. unfold InE.
  assert (In (f, t, v) (edgesF d) <-> In (f, t, v) (edgesT d)) as ->.
  { split; apply Permutation_in; [|apply Permutation_sym]; apply (dwf_mirror _ W). }
  unfold edgesT. rewrite in_map_iff. split.
  - intros ([k [t' v']] & H & Hin). unfold bwd in H; simpl in H. injection H as <- <- <-. auto.
  - intros H. exists (t, mkEdge f v). auto.
Qed.

Lemma out_InE (d : DAGT) n e : In e (outEdges d n) <-> InE d n (target e) (edgeVal e).
Proof. unfold outEdges. rewrite in_range, InE_mFrom. destruct e; reflexivity. Qed.

Lemma in_InE d n e : dwf d -> In e (inEdges d n) <-> InE d (target e) n (edgeVal e).
Proof. intros W. unfold inEdges. rewrite in_range, InE_mTo by auto. destruct e; reflexivity. Qed.

Lemma exist_Has d f t v : isEdgeExist veqb d f t v = true <-> Has d f t v.
Proof.
  unfold isEdgeExist, Spec.Has. rewrite existsb_exists. split.
  - intros (e & He & H). apply andb_true_iff in H. destruct H as [H1 H2].
    apply Z.eqb_eq in H1. subst. exists (edgeVal e). split; auto.
    apply out_InE. exact He.
  - intros (v' & H1 & H2). exists (mkEdge t v'). split.
    + apply out_InE. auto.
    + simpl. rewrite Z.eqb_refl, H2. auto.
Qed.

Lemma dwf_empty : dwf dagEmpty.
Proof. split; simpl; constructor. Qed.

(** ** addEdge *)
Lemma add_edges d f t v :
  ~ Has d f t v ->
  Permutation (edgesF (fst (addEdge veqb d f t v))) ((f, t, v) :: edgesF d).
Proof.
  intros H. unfold addEdge.
  destruct (isEdgeExist veqb d f t v) eqn:E; [apply exist_Has in E; tauto|].
  simpl. unfold edgesF; simpl.
  apply (Permutation_map fwd (emplace_perm (mFrom d) f (mkEdge t v))).
Qed.

Lemma add_dwf d f t v : dwf d -> dwf (fst (addEdge veqb d f t v)).
Proof.
  intros W. unfold addEdge.
  destruct (isEdgeExist veqb d f t v) eqn:E; simpl; auto.
  assert (~ Has d f t v) as NH. { intros H. apply exist_Has in H. congruence. }
  destruct W as [W1 W2 W3 W4].
  assert (Permutation (map fwd (mmEmplace (mFrom d) f (mkEdge t v))) ((f, t, v) :: edgesF d)) as P1.
  { apply (Permutation_map fwd (emplace_perm (mFrom d) f (mkEdge t v))). }
  assert (Permutation (map bwd (mmEmplace (mTo d) t (mkEdge f v))) ((f, t, v) :: edgesT d)) as P2.
  { apply (Permutation_map bwd (emplace_perm (mTo d) t (mkEdge f v))). }
  split; unfold edgesF, edgesT; simpl.
  - rewrite P1, P2. constructor. auto.
  - apply (FOP_perm ((f, t, v) :: edgesF d)); [apply Permutation_sym; auto|].
    constructor; auto. rewrite Forall_forall. intros [[f' t'] v'] Hin Hs.
    destruct Hs as [Hs1 Hs2]. simpl in *. injection Hs1 as <- <-.
    apply NH. exists v'. split; auto.
  - apply emplace_sorted; auto.
  - apply emplace_sorted; auto.
Qed.

Lemma add_InE d f t v f' t' v' :
  InE (fst (addEdge veqb d f t v)) f' t' v' <->
  InE d f' t' v' \/ (~ Has d f t v /\ f' = f /\ t' = t /\ v' = v).
Proof.
  unfold addEdge. destruct (isEdgeExist veqb d f t v) eqn:E; simpl.
  - apply exist_Has in E. tauto.
  - assert (~ Has d f t v) as NH. { intros H. apply exist_Has in H. congruence. }
    rewrite !InE_mFrom; simpl. rewrite emplace_in. split.
    + intros [H|H]; auto. injection H as -> -> ->. auto.
    + intros [H|(_ & -> & -> & ->)]; auto.
Qed.

Lemma add_Has d f t v f' t' v' :
  Has (fst (addEdge veqb d f t v)) f' t' v' <->
  Has d f' t' v' \/ (f' = f /\ t' = t /\ veqb v v' = true).
Proof.
  unfold Spec.Has at 1. split.
  - intros (w & H & Hv). apply add_InE in H. destruct H as [H|(_ & -> & -> & ->)]; auto.
    left. exists w. auto.
  - intros [(w & H & Hv)|(-> & -> & Hv)].
    + exists w. split; auto. apply add_InE. auto.
    + destruct (isEdgeExist veqb d f t v) eqn:E.
      * apply exist_Has in E. destruct E as (w & H & Hw). exists w. split.
        -- apply add_InE. auto.
        -- eauto.
      * exists v. split; auto. apply add_InE. right. repeat split; auto.
        intros H. apply exist_Has in H. congruence.
Qed.

Lemma add_ret d f t v : snd (addEdge veqb d f t v) = true <-> ~ Has d f t v.
Proof.
  unfold addEdge. destruct (isEdgeExist veqb d f t v) eqn:E; simpl.
  - apply exist_Has in E. split; [discriminate|tauto].
  - split; auto. intros _ H. apply exist_Has in H. congruence.
Qed.

(** ** removeEdge *)
Lemma remove_spec d f t v : dwf d ->
  (Has d f t v ->
   exists v', InE d f t v' /\ veqb v' v = true /\
     Permutation (edgesF d) ((f, t, v') :: edgesF (fst (removeEdge veqb d f t v))) /\
     dwf (fst (removeEdge veqb d f t v)) /\ snd (removeEdge veqb d f t v) = true) /\
  (~ Has d f t v -> removeEdge veqb d f t v = (d, false)).
Proof.
  intros W. unfold removeEdge.
  destruct (mmEraseFirst veqb (mFrom d) f t v) as [m1 b1] eqn:E1.
  destruct (mmEraseFirst veqb (mTo d) t f v) as [m2 b2] eqn:E2.
  split; intros H.
  - destruct H as (v0 & Hin & Hv0).
    destruct b1.
    2:{ exfalso. apply eraseFirst_false in E1. destruct E1 as [_ E1].
        apply InE_mFrom in Hin. exact (E1 _ Hin eq_refl Hv0). }
    destruct b2.
    2:{ exfalso. apply eraseFirst_false in E2. destruct E2 as [_ E2].
        apply InE_mTo in Hin; auto. exact (E2 _ Hin eq_refl Hv0). }
    apply eraseFirst_true in E1. destruct E1 as (p1 & e1 & q1 & P1 & -> & T1 & V1).
    apply eraseFirst_true in E2. destruct E2 as (p2 & e2 & q2 & P2 & -> & T2 & V2).
    assert (InE d f t (edgeVal e1)) as I1.
    { apply InE_mFrom. rewrite P1, in_app_iff. right. left. destruct e1; simpl in *; subst; auto. }
    assert (InE d f t (edgeVal e2)) as I2.
    { apply InE_mTo; auto. rewrite P2, in_app_iff. right. left. destruct e2; simpl in *; subst; auto. }
    assert (edgeVal e1 = edgeVal e2) as EV.
    { assert ((f, t, edgeVal e1) = (f, t, edgeVal e2)) as X.
      { apply (FOP_unique _ (dwf_nodup _ W)); auto. split; simpl; auto. eauto. }
      congruence. }
    exists (edgeVal e1). simpl.
    assert (Permutation (edgesF d) ((f, t, edgeVal e1) :: map fwd (p1 ++ q1))) as PF.
    { unfold edgesF. rewrite P1, !map_app. simpl.
      replace (fwd (f, e1)) with (f, t, edgeVal e1) by (unfold fwd; simpl; subst; auto).
      apply Permutation_sym, Permutation_middle. }
    assert (Permutation (edgesT d) ((f, t, edgeVal e1) :: map bwd (p2 ++ q2))) as PT.
    { unfold edgesT. rewrite P2, !map_app. simpl.
      replace (bwd (t, e2)) with (f, t, edgeVal e1) by (unfold bwd; simpl; subst; congruence).
      apply Permutation_sym, Permutation_middle. }
    repeat split; simpl; auto.
    + unfold edgesF, edgesT; simpl.
      apply (Permutation_cons_inv (a := (f, t, edgeVal e1))).
      rewrite <- PF, <- PT. apply (dwf_mirror _ W).
    + assert (ForallOrdPairs (fun x y => ~ sameE x y) ((f, t, edgeVal e1) :: map fwd (p1 ++ q1))) as X.
      { eapply FOP_perm; [exact PF|apply (dwf_nodup _ W)]. }
      inversion X; auto.
    + eapply sorted_remove. rewrite <- P1. apply (dwf_sortF _ W).
    + eapply sorted_remove. rewrite <- P2. apply (dwf_sortT _ W).
  - destruct b1.
    { exfalso. apply H. apply eraseFirst_true in E1. destruct E1 as (p1 & e1 & q1 & P1 & -> & T1 & V1).
      exists (edgeVal e1). split; auto. apply InE_mFrom. rewrite P1, in_app_iff. right. left.
      destruct e1; simpl in *; subst; auto. }
    destruct b2.
    { exfalso. apply H. apply eraseFirst_true in E2. destruct E2 as (p1 & e1 & q1 & P1 & -> & T1 & V1).
      exists (edgeVal e1). split; auto. apply InE_mTo; auto. rewrite P1, in_app_iff. right. left.
      destruct e1; simpl in *; subst; auto. }
    apply eraseFirst_false in E1. apply eraseFirst_false in E2.
    destruct E1 as [-> _], E2 as [-> _]. destruct d; auto.
Qed.

Lemma Has_dec d f t v : Has d f t v \/ ~ Has d f t v.
Proof.
  destruct (isEdgeExist veqb d f t v) eqn:E; [left|right].
  - apply exist_Has; auto.
  - intros H. apply exist_Has in H. congruence.
Qed.

Lemma remove_dwf d f t v : dwf d -> dwf (fst (removeEdge veqb d f t v)).
Proof.
  intros W. destruct (remove_spec d f t v W) as [H1 H2].
  destruct (Has_dec d f t v) as [H|H].
  - destruct (H1 H) as (v' & _ & _ & _ & X & _). exact X.
  - rewrite (H2 H). auto.
Qed.

Lemma remove_InE d f t v f' t' v' : dwf d ->
  InE (fst (removeEdge veqb d f t v)) f' t' v' <->
  InE d f' t' v' /\ ~ (f' = f /\ t' = t /\ veqb v' v = true).
Proof.
  intros W. destruct (remove_spec d f t v W) as [H1 H2].
  destruct (Has_dec d f t v) as [H|H].
  - destruct (H1 H) as (w & I1 & V1 & P & W' & _). split.
    + intros I. split.
      * unfold InE in *. eapply Permutation_in; [apply Permutation_sym; exact P|]. right; auto.
      * intros (-> & -> & V2).
        pose proof (dwf_nodup _ W) as ND. apply (FOP_perm _ _ P) in ND.
        inversion ND; subst. rewrite Forall_forall in H4.
        apply (H4 _ I). split; simpl; eauto.
    + intros [I N]. unfold InE in *. eapply Permutation_in in I; [|exact P].
      destruct I as [I|I]; auto. injection I as <- <- <-. exfalso. auto.
  - rewrite (H2 H). simpl. split; [|tauto]. intros I. split; auto.
    intros (-> & -> & V). apply H. exists v'. auto.
Qed.

Lemma remove_Has d f t v f' t' v' : dwf d ->
  Has (fst (removeEdge veqb d f t v)) f' t' v' <->
  Has d f' t' v' /\ ~ (f' = f /\ t' = t /\ veqb v v' = true).
Proof.
  intros W. unfold Spec.Has at 1. split.
  - intros (w & I & V). apply remove_InE in I; auto. destruct I as [I N]. split.
    + exists w; auto.
    + intros (-> & -> & V'). apply N. repeat split; auto. eauto.
  - intros [(w & I & V) N]. exists w. split; auto. apply remove_InE; auto. split; auto.
    intros (-> & -> & V'). apply N. repeat split; auto. eauto.
Qed.

Lemma remove_ret d f t v : dwf d -> snd (removeEdge veqb d f t v) = true <-> Has d f t v.
Proof.
  intros W. destruct (remove_spec d f t v W) as [H1 H2].
  destruct (Has_dec d f t v) as [H|H].
  - destruct (H1 H) as (w & _ & _ & _ & _ & X). tauto.
  - rewrite (H2 H). simpl. split; [discriminate|tauto].
Qed.

(** ** removeDirectEdges *)
Lemma rd_edgesF (d : DAGT) f t :
  edgesF (fst (removeDirectEdges d f t)) = filter (fun x => negb (direct f t x)) (edgesF d).
Proof.
  unfold removeDirectEdges, edgesF; simpl. induction (mFrom d) as [|[k e] m IH]; simpl; auto.
  unfold Spec.direct at 1. simpl. destruct ((k =? f) && (target e =? t)); simpl; auto. f_equal. auto.
Qed.

Lemma rd_edgesT (d : DAGT) f t :
  edgesT (fst (removeDirectEdges d f t)) = filter (fun x => negb (direct f t x)) (edgesT d).
Proof.
  unfold removeDirectEdges, edgesT; simpl. induction (mTo d) as [|[k e] m IH]; simpl; auto.
  unfold Spec.direct at 1. simpl. rewrite (andb_comm (target e =? f)).
  destruct ((k =? t) && (target e =? f)); simpl; auto. f_equal. auto.
Qed.

Lemma perm_filter {A} (g : A -> bool) l l' :
  Permutation l l' -> Permutation (filter g l) (filter g l').
Proof.
  induction 1; simpl; auto.
  - destruct (g x); auto.
  - destruct (g x), (g y); auto. constructor.
  - eapply Permutation_trans; eauto.
Qed.

Lemma rd_dwf d f t : dwf d -> dwf (fst (removeDirectEdges d f t)).
Proof.
  intros [W1 W2 W3 W4]. split.
  - rewrite rd_edgesF, rd_edgesT. apply perm_filter. auto.
  - rewrite rd_edgesF. apply FOP_filter. auto.
  - apply sorted_filter. auto.
  - apply sorted_filter. auto.
Qed.

Lemma rd_InE (d : DAGT) f t f' t' v' :
  InE (fst (removeDirectEdges d f t)) f' t' v' <->
  InE d f' t' v' /\ ~ (f' = f /\ t' = t).
Proof.
  unfold InE. rewrite rd_edgesF, filter_In. unfold Spec.direct; simpl.
  destruct (Z.eqb_spec f' f), (Z.eqb_spec t' t); simpl; intuition; try discriminate.
Qed.

Lemma rd_Has (d : DAGT) f t f' t' v' :
  Has (fst (removeDirectEdges d f t)) f' t' v' <->
  Has d f' t' v' /\ ~ (f' = f /\ t' = t).
Proof.
  unfold Spec.Has. split.
  - intros (w & I & V). apply rd_InE in I. destruct I. split; auto. exists w; auto.
  - intros [(w & I & V) N]. exists w. split; auto. apply rd_InE. auto.
Qed.

Lemma rd_ret d f t : dwf d ->
  snd (removeDirectEdges d f t) = true <-> exists v, InE d f t v.
Proof.
  intros W. unfold removeDirectEdges; simpl.
  rewrite orb_true_iff, !existsb_exists. split.
  - intros [([k e] & I & E)|([k e] & I & E)]; simpl in E; apply andb_true_iff in E;
      destruct E as [E1 E2]; apply Z.eqb_eq in E1, E2; subst; exists (edgeVal e).
    + apply InE_mFrom. destruct e; auto.
    + apply InE_mTo; auto. destruct e; auto.
  - intros (v & I). left. exists (f, mkEdge t v). split.
    + apply InE_mFrom; auto.
    + simpl. rewrite !Z.eqb_refl. auto.
Qed.

(** ** unionDAG *)
Lemma union_fold_dwf l d : dwf d ->
  dwf (fold_left (fun acc p =>
         fst (addEdge veqb acc (fst p) (target (snd p)) (edgeVal (snd p)))) l d).
Proof. revert d. induction l as [|p l IH]; simpl; auto. intros d W. apply IH. apply add_dwf; auto. Qed.

Lemma union_fold_Has l d f t v :
  Has (fold_left (fun acc p =>
         fst (addEdge veqb acc (fst p) (target (snd p)) (edgeVal (snd p)))) l d) f t v <->
  Has d f t v \/ exists v', In (f, mkEdge t v') l /\ veqb v' v = true.
Proof.
  revert d. induction l as [|[k e] l IH]; simpl; intros d.
  - split; auto. intros [H|(? & [] & _)]. auto.
  - rewrite IH, add_Has. simpl. split.
    + intros [[H|(-> & -> & H)]|(v' & H & V)]; auto.
      * right. exists (edgeVal e). split; auto. destruct e; auto.
      * right. exists v'. auto.
    + intros [H|(v' & [H|H] & V)]; auto.
      * injection H as -> ->. simpl. auto.
      * right. exists v'; auto.
Qed.

Lemma union_dwf d o : dwf d -> dwf (unionDAG veqb d o).
Proof. intros. apply union_fold_dwf; auto. Qed.

Lemma union_Has d o f t v :
  Has (unionDAG veqb d o) f t v <-> Has d f t v \/ Has o f t v.
Proof.
  unfold unionDAG. rewrite union_fold_Has. unfold Spec.Has at 3. split.
  - intros [H|(v' & H & V)]; auto. right. exists v'. split; auto. apply InE_mFrom; auto.
  - intros [H|(v' & H & V)]; auto. right. exists v'. split; auto. apply InE_mFrom; auto.
Qed.

(** Every stored edge of a union comes from one of the operands. *)
Lemma union_fold_InE l d f t v :
  InE (fold_left (fun acc p =>
         fst (addEdge veqb acc (fst p) (target (snd p)) (edgeVal (snd p)))) l d) f t v ->
  InE d f t v \/ In (f, mkEdge t v) l.
Proof.
  revert d. induction l as [|[k e] l IH]; simpl; intros d H; auto.
  apply IH in H. destruct H as [H|H]; auto.
  apply add_InE in H. simpl in H. destruct H as [H|(_ & -> & -> & ->)]; auto.
  right. left. destruct e; auto.
Qed.
Lemma union_InE d o f t v :
  InE (unionDAG veqb d o) f t v -> InE d f t v \/ InE o f t v.
Proof. intros H. apply union_fold_InE in H. rewrite (InE_mFrom o). auto. Qed.
Lemma union_fold_mono l d f t v :
  InE d f t v ->
  InE (fold_left (fun acc p =>
         fst (addEdge veqb acc (fst p) (target (snd p)) (edgeVal (snd p)))) l d) f t v.
Proof. revert d. induction l as [|p l IH]; simpl; auto. intros d H. apply IH. apply add_InE. auto. Qed.
Lemma union_InE_l d o f t v : InE d f t v -> InE (unionDAG veqb d o) f t v.
Proof. apply union_fold_mono. Qed.

(** ** Degrees *)
Lemma outDegree_count (d : DAGT) n :
  outDegree d n = length (filter (fun x => fst (fst x) =? n) (edgesF d)).
Proof.
  unfold outDegree, mmCount, mmRange, edgesF. rewrite map_length.
  induction (mFrom d) as [|[k e] m IH]; simpl; auto. destruct (k =? n); simpl; auto.
Qed.
Lemma inDegree_count d n : dwf d ->
  inDegree d n = length (filter (fun x => snd (fst x) =? n) (edgesF d)).
Proof.
  intros W.
  rewrite (Permutation_length (perm_filter _ _ _ (dwf_mirror _ W))).
  unfold inDegree, mmCount, mmRange, edgesT. rewrite map_length.
  induction (mTo d) as [|[k e] m IH]; simpl; auto. destruct (k =? n); simpl; auto.
Qed.
End DagProofs.

Arguments dwf {T}.
