(** Prop_Order.v - property theorem C77: the outgoing edges of a node stand in
    the order of their arrival, and the flat listing follows that order. *)
From Coq Require Import List ZArith Bool Lia Permutation Sorted.
From Verif Require Import Base ThCons Syl Lattice Dag PronDag Spec OrderProofs DagProofs
  PathProofs LatticeProofs GroupProofs ListDagProofs Prop_Graph.
Import ListNotations.
Local Open Scope Z_scope.

(** ** Edit histories and the order of arrival
    For every node the edges leaving it, as pairs of target and value, oldest
    first.  An edge already known keeps its place; a removed one loses it and
    comes last when it is added again. *)
Section Timeline.
Variable T : Type.
Variable veqb : T -> T -> bool.
Definition Arrivals := Z -> list (Z * T).
Definition alike (x y : Z * T) : bool := (fst y =? fst x) && veqb (snd y) (snd x).
Definition known (x : Z * T) (l : list (Z * T)) : bool := existsb (alike x) l.
Definition arrive (l : list (Z * T)) (x : Z * T) : list (Z * T) :=
  if known x l then l else l ++ [x].
Inductive Timeline : DAG T -> Arrivals -> Prop :=
| TL_empty : Timeline dagEmpty (fun _ => [])
| TL_add d o f t v : Timeline d o ->
    Timeline (fst (addEdge veqb d f t v)) (fun n => if n =? f then arrive (o n) (t, v) else o n)
| TL_remove d o f t v : Timeline d o ->
    Timeline (fst (removeEdge veqb d f t v))
             (fun n => if n =? f then filter (fun y => negb (alike (t, v) y)) (o n) else o n)
| TL_removeDirect d o f t : Timeline d o ->
    Timeline (fst (removeDirectEdges d f t))
             (fun n => if n =? f then filter (fun y => negb (fst y =? t)) (o n) else o n)
| TL_union d o d' o' : Timeline d o -> Timeline d' o' ->
    Timeline (unionDAG veqb d d') (fun n => o n ++ filter (fun x => negb (known x (o n))) (o' n)).
End Timeline.
Arguments Timeline {T}.

(** One path comes before another: where they part, the first follows the
    earlier of two edges leaving the same node. *)
Definition earlier {T} (d : DAG T) (root : Z) (p q : list (DAGEdge T)) : Prop :=
  exists pre n e1 r1 e2 r2 l1 l2 l3,
    p = pre ++ e1 :: r1 /\ q = pre ++ e2 :: r2 /\ Path d root pre n /\
    outEdges d n = l1 ++ e1 :: l2 ++ e2 :: l3.

Section OrderProofs.
Variable T : Type.
Variable veqb : T -> T -> bool.
Hypothesis E : Equiv veqb.
Let R := eqv_refl _ E. Let Sy := eqv_sym _ E. Let Tr := eqv_trans _ E.
Notation pairOf := (fun e : DAGEdge T => (target e, edgeVal e)).
Definition seen (m : MMap T) (n : Z) : list (Z * T) := map pairOf (mmRange m n).

Lemma seen_nil n : seen [] n = []. Proof. reflexivity. Qed.
Lemma seen_cons k (e : DAGEdge T) m n :
  seen ((k, e) :: m) n = if k =? n then pairOf e :: seen m n else seen m n.
Proof. unfold seen, mmRange. simpl. destruct (k =? n); reflexivity. Qed.
Lemma seen_above (m : MMap T) k n : StronglySorted Z.le (map fst m) ->
  Forall (Z.le k) (map fst m) -> n < k -> seen m n = [].
Proof.
  intros _. induction m as [|[k' e'] m IH]; intros F L; [reflexivity|].
  inversion F as [|? ? F1 F2]; subst. simpl in F1.
  rewrite seen_cons. destruct (k' =? n) eqn:Q; [apply Z.eqb_eq in Q; lia|]. auto.
Qed.
Lemma seen_emplace (m : MMap T) k e n : StronglySorted Z.le (map fst m) ->
  seen (mmEmplace m k e) n = if n =? k then seen m n ++ [pairOf e] else seen m n.
Proof.
  induction m as [|[k' e'] m IH]; intros St; simpl mmEmplace.
  - rewrite seen_cons, seen_nil, Z.eqb_sym. destruct (n =? k); reflexivity.
  - inversion St as [|? ? S1 S2]; subst. destruct (k <? k') eqn:Q.
    + apply Z.ltb_lt in Q. rewrite seen_cons, Z.eqb_sym. destruct (n =? k) eqn:N; auto.
      apply Z.eqb_eq in N. subst n.
      rewrite (seen_above ((k', e') :: m) k' k); auto.
      simpl. constructor; [lia|exact S2].
    + rewrite !seen_cons, (IH S1). destruct (k' =? n), (n =? k); reflexivity.
Qed.
Lemma known_exist (d : DAG T) f t v : isEdgeExist veqb d f t v = known T veqb (t, v) (seen (mFrom d) f).
Proof.
  unfold isEdgeExist, known, seen. generalize (mmRange (mFrom d) f). intros l.
  induction l as [|e l IH]; simpl; auto. unfold alike at 1. simpl. rewrite IH. reflexivity.
Qed.
Lemma seen_add (d : DAG T) f t v n : StronglySorted Z.le (map fst (mFrom d)) ->
  seen (mFrom (fst (addEdge veqb d f t v))) n =
  if n =? f then arrive T veqb (seen (mFrom d) n) (t, v) else seen (mFrom d) n.
Proof.
  intros St. unfold addEdge, arrive. rewrite known_exist.
  destruct (known T veqb (t, v) (seen (mFrom d) f)) eqn:K; simpl.
  - destruct (n =? f) eqn:N; auto. apply Z.eqb_eq in N. subst n. rewrite K. reflexivity.
  - rewrite seen_emplace; auto. simpl. destruct (n =? f) eqn:N; auto.
    apply Z.eqb_eq in N. subst n. rewrite K. reflexivity.
Qed.
(** no two of the edges leaving a node are alike *)
Definition distinct (l : list (Z * T)) : Prop := ForallOrdPairs (fun x y => alike T veqb y x = false) l.
Lemma alike_sym x y : alike T veqb x y = true -> alike T veqb y x = true.
Proof.
  unfold alike. rewrite !andb_true_iff, !Z.eqb_eq. intros [A B]. split; auto.
Qed.
Lemma alike_symf x y : alike T veqb x y = false -> alike T veqb y x = false.
Proof. intros A. destruct (alike T veqb y x) eqn:Q; auto. apply alike_sym in Q. congruence. Qed.
Lemma alike_trans x y z : alike T veqb x y = true -> alike T veqb y z = true -> alike T veqb x z = true.
Proof.
  unfold alike. rewrite !andb_true_iff, !Z.eqb_eq. intros [A B] [C D]. split; [congruence|]. eauto.
Qed.
Lemma distinct_filter g l : distinct l -> distinct (filter g l).
Proof.
  induction 1 as [|x l F P IH]; simpl; [constructor|]. destruct (g x); auto. constructor; auto.
  rewrite Forall_forall in *. intros y I. apply filter_In in I. apply F, I.
Qed.
Lemma known_false x l : known T veqb x l = false <-> forall y, In y l -> alike T veqb x y = false.
Proof.
  unfold known. split.
  - intros K y I. destruct (alike T veqb x y) eqn:A; auto.
    assert (existsb (alike T veqb x) l = true) by (apply existsb_exists; eauto). congruence.
  - intros A. destruct (existsb (alike T veqb x) l) eqn:K; auto.
    apply existsb_exists in K. destruct K as (y & I & Q). rewrite (A y I) in Q. discriminate Q.
Qed.
Lemma distinct_app l l' : distinct l -> distinct l' ->
  (forall x y, In x l' -> In y l -> alike T veqb x y = false) -> distinct (l ++ l').
Proof.
  intros D D' A. induction D as [|x l F P IH]; simpl; auto. constructor.
  - rewrite Forall_forall in *. intros y I. apply in_app_or in I. destruct I as [I|I]; auto.
    apply A; simpl; auto.
  - apply IH. intros a b I1 I2. apply A; simpl; auto.
Qed.
Lemma distinct_arrive l x : distinct l -> distinct (arrive T veqb l x).
Proof.
  intros D. unfold arrive. destruct (known T veqb x l) eqn:K; auto.
  apply distinct_app; auto. { constructor; constructor. }
  intros a b [<-|[]] I. rewrite known_false in K. auto.
Qed.
(** erasing the first of the alike edges erases all of them *)
Lemma seen_erase (m : MMap T) k t v n : distinct (seen m k) ->
  seen (fst (mmEraseFirst veqb m k t v)) n =
  if n =? k then filter (fun y => negb (alike T veqb (t, v) y)) (seen m n) else seen m n.
Proof.
  induction m as [|[k' e'] m IH]; intros D; simpl mmEraseFirst.
  - simpl. rewrite seen_nil. destruct (n =? k); reflexivity.
  - rewrite seen_cons in D.
    destruct ((k' =? k) && ((target e' =? t) && veqb (edgeVal e') v)) eqn:Q.
    + apply andb_true_iff in Q. destruct Q as [Q1 Q2]. rewrite Q1 in D. apply Z.eqb_eq in Q1. subst k'.
      simpl fst. rewrite seen_cons, (Z.eqb_sym k n). destruct (n =? k) eqn:N; auto.
      apply Z.eqb_eq in N. subst n. cbn [filter].
      assert (A : alike T veqb (t, v) (target e', edgeVal e') = true) by exact Q2.
      rewrite A. simpl. inversion D as [|x l F P]; subst. clear - F A E R Sy Tr.
      symmetry. induction (seen m k) as [|y l IHl]; auto. inversion F as [|? ? F1 F2]; subst.
      simpl. destruct (alike T veqb (t, v) y) eqn:B.
      * exfalso. apply alike_sym in B. pose proof (alike_trans _ _ _ B A) as C. congruence.
      * simpl. f_equal. auto.
    + destruct (mmEraseFirst veqb m k t v) as [r b] eqn:Er. simpl fst in *.
      rewrite !seen_cons. destruct (k' =? k) eqn:K.
      * apply Z.eqb_eq in K. subst k'. inversion D as [|x l F P]; subst. rewrite (IH P). rewrite (Z.eqb_sym k n).
        destruct (n =? k) eqn:N; auto. cbn [filter].
        assert (A : alike T veqb (t, v) (target e', edgeVal e') = false) by exact Q.
        rewrite A. reflexivity.
      * rewrite (IH D). destruct (k' =? n) eqn:N; auto. destruct (n =? k) eqn:N2; auto.
        apply Z.eqb_eq in N, N2. subst. rewrite Z.eqb_refl in K. discriminate.
Qed.
Lemma seen_eraseAll (m : MMap T) k t n :
  seen (fst (mmEraseAll m k t)) n =
  if n =? k then filter (fun y => negb (fst y =? t)) (seen m n) else seen m n.
Proof.
  unfold mmEraseAll. simpl. induction m as [|[k' e'] m IH].
  - rewrite seen_nil. destruct (n =? k); reflexivity.
  - simpl filter. rewrite seen_cons. destruct (k' =? k) eqn:K; simpl.
    + apply Z.eqb_eq in K. subst k'. rewrite (Z.eqb_sym k n).
      destruct (target e' =? t) eqn:Q; simpl.
      * rewrite IH. destruct (n =? k); auto. simpl. rewrite Q. reflexivity.
      * rewrite seen_cons, IH, (Z.eqb_sym k n). destruct (n =? k); auto. simpl. rewrite Q. reflexivity.
    + rewrite seen_cons, IH. destruct (k' =? n) eqn:N; auto. destruct (n =? k) eqn:N2; auto.
      apply Z.eqb_eq in N, N2. subst. rewrite Z.eqb_refl in K. discriminate.
Qed.
Lemma arrive_all l l' : distinct l' ->
  fold_left (arrive T veqb) l' l = l ++ filter (fun x => negb (known T veqb x l)) l'.
Proof.
  revert l. induction l' as [|x l' IH]; intros l D; simpl; [rewrite app_nil_r; reflexivity|].
  inversion D as [|? ? F P]; subst. rewrite IH; auto. unfold arrive.
  destruct (known T veqb x l) eqn:K; simpl; auto.
  rewrite <- app_assoc. simpl. f_equal. f_equal.
  apply filter_ext_in. intros y I. f_equal. unfold known. rewrite existsb_app. simpl.
  rewrite Forall_forall in F. rewrite (F y I). rewrite !orb_false_r. reflexivity.
Qed.
Lemma add_sorted (d : DAG T) f t v : StronglySorted Z.le (map fst (mFrom d)) ->
  StronglySorted Z.le (map fst (mFrom (fst (addEdge veqb d f t v)))).
Proof.
  intros St. unfold addEdge. destruct (isEdgeExist veqb d f t v); simpl; auto.
  apply emplace_sorted; auto.
Qed.
Lemma seen_union m (d : DAG T) n : StronglySorted Z.le (map fst (mFrom d)) ->
  seen (mFrom (fold_left (fun acc p => fst (addEdge veqb acc (fst p) (target (snd p)) (edgeVal (snd p)))) m d)) n
  = fold_left (arrive T veqb) (seen m n) (seen (mFrom d) n).
Proof.
  revert d. induction m as [|[k e] m IH]; intros d St; simpl; [reflexivity|].
  rewrite IH by (apply add_sorted; auto). rewrite seen_add by auto. rewrite seen_cons, (Z.eqb_sym k n).
  destruct (n =? k); reflexivity.
Qed.
Lemma timeline_inv (d : DAG T) o : Timeline veqb d o ->
  StronglySorted Z.le (map fst (mFrom d)) /\ forall n, seen (mFrom d) n = o n /\ distinct (o n).
Proof.
  assert (U : forall m (d : DAG T), StronglySorted Z.le (map fst (mFrom d)) ->
     StronglySorted Z.le (map fst (mFrom (fold_left (fun acc p => fst (addEdge veqb acc (fst p) (target (snd p)) (edgeVal (snd p)))) m d)))).
  { induction m as [|x m IH]; simpl; intros d0 S0; auto. apply IH. apply add_sorted. auto. }
  assert (FS : forall (g : Z * DAGEdge T -> bool) m, StronglySorted Z.le (map fst m) -> StronglySorted Z.le (map fst (filter g m))).
  { intros g m. induction m as [|x m IH]; simpl; intros S0; auto. inversion S0 as [|? ? S1 S2]; subst.
    destruct (g x); simpl; auto. constructor; auto. rewrite Forall_forall in *. intros z I.
    apply S2. apply in_map_iff in I. destruct I as (y & <- & I). apply filter_In in I. apply in_map, I. }
  induction 1 as [|d o f t v H [St I]|d o f t v H [St I]|d o f t H [St I]|d o d' o' H [St I] H' [St' I']].
  - split; [constructor|]. intros n. split; [reflexivity|constructor].
  - split; [apply add_sorted; auto|]. intros n. destruct (I n) as [I1 I2]. rewrite seen_add by auto.
    rewrite I1. split; [reflexivity|]. destruct (n =? f); auto. apply distinct_arrive. auto.
  - assert (Q : mFrom (fst (removeEdge veqb d f t v)) = fst (mmEraseFirst veqb (mFrom d) f t v)).
    { unfold removeEdge. destruct (mmEraseFirst veqb (mFrom d) f t v), (mmEraseFirst veqb (mTo d) t f v). reflexivity. }
    rewrite Q. split.
    + destruct (mmEraseFirst veqb (mFrom d) f t v) as [m' [|]] eqn:Er.
      * apply eraseFirst_true in Er. destruct Er as (m1 & e & m2 & Em & -> & _). rewrite Em in St. simpl.
        clear - St. induction m1 as [|x m1 IH]; simpl in *; inversion St as [|? ? S1 S2]; subst; auto.
        constructor; auto. rewrite Forall_forall in *. intros z I. apply S2. rewrite map_app in *.
        apply in_app_or in I. apply in_or_app. simpl. tauto.
      * apply eraseFirst_false in Er. destruct Er as [-> _]. exact St.
    + intros n. destruct (I n) as [I1 I2]. rewrite seen_erase by (rewrite (proj1 (I f)); apply I).
      rewrite I1. split; [reflexivity|]. destruct (n =? f); auto. apply distinct_filter. auto.
  - assert (Q : mFrom (fst (removeDirectEdges d f t)) = fst (mmEraseAll (mFrom d) f t)) by reflexivity.
    rewrite Q. split; [apply FS; exact St|]. intros n. destruct (I n) as [I1 I2]. rewrite seen_eraseAll, I1.
    split; [reflexivity|]. destruct (n =? f); auto. apply distinct_filter. auto.
  - split; [apply U; exact St|]. intros n. destruct (I n) as [I1 I2], (I' n) as [I1' I2'].
    unfold unionDAG. rewrite seen_union by auto. rewrite I1, I1', arrive_all by auto.
    split; [reflexivity|]. apply distinct_app; auto. { apply distinct_filter; auto. }
    intros x y Ix Iy. apply filter_In in Ix. destruct Ix as [_ K]. apply negb_true_iff in K.
    rewrite known_false in K. auto.
Qed.
Lemma history_timeline (d : DAG T) S : History veqb d S -> exists o, Timeline veqb d o.
Proof.
  induction 1 as [|d S f t v H [o I]|d S f t v H [o I]|d S f t H [o I]|d S d' S' H [o I] H' [o' I']];
    eexists; [apply TL_empty|apply TL_add|apply TL_remove|apply TL_removeDirect|apply TL_union]; eauto.
Qed.

(** ** The order of the enumeration *)
Lemma ordPairs_app {A} (P : A -> A -> Prop) l l' : ForallOrdPairs P l -> ForallOrdPairs P l' ->
  (forall x y, In x l -> In y l' -> P x y) -> ForallOrdPairs P (l ++ l').
Proof.
  intros D D' H. induction D as [|x l F Q IH]; simpl; auto. constructor.
  - rewrite Forall_forall in *. intros y I. apply in_app_or in I. destruct I; auto. apply H; simpl; auto.
  - apply IH. intros; apply H; simpl; auto.
Qed.
Lemma ordPairs_map {A B} (P : A -> A -> Prop) (Q : B -> B -> Prop) (f : A -> B) l :
  (forall x y, P x y -> Q (f x) (f y)) -> ForallOrdPairs P l -> ForallOrdPairs Q (map f l).
Proof.
  intros H. induction 1 as [|x l F D IH]; simpl; constructor; auto.
  rewrite Forall_forall in *. intros y I. apply in_map_iff in I. destruct I as (z & <- & I). auto.
Qed.
Lemma enum_order fuel (d : DAG T) n r : enumP fuel d n = Ok r -> ForallOrdPairs (earlier d n) r.
Proof.
  revert n r. induction fuel as [|fuel IH]; intros n r; simpl; [discriminate|].
  set (g := fun e : DAGEdge T => _).
  assert (HD : forall e part q, g e = Ok part -> In q part -> exists q', q = e :: q').
  { intros e part q H I. unfold g in H. destruct (enumP fuel d (target e)) as [c| | |]; try discriminate.
    injection H as <-. destruct c as [|p c].
    - destruct I as [<-|[]]. eauto.
    - apply in_map_iff in I. destruct I as (s & <- & _). eauto. }
  assert (forall pre l parts, outEdges d n = pre ++ l -> mapM g l = Ok parts ->
            ForallOrdPairs (earlier d n) (List.concat parts) /\
            forall q, In q (List.concat parts) -> exists e q', q = e :: q' /\ In e l) as G.
  { intros pre l. revert pre. induction l as [|e l IHl]; intros pre parts EO M; simpl in M.
    - injection M as <-. simpl. split; [constructor|tauto].
    - destruct (g e) as [part| | |] eqn:Ge; try discriminate. simpl in M.
      destruct (mapM g l) as [ps| | |] eqn:Gl; try discriminate. simpl in M. injection M as <-.
      destruct (IHl (pre ++ [e]) ps) as [O1 O2]; [rewrite <- app_assoc; exact EO|reflexivity|].
      simpl. split.
      + apply ordPairs_app; auto.
        * unfold g in Ge. destruct (enumP fuel d (target e)) as [c| | |] eqn:Ec; try discriminate.
          injection Ge as <-. apply IH in Ec. destruct c as [|p c]; [constructor; constructor|].
          eapply ordPairs_map; [|exact Ec].
          intros x y (pr & m & e1 & r1 & e2 & r2 & l1 & l2 & l3 & -> & -> & P & Eo).
          exists (e :: pr), m, e1, r1, e2, r2, l1, l2, l3. split; [reflexivity|]. split; [reflexivity|].
          split; [|exact Eo]. constructor; auto. rewrite EO. apply in_or_app. simpl. auto.
        * intros x y Ix Iy. destruct (HD e part x Ge Ix) as (x' & ->).
          destruct (O2 y Iy) as (e2 & y' & -> & I2). apply in_split in I2. destruct I2 as (l2 & l3 & ->).
          exists [], n, e, x', e2, y', pre, l2, l3. split; [reflexivity|]. split; [reflexivity|].
          split; [constructor|exact EO].
      + intros q I. apply in_app_or in I. destruct I as [I|I].
        * destruct (HD e part q Ge I) as (q' & ->). exists e, q'. simpl. auto.
        * destruct (O2 q I) as (e2 & q' & -> & I2). exists e2, q'. simpl. auto. }
  destruct (mapM g (outEdges d n)) as [parts| | |] eqn:M; try discriminate. simpl.
  intros [= <-]. apply (G [] (outEdges d n)); auto.
Qed.
Lemma ordPairs_nth {A} (P : A -> A -> Prop) l : ForallOrdPairs P l ->
  forall i j x y, (i < j)%nat -> nth_error l i = Some x -> nth_error l j = Some y -> P x y.
Proof.
  induction 1 as [|a l F D IH]; intros i j x y L Hi Hj; [destruct i; discriminate|].
  destruct j as [|j]; [lia|]. simpl in Hj. destruct i as [|i]; simpl in Hi.
  - injection Hi as ->. rewrite Forall_forall in F. apply F. eapply nth_error_In; eauto.
  - eapply (IH i j); eauto. lia.
Qed.
End OrderProofs.

(** ** C77 *)
Lemma C77_lemma T (veqb : T -> T -> bool) (d : DAG T) (o : Arrivals T) :
  Equiv veqb -> Timeline veqb d o ->
  forall n, map (fun e => (target e, edgeVal e)) (outEdges d n) = o n.
Proof. intros E H n. apply (timeline_inv T veqb E d o H). Qed.
(** The edges leaving a node are given in the order of their arrival. *)
Theorem C77_order_of_arrival T (veqb : T -> T -> bool) (d : DAG T) (o : Arrivals T) :
  Equiv veqb -> Timeline veqb d o ->
  forall n, map (fun e => (target e, edgeVal e)) (outEdges d n) = o n.
Proof. exact (C77_lemma T veqb d o). Qed.
Print Assumptions C77_order_of_arrival.
(** Every sequence of edits has such an order. *)
Theorem C77_every_history T (veqb : T -> T -> bool) (d : DAG T) (S : EdgeSet T) :
  History veqb d S -> exists o, Timeline veqb d o.
Proof. exact (history_timeline T veqb d S). Qed.
Print Assumptions C77_every_history.

Lemma C77_listing_lemma (d : PronunDAG) (S : EdgeSet Syl) (root : Z) :
  History syl_eqb d S -> Acyclic d ->
  exists paths, (forall p, In p paths <-> p <> [] /\ MaxPath d root p) /\
    (forall i j p q, (i < j)%nat -> nth_error paths i = Some p -> nth_error paths j = Some q ->
       earlier d root p q /\ p <> q) /\
    DAGSylStrings d root = Ok (map (map edgeVal) paths).
Proof.
  intros H A. destruct (history_dwf _ _ syl_equiv _ _ H) as [W _].
  destruct (DAGSylStrings_spec d root A) as (paths & E & L & C).
  exists paths. split; auto. split; auto. intros i j p q I Hi Hj. split.
  - eapply ordPairs_nth; [eapply enum_order; exact E| | |]; eauto.
  - assert (N : NoDup paths).
    { eapply enumP_NoDup; [|exact E]. intros k. apply (out_nodup syl_eqb syl_eqb_refl). exact W. }
    intros ->. rewrite NoDup_nth_error in N. specialize (N i j).
    assert (i = j); [|lia]. apply N; [|congruence]. apply nth_error_Some. congruence.
Qed.
(** The listing gives the complete paths one after the other, at every fork
    first those along the edge that arrived first. *)
Theorem C77_listing_order (d : PronunDAG) (S : EdgeSet Syl) (root : Z) :
  History syl_eqb d S -> Acyclic d ->
  exists paths, (forall p, In p paths <-> p <> [] /\ MaxPath d root p) /\
    (forall i j p q, (i < j)%nat -> nth_error paths i = Some p -> nth_error paths j = Some q ->
       earlier d root p q /\ p <> q) /\
    DAGSylStrings d root = Ok (map (map edgeVal) paths).
Proof. exact (C77_listing_lemma d S root). Qed.
Print Assumptions C77_listing_order.

(** Edges of node 0 in the order of arrival: 13 is alike 3, which keeps its
    place; 3 removed and added again comes last. *)
Definition ord_d :=
  let a d f t v := fst (addEdge ex_eqb d f t v) in
  a (fst (removeEdge ex_eqb (a (a (a (a (a dagEmpty 0 1 3) 5 0 1) 0 2 4) 0 1 13) 0 1 9) 0 1 23)) 0 1 33.
Definition ord_u := unionDAG ex_eqb ord_d (fst (addEdge ex_eqb (fst (addEdge ex_eqb dagEmpty 0 9 6)) 0 2 14)).
Example C77_case : Equiv ex_eqb /\ (exists o, Timeline ex_eqb ord_u o /\ o 0 = [(2, 4); (1, 9); (1, 33); (9, 6)]) /\
  outEdges ord_u 0 = [mkEdge 2 4; mkEdge 1 9; mkEdge 1 33; mkEdge 9 6].
Proof.
  split; [exact ex_equiv|]. split; [|reflexivity].
  eexists. split.
  - apply TL_union; [apply TL_add, TL_remove; repeat apply TL_add; apply TL_empty|].
    repeat apply TL_add; apply TL_empty.
  - reflexivity.
Qed.
Example C77_listing_case : (exists S, History syl_eqb sample S) /\ Acyclic sample /\
  DAGSylStrings sample 0 = Ok [[gKa 2; gLit 4; gKa 6]; [gNa 2; gLit 4; gKa 6]; [gNa 6]].
Proof. split; [apply sample_history|]. split; [apply sample_acyclic|reflexivity]. Qed.
