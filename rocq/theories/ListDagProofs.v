(** ListDagProofs.v - graphs built from lists of positioned strings. *)
From Coq Require Import List ZArith Bool Lia.
From Verif Require Import Spec Base ThCons Syl OrderProofs Lattice LatticeProofs Dag
  DagProofs PathProofs PronDag GroupProofs.
Import ListNotations.
Local Open Scope Z_scope.


(** A graph all of whose edges go up in rank is acyclic. *)
Lemma rank_path {T} (d : DAG T) (rk : Z -> Z) :
  (forall x y v, InE d x y v -> rk x < rk y) ->
  forall n p m, Path d n p m -> p <> [] -> rk n < rk m.
Proof.
  intros H n p m P. induction P as [n|n e p m He Hp IH]; [congruence|]. intros _.
  apply out_InE in He. apply H in He. destruct p.
  - inversion Hp; subst. auto.
  - assert (rk (target e) < rk m) by (apply IH; discriminate). lia.
Qed.
Lemma rank_acyclic {T} (d : DAG T) (rk : Z -> Z) :
  (forall x y v, InE d x y v -> rk x < rk y) -> Acyclic d.
Proof.
  intros H n p P. destruct p; auto. exfalso.
  assert (rk n < rk n) by (eapply rank_path; eauto; discriminate). lia.
Qed.

Fixpoint strEdges (x : Z) (s : SylString) : list (Z * Z * Syl) :=
  match s with
  | [] => []
  | v :: s' => (x, endPos v, v) :: strEdges (endPos v) s'
  end.

Definition addStep (acc : PronunDAG * Z) (syl : Syl) : PronunDAG * Z :=
  (fst (pAddEdge (fst acc) (snd acc) (endPos syl) syl), endPos syl).

Lemma addSylString_InE s d pos x y v :
  InE (addSylString d pos s) x y v -> InE d x y v \/ In (x, y, v) (strEdges pos s).
Proof.
  unfold addSylString. change (fun (acc : DAG Syl * Z) (syl : Syl) => (fst (pAddEdge (fst acc) (snd acc) (endPos syl) syl), endPos syl)) with addStep.
  revert d pos. induction s as [|w s IH]; simpl; intros d pos H; auto.
  unfold addStep in H at 2. simpl in H.
  apply IH in H. destruct H as [H|H]; auto.
  unfold pAddEdge in H. apply add_InE in H; auto using syl_eqb_refl, syl_eqb_sym.
  destruct H as [H|(_ & -> & -> & ->)]; auto.
Qed.

Lemma addSylString_keep s d pos x y v : InE d x y v -> InE (addSylString d pos s) x y v.
Proof.
  unfold addSylString. change (fun (acc : DAG Syl * Z) (syl : Syl) => (fst (pAddEdge (fst acc) (snd acc) (endPos syl) syl), endPos syl)) with addStep.
  revert d pos. induction s as [|w s IH]; simpl; intros d pos H; auto.
  unfold addStep at 2. simpl. apply IH. unfold pAddEdge. apply add_InE; auto using syl_eqb_refl, syl_eqb_sym.
Qed.

Lemma addSylString_new s d pos x y v :
  In (x, y, v) (strEdges pos s) -> Has syl_eqb (addSylString d pos s) x y v.
Proof.
  unfold addSylString. change (fun (acc : DAG Syl * Z) (syl : Syl) => (fst (pAddEdge (fst acc) (snd acc) (endPos syl) syl), endPos syl)) with addStep.
  revert d pos. induction s as [|w s IH]; simpl; intros d pos H; [tauto|].
  unfold addStep at 2. simpl. destruct H as [H|H]; auto.
  injection H as -> <- ->.
  assert (Has syl_eqb (fst (pAddEdge d x (endPos v) v)) x (endPos v) v) as (w & I & W).
  { apply add_Has; auto using syl_eqb_refl, syl_eqb_sym. exact syl_eqb_trans. }
  exists w. split; auto.
  pose proof (addSylString_keep s (fst (pAddEdge d x (endPos v) v)) (endPos v)) as K.
  unfold addSylString in K. apply K. auto.
Qed.

Lemma addSylString_wf s d pos : pwf d -> pwf (addSylString d pos s).
Proof.
  unfold addSylString. change (fun (acc : DAG Syl * Z) (syl : Syl) => (fst (pAddEdge (fst acc) (snd acc) (endPos syl) syl), endPos syl)) with addStep.
  revert d pos. induction s as [|w s IH]; simpl; intros d pos H; auto.
  unfold addStep at 2. simpl. apply IH. apply add_dwf; auto using syl_eqb_refl, syl_eqb_sym.
Qed.

Lemma ofList_spec l d :
  let r := fold_left (fun d s => addSylString d 0 s) l d in
  (pwf d -> pwf r) /\
  (forall x y v, InE r x y v -> InE d x y v \/ exists s, In s l /\ In (x, y, v) (strEdges 0 s)) /\
  (forall x y v, InE d x y v -> InE r x y v) /\
  (forall s x y v, In s l -> In (x, y, v) (strEdges 0 s) -> Has syl_eqb r x y v).
Proof.
  revert d. induction l as [|s l IH]; simpl; intros d.
  - split; [auto|]. split; [auto|]. split; [auto|]. tauto.
  - destruct (IH (addSylString d 0 s)) as (H0 & H1 & H2 & H3).
    split; [intros W; apply H0; apply addSylString_wf; auto|]. split; [|split].
    + intros x y v I. apply H1 in I. destruct I as [I|(t & I & J)].
      * apply addSylString_InE in I. destruct I as [I|I]; auto. right. exists s. auto.
      * right. exists t. auto.
    + intros x y v I. apply H2. apply addSylString_keep. auto.
    + intros t x y v [<-|I] J; [|eauto].
      apply (addSylString_new _ d) in J. destruct J as (w & J & W). exists w. auto.
Qed.

Lemma pronDAGOfList_InE l x y v : InE (pronDAGOfList l) x y v ->
  exists s, In s l /\ In (x, y, v) (strEdges 0 s).
Proof. intros I. apply (ofList_spec l dagEmpty) in I. destruct I as [[]|I]. auto. Qed.
Lemma pronDAGOfList_Has l s x y v : In s l -> In (x, y, v) (strEdges 0 s) ->
  Has syl_eqb (pronDAGOfList l) x y v.
Proof. intros I J. apply (ofList_spec l dagEmpty) with (s := s); auto. Qed.
Lemma pronDAGOfList_wf l : pwf (pronDAGOfList l).
Proof. apply (ofList_spec l dagEmpty). apply dwf_empty. Qed.

Lemma strEdges_endPos x s a b v : In (a, b, v) (strEdges x s) -> b = endPos v.
Proof. revert x. induction s; simpl; intros x H; [tauto|]. destruct H as [H|H]; [injection H as <- <- <-; auto|eauto]. Qed.

Lemma strEdges_rank x s a b v : increasing x (map endPos s) -> In (a, b, v) (strEdges x s) ->
  nodeRank a < nodeRank b /\ nodeRank x <= nodeRank a.
Proof.
  revert x. induction s as [|w s IH]; simpl; intros x Hi H; [tauto|]. destruct Hi as [Hi1 Hi2].
  destruct H as [H|H].
  - injection H as <- <- <-. lia.
  - destruct (IH _ Hi2 H). lia.
Qed.

Lemma last_nonempty {A} (s : list A) (d d' : A) : s <> [] -> last s d = last s d'.
Proof. induction s as [|x s IH]; [congruence|]. intros _. destruct s; auto. simpl in *. apply IH. discriminate. Qed.

Lemma str_endPos_cons v s : s <> [] -> str_endPos (v :: s) = str_endPos s.
Proof. destruct s; [congruence|]. reflexivity. Qed.

Lemma strEdges_to_end x s a b v : increasing x (map endPos s) ->
  In (a, b, v) (strEdges x s) -> nodeRank b <= nodeRank (str_endPos s).
Proof.
  revert x a b v. induction s as [|w s IH]; simpl; intros x a b v Hi H; [tauto|]. destruct Hi as [Hi1 Hi2].
  destruct s as [|w' s].
  - destruct H as [H|[]]. injection H as <- <- <-. unfold str_endPos; simpl. lia.
  - change (nodeRank b <= nodeRank (str_endPos (w' :: s))).
    destruct H as [H|H].
    + injection H as <- <- <-.
      assert (nodeRank (endPos w') <= nodeRank (str_endPos (w' :: s))) as X.
      { eapply (IH (endPos w)); eauto. left. auto. }
      destruct Hi2. lia.
    + eauto.
Qed.

(** A string's edges form a path. *)
Lemma strEdges_path d x s :
  (forall a b v, In (a, b, v) (strEdges x s) -> Has syl_eqb d a b v) ->
  s <> [] ->
  exists p, Path d x p (str_endPos s) /\ strEq (map edgeVal p) s /\ p <> [].
Proof.
  revert x. induction s as [|w s IH]; intros x H N; [congruence|].
  destruct (H x (endPos w) w) as (w' & I & W); [left; auto|].
  destruct s as [|w2 s].
  - exists [mkEdge (endPos w) w']. split; [|split; [|discriminate]].
    + constructor; [apply out_InE; auto|]. constructor.
    + unfold strEq. simpl. apply syl_eqb_spoken in W. congruence.
  - destruct (IH (endPos w)) as (p & P1 & P2 & P3).
    + intros a b v Hv. apply H. right. auto.
    + discriminate.
    + exists (mkEdge (endPos w) w' :: p). split; [|split; [|discriminate]].
      * rewrite str_endPos_cons by discriminate. constructor; [apply out_InE; auto|]. auto.
      * unfold strEq in *. apply syl_eqb_spoken in W. simpl in *. congruence.
Qed.


Lemma ofList_acyclic l N : (forall s, In s l -> wellPositioned N s) ->
  Acyclic (pronDAGOfList l) /\ (forall x v, ~ InE (pronDAGOfList l) x 0 v) /\ NoOut (pronDAGOfList l) N.
Proof.
  intros H.
  assert (forall x y v, InE (pronDAGOfList l) x y v ->
            nodeRank x < nodeRank y /\ 0 <= nodeRank x /\ nodeRank y <= nodeRank N) as R.
  { intros x y v I. apply pronDAGOfList_InE in I. destruct I as (s & Hs & I).
    destruct (H _ Hs) as (N1 & N2 & N3).
    destruct (strEdges_rank _ _ _ _ _ N2 I). pose proof (strEdges_to_end _ _ _ _ _ N2 I).
    rewrite N3 in *. change (nodeRank 0) with 0 in *. auto. }
  split; [|split].
  - apply rank_acyclic with (rk := nodeRank). intros x y v I. apply R in I. tauto.
  - intros x v I. apply R in I. change (nodeRank 0) with 0 in I. lia.
  - unfold NoOut. destruct (outEdges (pronDAGOfList l) N) as [|e r] eqn:E; auto.
    assert (In e (outEdges (pronDAGOfList l) N)) as I by (rewrite E; left; auto).
    apply out_InE, R in I. lia.
Qed.

Lemma ofList_contains l N : (forall s, In s l -> wellPositioned N s) ->
  forall s, In s l -> upTo (PLang (pronDAGOfList l)) s.
Proof.
  intros H s Hs. destruct (ofList_acyclic l N H) as (_ & _ & NO).
  destruct (H _ Hs) as (N1 & N2 & N3).
  destruct (strEdges_path (pronDAGOfList l) 0 s) as (p & P1 & P2 & P3); auto.
  { intros a b v I. eapply pronDAGOfList_Has; eauto. }
  exists (map edgeVal p). split; auto. exists p. split; [auto|]. split; auto.
  exists N. rewrite N3 in P1. auto.
Qed.


(** Every edge of a string leaves 0 or one of its interior positions. *)
Lemma strEdges_source x s a b v : In (a, b, v) (strEdges x s) -> a = x \/ In a (interior s).
Proof.
  unfold interior. revert x. induction s as [|w s IH]; simpl; intros x H; [tauto|].
  destruct H as [H|H].
  - injection H as <- <- <-. auto.
  - destruct s as [|w2 s]; [destruct H|]. apply IH in H. right.
    change (In a (endPos w :: map endPos (removelast (w2 :: s)))).
    destruct H as [->|H]; [left|right]; auto.
Qed.

(** Following the edges of one string. *)
Lemma follow l N : (forall s, In s l -> wellPositioned N s) ->
  (forall s t p, In s l -> In t l -> In p (interior s) -> In p (interior t) -> s = t) ->
  forall p pre suf m, Path (pronDAGOfList l) (endPos (last pre Blank)) p m ->
    NoOut (pronDAGOfList l) m -> pre <> [] -> In (pre ++ suf) l -> map edgeVal p = suf.
Proof.
  intros H U p. induction p as [|e p IH]; intros pre suf m P NO Np Hs.
  - inversion P; subst. destruct suf as [|w suf]; auto. exfalso.
    assert (In (endPos (last pre Blank), endPos w, w) (strEdges 0 (pre ++ w :: suf))) as I.
    { clear -Np. generalize 0. induction pre as [|a pre IHp]; [congruence|]. intros x.
      destruct pre as [|b pre]; [simpl; auto|]. simpl app. right. apply IHp. discriminate. }
    apply (pronDAGOfList_Has l) in I; auto. destruct I as (w' & I & _).
    assert (In (mkEdge (endPos w) w') (outEdges (pronDAGOfList l) (endPos (last pre Blank)))) as J
        by (apply out_InE; auto). rewrite NO in J. destruct J.
  - inversion P as [|n' e' p' m' He Hp]; subst. apply out_InE in He.
    pose proof (pronDAGOfList_InE _ _ _ _ He) as (t & Ht & It).
    destruct (H _ Hs) as (N1 & N2 & N3). destruct (H _ Ht) as (T1 & T2 & T3).
    (* the source is an interior position of both *)
    assert (suf <> []) as Nsuf.
    { intros ->. rewrite app_nil_r in *. destruct (strEdges_rank _ _ _ _ _ T2 It) as [R1 _].
      pose proof (strEdges_to_end _ _ _ _ _ T2 It) as R2. rewrite T3 in R2.
      assert (endPos (last pre Blank) = N) as EN.
      { unfold str_endPos in N3. destruct pre; [congruence|exact N3]. }
      rewrite EN in *. lia. }
    destruct suf as [|w suf]; [congruence|].
    assert (In (endPos (last pre Blank)) (interior (pre ++ w :: suf))) as I1.
    { unfold interior. rewrite removelast_app by discriminate. rewrite map_app, in_app_iff. left.
      apply in_map. clear -Np. induction pre as [|a pre IHp]; [congruence|].
      destruct pre; [left; auto|]. right. apply IHp. discriminate. }
    assert (0 < nodeRank (endPos (last pre Blank))) as Rpos.
    { clear -N2 Np. change 0 with (nodeRank 0) at 1. revert N2. generalize 0.
      induction pre as [|a pre IHp]; [congruence|]. intros x. simpl. intros [A1 A2].
      destruct pre as [|b pre]; auto. assert (nodeRank (endPos a) < nodeRank (endPos (last (b :: pre) Blank))).
      { apply IHp; auto. discriminate. } simpl in *. lia. }
    assert (In (endPos (last pre Blank)) (interior t)) as I2.
    { destruct (strEdges_source _ _ _ _ _ It) as [E|E]; auto.
      rewrite E in Rpos. change (nodeRank 0) with 0 in Rpos. lia. }
    assert (pre ++ w :: suf = t) as Et by (eapply U; eauto). subst t.
    (* the only edge of the string leaving that position is the next one *)
    assert (forall pre x, increasing x (map endPos (pre ++ w :: suf)) -> pre <> [] ->
              In (endPos (last pre Blank), target e, edgeVal e) (strEdges x (pre ++ w :: suf)) ->
              target e = endPos w /\ edgeVal e = w) as Uniq.
    { clear. induction pre as [|a pre IHp]; [congruence|]. intros x Hi _ I.
      simpl in Hi. destruct Hi as [Hi1 Hi2]. simpl app in I.
      destruct I as [I|I].
      - exfalso. injection I as E1 E2 E3.
        assert (nodeRank x < nodeRank (endPos (last (a :: pre) Blank))) as R.
        { clear -Hi1 Hi2. revert a x Hi1 Hi2. induction pre as [|b pre IH]; intros; auto.
          simpl in Hi2. destruct Hi2. assert (nodeRank (endPos a) < nodeRank (endPos (last (b :: pre) Blank))) by (apply IH; auto).
          simpl in *. lia. }
        rewrite E1 in R. simpl in R. lia.
      - destruct pre as [|b pre].
        + simpl in I, Hi2. destruct I as [I|I].
          * injection I as E1 E2. split; congruence.
          * exfalso. destruct Hi2 as [Hi2 Hi3].
            destruct (strEdges_rank _ _ _ _ _ Hi3 I). lia.
        + apply (IHp (endPos a)); auto; discriminate. }
    destruct (Uniq _ _ N2 Np It) as [E1 E2].
    simpl. f_equal; auto. apply (IH (pre ++ [w]) suf m).
    + rewrite last_last. rewrite <- E1. auto.
    + auto.
    + destruct pre; discriminate.
    + rewrite <- app_assoc. auto.
Qed.

Lemma ofList_exact l N : (forall s, In s l -> wellPositioned N s) ->
  (forall s t p, In s l -> In t l -> In p (interior s) -> In p (interior t) -> s = t) ->
  forall s, PLang (pronDAGOfList l) s -> In s l.
Proof.
  intros H U s (p & Np & (m & P & NO) & ->).
  destruct p as [|e p]; [congruence|]. inversion P as [|n' e' p' m' He Hp]; subst.
  apply out_InE in He. pose proof (pronDAGOfList_InE _ _ _ _ He) as (t & Ht & It).
  destruct (H _ Ht) as (T1 & T2 & T3).
  destruct t as [|w t]; [destruct It|]. simpl in It. destruct It as [It|It].
  - injection It as E1 E2. assert (map edgeVal p = t) as <-.
    { apply (follow l N H U p [w] t m); auto.
      - simpl. rewrite E1. auto.
      - discriminate. }
    simpl. rewrite <- E2. auto.
  - exfalso. simpl in T2. destruct T2 as [T2 T2'].
    destruct (strEdges_rank _ _ _ _ _ T2' It) as [_ R]. change (nodeRank 0) with 0 in *. lia.
Qed.
