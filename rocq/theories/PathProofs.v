(** PathProofs.v - paths of a graph and their enumeration. *)
From Coq Require Import List ZArith Bool Lia Permutation.
From Verif Require Import Spec Base Dag DagProofs.
Import ListNotations.
Local Open Scope Z_scope.

Section Paths.
Variable T : Type.
Notation DAGT := (DAG T).
Implicit Types d : DAG T.


Lemma Path_app d n p m q k : Path d n p m -> Path d m q k -> Path d n (p ++ q) k.
Proof. induction 1; simpl; auto. intros. constructor; auto. Qed.

Lemma Path_app_inv d n p q k : Path d n (p ++ q) k -> exists m, Path d n p m /\ Path d m q k.
Proof.
  revert n. induction p as [|e p IH]; simpl; intros n H.
  - exists n. split; auto. constructor.
  - inversion H; subst. apply IH in H5. destruct H5 as (m & H1 & H2).
    exists m. split; auto. constructor; auto.
Qed.

(** Nodes left by a path. *)
Fixpoint srcs (n : Z) (p : list (DAGEdge T)) : list Z :=
  match p with [] => [] | e :: p' => n :: srcs (target e) p' end.

Lemma srcs_length n p : length (srcs n p) = length p.
Proof. revert n. induction p; simpl; auto. Qed.

Lemma srcs_split d n p m x : Path d n p m -> In x (srcs n p) ->
  exists p1 p2, p = p1 ++ p2 /\ Path d n p1 x /\ Path d x p2 m /\ p2 <> [].
Proof.
  induction 1 as [n|n e p m He Hp IH]; simpl; [tauto|].
  intros [<-|Hin].
  - exists [], (e :: p). repeat split; try constructor; auto. discriminate.
  - destruct (IH Hin) as (p1 & p2 & -> & H1 & H2 & H3).
    exists (e :: p1), p2. repeat split; auto. constructor; auto.
Qed.

Lemma srcs_nodup d n p m : Acyclic d -> Path d n p m -> NoDup (srcs n p).
Proof.
  intros A. induction 1 as [n|n e p m He Hp IH]; simpl; constructor; auto.
  intros Hin. destruct (srcs_split _ _ _ _ _ Hp Hin) as (p1 & p2 & -> & H1 & H2 & H3).
  assert (Path d n (e :: p1) n) as C by (constructor; auto).
  apply A in C. discriminate.
Qed.

Lemma srcs_incl d n p m : Path d n p m -> incl (srcs n p) (map fst (mFrom d)).
Proof.
  induction 1 as [n|n e p m He Hp IH]; intros x; simpl; [tauto|].
  intros [<-|Hin]; auto. unfold outEdges in He. apply in_range in He.
  apply in_map_iff. exists (n, e). auto.
Qed.

Lemma path_bound d n p m : Acyclic d -> Path d n p m -> (length p <= length (mFrom d))%nat.
Proof.
  intros A H. rewrite <- (srcs_length n p), <- (map_length fst (mFrom d)).
  apply NoDup_incl_length.
  - eapply srcs_nodup; eauto.
  - eapply srcs_incl; eauto.
Qed.

(** Generic enumeration, the shape shared by the two listings of the code. *)
Fixpoint enumF (fuel : nat) (d : DAGT) (root : Z) : Res (list (list T)) :=
  match fuel with
  | O => NoFuel
  | S fuel' =>
      (parts <- mapM (fun e =>
                        child <- enumF fuel' d (target e) ;;
                        Ok (match child with
                            | [] => [[edgeVal e]]
                            | _ => map (fun s => edgeVal e :: s) child
                            end))
                     (outEdges d root) ;;
       Ok (List.concat parts))%res
  end.

(** The same, returning the paths themselves. *)
Fixpoint enumP (fuel : nat) (d : DAGT) (root : Z) : Res (list (list (DAGEdge T))) :=
  match fuel with
  | O => NoFuel
  | S fuel' =>
      (parts <- mapM (fun e =>
                        child <- enumP fuel' d (target e) ;;
                        Ok (match child with
                            | [] => [[e]]
                            | _ => map (fun s => e :: s) child
                            end))
                     (outEdges d root) ;;
       Ok (List.concat parts))%res
  end.

Lemma mapM_Ok_iff {A B} (f : A -> Res B) l r :
  mapM f l = Ok r <-> Forall2 (fun x y => f x = Ok y) l r.
Proof.
  revert r. induction l as [|x l IH]; simpl; intros r.
  - split; intros H; [injection H as <-; constructor|inversion H; auto].
  - split; intros H.
    + destruct (f x) eqn:E; try discriminate. simpl in H.
      destruct (mapM f l) eqn:E2; try discriminate. simpl in H. injection H as <-.
      constructor; auto. apply IH; auto.
    + inversion H; subst. rewrite H2. simpl. apply IH in H4. rewrite H4. auto.
Qed.

Lemma mapM_exists {A B} (f : A -> Res B) l :
  (forall x, In x l -> exists y, f x = Ok y) -> exists r, mapM f l = Ok r.
Proof.
  induction l as [|x l IH]; simpl; intros H; [eauto|].
  destruct (H x) as [y ->]; auto. destruct IH as [r ->]; auto. simpl. eauto.
Qed.

Lemma enumF_enumP fuel d root :
  enumF fuel d root =
  (r <- enumP fuel d root ;; Ok (map (map edgeVal) r))%res.
Proof.
  revert root. induction fuel as [|fuel IH]; simpl; auto. intros root.
  set (g := fun e : DAGEdge T => _). set (h := fun e : DAGEdge T => bind (enumP _ _ _) _).
  assert (forall l, mapM g l = (r <- mapM h l ;; Ok (map (map (map edgeVal)) r))%res) as X.
  { induction l as [|e l IHl]; simpl; auto.
    unfold g at 1, h at 1. rewrite IH. destruct (enumP fuel d (target e)) as [c| | |]; simpl; auto.
    rewrite IHl. destruct (mapM h l); simpl; auto.
    destruct c; simpl; auto. rewrite !map_map. auto. }
  rewrite X. destruct (mapM h (outEdges d root)); simpl; auto.
  rewrite concat_map. auto.
Qed.

Definition depthOK (d : DAGT) (n : Z) (k : nat) : Prop :=
  forall p m, Path d n p m -> (length p < k)%nat.

Lemma depth_step d n k e : depthOK d n (S k) -> In e (outEdges d n) -> depthOK d (target e) k.
Proof. intros H He p m Hp. specialize (H (e :: p) m). simpl in H. apply Nat.succ_lt_mono. apply H. constructor; auto. Qed.

Lemma enumP_ok fuel d n : depthOK d n fuel -> exists r, enumP fuel d n = Ok r.
Proof.
  revert n. induction fuel as [|fuel IH]; intros n H.
  - specialize (H [] n (P_nil _ _)). simpl in H. lia.
  - simpl. destruct (mapM_exists (fun e => (child <- enumP fuel d (target e);;
         Ok match child with [] => [[e]] | _ :: _ => map (fun s => e :: s) child end)%res) (outEdges d n)) as [r ->].
    + intros e He. destruct (IH (target e)) as [c ->]; [eapply depth_step; eauto|]. simpl. eauto.
    + simpl. eauto.
Qed.

Lemma Forall2_in_l {A B} (R : A -> B -> Prop) l r x :
  Forall2 R l r -> In x l -> exists y, In y r /\ R x y.
Proof. induction 1; simpl; [tauto|]. intros [<-|H1]; eauto. destruct (IHForall2 H1) as (z & ? & ?). eauto. Qed.
Lemma Forall2_in_r {A B} (R : A -> B -> Prop) l r y :
  Forall2 R l r -> In y r -> exists x, In x l /\ R x y.
Proof. induction 1; simpl; [tauto|]. intros [<-|H1]; eauto. destruct (IHForall2 H1) as (z & ? & ?). eauto. Qed.

Lemma enumP_nil fuel d n : enumP fuel d n = Ok [] -> outEdges d n = [].
Proof.
  destruct fuel as [|fuel]; simpl; [discriminate|].
  destruct (outEdges d n) as [|e l]; auto. simpl.
  destruct (enumP fuel d (target e)) as [c| | |]; simpl; try discriminate.
  destruct (mapM _ l); simpl; try discriminate.
  intros H. injection H as H. destruct c; discriminate.
Qed.

Lemma enumP_correct fuel d n r : enumP fuel d n = Ok r ->
  forall p, In p r <-> p <> [] /\ MaxPath d n p.
Proof.
  revert n r. induction fuel as [|fuel IH]; simpl; intros n r H; [discriminate|].
  destruct (mapM _ (outEdges d n)) as [parts| | |] eqn:E; try discriminate.
  injection H as <-. apply mapM_Ok_iff in E.
  assert (forall e part, (child <- enumP fuel d (target e);;
         Ok match child with [] => [[e]] | _ :: _ => map (fun s => e :: s) child end)%res = Ok part ->
         forall p, In p part <-> exists q, p = e :: q /\ MaxPath d (target e) q) as X.
  { intros e part H p. destruct (enumP fuel d (target e)) as [c| | |] eqn:Ec; try discriminate.
    simpl in H. injection H as <-. specialize (IH _ _ Ec).
    destruct c as [|c0 c].
    - apply enumP_nil in Ec. split.
      + intros [<-|[]]. exists []. split; auto. exists (target e). split; [constructor|auto].
      + intros (q & -> & m & Hq & Hm). inversion Hq; subst; [left; auto|].
        rewrite Ec in H. destruct H.
    - rewrite in_map_iff. split.
      + intros (q & <- & Hq). exists q. split; auto. apply IH in Hq. tauto.
      + intros (q & -> & Hq). exists q. split; auto. apply IH. split; auto.
        intros ->. destruct Hq as (m & Hq & Hm). inversion Hq; subst.
        assert (In c0 (c0 :: c)) as I by (left; auto). apply IH in I.
        destruct I as (I1 & m & I2 & _). inversion I2; subst; [congruence|].
        rewrite Hm in H. destruct H. }
  intros p. rewrite in_concat. split.
  - intros (part & Hpart & Hp). destruct (Forall2_in_r _ _ _ _ E Hpart) as (e & He & Hf).
    apply (X _ _ Hf) in Hp. destruct Hp as (q & -> & m & Hq & Hm).
    split; [discriminate|]. exists m. split; auto. constructor; auto.
  - intros (Hn & m & Hp & Hm). inversion Hp; subst; [congruence|].
    destruct (Forall2_in_l _ _ _ _ E H) as (part & Hpart & Hf).
    exists part. split; auto. apply (X _ _ Hf). exists p0. split; auto. exists m. auto.
Qed.

Lemma NoDup_app_intro {A} (a b : list A) :
  NoDup a -> NoDup b -> (forall x, In x a -> In x b -> False) -> NoDup (a ++ b).
Proof.
  induction a as [|x a IH]; simpl; auto. intros Ha Hb Hd. inversion Ha; subst.
  constructor.
  - rewrite in_app_iff. intros [|]; eauto.
  - apply IH; auto. eauto.
Qed.

Lemma enumP_NoDup fuel d n r : (forall k, NoDup (outEdges d k)) ->
  enumP fuel d n = Ok r -> NoDup r.
Proof.
  intros ND. revert n r. induction fuel as [|fuel IH]; simpl; intros n r H; [discriminate|].
  destruct (mapM _ (outEdges d n)) as [parts| | |] eqn:E; try discriminate.
  injection H as <-. apply mapM_Ok_iff in E.
  specialize (ND n). revert ND. induction E as [|e part l parts He Hf IHE]; simpl; intros ND; [constructor|].
  inversion ND; subst.
  assert (forall e part p, (child <- enumP fuel d (target e);;
         Ok match child with [] => [[e]] | _ :: _ => map (fun s => e :: s) child end)%res = Ok part ->
         In p part -> exists q, p = e :: q) as Hd.
  { clear. intros e part p H Hp. destruct (enumP fuel d (target e)) as [c| | |]; try discriminate.
    simpl in H. injection H as <-. destruct c as [|c0 c].
    - destruct Hp as [<-|[]]. eauto.
    - apply in_map_iff in Hp. destruct Hp as (q & <- & _). eauto. }
  apply NoDup_app_intro; auto.
  - destruct (enumP fuel d (target e)) as [c| | |] eqn:Ec; try discriminate.
    simpl in He. injection He as <-. destruct c as [|c0 c].
    + repeat constructor. intros [].
    + apply FinFun.Injective_map_NoDup; [|eapply IH; eauto]. intros a b Hab. congruence.
  - intros p Hp Hq. apply in_concat in Hq. destruct Hq as (part' & Hpart' & Hp').
    destruct (Forall2_in_r _ _ _ _ Hf Hpart') as (e' & He' & Hf').
    destruct (Hd _ _ _ He Hp) as (q1 & ->). destruct (Hd _ _ _ Hf' Hp') as (q2 & Heq).
    injection Heq as -> _. contradiction.
Qed.

Lemma acyclic_depth d n : Acyclic d -> depthOK d n (S (length (mFrom d))).
Proof. intros A p m H. apply path_bound in H; auto. lia. Qed.
End Paths.

Arguments enumF {T}.
Arguments enumP {T}.
