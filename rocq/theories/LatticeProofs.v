(** LatticeProofs.v - fractions and chains. *)
From Coq Require Import List ZArith Bool Lia Sorted.
From Verif Require Import Spec Base ThCons Syl OrderProofs Lattice.
Import ListNotations.


Lemma str_eqb_strEq a b : str_eqb a b = true <-> strEq a b.
Proof. apply str_eqb_spoken. Qed.
Lemma strEq_refl a : strEq a a. Proof. reflexivity. Qed.
Lemma strEq_sym a b : strEq a b -> strEq b a. Proof. unfold strEq. auto. Qed.
Lemma strEq_trans a b c : strEq a b -> strEq b c -> strEq a c. Proof. unfold strEq. congruence. Qed.
Lemma strEq_app a b c d : strEq a b -> strEq c d -> strEq (a ++ c) (b ++ d).
Proof. unfold strEq. rewrite !map_app. congruence. Qed.

(** ** Insertion *)
Lemma altInsert_in_inv l s x : In x (altInsert l s) -> x = s \/ In x l.
Proof.
  induction l as [|y l IH]; simpl.
  - intros [<-|[]]; auto.
  - destruct (str_ltb y s); simpl.
    + intros [<-|H]; auto. apply IH in H. tauto.
    + destruct (str_eqb y s); simpl; auto. intros [<-|[<-|H]]; auto.
Qed.
Lemma altInsert_in_old l s x : In x l -> In x (altInsert l s).
Proof.
  induction l as [|y l IH]; simpl; [tauto|].
  destruct (str_ltb y s); simpl; [intros [<-|H]; auto|].
  destruct (str_eqb y s); simpl; auto.
Qed.
Lemma altInsert_in_new l s : exists x, In x (altInsert l s) /\ strEq x s.
Proof.
  induction l as [|y l IH]; simpl.
  - exists s. split; [left; auto|reflexivity].
  - destruct (str_ltb y s); simpl.
    + destruct IH as (x & H1 & H2). eauto.
    + destruct (str_eqb y s) eqn:E; simpl.
      * exists y. split; auto. apply str_eqb_strEq; auto.
      * exists s. split; auto. reflexivity.
Qed.
Lemma altInsert_sorted l s : StronglySorted strLt l -> StronglySorted strLt (altInsert l s).
Proof.
  induction l as [|y l IH]; simpl; intros H.
  - repeat constructor.
  - inversion H; subst.
    destruct (str_ltb y s) eqn:Elt.
    + constructor; auto. rewrite Forall_forall in *. intros x Hx.
      apply altInsert_in_inv in Hx. destruct Hx as [->|Hx]; auto.
    + destruct (str_eqb y s) eqn:E; auto.
      assert (strLt s y) as Hlt.
      { unfold strLt. destruct (str_ltb s y) eqn:E2; auto.
        destruct (str_ltb_total _ _ Elt E2) as [X _].
        apply str_eqb_strEq in X. congruence. }
      constructor; auto. constructor; auto.
      rewrite Forall_forall in *. intros x Hx. eapply str_ltb_trans; eauto. apply H3; auto.
Qed.

Definition insertAll (h : list SylString) (f : PronunFrac) : PronunFrac :=
  fold_left fracAddStr h f.

Lemma insertAll_sorted h f : StronglySorted strLt (alts f) -> StronglySorted strLt (alts (insertAll h f)).
Proof. revert f. induction h; simpl; auto. intros f H. apply IHh. apply altInsert_sorted; auto. Qed.
Lemma insertAll_in_inv h f x : In x (alts (insertAll h f)) -> In x h \/ In x (alts f).
Proof.
  revert f. induction h as [|s h IH]; simpl; auto. intros f H.
  apply IH in H. destruct H as [H|H]; auto. apply altInsert_in_inv in H. destruct H; subst; auto.
Qed.
Lemma insertAll_in_old h f x : In x (alts f) -> In x (alts (insertAll h f)).
Proof. revert f. induction h as [|s h IH]; simpl; auto. intros f H. apply IH. apply altInsert_in_old; auto. Qed.
Lemma insertAll_in_new h f s : In s h -> exists x, In x (alts (insertAll h f)) /\ strEq x s.
Proof.
  revert f. induction h as [|y h IH]; simpl; [tauto|]. intros f [->|H].
  - destruct (altInsert_in_new (alts f) s) as (x & H1 & H2).
    exists x. split; auto. apply insertAll_in_old. auto.
  - apply IH; auto.
Qed.
Lemma insertAll_endPos h f : fracEndPos (insertAll h f) = fracEndPos f.
Proof. revert f. induction h; simpl; auto. intros. rewrite IHh. auto. Qed.

Lemma fracAdd_insertAll f g : fracAdd f g = insertAll (alts g) f.
Proof. reflexivity. Qed.

(** Equal strings with equal positions are never stored twice. *)
Lemma sorted_unique l :
  StronglySorted strLt l ->
  (forall a b, In a l -> In b l -> strEq a b -> map endPos a = map endPos b) ->
  ForallOrdPairs (fun a b => ~ strEq a b) l.
Proof.
  induction 1 as [|x l Hs IH Hf]; intros H; constructor.
  - rewrite Forall_forall in *. intros y Hy He.
    assert (map endPos x = map endPos y) by (apply H; simpl; auto).
    specialize (Hf _ Hy). unfold strLt in Hf. rewrite str_ltb_key in Hf.
    assert (map sylKey x = map sylKey y) as K by (apply strKey_spoken; auto).
    rewrite K, (tl_irrefl _ strkey_total) in Hf. discriminate.
  - apply IH. intros; apply H; simpl; auto.
Qed.

(** ** frac_eqb *)
Lemma alts_eqb_iff a b : alts_eqb a b = true <-> Forall2 strEq a b.
Proof.
  revert b. induction a as [|x a IH]; destruct b as [|y b]; simpl; split; intros H; try discriminate; auto.
  - inversion H.
  - inversion H.
  - destruct (str_eqb x y) eqn:E; simpl in H; [|discriminate].
    constructor; [apply str_eqb_strEq; auto|apply IH; auto].
  - inversion H; subst. apply str_eqb_strEq in H3. rewrite H3. simpl. apply IH; auto.
Qed.
Lemma frac_eqb_refl f : frac_eqb f f = true.
Proof. apply alts_eqb_iff. induction (alts f); constructor; auto. reflexivity. Qed.
Lemma frac_eqb_sym f g : frac_eqb f g = true -> frac_eqb g f = true.
Proof.
  unfold frac_eqb. rewrite !alts_eqb_iff. induction 1; constructor; auto. apply strEq_sym; auto.
Qed.
Lemma frac_eqb_trans f g h : frac_eqb f g = true -> frac_eqb g h = true -> frac_eqb f h = true.
Proof.
  unfold frac_eqb. rewrite !alts_eqb_iff. intros H. revert h. generalize (alts g) (alts f) H. clear.
  intros a b H h. revert H. generalize (alts h). clear.
  intros c H. revert c. induction H; intros c Hc; inversion Hc; subst; constructor; auto.
  eapply strEq_trans; eauto.
Qed.

(** ** Chains *)

Lemma chain_cons_inv f c s :
  ChainDen (f :: c) s <-> exists a t, In a (alts f) /\ ChainDen c t /\ s = a ++ t.
Proof.
  split.
  - intros H. inversion H; subst. eauto.
  - intros (a & t & H1 & H2 & ->). constructor; auto.
Qed.

(** The loop as written: at a single fraction run [absorb], else keep. *)
Lemma absorb_mergeFrom f l :
  mergeFrom (Some f) l =
  let '(f', rest) := absorb f l in f' :: mergeFrom None rest.
Proof.
  revert f. induction l as [|g l IH]; simpl; auto. intros f.
  destruct (alts g) as [|s [|s' r]] eqn:E; simpl; rewrite ?E; auto.
Qed.
Lemma chainMergeSingles_unfold f l :
  chainMergeSingles [] = [] /\
  chainMergeSingles (f :: l) =
    match alts f with
    | [_] => let '(f', rest) := absorb f l in f' :: chainMergeSingles rest
    | _ => f :: chainMergeSingles l
    end.
Proof.
  split; auto. unfold chainMergeSingles. simpl.
  destruct (alts f) as [|s [|s' r]]; auto. apply absorb_mergeFrom.
Qed.

Lemma mergeFrom_den l :
  (forall s, ChainDen (mergeFrom None l) s <-> ChainDen l s) /\
  (forall f x, alts f = [x] ->
     forall s, ChainDen (mergeFrom (Some f) l) s <-> ChainDen (f :: l) s).
Proof.
  induction l as [|g l [IH1 IH2]]; simpl; [tauto|].
  split.
  - intros s. destruct (alts g) as [|a [|b r]] eqn:E.
    + rewrite !chain_cons_inv, E. split; intros (? & ? & [] & _).
    + apply (IH2 _ a); auto.
    + rewrite !chain_cons_inv. split; intros (u & t & H1 & H2 & ->); exists u, t; repeat split; auto; apply IH1; auto.
  - intros f x Hf s. destruct (alts g) as [|a [|b r]] eqn:E.
    + split; rewrite !chain_cons_inv; intros (u & t & H1 & H2 & ->);
        apply chain_cons_inv in H2; destruct H2 as (? & ? & H2 & _); rewrite E in H2; destruct H2.
    + unfold altsAppendFirst. rewrite Hf.
      rewrite (IH2 _ (x ++ a)) by auto. rewrite !chain_cons_inv. simpl. split.
      * intros (u & t & [<-|[]] & H2 & ->). exists x, (a ++ t). rewrite Hf.
        repeat split; [left; auto| |rewrite app_assoc; auto].
        apply chain_cons_inv. exists a, t. rewrite E. repeat split; auto. left; auto.
      * intros (u & t & H1 & H2 & ->). rewrite Hf in H1. destruct H1 as [<-|[]].
        apply chain_cons_inv in H2. destruct H2 as (b & t' & H2 & H3 & ->).
        rewrite E in H2. destruct H2 as [<-|[]].
        exists (x ++ a), t'. repeat split; [left; auto|auto|rewrite app_assoc; auto].
    + split; rewrite !chain_cons_inv; intros (u & t & H1 & H2 & ->); exists u, t; repeat split; auto;
        apply chain_cons_inv in H2; destruct H2 as (v & w & H2 & H3 & ->);
        apply chain_cons_inv; exists v, w; repeat split; auto; apply IH1; auto.
Qed.

Lemma chainMergeSingles_den c s : ChainDen (chainMergeSingles c) s <-> ChainDen c s.
Proof. apply mergeFrom_den. Qed.

(** No two adjacent single fractions remain. *)
Lemma mergeFrom_noAdj l :
  noAdjSingles (mergeFrom None l) /\
  (forall f, single f -> noAdjSingles (mergeFrom (Some f) l) /\
     exists f' r, mergeFrom (Some f) l = f' :: r /\ single f' ).
Proof.
  induction l as [|g l [IH1 IH2]].
  - simpl. split; auto. intros f Hf. split; auto. exists f, []. auto.
  - split.
    + simpl. destruct (alts g) as [|a [|b r]] eqn:E.
      * simpl. destruct (mergeFrom None l) eqn:El; auto. split; auto. intros [[y Hy] _]. congruence.
      * apply IH2. exists a; auto.
      * simpl. destruct (mergeFrom None l) eqn:El; auto. split; auto. intros [[y Hy] _]. congruence.
    + intros f Hf. simpl. destruct (alts g) as [|a [|b r]] eqn:E.
      * split; [|exists f; eauto]. simpl. split; [intros [_ [y Hy]]; congruence|].
        destruct (mergeFrom None l) eqn:El; auto. split; auto. intros [[y Hy] _]. congruence.
      * apply IH2. unfold altsAppendFirst. destruct Hf as [x ->]. exists (x ++ a). auto.
      * split; [|exists f; eauto]. simpl. split; [intros [_ [y Hy]]; congruence|].
        destruct (mergeFrom None l) eqn:El; auto. split; auto. intros [[y Hy] _]. congruence.
Qed.
Lemma chainMergeSingles_noAdj c : noAdjSingles (chainMergeSingles c).
Proof. apply mergeFrom_noAdj. Qed.
