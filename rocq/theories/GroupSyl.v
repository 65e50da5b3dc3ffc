(** GroupSyl.v - the grouped form is made of the syllables of the graph, and
    has no empty part. *)
From Coq Require Import List ZArith Bool Arith Lia.
From Verif Require Import Base ThCons Syl Lattice Dag PronDag Spec OrderProofs LatticeProofs DagProofs
  PathProofs GroupProofs.
Import ListNotations.
Local Open Scope Z_scope.

(** A property of every edge value, in both indexes. *)
Section Vals.
Variable T : Type.
Variable veqb : T -> T -> bool.
Variable Q : T -> Prop.
Definition allVals (d : DAG T) : Prop :=
  Forall (fun p => Q (edgeVal (snd p))) (mFrom d) /\ Forall (fun p => Q (edgeVal (snd p))) (mTo d).
Lemma emplace_all (m : MMap T) k e : Forall (fun p => Q (edgeVal (snd p))) m -> Q (edgeVal e) ->
  Forall (fun p => Q (edgeVal (snd p))) (mmEmplace m k e).
Proof.
  induction 1 as [|[k' e'] m H F IH]; intros He; cbn [mmEmplace]; [repeat constructor; auto|].
  destruct (k <? k'); constructor; auto.
Qed.
Lemma erase_all (m : MMap T) k t v : Forall (fun p => Q (edgeVal (snd p))) m ->
  Forall (fun p => Q (edgeVal (snd p))) (fst (mmEraseFirst veqb m k t v)).
Proof.
  induction 1 as [|[k' e'] m H F IH]; cbn [mmEraseFirst]; [constructor|].
  destruct (_ && _); [exact F|]. destruct (mmEraseFirst veqb m k t v) as [r b]. constructor; auto.
Qed.
Lemma eraseAll_all (m : MMap T) k t : Forall (fun p => Q (edgeVal (snd p))) m ->
  Forall (fun p => Q (edgeVal (snd p))) (fst (mmEraseAll m k t)).
Proof.
  intros F. cbn [mmEraseAll fst]. apply Forall_forall. intros x I. apply filter_In in I.
  rewrite Forall_forall in F. apply F. tauto.
Qed.
Lemma add_all d f t v : allVals d -> Q v -> allVals (fst (addEdge veqb d f t v)).
Proof.
  intros (A & B) H. unfold addEdge. destruct (isEdgeExist veqb d f t v); [split; auto|].
  split; apply emplace_all; auto.
Qed.
Lemma remove_all d f t v : allVals d -> allVals (fst (removeEdge veqb d f t v)).
Proof.
  intros (A & B). unfold removeEdge.
  pose proof (erase_all (mFrom d) f t v A) as X. pose proof (erase_all (mTo d) t f v B) as Y.
  destruct (mmEraseFirst veqb (mFrom d) f t v), (mmEraseFirst veqb (mTo d) t f v). split; auto.
Qed.
Lemma removeDirect_all d f t : allVals d -> allVals (fst (removeDirectEdges d f t)).
Proof.
  intros (A & B). split; apply (eraseAll_all _ _ _); assumption.
Qed.
Lemma range_all (m : MMap T) k e : Forall (fun p => Q (edgeVal (snd p))) m -> In e (mmRange m k) -> Q (edgeVal e).
Proof.
  intros F I. unfold mmRange in I. apply in_map_iff in I. destruct I as (p & <- & I). apply filter_In in I.
  rewrite Forall_forall in F. apply F. tauto.
Qed.
End Vals.
Arguments allVals {T}.
Arguments range_all {T}.
Arguments add_all {T}.
Arguments remove_all {T}.
Arguments removeDirect_all {T}.

Section Syls.
Variable P : Syl -> Prop.
Definition fracP (f : PronunFrac) : Prop := Forall (Forall P) (alts f).
Lemma altInsert_P l s : Forall (Forall P) l -> Forall P s -> Forall (Forall P) (altInsert l s).
Proof.
  induction 1 as [|x l H F IH]; intros Hs; cbn [altInsert]; [repeat constructor; auto|].
  destruct (str_ltb x s); [constructor; auto|]. destruct (str_eqb x s); [constructor; auto|]. repeat constructor; auto.
Qed.
Lemma fracAdd_P f g : fracP f -> fracP g -> fracP (fracAdd f g).
Proof.
  unfold fracAdd, fracP at 2. intros F G. revert f F. induction G as [|s l H G IH]; intros f F; [exact F|].
  cbn [fold_left]. apply IH. unfold fracP. cbn [alts fracAddStr]. apply altInsert_P; auto.
Qed.
Lemma mergedFracOf_P d from to : allVals fracP d -> fracP (fst (mergedFracOf d from to)).
Proof.
  intros (A & _). unfold mergedFracOf.
  assert (G : forall l acc, (forall e, In e l -> fracP (edgeVal e)) -> fracP (fst acc) ->
    fracP (fst (fold_left (fun acc e => if target e =? to then (fracAdd (fst acc) (edgeVal e), S (snd acc)) else acc) l acc))).
  { induction l as [|e l IH]; intros acc H Ha; [exact Ha|]. cbn [fold_left]. apply IH.
    - intros x I. apply H. right; exact I.
    - destruct (target e =? to); [|exact Ha]. cbn [fst]. apply fracAdd_P; [exact Ha|apply H; left; reflexivity]. }
  apply G; [intros e I; exact (range_all _ _ _ _ A I)|constructor].
Qed.
Lemma mergeSingleAt_P d n e d' : allVals fracP d -> fracP (edgeVal e) -> mergeSingleAt d n e = Ok d' -> allVals fracP d'.
Proof.
  intros A He. unfold mergeSingleAt. destruct (inEdges d n) as [|inE rest] eqn:Ei; [discriminate|].
  assert (Hi : fracP (edgeVal inE)).
  { apply (range_all _ (mTo d) n); [apply A|]. unfold inEdges in Ei. rewrite Ei. left; reflexivity. }
  unfold firstAlt. destruct (alts (edgeVal inE)) as [|a la] eqn:Ea; [discriminate|].
  destruct (alts (edgeVal e)) as [|b lb] eqn:Eb; [discriminate|]. cbn [bind].
  destruct (target inE =? n); [discriminate|]. intros X. injection X as <-.
  apply add_all; [apply remove_all, remove_all, A|].
  unfold fracP in *. rewrite fracOf_alts. rewrite Ea in Hi. rewrite Eb in He. inversion Hi; inversion He; subst.
  constructor; [apply Forall_app; auto|constructor].
Qed.
Lemma mergeSinglesLoop_P fuel : forall d i d', allVals fracP d -> mergeSinglesLoop fuel d i = Ok d' -> allVals fracP d'.
Proof.
  induction fuel as [|fuel IH]; intros d i d' A; [discriminate|]. cbn [mergeSinglesLoop].
  destruct (nth_error (mFrom d) i) as [[n e]|] eqn:E; [|intros X; injection X as <-; exact A].
  destruct (_ && _); [|apply IH; exact A].
  destruct (mergeSingleAt d n e) as [d1| | |] eqn:M; cbn [bind]; try discriminate.
  apply IH. apply (mergeSingleAt_P d n e); auto.
  destruct A as (A & _). rewrite Forall_forall in A. apply (A (n, e)). apply nth_error_In with i. exact E.
Qed.
Lemma mergeParallelsLoop_P fuel : forall d i d', allVals fracP d -> mergeParallelsLoop fuel d i = Ok d' -> allVals fracP d'.
Proof.
  induction fuel as [|fuel IH]; intros d i d' A; [discriminate|]. cbn [mergeParallelsLoop].
  destruct (nth_error (mFrom d) i) as [[n e]|] eqn:E; [|intros X; injection X as <-; exact A].
  destruct (_ =? _)%nat; [apply IH; exact A|].
  pose proof (mergedFracOf_P d n (target e) A) as M.
  destruct (mergedFracOf d n (target e)) as [mf cnt]. cbn [fst] in M. destruct (1 <? cnt)%nat; [|apply IH; exact A].
  apply IH. apply add_all; [apply removeDirect_all; exact A|exact M].
Qed.
Lemma init_P d : (forall x y v, InE d x y v -> P v) -> allVals fracP (fracDAGInit d).
Proof.
  intros H. unfold fracDAGInit.
  assert (G : forall l acc, (forall p, In p l -> P (edgeVal (snd p))) -> allVals fracP acc ->
    allVals fracP (fold_left (fun acc p => fst (fAddEdge acc (fst p) (target (snd p)) (fracOf (target (snd p)) [edgeVal (snd p)]))) l acc)).
  { induction l as [|p l IH]; intros acc Hl Ha; [exact Ha|]. cbn [fold_left]. apply IH.
    - intros x I. apply Hl. right; exact I.
    - apply add_all; [exact Ha|]. unfold fracP. rewrite fracOf_alts. repeat constructor. apply Hl. left; reflexivity. }
  apply G; [|split; constructor]. intros p I. apply (H (fst p) (target (snd p))). unfold InE, edgesF. apply in_map_iff.
  exists p. split; [reflexivity|exact I].
Qed.
Lemma fracDAG_P d fd : (forall x y v, InE d x y v -> P v) -> fracDAG d = Ok fd -> allVals fracP fd.
Proof.
  intros H. unfold fracDAG, mergeFractions.
  destruct (mergeSinglesLoop _ _ _) as [d1| | |] eqn:E; cbn [bind]; try discriminate.
  apply mergeParallelsLoop_P. apply (mergeSinglesLoop_P _ _ _ _ (init_P d H) E).
Qed.
End Syls.

(** Nothing in a fraction is empty. *)
Definition fracNE (f : PronunFrac) : Prop := alts f <> [] /\ Forall (fun s => s <> []) (alts f).
Section Merge.
Variable P : Syl -> Prop.
Definition goodFrac (f : PronunFrac) : Prop := fracNE f /\ fracP P f.
Lemma append_good f s : goodFrac f -> s <> [] -> Forall P s -> goodFrac (altsAppendFirst f s).
Proof.
  unfold goodFrac, fracNE, fracP, altsAppendFirst. destruct (alts f) as [|x l] eqn:E; [intros ((N & _) & _); congruence|].
  cbn [alts]. intros ((_ & N) & F) Hs Hp. inversion N; inversion F; subst. repeat split; [discriminate| |].
  - constructor; [|assumption]. intros X. apply app_eq_nil in X. tauto.
  - constructor; [|assumption]. apply Forall_app. auto.
Qed.
Lemma mergeFrom_good l : Forall goodFrac l -> forall cur, match cur with Some f => goodFrac f | None => True end ->
  Forall goodFrac (mergeFrom cur l) /\ (l <> [] \/ cur <> None -> mergeFrom cur l <> []).
Proof.
  induction 1 as [|g l G F IH]; intros cur Hc.
  - cbn [mergeFrom]. destruct cur as [f|]; split.
    + apply Forall_cons; [exact Hc|apply Forall_nil].
    + discriminate.
    + apply Forall_nil.
    + intros [H|H]; congruence.
  - cbn [mergeFrom]. destruct cur as [f|], (alts g) as [|s [|s' ss]] eqn:Ea;
      try (destruct (IH None I) as (A & B); split; [repeat apply Forall_cons; auto|discriminate]).
    + destruct (IH (Some (altsAppendFirst f s))) as (A & B).
      { destruct G as ((_ & N) & Gp). unfold fracP in Gp. rewrite Ea in *. inversion N; inversion Gp; subst.
        apply append_good; auto. }
      split; [exact A|]. intros _. apply B. right; discriminate.
    + destruct (IH (Some g) G) as (A & B). split; [exact A|]. intros _. apply B. right; discriminate.
Qed.
Lemma chain_good c : Forall goodFrac c -> Forall goodFrac (chainMergeSingles c) /\ (c <> [] -> chainMergeSingles c <> []).
Proof.
  intros F. destruct (mergeFrom_good c F None I) as (A & B). split; [exact A|]. intros N. apply B. left; exact N.
Qed.
Lemma path_vals {T} (Q : T -> Prop) (d : DAG T) n p m : allVals Q d -> Path d n p m -> Forall Q (map edgeVal p).
Proof.
  intros A. induction 1 as [|n e p m I H IH]; [constructor|]. cbn [map]. constructor; [|exact IH].
  exact (range_all _ _ _ _ (proj1 A) I).
Qed.
Lemma grouped_good d : Acyclic d -> (forall x y v, InE d x y v -> P v) ->
  exists fd l, fracDAG d = Ok fd /\ fracLattice fd = Ok l /\
    forall c, In c l -> c <> [] /\ Forall goodFrac c.
Proof.
  intros A H. destruct (fracDAG_ok d A) as (fd & E & I & _).
  destruct (fracLattice_ok fd (p_acy _ I)) as (l & El & _ & _ & _ & Hc).
  exists fd, l. split; [exact E|]. split; [exact El|]. intros c Ic.
  destruct (Hc c Ic) as (p & N & (m & Pa & _) & ->).
  pose proof (fracDAG_P P d fd H E) as FP.
  assert (G : Forall goodFrac (map edgeVal p)).
  { pose proof (path_vals _ fd 0 p m FP Pa) as F1.
    assert (F2 : Forall fracNE (map edgeVal p)).
    { clear - I Pa. induction Pa as [|n e p m Ie H IH]; [constructor|]. cbn [map]. constructor; [|exact IH].
      apply (p_alts _ I n (target e)). apply out_InE. exact Ie. }
    rewrite Forall_forall in *. intros x Ix. split; auto. }
  destruct (chain_good _ G) as (X & Y). split; [|exact X]. apply Y. destruct p; [congruence|discriminate].
Qed.
End Merge.
