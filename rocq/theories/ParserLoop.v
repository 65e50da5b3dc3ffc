(** ParserLoop.v - the full-stop stretch, the pool, and termination of the
    parser's main loop. *)
From Coq Require Import String List NArith ZArith Bool Arith Lia Permutation.
From Verif Require Import Spec Base ThUni ThCons Syl OrderProofs Lattice LatticeProofs
  Dag DagProofs PronDag PathProofs GroupProofs ListDagProofs Dict Parser Wp ParserSpec
  ParserRules ParserActs.
Import ListNotations.
Local Open Scope nat_scope.

Notation PHas := (Has syl_eqb).

(** ** Adding edges *)
Lemma pAdd_InE d f t v f' t' v' : InE (fst (pAddEdge d f t v)) f' t' v' ->
  InE d f' t' v' \/ (f', t', v') = (f, t, v).
Proof.
  intros H. unfold pAddEdge in H.
  apply add_InE in H; auto using syl_eqb_refl, syl_eqb_sym.
  destruct H as [H|(_ & -> & -> & ->)]; auto.
Qed.
Lemma pAdd_keep d f t v f' t' v' : InE d f' t' v' -> InE (fst (pAddEdge d f t v)) f' t' v'.
Proof. intros H. unfold pAddEdge. apply add_InE; auto using syl_eqb_refl, syl_eqb_sym. Qed.
Lemma pAdd_Has d f t v f' t' v' : PHas (fst (pAddEdge d f t v)) f' t' v' <->
  PHas d f' t' v' \/ (f' = f /\ t' = t /\ syl_eqb v v' = true).
Proof.
  unfold pAddEdge. apply add_Has; auto using syl_eqb_refl, syl_eqb_sym.
  exact syl_eqb_trans.
Qed.
Lemma pAdd_wf d f t v : pwf d -> pwf (fst (pAddEdge d f t v)).
Proof. intros H. apply add_dwf; auto using syl_eqb_refl, syl_eqb_sym. Qed.

Lemma addAll_wf l : forall d, pwf d -> pwf (addAll d l).
Proof.
  induction l as [|x l IH]; intros d H; cbn [addAll fold_left]; [exact H|].
  apply IH. apply pAdd_wf. exact H.
Qed.
Lemma addAll_InE l : forall d f t v, InE (addAll d l) f t v -> InE d f t v \/ In (f, t, v) l.
Proof.
  induction l as [|((f0 & t0) & v0) l IH]; intros d f t v H; cbn [addAll fold_left] in H; [auto|].
  apply IH in H. destruct H as [H|H]; [|right; right; exact H].
  cbn [fst snd] in H. apply pAdd_InE in H. destruct H as [H|H]; [auto|].
  right; left. symmetry; exact H.
Qed.
Lemma addAll_keep l : forall d f t v, InE d f t v -> InE (addAll d l) f t v.
Proof.
  induction l as [|x l IH]; intros d f t v H; cbn [addAll fold_left]; [exact H|].
  apply IH. apply pAdd_keep. exact H.
Qed.
Lemma addAll_Has l : forall d f t v, PHas (addAll d l) f t v <->
  PHas d f t v \/ exists v0, In (f, t, v0) l /\ syl_eqb v0 v = true.
Proof.
  induction l as [|((f0 & t0) & v0) l IH]; intros d f t v.
  - change (addAll d []) with d. split; [auto|]. intros [H|(v1 & [] & _)]; exact H.
  - change (addAll d ((f0, t0, v0) :: l)) with (addAll (fst (pAddEdge d f0 t0 v0)) l).
    rewrite IH, pAdd_Has. split.
    + intros [[H|(-> & -> & H)]|(v1 & H & E)]; [auto| |].
      * right. exists v0. split; [left; reflexivity|exact H].
      * right. exists v1. split; [right; exact H|exact E].
    + intros [H|(v1 & [H|H] & E)]; [auto| |].
      * injection H as -> -> ->. left; right. auto.
      * right. exists v1. auto.
Qed.

Lemma punion_wf d o : pwf d -> pwf (unionDAG syl_eqb d o).
Proof. intros H. apply union_dwf; auto using syl_eqb_refl, syl_eqb_sym. Qed.
Lemma punion_InE d o f t v : InE (unionDAG syl_eqb d o) f t v -> InE d f t v \/ InE o f t v.
Proof. apply union_InE; auto using syl_eqb_refl, syl_eqb_sym. Qed.
Lemma punion_Has d o f t v : PHas (unionDAG syl_eqb d o) f t v <-> PHas d f t v \/ PHas o f t v.
Proof. apply union_Has; auto using syl_eqb_refl, syl_eqb_sym. exact syl_eqb_trans. Qed.
Lemma InE_Has d f t v : InE d f t v -> PHas d f t v.
Proof. intros H. exists v. split; [exact H|apply syl_eqb_refl]. Qed.

(** ** Stretching over a full stop *)
Lemma syl_eqb_setEndPos v p : syl_eqb (setEndPos v p) v = true.
Proof. apply syl_eqb_spoken. reflexivity. Qed.
Lemma spoken_setEndPos v p : spoken (setEndPos v p) = spoken v.
Proof. reflexivity. Qed.

Lemma remove_count d f t v : pwf d -> InE d f t v ->
  length (inEdges (fst (removeEdge syl_eqb d f t v)) t) < length (inEdges d t).
Proof.
  intros W H.
  assert (C : forall d', pwf d' -> length (inEdges d' t) =
     length (filter (fun x => Z.eqb (snd (fst x)) t) (edgesF d'))).
  { intros d' W'. exact (inDegree_count _ _ d' t W'). }
  destruct (remove_spec _ syl_eqb syl_eqb_sym syl_eqb_trans d f t v W) as (S1 & _).
  destruct (S1 (InE_Has _ _ _ _ H)) as (v' & H1 & H2 & P & W' & _).
  rewrite (C _ W), (C _ W').
  apply (perm_filter (fun x => Z.eqb (snd (fst x)) t)) in P.
  apply Permutation_length in P. rewrite P. cbn [filter fst snd]. rewrite Z.eqb_refl.
  cbn [length]. lia.
Qed.

Lemma add_count d f t v t' : t <> t' ->
  inEdges (fst (pAddEdge d f t v)) t' = inEdges d t'.
Proof.
  intros H. unfold pAddEdge, addEdge. destruct (isEdgeExist _ _ _ _ _); [reflexivity|].
  unfold inEdges, mmRange. cbn [fst mTo]. f_equal.
  induction (mTo d) as [|(k & e) m IH]; cbn [mmEmplace filter fst].
  - destruct (Z.eqb_spec t t'); [contradiction|reflexivity].
  - destruct (Z.ltb t k); cbn [filter fst].
    + destruct (Z.eqb_spec t t'); [contradiction|reflexivity].
    + rewrite IH. reflexivity.
Qed.

Lemma stretchF_spec fuel : forall d pos, pwf d -> length (inEdges d (Z.of_nat pos)) <= fuel ->
  exists d', stretchF fuel d pos = Ok d' /\ pwf d' /\
  (forall f t v, InE d' f t v -> (InE d f t v /\ t <> Z.of_nat pos) \/
     (t = Z.of_nat (pos + 1) /\
      exists v0, InE d f (Z.of_nat pos) v0 /\ v = setEndPos v0 (Z.of_nat (pos + 1)))) /\
  (forall f t v, PHas d' f t v <-> (PHas d f t v /\ t <> Z.of_nat pos) \/
     (t = Z.of_nat (pos + 1) /\ PHas d f (Z.of_nat pos) v)).
Proof.
  induction fuel as [|fuel IH]; intros d pos W Hf.
  - cbn [stretchF]. destruct (inEdges d (Z.of_nat pos)) as [|i r] eqn:E; [|cbn in Hf; lia].
    assert (N : forall f v, ~ InE d f (Z.of_nat pos) v).
    { intros f v H. assert (HI := proj2 (in_InE _ _ d (Z.of_nat pos) (mkEdge f v) W) H).
      rewrite E in HI. exact HI. }
    exists d. split; [reflexivity|]. split; [exact W|]. split.
    + intros f t v H. left. split; [exact H|]. intros ->. exact (N _ _ H).
    + intros f t v. split.
      * intros H. left. split; [exact H|]. intros ->. destruct H as (v' & H & _). exact (N _ _ H).
      * intros [(H & _)|(_ & v' & H & _)]; [exact H|]. destruct (N _ _ H).
  - cbn [stretchF]. destruct (inEdges d (Z.of_nat pos)) as [|i r] eqn:E.
    + destruct (IH d pos W ltac:(rewrite E; cbn; lia)) as (d' & E' & R).
      exists d'. split; [|exact R]. rewrite <- E'. destruct fuel; cbn [stretchF]; rewrite E; reflexivity.
    + set (to := Z.of_nat (pos + 1)) in *. assert (Hne : to <> Z.of_nat pos) by (unfold to; lia).
      assert (Hi : InE d (target i) (Z.of_nat pos) (edgeVal i)).
      { apply (proj1 (in_InE _ _ d (Z.of_nat pos) i W)). rewrite E. left; reflexivity. }
      set (d1 := fst (pAddEdge d (target i) to (setEndPos (edgeVal i) to))).
      set (d2 := fst (removeEdge syl_eqb d1 (target i) (Z.of_nat pos) (edgeVal i))).
      assert (W1 : pwf d1) by (apply pAdd_wf; exact W).
      assert (W2 : pwf d2) by (apply remove_dwf; auto using syl_eqb_sym; exact syl_eqb_trans).
      assert (C : length (inEdges d2 (Z.of_nat pos)) <= fuel).
      { assert (length (inEdges d2 (Z.of_nat pos)) < length (inEdges d1 (Z.of_nat pos))).
        { apply remove_count; [exact W1|]. apply pAdd_keep. exact Hi. }
        assert (E1 : inEdges d1 (Z.of_nat pos) = inEdges d (Z.of_nat pos))
          by (apply add_count; exact Hne).
        rewrite E1, E in H.
        cbn [length] in *. lia. }
      destruct (IH d2 pos W2 C) as (d' & E' & W' & I' & H').
      exists d'. split; [exact E'|]. split; [exact W'|]. split.
      * intros f t v H. apply I' in H.
        assert (G : forall f t v, InE d2 f t v -> InE d f t v \/
                   (f, t, v) = (target i, to, setEndPos (edgeVal i) to)).
        { intros f0 t0 v0 H0. apply remove_InE in H0; auto using syl_eqb_sym; [|exact syl_eqb_trans].
          destruct H0 as (H0 & _). apply pAdd_InE in H0. exact H0. }
        destruct H as [(H & T)|(T & v0 & H & Ev)].
        -- apply G in H. destruct H as [H|H]; [left; auto|].
           injection H as -> -> ->. right. split; [reflexivity|]. exists (edgeVal i). auto.
        -- apply G in H. destruct H as [H|H]; [right; eauto|].
           injection H as _ H _. congruence.
      * intros f t v. rewrite H'. unfold d2.
        rewrite !(remove_Has _ _ syl_eqb_sym syl_eqb_trans) by exact W1.
        unfold d1. rewrite !pAdd_Has. split.
        -- intros [(([H|(-> & -> & H)] & _) & T)|(T & [H|(_ & H & _)] & _)].
           ++ left; auto.
           ++ right. split; [reflexivity|]. exists (edgeVal i). split; [exact Hi|].
              eapply syl_eqb_trans; [|exact H]. apply syl_eqb_sym, syl_eqb_setEndPos.
           ++ right; auto.
           ++ congruence.
        -- intros [(H & T)|(T & H)].
           ++ left. split; [|exact T]. split; [left; exact H|]. intros (_ & H1 & _). contradiction.
           ++ subst t. destruct (Z.eq_dec f (target i)) as [Ef|Ef];
                [destruct (syl_eqb (edgeVal i) v) eqn:Ev|].
              ** left. split; [|exact Hne]. split.
                 --- right. split; [exact Ef|]. split; [reflexivity|].
                     eapply syl_eqb_trans; [apply syl_eqb_setEndPos|exact Ev].
                 --- intros (_ & H1 & _). contradiction.
              ** right. split; [reflexivity|]. split; [left; exact H|].
                 intros (_ & _ & H1). congruence.
              ** right. split; [reflexivity|]. split; [left; exact H|].
                 intros (H1 & _). contradiction.
Qed.

Lemma stretch_spec d pos : pwf d ->
  exists d', stretch d pos = Ok d' /\ pwf d' /\
  (forall f t v, InE d' f t v -> (InE d f t v /\ t <> Z.of_nat pos) \/
     (t = Z.of_nat (pos + 1) /\
      exists v0, InE d f (Z.of_nat pos) v0 /\ v = setEndPos v0 (Z.of_nat (pos + 1)))) /\
  (forall f t v, PHas d' f t v <-> (PHas d f t v /\ t <> Z.of_nat pos) \/
     (t = Z.of_nat (pos + 1) /\ PHas d f (Z.of_nat pos) v)).
Proof.
  intros W. apply stretchF_spec; [exact W|].
  unfold inEdges, mmRange. rewrite map_length.
  assert (forall A (g : A -> bool) l, length (filter g l) <= length l).
  { intros A g l. induction l as [|a l IH]; cbn; [lia|]. destruct (g a); cbn; lia. }
  specialize (H _ (fun p : Z * DAGEdge Syl => Z.eqb (fst p) (Z.of_nat pos)) (mTo d)). lia.
Qed.

Lemma applyAct_ok s a : pwf (sDag s) -> exists s', applyAct s a = Ok s' /\ pwf (sDag s') /\
  sPos s' = aPos a /\ sStop s' = aStop a /\ sLinked s' = aLinked a.
Proof.
  intros W. unfold applyAct. destruct (aStretch a).
  - destruct (stretch_spec (sDag s) (sPos s) W) as (d' & E & W' & _). rewrite E. cbn [bind].
    eexists. split; [reflexivity|]. cbn. auto.
  - eexists. split; [reflexivity|]. cbn. auto using addAll_wf.
Qed.
Lemma mapM_applyAct s l : pwf (sDag s) -> exists r, mapM (applyAct s) l = Ok r /\
  Forall2 (fun a s' => applyAct s a = Ok s') l r.
Proof.
  intros W. induction l as [|a l (r & E & Hr)]; cbn [mapM].
  - exists []. auto.
  - destruct (applyAct_ok s a W) as (s' & Ea & _). rewrite Ea, E. cbn [bind].
    exists (s' :: r). auto.
Qed.

(** ** The pool *)
Lemma poolAdd_in pool : forall st x, In x (poolAdd pool st) ->
  x = st \/ In x pool \/
  exists it, In it pool /\ sPos it = sPos st /\ sLinked it = sLinked st /\
    x = mkState (sPos it) (sStop it) (unionDAG syl_eqb (sDag it) (sDag st)) (sLinked it).
Proof.
  induction pool as [|it pool IH]; intros st x H; cbn [poolAdd] in H.
  - destruct H as [H|[]]; auto.
  - destruct ((sPos it =? sPos st) && Bool.eqb (sLinked it) (sLinked st)) eqn:E.
    + destruct H as [H|H]; [|right; left; right; exact H].
      right; right. exists it. apply andb_true_iff in E. destruct E as (E1 & E2).
      apply Nat.eqb_eq in E1. apply Bool.eqb_prop in E2. split; [left; reflexivity|]. auto.
    + destruct (sPos st <=? sPos it).
      * destruct H as [H|H]; auto.
      * destruct H as [H|H]; [right; left; left; exact H|].
        destruct (IH st x H) as [H1|[H1|(i & H1 & H2)]]; auto.
        -- right; left; right; exact H1.
        -- right; right. exists i. split; [right; exact H1|exact H2].
Qed.

(** A property of states kept by merging holds of all of the pool. *)
Definition mergeOK (P : ParseState -> Prop) : Prop :=
  forall a b, P a -> P b -> sPos a = sPos b -> sLinked a = sLinked b ->
    P (mkState (sPos a) (sStop a) (unionDAG syl_eqb (sDag a) (sDag b)) (sLinked a)).
Lemma poolAdd_Forall (P : ParseState -> Prop) pool st :
  mergeOK P -> Forall P pool -> P st -> Forall P (poolAdd pool st).
Proof.
  intros M HP Hs. rewrite Forall_forall in *. intros x Hx.
  apply poolAdd_in in Hx. destruct Hx as [->|[Hx|(it & Hi & E1 & E2 & ->)]]; auto.
Qed.
Lemma poolAdds_Forall (P : ParseState -> Prop) l : forall pool,
  mergeOK P -> Forall P pool -> Forall P l -> Forall P (fold_left poolAdd l pool).
Proof.
  induction l as [|s l IH]; intros pool M HP Hl; cbn [fold_left]; [exact HP|].
  inversion Hl; subst. apply IH; auto using poolAdd_Forall.
Qed.

(** ** Fuel *)
Section Loop.
Variable ct : CType.
Variable w : list N.
Variable dict : option Dict.
Variable brk : list nat.
Notation n := (length w).

Lemma parseLoop_mono fuel : forall pool acc fuel',
  parseLoop ct fuel w dict brk pool acc <> NoFuel -> fuel <= fuel' ->
  parseLoop ct fuel' w dict brk pool acc = parseLoop ct fuel w dict brk pool acc.
Proof.
  induction fuel as [|fuel IH]; intros pool acc fuel' H L.
  - destruct pool as [|s pool]; [destruct fuel'; reflexivity|]. cbn in H. congruence.
  - destruct fuel' as [|fuel']; [lia|]. cbn [parseLoop] in *.
    destruct pool as [|s pool]; [reflexivity|].
    destruct (n <=? sPos s); [apply IH; [exact H|lia]|].
    destruct (stepStates ct w dict brk s) as [l| | |]; cbn [bind] in *; try reflexivity.
    apply IH; [exact H|lia].
Qed.

(** *** Weights *)
Definition wt (s : ParseState) : nat :=
  2 * (n - sPos s) + (if sStop s <=? sPos s then 1 else 0).
Definition actCount (pos stop : nat) (linked : bool) : nat :=
  match acts ct w dict brk pos stop linked with Ok l => length l | _ => 0 end.
Definition branching : nat :=
  list_max (concat (map (fun pos => concat (map (fun stop =>
    [actCount pos stop true; actCount pos stop false]) (seq 0 (S n)))) (seq 0 (S n)))).
Lemma branching_bound pos stop linked : pos <= n -> stop <= n ->
  actCount pos stop linked <= branching.
Proof.
  intros Hp Hs. assert (H := proj1 (list_max_le
    (concat (map (fun pos => concat (map (fun stop =>
    [actCount pos stop true; actCount pos stop false]) (seq 0 (S n)))) (seq 0 (S n)))) branching)
    (le_n _)).
  rewrite Forall_forall in H. apply H. apply in_concat.
  eexists. split; [apply in_map_iff; exists pos; split; [reflexivity|apply in_seq; lia]|].
  apply in_concat. eexists.
  split; [apply in_map_iff; exists stop; split; [reflexivity|apply in_seq; lia]|].
  destruct linked; [left|right; left]; reflexivity.
Qed.
Definition potential (pool : list ParseState) : nat :=
  list_sum (map (fun s => S branching ^ wt s) pool).

Lemma potential_add pool st : potential (poolAdd pool st) <= potential pool + S branching ^ wt st.
Proof.
  unfold potential. induction pool as [|it pool IH]; cbn [poolAdd].
  - cbn. lia.
  - destruct (_ && _).
    + cbn [map list_sum fold_right]. unfold list_sum. cbn [fold_right].
      change (wt (mkState (sPos it) (sStop it)
        (unionDAG syl_eqb (sDag it) (sDag st)) (sLinked it))) with (wt it). lia.
    + destruct (_ <=? _); cbn [map]; unfold list_sum in *; cbn [fold_right].
      * lia.
      * lia.
Qed.
Lemma potential_adds l : forall pool,
  potential (fold_left poolAdd l pool) <= potential pool + potential l.
Proof.
  induction l as [|s l IH]; intros pool; cbn [fold_left].
  - unfold potential. cbn. lia.
  - specialize (IH (poolAdd pool s)). pose proof (potential_add pool s).
    assert (potential (s :: l) = S branching ^ wt s + potential l) by reflexivity. lia.
Qed.
Lemma potential_le l k : Forall (fun s => wt s <= k) l ->
  potential l <= length l * S branching ^ k.
Proof.
  induction 1 as [|s l Hs Hl IH].
  - unfold potential. cbn. lia.
  - assert (potential (s :: l) = S branching ^ wt s + potential l) by reflexivity.
    assert (S branching ^ wt s <= S branching ^ k) by (apply Nat.pow_le_mono_r; lia).
    cbn [length]. lia.
Qed.

(** What an action must satisfy for the loop to make progress. *)
Definition progress (pos stop : nat) (a : Act) : Prop :=
  aPos a <= n /\ aStop a <= n /\ pos <= aPos a /\
  (aPos a = pos -> stop <= pos /\ pos < aStop a).
Hypothesis acts_progress : forall pos stop linked l, pos < n -> stop <= n ->
  acts ct w dict brk pos stop linked = Ok l -> Forall (progress pos stop) l.
Hypothesis acts_fuel : forall pos stop linked, pos < n -> stop <= n ->
  acts ct w dict brk pos stop linked <> NoFuel.

Definition good (s : ParseState) : Prop := pwf (sDag s) /\ sPos s <= n /\ sStop s <= n.
Lemma good_merge : mergeOK good.
Proof.
  intros a b (A & B & C) (A' & B' & C') _ _. split; [apply punion_wf; exact A|]. cbn. auto.
Qed.

Lemma step_good s : good s -> sPos s < n ->
  stepStates ct w dict brk s <> NoFuel /\
  forall l, stepStates ct w dict brk s = Ok l ->
    Forall good l /\ length l <= branching /\ Forall (fun x => wt x < wt s) l.
Proof.
  intros (W & P & S') Hp. rewrite stepStates_acts.
  destruct (acts ct w dict brk (sPos s) (sStop s) (sLinked s)) as [al| | |] eqn:E;
    try (split; [discriminate|]; intros l H; discriminate).
  2:{ exfalso. exact (acts_fuel _ _ _ Hp S' E). }
  cbn [bind]. destruct (mapM_applyAct s al W) as (r & Er & Hr). rewrite Er.
  split; [discriminate|]. intros l H. inversion H; subst l.
  pose proof (acts_progress _ _ _ _ Hp S' E) as HP.
  assert (L : length r = length al) by (clear - Hr; induction Hr; cbn; lia).
  assert (HB := branching_bound (sPos s) (sStop s) (sLinked s) P S').
  unfold actCount in HB. rewrite E in HB.
  assert (G : Forall (fun x => good x /\ wt x < wt s) r).
  { rewrite Forall_forall. intros x Hx.
    destruct (Forall2_in_r _ _ _ _ Hr Hx) as (a & Ha & Ea).
    rewrite Forall_forall in HP. specialize (HP a Ha). destruct HP as (P1 & P2 & P3 & P4).
    destruct (applyAct_ok s a W) as (s' & Es & W' & Q1 & Q2 & Q3).
    rewrite Es in Ea. inversion Ea; subst s'. split.
    - unfold good. rewrite Q1, Q2. auto.
    - unfold wt. rewrite Q1, Q2.
      destruct (Nat.eq_dec (aPos a) (sPos s)) as [Eq|Ne].
      + destruct (P4 Eq) as (K1 & K2). rewrite Eq.
        destruct (Nat.leb_spec (sStop s) (sPos s)); [|lia].
        destruct (Nat.leb_spec (aStop a) (sPos s)); lia.
      + destruct (aStop a <=? aPos a), (sStop s <=? sPos s); lia. }
  split; [|split; [lia|]]; eapply Forall_impl; try exact G; cbv beta; tauto.
Qed.

Lemma parseLoop_fuel fuel : forall pool acc, Forall good pool -> potential pool <= fuel ->
  parseLoop ct fuel w dict brk pool acc <> NoFuel.
Proof.
  induction fuel as [|fuel IH]; intros pool acc G H.
  - destruct pool as [|s pool]; [cbn; discriminate|].
    assert (potential (s :: pool) = S branching ^ wt s + potential pool) by reflexivity.
    assert (S branching ^ wt s <> 0) by (apply Nat.pow_nonzero; lia). lia.
  - destruct pool as [|s pool]; [cbn; discriminate|]. cbn [parseLoop].
    assert (E : potential (s :: pool) = S branching ^ wt s + potential pool) by reflexivity.
    assert (N0 : S branching ^ wt s <> 0) by (apply Nat.pow_nonzero; lia).
    inversion G as [|? ? Gs Gp]; subst.
    destruct (Nat.leb_spec n (sPos s)) as [Hn|Hn].
    + apply IH; [exact Gp|lia].
    + destruct (step_good s Gs Hn) as (NF & SG).
      destruct (stepStates ct w dict brk s) as [l| | |] eqn:Es; cbn [bind]; try congruence.
      destruct (SG l eq_refl) as (Gl & Ll & Wl).
      apply IH.
      * apply poolAdds_Forall; auto using good_merge.
      * pose proof (potential_adds l pool).
        assert (PL : potential l < S branching ^ wt s).
        { destruct (wt s) as [|k].
          - destruct l as [|x l]; [cbn; lia|]. inversion Wl; lia.
          - assert (potential l <= length l * S branching ^ k).
            { apply potential_le. eapply Forall_impl; [|exact Wl]. cbv beta. lia. }
            assert (S branching ^ k <> 0) by (apply Nat.pow_nonzero; lia).
            cbn [Nat.pow]. nia. }
        lia.
Qed.
End Loop.
