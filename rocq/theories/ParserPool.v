(** ParserPool.v - the pool of partial analyses: order, content, and the proof
    that merging partial analyses is transparent. *)
From Coq Require Import String List NArith ZArith Bool Arith Lia Sorted.
From Verif Require Import Spec Base ThUni ThCons Syl OrderProofs Lattice LatticeProofs
  Dag DagProofs PronDag PathProofs GroupProofs ListDagProofs Dict DictProofs Parser Wp
  ParserSpec ParserRules ParserActs ParserLoop ParserFacts ParserInv.
Import ListNotations.
Local Open Scope nat_scope.

(** ** Order and content of the pool *)
Definition byPos (a b : ParseState) : Prop := sPos a <= sPos b.
Lemma poolAdd_sorted pool st : StronglySorted byPos pool -> StronglySorted byPos (poolAdd pool st).
Proof.
  induction 1 as [|it pool S IH F]; cbn [poolAdd].
  - constructor; constructor.
  - destruct ((sPos it =? sPos st) && Bool.eqb (sLinked it) (sLinked st)) eqn:E.
    + constructor; [exact S|]. exact F.
    + destruct (Nat.leb_spec (sPos st) (sPos it)) as [L|L].
      * constructor; [constructor; assumption|]. constructor; [exact L|].
        eapply Forall_impl; [|exact F]. unfold byPos. intros a. lia.
      * constructor; [exact IH|]. rewrite Forall_forall in *. intros x Hx.
        apply poolAdd_in in Hx. unfold byPos in *.
        destruct Hx as [->|[Hx|(i & Hi & E1 & _ & ->)]].
        -- lia.
        -- apply F. exact Hx.
        -- cbn [sPos]. apply F. exact Hi.
Qed.
Lemma poolAdds_sorted l : forall pool, StronglySorted byPos pool ->
  StronglySorted byPos (fold_left poolAdd l pool).
Proof. induction l as [|s l IH]; intros pool H; cbn [fold_left]; auto using poolAdd_sorted. Qed.

(** The edge [f t v] is in the analyses kept for position [p] and link flag [b]. *)
Definition kept (pool : list ParseState) (p : nat) (b : bool) (f t : Z) (v : Syl) : Prop :=
  exists s, In s pool /\ sPos s = p /\ sLinked s = b /\ PHas (sDag s) f t v.
Definition keyIn (pool : list ParseState) (p : nat) (b : bool) : Prop :=
  exists s, In s pool /\ sPos s = p /\ sLinked s = b.
Lemma poolAdd_kept pool st p b f t v : kept (poolAdd pool st) p b f t v <->
  kept pool p b f t v \/ (sPos st = p /\ sLinked st = b /\ PHas (sDag st) f t v).
Proof.
  unfold kept. induction pool as [|it pool IH]; cbn [poolAdd].
  - split.
    + intros (s & [<-|[]] & A). auto.
    + intros [(s & [] & _)|A]. exists st. split; [left; reflexivity|exact A].
  - destruct ((sPos it =? sPos st) && Bool.eqb (sLinked it) (sLinked st)) eqn:E.
    + apply andb_true_iff in E. destruct E as (E1 & E2).
      apply Nat.eqb_eq in E1. apply Bool.eqb_prop in E2. split.
      * intros (s & [<-|H] & A & B & C).
        -- cbn [sPos sLinked sDag] in *. apply punion_Has in C. destruct C as [C|C].
           ++ left. exists it. split; [left; reflexivity|auto].
           ++ right. split; [congruence|]. split; [congruence|exact C].
        -- left. exists s. split; [right; exact H|auto].
      * intros [(s & [<-|H] & A & B & C)|(A & B & C)].
        -- eexists. split; [left; reflexivity|]. cbn [sPos sLinked sDag].
           split; [exact A|]. split; [exact B|]. apply punion_Has. auto.
        -- exists s. split; [right; exact H|auto].
        -- eexists. split; [left; reflexivity|]. cbn [sPos sLinked sDag].
           split; [congruence|]. split; [congruence|]. apply punion_Has. auto.
    + clear E. destruct (sPos st <=? sPos it).
      * split.
        -- intros (s & [<-|H] & A); [right; exact A|left; exists s; auto].
        -- intros [(s & H & A)|A]; [exists s; split; [right; exact H|exact A]|].
           exists st. split; [left; reflexivity|exact A].
      * split.
        -- intros (s & [<-|H] & A); [left; exists it; split; [left; reflexivity|exact A]|].
           destruct (proj1 IH (ex_intro _ s (conj H A))) as [(s' & H' & A')|A'].
           ++ left. exists s'. split; [right; exact H'|exact A'].
           ++ right. exact A'.
        -- intros [(s & [<-|H] & A)|A].
           ++ exists it. split; [left; reflexivity|exact A].
           ++ destruct (proj2 IH (or_introl (ex_intro _ s (conj H A)))) as (s' & H' & A').
              exists s'. split; [right; exact H'|exact A'].
           ++ destruct (proj2 IH (or_intror A)) as (s' & H' & A').
              exists s'. split; [right; exact H'|exact A'].
Qed.
Lemma poolAdds_kept l : forall pool p b f t v, kept (fold_left poolAdd l pool) p b f t v <->
  kept pool p b f t v \/ kept l p b f t v.
Proof.
  induction l as [|s l IH]; intros pool p b f t v; cbn [fold_left].
  - split; [auto|]. intros [H|(s & [] & _)]. exact H.
  - rewrite IH, poolAdd_kept. split.
    + intros [[H|H]|(x & H & A)]; [auto| |].
      * right. exists s. split; [left; reflexivity|exact H].
      * right. exists x. split; [right; exact H|exact A].
    + intros [H|(x & [<-|H] & A)]; [auto| |].
      * left; right. exact A.
      * right. exists x. auto.
Qed.

(** ** Being represented by a pooled state *)
(** State [s] stands for [r]: same position and link flag, all edges of [r]. *)
Definition stands (s r : ParseState) : Prop :=
  sPos s = sPos r /\ sLinked s = sLinked r /\
  forall f t v, PHas (sDag r) f t v -> PHas (sDag s) f t v.
Lemma stands_refl s : stands s s.
Proof. split; [reflexivity|]. split; auto. Qed.
Lemma poolAdd_self pool st : exists x, In x (poolAdd pool st) /\ stands x st.
Proof.
  induction pool as [|it pool IH]; cbn [poolAdd].
  - exists st. split; [left; reflexivity|apply stands_refl].
  - destruct ((sPos it =? sPos st) && Bool.eqb (sLinked it) (sLinked st)) eqn:E.
    + apply andb_true_iff in E. destruct E as (E1 & E2).
      apply Nat.eqb_eq in E1. apply Bool.eqb_prop in E2.
      eexists. split; [left; reflexivity|]. split; [exact E1|]. split; [exact E2|].
      intros f t v H. cbn [sDag]. apply punion_Has. auto.
    + destruct (sPos st <=? sPos it).
      * exists st. split; [left; reflexivity|apply stands_refl].
      * destruct IH as (x & A & B). exists x. split; [right; exact A|exact B].
Qed.
Lemma poolAdd_keeps pool st s : In s pool -> exists x, In x (poolAdd pool st) /\ stands x s.
Proof.
  induction pool as [|it pool IH]; intros H; [contradiction|]. cbn [poolAdd].
  destruct ((sPos it =? sPos st) && Bool.eqb (sLinked it) (sLinked st)) eqn:E.
  - destruct H as [<-|H].
    + eexists. split; [left; reflexivity|]. split; [reflexivity|]. split; [reflexivity|].
      intros f t v H. cbn [sDag]. apply punion_Has. auto.
    + exists s. split; [right; exact H|apply stands_refl].
  - destruct (sPos st <=? sPos it).
    + exists s. split; [right; exact H|apply stands_refl].
    + destruct H as [<-|H].
      * exists it. split; [left; reflexivity|apply stands_refl].
      * destruct (IH H) as (x & A & B). exists x. split; [right; exact A|exact B].
Qed.
Lemma stands_trans a b c : stands a b -> stands b c -> stands a c.
Proof.
  intros (A & B & C) (A' & B' & C'). split; [congruence|]. split; [congruence|]. auto.
Qed.
Lemma poolAdds_keeps l : forall pool s, In s pool ->
  exists x, In x (fold_left poolAdd l pool) /\ stands x s.
Proof.
  induction l as [|a l IH]; intros pool s H; cbn [fold_left].
  - exists s. split; [exact H|apply stands_refl].
  - destruct (poolAdd_keeps pool a s H) as (x & A & B). destruct (IH _ _ A) as (y & C & D).
    exists y. split; [exact C|eapply stands_trans; eauto].
Qed.
Lemma poolAdds_self l : forall pool s, In s l ->
  exists x, In x (fold_left poolAdd l pool) /\ stands x s.
Proof.
  induction l as [|a l IH]; intros pool s H; [contradiction|]. cbn [fold_left].
  destruct H as [->|H]; [|apply IH; exact H].
  destruct (poolAdd_self pool s) as (x & A & B). destruct (poolAdds_keeps l _ _ A) as (y & C & D).
  exists y. split; [exact C|eapply stands_trans; eauto].
Qed.

(** ** Transparency *)
Section Runs.
Variable ct : CType.
Variable w : list N.
Variable dict : option Dict.
Variable brk : list nat.
Notation n := (length w).
Notation tokAt := (tokenAt ct w).
Notation wEnd := (wordEnd ct w brk).
Notation step := (stepStates ct w dict brk).

(** One derivation followed without a pool. *)
Inductive RunFrom : ParseState -> ParseState -> Prop :=
| RF_here s : RunFrom s s
| RF_step s l s1 s2 : sPos s < n -> step s = Ok l -> In s1 l -> RunFrom s1 s2 -> RunFrom s s2.
Definition Run (s : ParseState) : Prop :=
  exists b, skipGap ct w brk s0 = Ok b /\ RunFrom b s.
Lemma RunFrom_last s s1 : RunFrom s s1 -> forall l s2, sPos s1 < n -> step s1 = Ok l -> In s2 l -> RunFrom s s2.
Proof.
  induction 1 as [s|s l s1 s2 H1 H2 H3 H4 IH]; intros l' x A B C.
  - eapply RF_step; eauto. apply RF_here.
  - eapply RF_step; eauto.
Qed.
Lemma Run_step s l s1 : Run s -> sPos s < n -> step s = Ok l -> In s1 l -> Run s1.
Proof. intros (b & A & B) H1 H2 H3. exists b. split; [exact A|]. eapply RunFrom_last; eauto. Qed.

Definition SI (s : ParseState) : Prop :=
  pwf (sDag s) /\ sPos s <= n /\ stopOK ct w brk (sPos s) (sStop s).
Lemma SI_merge : mergeOK SI.
Proof.
  intros a b (A & B & C) _ _ _. split; [apply punion_wf; exact A|]. cbn. auto.
Qed.

Lemma acts_G s : SI s -> sPos s < n -> forall al,
  acts ct w dict brk (sPos s) (sStop s) (sLinked s) = Ok al ->
  Forall (ActG ct w dict brk (sPos s) (sStop s) (sLinked s)) al.
Proof.
  intros (_ & _ & S' & _) Hp al E.
  pose proof (acts_sat ct w dict brk True (or_introl I) (or_introl I) (or_introl I)
                (or_introl I) (sPos s) (sStop s) (sLinked s) Hp S') as H.
  rewrite E in H. exact H.
Qed.
(** A step is a list of actions, each applied to the state. *)
Lemma step_acts s : SI s -> sPos s < n -> forall l, step s = Ok l ->
  exists al, acts ct w dict brk (sPos s) (sStop s) (sLinked s) = Ok al /\
    Forall (ActG ct w dict brk (sPos s) (sStop s) (sLinked s)) al /\
    Forall2 (fun a s' => applyAct s a = Ok s') al l.
Proof.
  intros HS Hp l E. rewrite stepStates_acts in E.
  destruct (acts ct w dict brk (sPos s) (sStop s) (sLinked s)) as [al| | |] eqn:Ea;
    cbn [bind] in E; try discriminate.
  exists al. split; [reflexivity|]. split; [apply acts_G; assumption|].
  destruct (mapM_applyAct s al (proj1 HS)) as (r & Er & Hr). rewrite Er in E.
  injection E as <-. exact Hr.
Qed.
Lemma acts_step s al : SI s -> acts ct w dict brk (sPos s) (sStop s) (sLinked s) = Ok al ->
  exists l, step s = Ok l /\ Forall2 (fun a s' => applyAct s a = Ok s') al l.
Proof.
  intros HS Ea. rewrite stepStates_acts, Ea. cbn [bind].
  destruct (mapM_applyAct s al (proj1 HS)) as (r & Er & Hr). exists r. auto.
Qed.
Lemma SI_act s a s' : SI s -> sPos s < n ->
  ActG ct w dict brk (sPos s) (sStop s) (sLinked s) a -> applyAct s a = Ok s' -> SI s'.
Proof.
  intros HS Hp Ha E. destruct HS as (W & P & S').
  destruct (applyAct_ok s a W) as (x & Ex & W' & Q1 & Q2 & _). rewrite Ex in E. injection E as <-.
  split; [exact W'|]. rewrite Q1, Q2.
  destruct (ActG_progress ct w dict brk _ _ _ a Hp (proj1 S') Ha) as (P1 & _).
  split; [exact P1|]. eapply ActG_stop; eauto.
Qed.
Lemma SI_step s l s1 : SI s -> sPos s < n -> step s = Ok l -> In s1 l -> SI s1.
Proof.
  intros HS Hp E Hin. destruct (step_acts s HS Hp l E) as (al & _ & G & F).
  destruct (Forall2_in_r _ _ _ _ F Hin) as (a & Ha & Ea). rewrite Forall_forall in G.
  eapply SI_act; eauto.
Qed.
Lemma SI_start s : skipGap ct w brk s0 = Ok s -> SI s.
Proof.
  intros E. pose proof (start_sat ct w dict brk True (or_introl I)) as H. rewrite E in H. cbn [Sat] in H.
  destruct H as [(A & ->)|(A & a & Ha & ->)].
  - split; [apply dwf_empty|]. cbn. split; [lia|]. split; lia.
  - assert (S : SI s0) by (split; [apply dwf_empty|]; cbn; split; [lia|]; split; lia).
    apply (SI_act s0 a _ S A Ha). unfold applyAct.
    assert (aStretch a = false) as ->; [|reflexivity]. inversion Ha; subst; try reflexivity. lia.
Qed.
Lemma SI_run s : Run s -> SI s.
Proof.
  intros (b & A & B). pose proof (SI_start b A) as H. clear A.
  induction B as [s|s l s1 s2 H1 H2 H3 H4 IH]; [exact H|]. apply IH. eapply SI_step; eauto.
Qed.

(** Applying the same action keeps the relation. *)
Lemma stands_act s r a s' r' : SI s -> SI r -> stands s r ->
  applyAct s a = Ok s' -> applyAct r a = Ok r' -> stands s' r' /\ sStop s' = sStop r'.
Proof.
  intros (Ws & _) (Wr & _) (E1 & E2 & H) Es Er. unfold applyAct in *.
  destruct (aStretch a).
  - destruct (stretch_spec (sDag s) (sPos s) Ws) as (ds & Eds & _ & _ & Hs).
    destruct (stretch_spec (sDag r) (sPos r) Wr) as (dr & Edr & _ & _ & Hr).
    rewrite Eds in Es. rewrite Edr in Er. cbn [bind] in *. injection Es as <-. injection Er as <-.
    split; [|reflexivity]. split; [reflexivity|]. split; [reflexivity|].
    cbn [sDag]. intros f t v X. apply Hr in X. apply Hs. rewrite E1.
    destruct X as [(X & Y)|(X & Y)]; [left|right]; auto.
  - injection Es as <-. injection Er as <-. split; [|reflexivity].
    split; [reflexivity|]. split; [reflexivity|]. cbn [plain sDag].
    intros f t v X. apply addAll_Has in X. apply addAll_Has. destruct X as [X|X]; auto.
Qed.

Hypothesis brkOK : Forall (fun b => b <= n) brk.
(** The normalising step: a state at or past its stop that stands on a token. *)
Lemma gap_norm s : SI s -> sPos s < n -> sStop s <= sPos s -> forall st, wEnd (sPos s) st ->
  step s = Ok [mkState (sPos s) st (sDag s) (sLinked s)].
Proof.
  intros HS Hp Hs st W.
  pose proof (gapAct_sat ct w dict brk False (or_intror brkOK) (sPos s) (sStop s) (sLinked s) Hp Hs) as G.
  rewrite stepStates_acts. unfold acts. destruct (Nat.leb_spec (sStop s) (sPos s)); [|lia].
  destruct (gapAct ct w brk (sPos s) (sLinked s)) as [a| | |] eqn:E; cbn [bind]; try (destruct G; fail).
  cbn [Sat] in G. inversion G as [e st' es H1 H2 H3 H4 H5| | | |]; subst.
  - assert (Te : e = sPos s).
    { destruct (Nat.eq_dec e (sPos s)) as [|D]; [assumption|exfalso].
      apply (H3 (sPos s)); [lia|]. apply (we_tok _ _ _ _ _ W). destruct W; lia. }
    subst e. destruct H5 as [(X & _)|(_ & ->)]; [lia|].
    destruct H4 as [(X & _)|(_ & W')]; [lia|].
    rewrite (wEnd_fun _ _ _ _ _ _ W W'). reflexivity.
  - exfalso. lia.
  - exfalso. lia.
  - exfalso. lia.
  - exfalso. lia.
Qed.
Lemma gap_same s r : sPos s = sPos r -> sLinked s = sLinked r ->
  sStop s <= sPos s -> sStop r <= sPos r ->
  acts ct w dict brk (sPos s) (sStop s) (sLinked s) = acts ct w dict brk (sPos r) (sStop r) (sLinked r).
Proof.
  intros E1 E2 L1 L2. unfold acts. rewrite E1, E2.
  destruct (Nat.leb_spec (sStop s) (sPos r)); [|lia].
  destruct (Nat.leb_spec (sStop r) (sPos r)); [reflexivity|lia].
Qed.
Lemma acts_same s r : SI s -> SI r -> sPos s = sPos r -> sLinked s = sLinked r ->
  (sStop s <= sPos s <-> sStop r <= sPos r) ->
  acts ct w dict brk (sPos s) (sStop s) (sLinked s) = acts ct w dict brk (sPos r) (sStop r) (sLinked r).
Proof.
  intros (_ & _ & _ & Ws) (_ & _ & _ & Wr) E1 E2 L.
  destruct (le_lt_dec (sStop s) (sPos s)) as [A|A]; [apply gap_same; tauto|].
  assert (B : sPos r < sStop r) by lia. rewrite E1, E2 in *.
  rewrite (wEnd_fun _ _ _ _ _ _ (Ws A) (Wr B)). reflexivity.
Qed.

(** *** Nothing is lost *)
Lemma step_stands s l r l' r1 : SI s -> SI r -> sPos s < n -> stands s r ->
  (sStop s <= sPos s <-> sStop r <= sPos r) ->
  step s = Ok l -> step r = Ok l' -> In r1 l' -> exists s1, In s1 l /\ stands s1 r1.
Proof.
  intros HS HR Hp St L Es Er Hin. destruct St as (E1 & E2 & E3).
  destruct (step_acts s HS Hp l Es) as (al & A1 & _ & F1).
  destruct (step_acts r HR ltac:(lia) l' Er) as (al' & A2 & _ & F2).
  rewrite (acts_same s r HS HR E1 E2 L), A2 in A1. injection A1 as <-.
  destruct (Forall2_in_r _ _ _ _ F2 Hin) as (a & Ha & Ea).
  destruct (Forall2_in_l _ _ _ _ F1 Ha) as (s1 & Hs1 & Ea1).
  exists s1. split; [exact Hs1|].
  eapply (stands_act s r a s1 r1); eauto. split; [exact E1|]. split; assumption.
Qed.

Lemma complete fuel : forall pool acc d, Forall SI pool ->
  parseLoop ct fuel w dict brk pool acc = Ok d ->
  (forall f t v, PHas acc f t v -> PHas d f t v) /\
  (forall s r r', In s pool -> stands s r -> SI r -> RunFrom r r' -> n <= sPos r' ->
     forall f t v, PHas (sDag r') f t v -> PHas d f t v).
Proof.
  induction fuel as [|fuel IH]; intros pool acc d HP E; cbn [parseLoop] in E.
  - destruct pool; [|discriminate]. injection E as <-. split; [auto|]. intros s r r' [].
  - destruct pool as [|s pool]; [injection E as <-; split; [auto|]; intros s r r' []|].
    inversion HP as [|? ? Hs Hp]; subst.
    destruct (Nat.leb_spec n (sPos s)) as [L|L].
    + destruct (IH pool _ d Hp E) as (I1 & I2). split.
      * intros f t v H. apply I1. apply punion_Has. auto.
      * intros s' r r' [->|Hin] St SIr RF Fin f t v H; [|eapply I2; eauto].
        destruct St as (E1 & E2 & E3). inversion RF; subst; [|lia].
        apply I1. apply punion_Has. right. apply E3. exact H.
    + destruct (step s) as [l| | |] eqn:Es; cbn [bind] in E; try discriminate.
      assert (Hl : Forall SI l) by (rewrite Forall_forall; intros x Hx; eapply SI_step; eauto).
      assert (HP' : Forall SI (fold_left poolAdd l pool)) by (apply poolAdds_Forall; auto using SI_merge).
      destruct (IH _ acc d HP' E) as (I1 & I2). split; [exact I1|].
      assert (K : forall r r', stands s r -> SI r -> sPos r < n -> (sStop s <= sPos s <-> sStop r <= sPos r) ->
         RunFrom r r' -> n <= sPos r' -> forall f t v, PHas (sDag r') f t v -> PHas d f t v).
      { intros r r' St SIr Hr Hst RF Fin. inversion RF as [x|x l' r1 x2 H1 H2 H3 H4]; subst; [lia|].
        destruct (step_stands s l r l' r1 Hs SIr L St Hst Es H2 H3) as (s1 & Hs1 & St1).
        destruct (poolAdds_self l pool s1 Hs1) as (y & Hy & Sy).
        eapply (I2 y r1); eauto; [eapply stands_trans; eauto|eapply SI_step; eauto]. }
      intros s' r r' [->|Hin] St SIr RF Fin.
      * destruct St as (E1 & E2 & E3).
        assert (Hr : sPos r < n) by lia.
        destruct (le_lt_dec (sStop s') (sPos s')) as [A|A], (le_lt_dec (sStop r) (sPos r)) as [B|B].
        -- apply (K r r'); auto; [split; [exact E1|split; assumption]|tauto].
        -- (* the pooled state is behind *)
           destruct SIr as (Wr & Pr & Sr & Sr2).
           assert (Wst : wEnd (sPos s') (sStop r)) by (rewrite E1; apply Sr2; lia).
           pose proof (gap_norm s' Hs L A _ Wst) as G; rewrite Es in G.
           injection G as ->.
           destruct (poolAdds_self [mkState (sPos s') (sStop r) (sDag s') (sLinked s')] pool
                       _ (or_introl eq_refl)) as (y & Hy & Sy).
           eapply (I2 y r); eauto.
           ++ eapply stands_trans; [exact Sy|]. split; [exact E1|]. split; assumption.
           ++ split; [exact Wr|]. split; [exact Pr|]. split; assumption.
        -- (* the derivation is behind *)
           inversion RF as [x|x l' r1 x2 H1 H2 H3 H4]; subst; [lia|].
           destruct Hs as (Ws & Ps & Ss & Ss2).
           assert (Wst : wEnd (sPos r) (sStop s')) by (rewrite <- E1; apply Ss2; lia).
           pose proof (gap_norm r SIr Hr B _ Wst) as G; rewrite H2 in G.
           injection G as ->. destruct H3 as [<-|[]].
           apply (K (mkState (sPos r) (sStop s') (sDag r) (sLinked r)) r'); auto;
             cbn [sPos sStop sDag sLinked].
           ++ split; [exact E1|]. split; assumption.
           ++ eapply SI_step; [exact SIr|exact Hr|exact H2|left; reflexivity].
           ++ lia.
        -- apply (K r r'); auto; [split; [exact E1|split; assumption]|lia].
      * destruct (poolAdds_keeps l pool s' Hin) as (y & Hy & Sy).
        eapply (I2 y r); eauto. eapply stands_trans; eauto.
Qed.

(** *** Nothing is invented *)
(** Every edge of the state is in some derivation that reached the same place. *)
Definition covered (s : ParseState) : Prop :=
  (exists r, Run r /\ sPos r = sPos s /\ sLinked r = sLinked s) /\
  forall f t v, PHas (sDag s) f t v ->
    exists r, Run r /\ sPos r = sPos s /\ sLinked r = sLinked s /\ PHas (sDag r) f t v.
Lemma covered_merge : mergeOK covered.
Proof.
  intros a b (A1 & A2) (B1 & B2) E1 E2. split; [exact A1|]. cbn [sPos sLinked sDag].
  intros f t v H. apply punion_Has in H. destruct H as [H|H]; [apply A2; exact H|].
  rewrite E1, E2. apply B2. exact H.
Qed.
Lemma act_covered s a s' r r' : SI s -> SI r -> sPos r = sPos s -> sLinked r = sLinked s ->
  applyAct s a = Ok s' -> applyAct r a = Ok r' ->
  sPos r' = sPos s' /\ sLinked r' = sLinked s' /\
  forall f t v, PHas (sDag s') f t v ->
    PHas (sDag r') f t v \/
    exists f0 t0 v0, PHas (sDag s) f0 t0 v0 /\
      forall x x', SI x -> sPos x = sPos s -> applyAct x a = Ok x' -> PHas (sDag x) f0 t0 v0 -> PHas (sDag x') f t v.
Proof.
  intros (Ws & _) (Wr & _) E1 E2 Es Er. unfold applyAct in *.
  destruct (aStretch a).
  - destruct (stretch_spec (sDag s) (sPos s) Ws) as (ds & Eds & _ & _ & Hs).
    destruct (stretch_spec (sDag r) (sPos r) Wr) as (dr & Edr & _ & _ & Hr).
    rewrite Eds in Es. rewrite Edr in Er. cbn [bind] in *. injection Es as <-. injection Er as <-.
    cbn [sPos sLinked sDag]. split; [reflexivity|]. split; [reflexivity|].
    intros f t v X. right. apply Hs in X.
    assert (Y : exists t0, PHas (sDag s) f t0 v /\
      (t0 = t /\ t <> Z.of_nat (sPos s) \/ t = Z.of_nat (sPos s + 1) /\ t0 = Z.of_nat (sPos s))).
    { destruct X as [(X & Y)|(X & Y)]; [exists t|exists (Z.of_nat (sPos s))]; auto. }
    destruct Y as (t0 & Y1 & Y2). exists f, t0, v. split; [exact Y1|].
    intros x x' (Wx & _) Px Ex Hx.
    destruct (stretch_spec (sDag x) (sPos x) Wx) as (dx & Edx & _ & _ & H).
    rewrite Edx in Ex. cbn [bind] in Ex. injection Ex as <-. cbn [sDag]. apply H. rewrite Px.
    destruct Y2 as [(-> & Y2)|(Y2 & ->)]; [left; auto|right; auto].
  - injection Es as <-. injection Er as <-. cbn [plain sPos sLinked sDag].
    split; [reflexivity|]. split; [reflexivity|].
    intros f t v X. apply addAll_Has in X. destruct X as [X|X].
    + right. exists f, t, v. split; [exact X|]. intros x x' _ _ Ex Hx. injection Ex as <-.
      cbn [plain sDag]. apply addAll_Has. auto.
    + left. apply addAll_Has. auto.
Qed.

(** Bring a derivation to where the pooled state [s] stands. *)
Lemma catch_up s l r : SI s -> sPos s < n -> step s = Ok l -> Run r ->
  sPos r = sPos s -> sLinked r = sLinked s ->
  (exists r', Run r' /\ SI r' /\ sPos r' = sPos s /\ sLinked r' = sLinked s /\ sDag r' = sDag r /\
     (sStop s <= sPos s <-> sStop r' <= sPos r')) \/
  (exists st, l = [mkState (sPos s) st (sDag s) (sLinked s)]).
Proof.
  intros HS Hp Es HR E1 E2. pose proof (SI_run r HR) as SR.
  destruct (le_lt_dec (sStop s) (sPos s)) as [A|A], (le_lt_dec (sStop r) (sPos r)) as [B|B].
  - left. exists r. repeat (split; [assumption|]). split; [reflexivity|tauto].
  - right. exists (sStop r). destruct SR as (_ & _ & _ & Sr2).
    assert (Wst : wEnd (sPos s) (sStop r)) by (rewrite <- E1; apply Sr2; lia).
    pose proof (gap_norm s HS Hp A _ Wst) as G; rewrite Es in G.
    injection G as ->. reflexivity.
  - left. destruct HS as (_ & _ & _ & Ss2).
    assert (Wst : wEnd (sPos r) (sStop s)) by (rewrite E1; apply Ss2; lia).
    pose proof (gap_norm r SR ltac:(lia) B _ Wst) as G.
    exists (mkState (sPos r) (sStop s) (sDag r) (sLinked r)).
    assert (HR' : Run (mkState (sPos r) (sStop s) (sDag r) (sLinked r))).
    { eapply Run_step; eauto; [lia|left; reflexivity]. }
    split; [exact HR'|]. split; [apply SI_run; exact HR'|]. cbn [sPos sLinked sDag sStop].
    repeat (split; [assumption|]). split; [reflexivity|lia].
  - left. exists r. repeat (split; [assumption|]). split; [reflexivity|lia].
Qed.

Lemma step_covered s l s1 : SI s -> sPos s < n -> covered s -> step s = Ok l -> In s1 l -> covered s1.
Proof.
  intros HS Hp (C1 & C2) Es Hin.
  destruct (step_acts s HS Hp l Es) as (al & A1 & _ & F1).
  destruct (Forall2_in_r _ _ _ _ F1 Hin) as (a & Ha & Ea).
  assert (Gap : forall st, l = [mkState (sPos s) st (sDag s) (sLinked s)] -> covered s1).
  { intros st ->. destruct Hin as [<-|[]]. split; [exact C1|exact C2]. }
  (* follow any derivation at [s] through the same action *)
  assert (Follow : forall r, Run r -> sPos r = sPos s -> sLinked r = sLinked s ->
    (exists st, l = [mkState (sPos s) st (sDag s) (sLinked s)]) \/
    exists r' r1, Run r1 /\ SI r' /\ sPos r' = sPos s /\ sLinked r' = sLinked s /\ sDag r' = sDag r /\
      applyAct r' a = Ok r1).
  { intros r HR E1 E2.
    destruct (catch_up s l r HS Hp Es HR E1 E2) as [(r' & R1 & R2 & R3 & R4 & R5 & R6)|X]; [right|auto].
    rewrite <- (acts_same r' s R2 HS R3 R4) in A1 by tauto.
    destruct (acts_step r' al R2 A1) as (l' & Er' & F2).
    destruct (Forall2_in_l _ _ _ _ F2 Ha) as (r1 & Hr1 & Ea1).
    exists r', r1. split; [eapply Run_step; [exact R1|lia|exact Er'|exact Hr1]|]. auto 10. }
  destruct C1 as (r & HR & E1 & E2).
  destruct (Follow r HR E1 E2) as [(st & X)|(r' & r1 & R1 & R2 & R3 & R4 & R5 & R6)]; [eapply Gap; eauto|].
  destruct (act_covered s a s1 r' r1 HS R2 R3 R4 Ea R6) as (P1 & P2 & P3).
  split; [exists r1; auto|]. intros f t v H.
  destruct (P3 f t v H) as [X|(f0 & t0 & v0 & X1 & X2)]; [exists r1; auto|].
  destruct (C2 f0 t0 v0 X1) as (q & Hq & Q1 & Q2 & Q3).
  destruct (Follow q Hq Q1 Q2) as [(st & X)|(q' & q1 & T1 & T2 & T3 & T4 & T5 & T6)].
  - destruct (Gap st X) as (_ & G2). apply G2. exact H.
  - destruct (act_covered s a s1 q' q1 HS T2 T3 T4 Ea T6) as (U1 & U2 & _).
    exists q1. split; [exact T1|]. split; [exact U1|]. split; [exact U2|].
    eapply (X2 q' q1); eauto. rewrite T5. exact Q3.
Qed.

Lemma sound fuel : forall pool acc d, Forall SI pool -> Forall covered pool ->
  (forall f t v, PHas acc f t v -> exists r, Run r /\ n <= sPos r /\ PHas (sDag r) f t v) ->
  parseLoop ct fuel w dict brk pool acc = Ok d ->
  forall f t v, PHas d f t v -> exists r, Run r /\ n <= sPos r /\ PHas (sDag r) f t v.
Proof.
  induction fuel as [|fuel IH]; intros pool acc d HP HC HA E; cbn [parseLoop] in E.
  - destruct pool; [|discriminate]. injection E as <-. exact HA.
  - destruct pool as [|s pool]; [injection E as <-; exact HA|].
    inversion HP as [|? ? Hs Hp]; subst. inversion HC as [|? ? Cs Cp]; subst.
    destruct (Nat.leb_spec n (sPos s)) as [L|L].
    + refine (IH pool _ d Hp Cp _ E).
      intros f t v H. apply punion_Has in H. destruct H as [H|H]; [auto|].
      destruct Cs as (_ & C2). destruct (C2 f t v H) as (r & R1 & R2 & R3 & R4).
      exists r. split; [exact R1|]. split; [lia|exact R4].
    + destruct (step s) as [l| | |] eqn:Es; cbn [bind] in E; try discriminate.
      refine (IH _ acc d _ _ HA E).
      * apply poolAdds_Forall; auto using SI_merge.
        rewrite Forall_forall. intros x Hx. eapply SI_step; eauto.
      * apply poolAdds_Forall; auto using covered_merge.
        rewrite Forall_forall. intros x Hx. eapply step_covered; eauto.
Qed.

(** The result holds exactly the edges of the complete derivations. *)
Lemma transparent fuel d : ParseU16F ct fuel w dict brk = Ok d ->
  forall f t v, PHas d f t v <-> exists r, Run r /\ n <= sPos r /\ PHas (sDag r) f t v.
Proof.
  intros E f t v. unfold ParseU16F in E. fold s0 in E.
  destruct (skipGap ct w brk s0) as [b| | |] eqn:Eb; cbn [bind] in E; try discriminate.
  cbn [poolAdd] in E. pose proof (SI_start b Eb) as Sb.
  assert (Rb : Run b) by (exists b; split; [exact Eb|apply RF_here]).
  split.
  - intros H. eapply (sound fuel [b] dagEmpty d); eauto.
    + constructor; [|constructor]. split; [exists b; auto|]. intros f' t' v' H'. exists b. auto.
    + intros f' t' v' (x & [] & _).
  - intros (r & (b' & Eb' & RF) & R2 & R3). rewrite Eb in Eb'. injection Eb' as <-.
    destruct (complete fuel [b] dagEmpty d ltac:(auto) E) as (_ & C).
    eapply (C b b r); eauto; [left; reflexivity|apply stands_refl].
Qed.

(** The loop fails exactly when some derivation meets a failing step. *)
Lemma defined fuel : forall pool acc d, Forall SI pool ->
  parseLoop ct fuel w dict brk pool acc = Ok d ->
  forall s r r', In s pool -> stands s r -> SI r -> RunFrom r r' -> sPos r' < n ->
    exists l, step r' = Ok l.
Proof.
  induction fuel as [|fuel IH]; intros pool acc d HP E; cbn [parseLoop] in E.
  - destruct pool; [|discriminate]. intros s r r' [].
  - destruct pool as [|s pool]; [intros s r r' []|].
    inversion HP as [|? ? Hs Hp]; subst.
    destruct (Nat.leb_spec n (sPos s)) as [L|L].
    + pose proof (IH pool _ d Hp E) as I2.
      intros s' r r' [->|Hin] St SIr RF Fin; [|eapply I2; eauto].
      destruct St as (E1 & E2 & E3). inversion RF; subst; lia.
    + destruct (step s) as [l| | |] eqn:Es; cbn [bind] in E; try discriminate.
      assert (Hl : Forall SI l) by (rewrite Forall_forall; intros x Hx; eapply SI_step; eauto).
      assert (HP' : Forall SI (fold_left poolAdd l pool)) by (apply poolAdds_Forall; auto using SI_merge).
      pose proof (IH _ acc d HP' E) as I2.
      assert (K : forall r r', stands s r -> SI r -> sPos r < n -> (sStop s <= sPos s <-> sStop r <= sPos r) ->
         RunFrom r r' -> sPos r' < n -> exists l, step r' = Ok l).
      { intros r r' St SIr Hr Hst RF Fin. inversion RF as [x|x l' r1 x2 H1 H2 H3 H4]; subst.
        - destruct (step_acts s Hs L l Es) as (al & A1 & _ & _).
          destruct St as (E1 & E2 & _).
          rewrite (acts_same s r' Hs SIr E1 E2 Hst) in A1.
          destruct (acts_step r' al SIr A1) as (l' & Er' & _). exists l'. exact Er'.
        - destruct (step_stands s l r l' r1 Hs SIr L St Hst Es H2 H3) as (s1 & Hs1 & St1).
          destruct (poolAdds_self l pool s1 Hs1) as (y & Hy & Sy).
          eapply (I2 y r1); eauto; [eapply stands_trans; eauto|eapply SI_step; eauto]. }
      intros s' r r' [->|Hin] St SIr RF Fin.
      * destruct St as (E1 & E2 & E3).
        assert (Hr : sPos r < n) by lia.
        destruct (le_lt_dec (sStop s') (sPos s')) as [A|A], (le_lt_dec (sStop r) (sPos r)) as [B|B].
        -- apply (K r r'); auto; [split; [exact E1|split; assumption]|tauto].
        -- destruct SIr as (Wr & Pr & Sr & Sr2).
           assert (Wst : wEnd (sPos s') (sStop r)) by (rewrite E1; apply Sr2; lia).
           pose proof (gap_norm s' Hs L A _ Wst) as G; rewrite Es in G.
           injection G as ->.
           destruct (poolAdds_self [mkState (sPos s') (sStop r) (sDag s') (sLinked s')] pool
                       _ (or_introl eq_refl)) as (y & Hy & Sy).
           eapply (I2 y r); eauto.
           ++ eapply stands_trans; [exact Sy|]. split; [exact E1|]. split; assumption.
           ++ split; [exact Wr|]. split; [exact Pr|]. split; assumption.
        -- destruct Hs as (Ws & Ps & Ss & Ss2).
           assert (Wst : wEnd (sPos r) (sStop s')) by (rewrite <- E1; apply Ss2; lia).
           pose proof (gap_norm r SIr Hr B _ Wst) as G.
           inversion RF as [x|x l' r1 x2 H1 H2 H3 H4]; subst; [eauto|].
           rewrite H2 in G. injection G as ->. destruct H3 as [<-|[]].
           apply (K (mkState (sPos r) (sStop s') (sDag r) (sLinked r)) r'); auto;
             cbn [sPos sStop sDag sLinked].
           ++ split; [exact E1|]. split; assumption.
           ++ eapply SI_step; [exact SIr|exact Hr|exact H2|left; reflexivity].
           ++ lia.
        -- apply (K r r'); auto; [split; [exact E1|split; assumption]|lia].
      * destruct (poolAdds_keeps l pool s' Hin) as (y & Hy & Sy).
        eapply (I2 y r); eauto. eapply stands_trans; eauto.
Qed.
Lemma run_defined fuel d : ParseU16F ct fuel w dict brk = Ok d ->
  forall r, Run r -> sPos r < n -> exists l, step r = Ok l.
Proof.
  intros E r (b & Eb & RF) L. unfold ParseU16F in E. fold s0 in E. rewrite Eb in E. cbn [bind poolAdd] in E.
  pose proof (SI_start b Eb) as Sb.
  eapply (defined fuel [b] dagEmpty d); eauto; [left; reflexivity|apply stands_refl].
Qed.
End Runs.
