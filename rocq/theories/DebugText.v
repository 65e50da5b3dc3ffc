(** DebugText.v - the main loop of the parser built with assertions. *)
From Coq Require Import String List NArith ZArith Bool Arith Lia Sorted.
From Verif Require Import Spec Base ThUni ThCons Syl OrderProofs Lattice LatticeProofs
  Dag DagProofs PronDag PathProofs GroupProofs ListDagProofs Dict DictProofs Utf Parser Wp
  ParserSpec ParserRules ParserActs ParserLoop ParserFacts ParserInv ParserResult ParserDict ParserListed
  ParserPool ParserShift ParserLocal ParserProduct Prop_Syl Grammar GrammarRun GrammarIff GrammarWord TextGrammar TextProof
  ParserDebug DebugProofs.
Import ListNotations.
Local Open Scope nat_scope.

(** ** Any classification of characters *)
Section Loop.
Variable ct : CType.
Hypothesis ctOK : ctype_ok ct.
Variable w : list N.
Variable dict : option Dict.
Variable brk : list nat.
Notation n := (length w).
Hypothesis brkOK : Forall (fun x => x <= n) brk.
Hypothesis dictWF : dictOKo dict.
Notation SI := (SI ct w brk).
Notation step := (stepStates ct w dict brk).
Notation stepD := (stepStatesD ct w dict brk).

(** The assertion fails in the state [s]. *)
Definition fails (s : ParseState) : Prop := blocked ct w (sPos s) (sStop s) /\ exceptions ct w dict s = Ok [].
Lemma exceptions_dec s : {exceptions ct w dict s = Ok []} + {exceptions ct w dict s <> Ok []}.
Proof. destruct (exceptions ct w dict s) as [[|]| | |]; (left; reflexivity) || (right; discriminate). Qed.
Lemma step_cases s : SI s -> (fails s /\ stepD s = Abort (parser_cxx 293)) \/ (~ fails s /\ stepD s = Ran (step s)).
Proof.
  intros (_ & P & Q & _). unfold fails.
  destruct (blocked_dec ct w (sPos s) (sStop s)) as [B|B], (exceptions_dec s) as [E|E].
  - left. split; [auto|]. apply step_abort; auto.
  - right. split; [tauto|]. apply step_ran; auto.
  - right. split; [tauto|]. apply step_ran; auto.
  - right. split; [tauto|]. apply step_ran; auto.
Qed.

Lemma loop_cases (I : ParseState -> Prop) (HI : mergeOK (fun s => SI s /\ I s))
  (Hstep : forall s l s1, SI s -> I s -> sPos s < n -> step s = Ok l -> In s1 l -> I s1) fuel :
  forall pool acc, Forall (fun s => SI s /\ I s) pool ->
  parseLoopD ct fuel w dict brk pool acc = Ran (parseLoop ct fuel w dict brk pool acc) \/
  (parseLoopD ct fuel w dict brk pool acc = Abort (parser_cxx 293) /\ exists s, SI s /\ I s /\ fails s).
Proof.
  induction fuel as [|fuel IH]; intros pool acc HP; cbn [parseLoopD parseLoop]; destruct pool as [|s pool]; auto.
  inversion HP as [|? ? (Hs & Is) Hp]; subst. destruct (Nat.leb_spec n (sPos s)) as [L|L]; [apply IH; exact Hp|].
  destruct (step_cases s Hs) as [(F & ->)|(F & ->)]; [right; cbn [dbind]; eauto|].
  destruct (step s) as [l| | |] eqn:E; cbn [dbind bind]; auto. apply IH.
  apply poolAdds_Forall; auto. rewrite Forall_forall. intros y Hy. split; [eapply SI_step|eapply Hstep]; eauto.
Qed.
Lemma gap0_ran : skipGapD ct w brk s0 = Ran (skipGap ct w brk s0).
Proof. apply gap_ran; cbn [s0 sPos]; auto; lia. Qed.
Lemma parse_cases fuel : ParseU16FD ct fuel w dict brk = Ran (ParseU16F ct fuel w dict brk) \/
  ParseU16FD ct fuel w dict brk = Abort (parser_cxx 293).
Proof.
  unfold ParseU16FD, ParseU16F. fold s0. rewrite gap0_ran. destruct (skipGap ct w brk s0) as [b| | |] eqn:E; cbn [dbind bind]; auto.
  destruct (loop_cases (fun _ => True) ltac:(intros a c (X & _) (Y & _) E1 E2; split; [exact (SI_merge ct w brk a c X Y E1 E2)|exact Logic.I])
    ltac:(auto) fuel (poolAdd [] b) dagEmpty) as [X|(X & _)]; auto.
  cbn [poolAdd]. constructor; [|constructor]. split; [eapply SI_start; eauto|exact Logic.I].
Qed.

(** If the run succeeds, no derivation meets the assertion. *)
Lemma fails_same s r : SI s -> SI r -> sPos s = sPos r -> (sStop s <= sPos s <-> sStop r <= sPos r) -> fails r -> fails s.
Proof.
  intros (_ & _ & _ & Ws) (_ & _ & _ & Wr) E1 L (B & X). pose proof B as (Q & _).
  assert (Es : sStop s = sStop r).
  { eapply wEnd_fun; [apply Ws; lia|]. rewrite E1. apply Wr. lia. }
  split; [rewrite E1, Es; exact B|]. revert X. unfold exceptions. destruct dict as [d|]; [|auto].
  rewrite !FindExceptions_act, E1, Es. destruct (excActs ct w (sPos r) (sStop r) d) as [al| | |]; cbn [bind]; try discriminate.
  destruct al; [reflexivity|discriminate].
Qed.
Lemma unmet fuel : forall pool acc d, Forall SI pool ->
  parseLoopD ct fuel w dict brk pool acc = Ran (Ok d) ->
  forall s r r', In s pool -> stands s r -> SI r -> RunFrom ct w dict brk r r' -> sPos r' < n -> ~ fails r'.
Proof.
  induction fuel as [|fuel IH]; intros pool acc d HP E; cbn [parseLoopD] in E.
  - destruct pool; [|discriminate]. intros s r r' [].
  - destruct pool as [|s pool]; [intros s r r' []|].
    inversion HP as [|? ? Hs Hp]; subst.
    destruct (Nat.leb_spec n (sPos s)) as [L|L].
    + pose proof (IH pool _ d Hp E) as I2.
      intros s' r r' [->|Hin] St SIr RF Fin; [|eapply I2; eauto].
      destruct St as (E1 & E2 & E3). inversion RF; subst; lia.
    + destruct (step_cases s Hs) as [(_ & Y)|(NF & Y)]; rewrite Y in E; [discriminate|].
      destruct (step s) as [l| | |] eqn:Es; cbn [dbind] in E; try discriminate.
      assert (Hl : Forall SI l) by (rewrite Forall_forall; intros x Hx; eapply SI_step; eauto).
      assert (HP' : Forall SI (fold_left poolAdd l pool)) by (apply poolAdds_Forall; auto using SI_merge).
      pose proof (IH _ acc d HP' E) as I2.
      assert (K : forall r r', stands s r -> SI r -> sPos r < n -> (sStop s <= sPos s <-> sStop r <= sPos r) ->
         RunFrom ct w dict brk r r' -> sPos r' < n -> ~ fails r').
      { intros r r' St SIr Hr Hst RF Fin. inversion RF as [x|x l' r1 x2 H1 H2 H3 H4]; subst.
        - intros F. apply NF. destruct St as (E1 & _). exact (fails_same s r' Hs SIr E1 Hst F).
        - destruct (step_stands ct w dict brk s l r l' r1 Hs SIr L St Hst Es H2 H3) as (s1 & Hs1 & St1).
          destruct (poolAdds_self l pool s1 Hs1) as (y & Hy & Sy).
          eapply (I2 y r1); eauto; [eapply stands_trans; eauto|eapply SI_step; eauto]. }
      intros s' r r' [->|Hin] St SIr RF Fin.
      * destruct St as (E1 & E2 & E3).
        assert (Hr : sPos r < n) by lia.
        destruct (le_lt_dec (sStop s') (sPos s')) as [A|A], (le_lt_dec (sStop r) (sPos r)) as [B|B].
        -- apply (K r r'); auto; [split; [exact E1|split; assumption]|tauto].
        -- destruct SIr as (Wr & Pr & Sr & Sr2).
           assert (Wst : wordEnd ct w brk (sPos s') (sStop r)) by (rewrite E1; apply Sr2; lia).
           pose proof (gap_norm ct w dict brk brkOK s' Hs L A _ Wst) as G; rewrite Es in G.
           injection G as ->.
           destruct (poolAdds_self [mkState (sPos s') (sStop r) (sDag s') (sLinked s')] pool
                       _ (or_introl eq_refl)) as (y & Hy & Sy).
           eapply (I2 y r); eauto.
           ++ eapply stands_trans; [exact Sy|]. split; [exact E1|]. split; assumption.
           ++ split; [exact Wr|]. split; [exact Pr|]. split; assumption.
        -- destruct Hs as (Ws & Ps & Ss & Ss2).
           assert (Wst : wordEnd ct w brk (sPos r) (sStop s')) by (rewrite <- E1; apply Ss2; lia).
           pose proof (gap_norm ct w dict brk brkOK r SIr Hr B _ Wst) as G.
           inversion RF as [x|x l' r1 x2 H1 H2 H3 H4]; subst; [intros ((Q & _) & _); lia|].
           rewrite H2 in G. injection G as ->. destruct H3 as [<-|[]].
           apply (K (mkState (sPos r) (sStop s') (sDag r) (sLinked r)) r'); auto;
             cbn [sPos sStop sDag sLinked].
           ++ split; [exact E1|]. split; assumption.
           ++ eapply SI_step; [exact SIr|exact Hr|exact H2|left; reflexivity].
           ++ lia.
        -- apply (K r r'); auto; [split; [exact E1|split; assumption]|lia].
      * destruct (poolAdds_keeps l pool s' Hin) as (y & Hy & Sy).
        eapply (I2 y r); eauto. eapply stands_trans; eauto.
Qed.
Lemma run_unmet fuel d : ParseU16FD ct fuel w dict brk = Ran (Ok d) ->
  forall r, Run ct w dict brk r -> sPos r < n -> ~ fails r.
Proof.
  intros E r (b & Eb & RF) L. unfold ParseU16FD in E. fold s0 in E. rewrite gap0_ran, Eb in E. cbn [dbind poolAdd] in E.
  pose proof (SI_start ct w dict brk b Eb) as Sb.
  eapply (unmet fuel [b] dagEmpty d); eauto; [left; reflexivity|apply stands_refl].
Qed.
End Loop.

(** ** Texts: the classification of libthai *)
Section Every.
Variable w : list N.
Variable dict : option Dict.
Variable brk : list nat.
Notation n := (length w).
Hypothesis sorted : StronglySorted lt brk.
Hypothesis inside : Forall (fun x => x <= n) brk.
Hypothesis dictWF : dictOKo dict.
Notation D := (entry dict).

(** The reading comes to one of the eager vowels standing alone at the end of
    its word. *)
Definition bareVowel : Prop :=
  exists p lk c, Comes D w brk p lk /\ wordTo w brk p (p + 1) /\ nth_error w p = Some c /\ eagerVowel c /\
    forall k r strs, ~ listedWord D [c] k r strs.

Lemma blocked_iff p q : blocked ct w p q <-> p + 1 = q /\ exists c, nth_error w p = Some c /\ eagerVowel c.
Proof.
  unfold blocked, at16. split.
  - intros (E & v & Ev & L & N). split; [exact E|]. destruct (nth_error w p) as [c|]; [|discriminate]. injection Ev as ->.
    exists v. split; [reflexivity|]. unfold eagerVowel, oneOf. vm_compute.
    destruct (ldvowel_range _ ct_ok v L) as [Q|[Q|[Q|[Q|Q]]]]; rewrite Q in *; auto; congruence.
  - intros (E & c & -> & Ec). split; [exact E|]. exists c. split; [reflexivity|]. unfold eagerVowel, oneOf in Ec. vm_compute in Ec.
    destruct Ec as [<-|[<-|[<-|[<-|[]]]]]; (split; [reflexivity|discriminate]).
Qed.
Lemma exceptions_none s : SI ct w brk s -> sPos s < sStop s ->
  exceptions ct w dict s = Ok [] <-> forall k r strs, ~ listedWord D (between w (sPos s) (sStop s)) k r strs.
Proof.
  intros HS G. pose proof HS as (Wd & _ & _ & W). specialize (W G). apply (wt_iff w brk sorted) in W. pose proof W as [A B C _ _].
  set (q := sStop s) in *. unfold exceptions.
  assert (X0 : dict = None \/ exists d, dict = Some d) by (destruct dict; eauto).
  destruct X0 as [Ed|(d & Ed)].
  { rewrite Ed. split; [|reflexivity]. intros _ k r strs ((_ & _ & d & v & X & _) & _). congruence. }
  assert (Dw : dictOKo (Some d)) by (rewrite <- Ed; exact dictWF).
  pose proof (excActs_sat ct w (Some d) brk False (or_intror Dw) d (sPos s) q false eq_refl G ltac:(lia)) as X.
  assert (Y : match dict with Some d => FindExceptions ct w s d | None => Ok [] end = FindExceptions ct w s d) by (rewrite Ed; reflexivity).
  rewrite Y, FindExceptions_act. fold q.
  destruct (excActs ct w (sPos s) q d) as [al| | |] eqn:Ea; cbn [Sat] in X; try contradiction.
  destruct X as (X1 & X2). cbn [bind]. destruct al as [|a al]; cbn [map].
  - split; [|reflexivity]. intros _. specialize (X2 eq_refl). intros k r strs ((Et & Er & d' & v & Q & Hv & Hk & Hl) & Hn & Hf).
    rewrite Ed in Q. injection Q as <-. apply (X2 k).
    apply (applicable_text w dict brk d (sPos s) q k W Ed). split; [eauto|]. split; [exact Hk|]. split; [exact Hf|]. exists r. auto.
  - split; [discriminate|]. intros NL. exfalso.
    destruct (excActs_in ct w _ _ _ _ a Ea (or_introl eq_refl)) as (m & Hm & Em).
    pose proof (excAct_sat ct w (Some d) brk True (or_introl I) d (sPos s) q false m eq_refl G B Hm) as Z.
    rewrite Em in Z. destruct Z as (Z & _). destruct (Z _ eq_refl) as (_ & Ak).
    destruct (excAct_some _ _ _ _ _ _ _ Em) as (strs & L & _).
    pose proof (proj1 (applicable_text w dict brk d (sPos s) q (mPre m) W Ed) Ak) as ((v & Hv) & Hk & Hf & r & Et & Er).
    apply (NL (mPre m) r strs). split; [|auto]. split; [exact Et|]. split; [exact Er|]. exists d, v. auto.
Qed.
Lemma bare_at s : SI ct w brk s -> Stands w dict brk s -> fails ct w dict s -> bareVowel.
Proof.
  intros HS St (B & X). pose proof (proj1 (blocked_iff _ _) B) as (Q & c & Ec & Ev).
  assert (G : sPos s < sStop s) by lia. pose proof (proj1 (exceptions_none s HS G) X) as NL.
  pose proof HS as (_ & _ & _ & W). specialize (W G). apply (wt_iff w brk sorted) in W. pose proof W as [_ Ln _ _ _].
  assert (Eb : between w (sPos s) (sStop s) = [c]).
  { destruct (between_cons w _ _ c G Ln Ec) as (t & Et). rewrite Et.
    assert (length (between w (sPos s) (sStop s)) = 1) as H by (rewrite between_len by lia; lia).
    rewrite Et in H. destruct t; [reflexivity|cbn in H; lia]. }
  destruct St as [(_ & C)|((T & _) & _)].
  - exists (sPos s), (sLinked s), c. rewrite Q. rewrite Eb in NL. auto.
  - rewrite Ec in T. injection T as ->. unfold eagerVowel, oneOf in Ev. vm_compute in Ev. destruct Ev as [Y|[Y|[Y|[Y|[]]]]]; discriminate.
Qed.
Lemma debug_cases fuel : ParseU16FD ct fuel w dict brk = Ran (ParseU16F ct fuel w dict brk) \/
  (ParseU16FD ct fuel w dict brk = Abort (parser_cxx 293) /\ bareVowel).
Proof.
  unfold ParseU16FD, ParseU16F. fold s0. rewrite (gap0_ran ct w brk). destruct (skipGap ct w brk s0) as [b| | |] eqn:E; cbn [dbind bind]; auto.
  destruct (loop_cases ct ct_ok w dict brk (Stands w dict brk) (stands_merge w dict brk)
    ltac:(intros s l s1 A B C Es I1; eapply stands_step; eauto) fuel (poolAdd [] b) dagEmpty) as [X|(X & s & A & B & C)]; auto.
  - cbn [poolAdd]. constructor; [|constructor]. split; [eapply SI_start; eauto|]. apply run_stands; auto. exists b. split; [exact E|constructor].
  - right. split; [exact X|]. eapply bare_at; eauto.
Qed.
Lemma loop_no_throw fuel : forall pool acc, Forall (SI ct w brk) pool -> parseLoopD ct fuel w dict brk pool acc <> Ran Throw.
Proof.
  induction fuel as [|fuel IH]; intros pool acc HP; cbn [parseLoopD]; [destruct pool; discriminate|].
  destruct pool as [|s pool]; [discriminate|]. inversion HP as [|? ? Hs Hp]; subst.
  destruct (Nat.leb_spec n (sPos s)) as [L|L]; [apply IH; exact Hp|].
  destruct (step_cases ct ct_ok w dict brk s Hs) as [(_ & ->)|(F & ->)]; [discriminate|].
  destruct (step_outcome w dict brk sorted inside dictWF s Hs L) as [(l & E)|(E & X1 & _ & X3 & X4)]; rewrite E; cbn [dbind].
  - apply IH. apply poolAdds_Forall; auto using SI_merge. rewrite Forall_forall. intros y Hy. eapply SI_step; eauto.
  - exfalso. apply F. split; [|apply exceptions_none; auto]. apply blocked_iff.
    pose proof Hs as (_ & _ & _ & W). specialize (W X1). apply (wt_iff w brk sorted) in W. pose proof W as [_ Ln C _ _].
    destruct (C (sPos s) ltac:(lia)) as (c & Ec & _). destruct (seen_cases w _ (sStop s) c Ec) as [(_ & Q & Gv)|(Es & _)]; [|lia].
    split; [lia|]. exists c. auto.
Qed.
Lemma debug_no_throw fuel : ParseU16FD ct fuel w dict brk <> Ran Throw.
Proof.
  unfold ParseU16FD. fold s0. rewrite (gap0_ran ct w brk). destruct (start_ok w dict brk sorted inside dictWF) as (b & Eb).
  rewrite Eb. cbn [dbind]. apply loop_no_throw. cbn [poolAdd]. constructor; [|constructor]. eapply SI_start; eauto.
Qed.
Lemma debug_bare_any : bareVowel -> forall fuel,
  ParseU16FD ct fuel w dict brk = Abort (parser_cxx 293) \/ ParseU16FD ct fuel w dict brk = Ran NoFuel.
Proof.
  intros (p & lk & c & C & Wp & Ec & Ev & NL) fuel.
  destruct (parse_cases ct ct_ok w dict brk fuel) as [X|X]; [|left; exact X].
  pose proof (debug_no_throw fuel) as NT. rewrite X in NT.
  destruct (ParseU16F ct fuel w dict brk) as [d| | |] eqn:E; [exfalso|congruence| |auto].
  2:{ exfalso. exact (no_UB w dict brk sorted inside dictWF _ E). }
  pose proof (defined_Rs w dict brk sorted inside dictWF _ d E) as Df.
  destruct (comes_run w dict brk sorted inside dictWF Df p lk C) as (NTc & s & R & Q1 & Q2). subst p lk.
  assert (Tc : thaiAt w (sPos s)) by (destruct Wp as [_ _ F _ _]; apply F; lia).
  assert (Ln : sPos s < n) by (destruct Wp; lia).
  destruct (settle w dict brk sorted inside dictWF s R Ln Tc) as (s1 & R1 & P1 & P2 & P3 & P4). rewrite <- P1 in *.
  pose proof (Rs_SI w dict brk s1 R1) as HS.
  pose proof HS as (_ & _ & _ & W). specialize (W P4). 
  assert (Es : sStop s1 = sPos s1 + 1) by (eapply wEnd_fun; [exact W|apply (wt_iff w brk sorted); exact Wp]).
  destruct R1 as [->|R1]; [cbn [s0 sPos sStop] in P4; lia|].
  apply (run_unmet ct ct_ok w dict brk inside dictWF fuel d X s1 R1 Ln). split.
  - apply blocked_iff. split; [lia|]. exists c. auto.
  - apply exceptions_none; auto. pose proof Wp as [G0 L0 _ _ _].
    destruct (between_cons w (sPos s1) (sStop s1) c ltac:(lia) ltac:(lia) Ec) as (t & Et). rewrite Et.
    assert (length (between w (sPos s1) (sStop s1)) = 1) as H by (rewrite between_len by lia; lia).
    rewrite Et in H. destruct t; [exact NL|cbn in H; lia].
Qed.
Lemma debug_bare : bareVowel -> forall fuel, enough ct w dict brk <= fuel -> ParseU16FD ct fuel w dict brk = Abort (parser_cxx 293).
Proof.
  intros B fuel Lf. destruct (debug_bare_any B fuel) as [X|X]; [exact X|exfalso].
  pose proof (ParseU16F_terminates ct w dict brk _ Lf) as T.
  destruct (parse_cases ct ct_ok w dict brk fuel) as [Y|Y]; rewrite X in Y; [injection Y as Y; congruence|discriminate].
Qed.
End Every.
