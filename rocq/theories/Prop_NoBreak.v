(** Prop_NoBreak.v - property C99: what is lost when a word break is left
    out. *)
From Coq Require Import String List NArith ZArith Bool Lia Arith Sorted.
From Verif Require Import Base ThUni ThCons Syl Utf Lattice Dag PronDag Dict Parser.
From Verif Require Import Spec OrderProofs GroupProofs DictProofs Prop_Syl ParserSpec ParserFacts ParserInv ParserResult ParserListed ParserDict.
From Verif Require Import Prop_Output Prop_Parser Grammar GrammarIff GrammarWord TextGrammar TextProof Prop_Every Prop_ProgramEvery Prop_Cycle.
Import ListNotations.
Local Open Scope string_scope.
Local Open Scope list_scope.
Local Open Scope bool_scope.
Local Open Scope nat_scope.

(** ** Vocabulary *)
Definition ends (u l : list N) : Prop := exists a, u = a ++ l.
(** The letters [u] before and [v] after a word break do not act on each other
    in the eyes of a reader of Thai. *)
Record Seam (u v : list N) : Prop := {
  (* a syllable can start after the break, none of its first letters is silenced *)
  sm_start : exists c t, v = c :: t /\ startsSyl c = true;
  sm_silent : nth_error v 1 <> Some UTH_THANTHAKHAT /\ nth_error v 2 <> Some UTH_THANTHAKHAT;
  (* no abbreviation *)
  sm_stop : forall k, k < 4 -> nth_error v k <> Some fullStop;
  (* RO RUA does not meet RO RUA *)
  sm_ro : hd_error v = Some UTH_RO_RUA -> ~ ends u [UTH_RO_RUA];
  (* long UE without O ANG is followed by a leading vowel only *)
  sm_ue : forall c, hd_error v = Some c -> leadVowel c = false ->
    ~ ends u [UTH_SARA_UEE] /\ forall m, isMark m = true -> ~ ends u [UTH_SARA_UEE; m];
  (* not after RU and LU *)
  sm_ru : ~ ends u [UTH_RU] /\ ~ ends u [UTH_LU];
  (* YO YAK does not come after an open SARA E *)
  sm_ya : hd_error v = Some UTH_YO_YAK -> forall l, ends u l -> length l <= 4 -> ~ In UTH_SARA_E l;
  sm_ang : forall c m, isMark m = true -> ~ ends u [UTH_SARA_E; c; UTH_O_ANG; m];
  (* a leading vowel is not divided from its consonant *)
  sm_eager : forall c, eagerVowel c -> ~ ends u [c]
}.

(** ** The grammar before a seam *)
Lemma ends_app a u l : ends u l -> ends (a ++ u) l.
Proof. intros (x & ->). exists (a ++ x). apply app_assoc. Qed.
Lemma ends_refl u : ends u u.
Proof. exists []. reflexivity. Qed.
Lemma starts_not c x : startsSyl c = true -> startsSyl x = false -> c <> x.
Proof. congruence. Qed.

Section Seam.
Variable v : list N.
Variable v0 : N.
Variable vt : list N.
Hypothesis Ev : v = v0 :: vt.
Hypothesis Sv : startsSyl v0 = true.
Hypothesis K1 : nth_error v 1 <> Some UTH_THANTHAKHAT.
Hypothesis K2 : nth_error v 2 <> Some UTH_THANTHAKHAT.

Ltac notStart := let X := fresh in intros X; revert Sv; rewrite X; vm_compute; discriminate.
Lemma v0_mark : isMark v0 = false.
Proof. destruct (isMark v0) eqn:E; [|reflexivity]. exfalso. unfold isMark in E. apply andb_prop in E. destruct E as (A & B).
  apply N.leb_le in A, B. revert Sv. unfold startsSyl, consonant, leadVowel. repeat rewrite orb_true_iff, ?andb_true_iff. rewrite !N.leb_le. lia.
Qed.
Lemma v0_karan : (v0 =? UTH_THANTHAKHAT)%N = false.
Proof. apply N.eqb_neq. notStart. Qed.
Lemma at1 : forall c t, vt = c :: t -> (c =? UTH_THANTHAKHAT)%N = false.
Proof. intros c t E. apply N.eqb_neq. intros ->. apply K1. rewrite Ev, E. reflexivity. Qed.
Lemma at2 : forall c d t, vt = c :: d :: t -> (d =? UTH_THANTHAKHAT)%N = false.
Proof. intros c d t E. apply N.eqb_neq. intros ->. apply K2. rewrite Ev, E. reflexivity. Qed.
Lemma silent_app t : silent (t ++ v) = silent t ++ v.
Proof.
  pose proof v0_karan as V. pose proof at1 as A1. rewrite Ev. destruct t as [|a [|b t]]; cbn.
  - destruct vt as [|c r]; [reflexivity|]. rewrite (A1 c r eq_refl), andb_false_r. reflexivity.
  - rewrite V, andb_false_r. reflexivity.
  - destruct (_ && _); reflexivity.
Qed.
Lemma silentIU_app t : silentIU (t ++ v) = silentIU t ++ v.
Proof.
  pose proof v0_karan as V. pose proof at1 as A1. pose proof at2 as A2. rewrite Ev. destruct t as [|a [|b [|c t]]]; cbn.
  - destruct vt as [|c [|d r]]; [reflexivity..|]. rewrite (A2 c d r eq_refl), andb_false_r. reflexivity.
  - destruct vt as [|c r]; [reflexivity|]. rewrite (A1 c r eq_refl), andb_false_r. reflexivity.
  - rewrite V, andb_false_r. reflexivity.
  - destruct (_ && _); reflexivity.
Qed.
Lemma silent2_app t : silent2 (t ++ v) = silent2 t ++ v.
Proof.
  pose proof v0_karan as V. pose proof at1 as A1. pose proof at2 as A2. rewrite Ev. destruct t as [|a [|b [|c t]]]; cbn.
  - destruct vt as [|c [|d r]]; [reflexivity..|]. rewrite (A2 c d r eq_refl), andb_false_r. reflexivity.
  - destruct vt as [|c r]; [reflexivity|]. rewrite (A1 c r eq_refl), andb_false_r. reflexivity.
  - rewrite V, andb_false_r. reflexivity.
  - destruct (_ && _); reflexivity.
Qed.
Lemma skips_app a b : (length (a ++ v) <? length (b ++ v)) = (length a <? length b).
Proof. rewrite !app_length. destruct (Nat.ltb_spec (length a) (length b)); [apply Nat.ltb_lt|apply Nat.ltb_ge]; lia. Qed.
Lemma silentAny_app t : silentAny (t ++ v) = silentAny t ++ v.
Proof.
  unfold silentAny. cbv zeta. rewrite silent_app, silentIU_app, silent2_app, !skips_app.
  destruct (length (silent t) <? length t); [reflexivity|]. destruct (length (silentIU t) <? length t); reflexivity.
Qed.
Lemma silent_or t : (if length (silent (t ++ v)) <? length (t ++ v) then silent (t ++ v) else silentIU (t ++ v)) =
  (if length (silent t) <? length t then silent t else silentIU t) ++ v.
Proof. rewrite silent_app, silentIU_app, skips_app. destruct (_ <? _); reflexivity. Qed.
Lemma mark_app t m l : mark t = (m, l) -> mark (t ++ v) = (m, l ++ v).
Proof.
  destruct t as [|c t]; cbn.
  - intros E. injection E as <- <-. rewrite Ev. cbn. rewrite v0_mark. reflexivity.
  - destruct (isMark c); intros E; injection E as <- <-; reflexivity.
Qed.
Lemma hd_app t c : startsSyl c = false -> hd_error t <> Some c -> hd_error (t ++ v) <> Some c.
Proof. destruct t as [|a t]; cbn; [|auto]. intros S _ E. rewrite Ev in E. injection E as E. congruence. Qed.
Lemma endOrSyl_app t : endOrSyl t -> endOrSyl (t ++ v).
Proof. destruct t; cbn; [intros _; rewrite Ev; exact Sv|auto]. Qed.
Lemma endOrSyl_back t : endOrSyl (t ++ v) -> endOrSyl t.
Proof. destruct t; cbn; auto. Qed.
Lemma noLong_app t : noLong t -> noLong (t ++ v).
Proof. destruct t as [|c t]; cbn; [intros _; rewrite Ev; split; notStart|auto]. Qed.
Lemma noRo_app t : (t = [] -> v0 <> UTH_RO_RUA) -> noRo t -> noRo (t ++ v).
Proof. destruct t as [|c t]; cbn; [intros A _; rewrite Ev; exact (A eq_refl)|auto]. Qed.

Lemma Final_app no t e r : Final no t e r -> Final no (t ++ v) e (r ++ v).
Proof. intros [c t' C I]. rewrite <- silentAny_app. exact (F_cons no c (t' ++ v) C I). Qed.
Lemma Shared_app c t : Shared c t -> Shared c (t ++ v).
Proof.
  intros [x t' L E|x y t' X Y]; [|exact (Sh_cons c x y (t' ++ v) X Y)].
  apply Sh_vowel; [exact L|]. intros (E' & A). apply E. split; [|exact A]. destruct t'; [reflexivity|discriminate E'].
Qed.
Lemma FS_app no t e r b : FinalOrShared no t e r b -> FinalOrShared no (t ++ v) e (r ++ v) b.
Proof.
  intros [t' e' r' F|c r' C I S O E|c i r' C I O L E|c t' C I S H].
  - apply FS_final, Final_app, F.
  - apply (FS_ro no c (r' ++ v) C I); [|exact O|apply endOrSyl_app, E]. exact (eq_trans (silentAny_app (UTH_RO_RUA :: r')) (f_equal (fun x => x ++ v) S)).
  - apply (FS_iu no c i (r' ++ v) C I O L). apply endOrSyl_app, E.
  - apply (FS_shared no c (t' ++ v) C I); [|apply Shared_app, H]. exact (eq_trans (silentAny_app t') (f_equal (fun x => x ++ v) S)).
Qed.

Definition safeRo (t : list N) : Prop := v0 = UTH_RO_RUA -> ~ ends t [UTH_RO_RUA].
Lemma Initial_app lk t o r : InitialAt lk t o r -> safeRo t -> InitialAt lk (t ++ v) o (r ++ v).
Proof.
  intros H Q. assert (Z : forall c, t = c :: UTH_RO_RUA :: r -> noRo r -> noRo (r ++ v)).
  { intros c E N. apply noRo_app; [|exact N]. intros -> X. apply (Q X). exists [c]. exact E. }
  destruct H; try (econstructor; eauto using noLong_app; fail).
  - cbn. apply I_ho; [assumption..|]. intros ->. eapply Z; [reflexivity|auto].
  - cbn. apply I_lead; [assumption..|]. intros ->. eapply Z; [reflexivity|auto].
Qed.

(** The rimes whose end at the seam matters. *)
Definition safeUe (t : list N) : Prop := leadVowel v0 = false ->
  ~ ends t [UTH_SARA_UEE] /\ forall m, isMark m = true -> ~ ends t [UTH_SARA_UEE; m].
Lemma Rime_app lk o t vo e m r b : Rime lk o t vo e m r b -> safeUe t -> Rime lk o (t ++ v) vo e m (r ++ v) b.
Proof.
  intros H Q. destruct H; cbn [app]; rewrite <- ?silent_app, <- ?silent_or;
    try match goal with M : mark _ = _ |- _ => apply mark_app in M; cbn [app] in M end.
  - eapply R_ua; eassumption.
  - eapply R_uaa; [eassumption|]. apply hd_app; [reflexivity|assumption].
  - eapply R_an. apply FS_app. assumption.
  - eapply R_an_marked; [eassumption|assumption|]. apply Final_app. assumption.
  - eapply R_above_open; eassumption.
  - eapply R_above_shared; [eassumption|eassumption| |].
    + rewrite silentIU_app. f_equal. assumption.
    + rewrite silent_app. apply FS_app. assumption.
  - eapply R_above_final; [eassumption|eassumption| |].
    + rewrite silentIU_app. f_equal. assumption.
    + rewrite silent_app. apply Final_app. assumption.
  - eapply R_uee. eassumption.
  - eapply R_uee_bare; [eassumption|]. destruct t' as [|c t']; cbn [app]; [|assumption]. rewrite Ev.
    destruct (leadVowel v0) eqn:L; [reflexivity|exfalso]. destruct (Q L) as (Q1 & Q2).
    destruct t as [|c t]; [apply Q1; exists []; reflexivity|].
    assert (M : isMark c = true /\ t = []).
    { clear - H Ev. cbn in H. destruct (isMark c); injection H as _ H; [|discriminate (f_equal (@length N) H) || (apply (f_equal (@length N)) in H; cbn in H; rewrite app_length in H; lia)].
      split; [reflexivity|]. apply (f_equal (@length N)) in H. rewrite app_length in H. destruct t; [reflexivity|cbn in H; lia]. }
    destruct M as (M & ->). apply (Q2 c M). exists []. reflexivity.
  - eapply R_uee_final; [eassumption|]. apply Final_app. assumption.
  - eapply R_au. rewrite silent_app. apply Final_app. assumption.
  - eapply R_a; eassumption.
  - eapply R_aa; eassumption.
  - eapply R_aa_final; [eassumption|]. rewrite silent_app. apply FS_app. assumption.
  - eapply R_am; eassumption.
  - eapply R_ua_final; [eassumption|]. apply Final_app. assumption.
  - eapply R_auu; eassumption.
  - eapply R_auu_final; [eassumption|]. rewrite silent_app. apply Final_app. assumption.
  - eapply R_on; eassumption.
  - eapply R_ran; [eassumption|]. rewrite silent_app. destruct (ics_eqb _ _); [rewrite H0|rewrite H0]; reflexivity.
  - eapply R_rac; [eassumption| | |].
    + rewrite silent_app. instantiate (1 := r' ++ v). destruct (ics_eqb _ _); rewrite H0; reflexivity.
    + rewrite silent_app. f_equal. assumption.
    + apply FS_app. assumption.
  - eapply R_o; [eassumption|assumption..|]. apply Final_app. assumption.
  - eapply R_ru; eassumption.
  - eapply R_ru_final; [eassumption|eassumption|]. apply FS_app. assumption.
Qed.

Definition safeE (o : Initial) (t : list N) : Prop :=
  (t = [] \/ (exists c, isMark c = true /\ t = [c])) -> v0 <> UTH_YO_YAK /\ (t <> [] -> notLedA o).
Lemma not_of c x s : startsSyl c = true -> existsb startsSyl (letters s) = false -> oneOf s x -> c <> x.
Proof.
  intros S F I ->. apply Bool.not_true_iff_false in F. apply F. apply existsb_exists. exists x. split; assumption.
Qed.
Lemma RimeE_app o t vo e m r b : RimeE o t vo e m r b -> safeE o t -> RimeE o (t ++ v) vo e m (r ++ v) b.
Proof.
  assert (EE : forall m t, mark t = (m, v) -> notLedA o -> v0 <> UTH_YO_YAK -> RimeE o t V_EE EC_NONE m v false).
  { intros m0 t0 M NL Y. pose proof (silent_app [] : silent v = v) as SV. pose proof (E_ee o t0 m0 v0 vt) as X.
    rewrite <- Ev, SV in X. apply X; [exact M|exact NL| | |].
    - intros I. refine (not_of v0 v0 _ Sv _ I eq_refl); vm_compute; reflexivity.
    - intros _ I. refine (not_of v0 v0 _ Sv _ I eq_refl); vm_compute; reflexivity.
    - intros (W & _). exact (Y W). }
  intros H Q. destruct H; cbn [app]; rewrite <- ?silent_app, <- ?silent_or;
    try match goal with M : mark _ = _ |- _ => apply mark_app in M; cbn [app] in M end.
  - destruct (Q (or_introl eq_refl)) as (Y & _). apply EE; [|assumption..]. cbn. rewrite Ev. cbn. rewrite v0_mark. reflexivity.
  - destruct (Q (or_intror (ex_intro _ c (conj H eq_refl)))) as (Y & NL). apply EE; [|apply NL; discriminate|exact Y].
    cbn. rewrite H. reflexivity.
  - eapply E_oe_final; [eassumption|]. rewrite silent_app. apply Final_app. assumption.
  - eapply E_ia; eassumption.
  - eapply E_iaa; [eassumption|]. apply hd_app; [reflexivity|assumption].
  - eapply E_iaa_final; [eassumption| |]; [apply hd_app; [reflexivity|assumption]|]. rewrite silent_app. apply FS_app. assumption.
  - eapply E_uea; eassumption.
  - eapply E_ueaa; [eassumption|]. apply hd_app; [reflexivity|assumption].
  - eapply E_ueaa_final; [eassumption| |]; [apply hd_app; [reflexivity|assumption]|]. rewrite silent_app. apply Final_app. assumption.
  - eapply E_e_final. apply Final_app. assumption.
  - eapply E_oe; eassumption.
  - eapply E_oee; [eassumption|]. apply hd_app; [reflexivity|assumption].
  - eapply E_e; eassumption.
  - eapply E_au; eassumption.
  - eapply E_ao; [eassumption|]. apply hd_app; [reflexivity|assumption].
  - eapply E_oey; [eassumption|]. apply endOrSyl_app. assumption.
  - change (c :: r) with ([c] ++ r). change (silent (([c] ++ r) ++ v)) with (silent (c :: r ++ v)).
    eapply E_ee; [eassumption|assumption..|]. intros (X & Y). match goal with N : ~ (_ /\ _) |- _ => apply N end.
    split; [exact X|]. apply endOrSyl_back, Y.
  - eapply E_ee_final; [eassumption|assumption..| |].
    + intros (X & Y). match goal with N : ~ (_ /\ endOrSyl _) |- _ => apply N end. split; [exact X|]. apply endOrSyl_back, Y.
    + change (c :: r ++ v) with ((c :: r) ++ v). rewrite silent_app. apply FS_app. assumption.
Qed.
Lemma RimeL_app l t vo e m r b : RimeL l t vo e m r b -> RimeL l (t ++ v) vo e m (r ++ v) b.
Proof.
  intros H. destruct H; cbn [app]; rewrite <- ?silent_app, <- ?silent_or;
    try match goal with M : mark _ = _ |- _ => apply mark_app in M; cbn [app] in M end.
  - eapply L_ae; eassumption.
  - eapply L_ae_final; [eassumption|]. apply Final_app. assumption.
  - eapply L_aee; [eassumption|apply hd_app; [reflexivity|assumption]..].
  - eapply L_aee_final; [eassumption|]. rewrite silent_app. apply Final_app. assumption.
  - eapply L_o; eassumption.
  - eapply L_oo; [eassumption|]. apply hd_app; [reflexivity|assumption].
  - eapply L_oo_final; [eassumption| |]; [rewrite silentIU_app; f_equal; assumption|]. rewrite silent_app. apply FS_app. assumption.
  - eapply L_ai; eassumption.
  - eapply L_aiy; [eassumption|]. apply endOrSyl_app. assumption.
  - eapply L_aimuan; eassumption.
Qed.
Lemma Implied_app t p x r : Implied t p x r -> Implied (t ++ v) p x (r ++ v).
Proof. intros H. destruct H; cbn [app]; econstructor; eauto. Qed.
Lemma RimeRu_app t vo e r b : RimeRu t vo e r b -> t <> [] -> RimeRu (t ++ v) vo e (r ++ v) b.
Proof.
  intros H Q. destruct H as [|x t X|c t C F|c t e r b E F]; cbn [app].
  - congruence.
  - apply U_long. exact X.
  - apply U_open; [exact C|]. intros (A & B). apply F. split; [exact A|]. apply endOrSyl_back, B.
  - apply U_closed; [apply endOrSyl_app, E|]. exact (FS_app _ _ _ _ _ F).
Qed.

Lemma initial_suffix lk t o r : InitialAt lk t o r -> exists a, t = a ++ r /\ 1 <= length a <= 2.
Proof.
  intros H. destruct H;
    solve [eexists [_]; split; [reflexivity|cbn; lia] | eexists [_; _]; split; [reflexivity|cbn; lia]].
Qed.
Lemma sound_ang d : soundOf d = ICS_A -> d = UTH_O_ANG.
Proof.
  unfold soundOf, groupOf. destruct (find _ soundGroups) as [(k, g)|] eqn:E; [|discriminate].
  apply find_some in E. destruct E as (I & M). cbn [fst snd] in *. intros ->. revert M.
  assert (G : letters g = [UTH_O_ANG]).
  { repeat (destruct I as [I|I]; [first [discriminate I | injection I as <-; vm_compute; reflexivity]|]). destruct I. }
  rewrite G. cbn. rewrite orb_false_r. intros X. apply N.eqb_eq in X. exact X.
Qed.
Lemma lead_ang lk t o r : InitialAt lk t o r -> ~ notLedA o -> exists c, t = c :: UTH_O_ANG :: r.
Proof.
  intros H L. assert (A : oLead o <> None /\ oSound o = ICS_A).
  { unfold notLedA in L. split; [tauto|]. destruct (oSound o) eqn:E; try (exfalso; apply L; right; discriminate). reflexivity. }
  destruct A as (A & S). destruct H; cbn in A, S; try congruence; try discriminate S.
  exists c. f_equal. f_equal. apply sound_ang. exact S.
Qed.
Lemma led_dec o : notLedA o \/ ~ notLedA o.
Proof.
  unfold notLedA. destruct (oLead o); [|tauto]. destruct (oSound o); try (left; right; discriminate). right. intros [X|X]; [discriminate X|congruence].
Qed.

Lemma Reads_app lk t p x r b : Reads lk t p x r b -> Seam t v -> Reads lk (t ++ v) p x (r ++ v) b.
Proof.
  intros H Q. assert (Hd : hd_error v = Some v0) by (rewrite Ev; reflexivity).
  assert (RO : forall a u, t = a ++ u -> safeRo u). { intros a u -> X Y. apply (sm_ro _ _ Q); [congruence|apply ends_app, Y]. }
  assert (UE : forall a u, t = a ++ u -> safeUe u).
  { intros a u -> L. destruct (sm_ue _ _ Q v0 Hd L) as (A & B). split; [intros Y; apply A, ends_app, Y|].
    intros m M Y. apply (B m M), ends_app, Y. }
  destruct H as [t o t1 vo e m r b p x I R L S|t o t1 vo e m r b p x I R L S|l t o t1 vo e m r b p x I R L S|t p x r I|c t vo e r b tn U R T].
  - eapply Rd_plain; [apply Initial_app; [exact I|exact (RO [] t eq_refl)]|apply Rime_app; [exact R|]|exact L|exact S].
    destruct (initial_suffix _ _ _ _ I) as (a & E & _). exact (UE a t1 E).
  - eapply Rd_e; [apply Initial_app; [exact I|exact (RO [UTH_SARA_E] t eq_refl)]|apply RimeE_app; [exact R|]|exact L|exact S].
    destruct (initial_suffix _ _ _ _ I) as (a & E & La). intros Short. split.
    + intros Y. apply (sm_ya _ _ Q (eq_trans Hd (f_equal Some Y)) (UTH_SARA_E :: t)); [apply ends_refl| |left; reflexivity].
      rewrite E. cbn. rewrite app_length. destruct Short as [->|(c & _ & ->)]; cbn; lia.
    + intros NE. destruct Short as [->|(c & M & ->)]; [congruence|]. destruct (led_dec o) as [X|X]; [exact X|exfalso].
      destruct (lead_ang _ _ _ _ I X) as (d & ->). apply (sm_ang _ _ Q d c M). apply ends_refl.
  - eapply Rd_lead; [apply Initial_app; [exact I|exact (RO [l] t eq_refl)]|apply RimeL_app; exact R|exact L|exact S].
  - apply Rd_implied, Implied_app, I.
  - eapply Rd_ru; [exact U|apply RimeRu_app; [exact R|]|exact T]. intros ->. destruct (sm_ru _ _ Q) as (A & B).
    destruct U as [->| ->]; [apply A|apply B]; apply ends_refl.
Qed.
End Seam.

(** ** The seam in a text *)
Lemma Seam_sub u v u' v' z : Seam u v -> ends u u' -> v = v' ++ z -> v' <> [] -> Seam u' v'.
Proof.
  intros [A1 A2 A3 A4 A5 A6 A7 A8 A9] (a & ->) -> NE.
  assert (Nth : forall k x, nth_error v' k = Some x -> nth_error (v' ++ z) k = Some x).
  { intros k x E. rewrite nth_error_app1; [exact E|]. apply nth_error_Some. congruence. }
  assert (Hd : forall c, hd_error v' = Some c -> hd_error (v' ++ z) = Some c) by (destruct v'; [congruence|auto]).
  constructor.
  - destruct A1 as (c & t & E & S). destruct v' as [|c' t']; [congruence|]. injection E as -> E. eauto.
  - split; intros E; [apply (proj1 A2)|apply (proj2 A2)]; apply Nth, E.
  - intros k L E. exact (A3 k L (Nth _ _ E)).
  - intros E X. apply (A4 (Hd _ E)), ends_app, X.
  - intros c E L. destruct (A5 c (Hd _ E) L) as (X & Y). split; [intros Z; apply X, ends_app, Z|]. intros m M Z. apply (Y m M), ends_app, Z.
  - destruct A6 as (X & Y). split; intros Z; [apply X|apply Y]; apply ends_app, Z.
  - intros E l L. apply (A7 (Hd _ E)). apply ends_app, L.
  - intros c m M X. apply (A8 c m M), ends_app, X.
  - intros c E X. apply (A9 c E), ends_app, X.
Qed.

(** A word break whose loss costs no reading: it is not within a Thai stretch,
    or the letters on its sides form a seam, no single letter is cut off to be
    read by its name, and no listed word is written across. *)
Definition lone (w : list N) (p : nat) : Prop := namePlace w p /\ exists c, nth_error w p = Some c /\ consonant c = true.
Record Spare (D : list N -> list SylString -> Prop) (w : list N) (b : nat) : Prop := {
  sp_seam : Seam (firstn b w) (skipn b w);
  sp_lone : ~ lone w (b - 1);
  sp_word : forall i j strs, i < b < j -> j <= length w -> ~ D (between w i j) strs
}.
Definition outside (w : list N) (b : nat) : Prop := b = 0 \/ ~ thaiAt w (b - 1) \/ ~ thaiAt w b.

Lemma word_exists w brk : forall k p, length w - p <= k -> thaiAt w p -> exists q, wordTo w brk p q.
Proof.
  assert (L : forall p, thaiAt w p -> p < length w). { intros p (c & E & _). apply nth_error_Some. congruence. }
  assert (St : forall p, thaiAt w p -> p + 1 = length w \/ In (p + 1) brk \/ ~ thaiAt w (p + 1) -> wordTo w brk p (p + 1)).
  { intros p T E. pose proof (L p T). constructor; [lia|lia| |lia|exact E]. intros k K. replace k with p by lia. exact T. }
  induction k as [|k IH]; intros p Lk T; pose proof (L p T); [lia|].
  destruct (Nat.eq_dec (p + 1) (length w)) as [E|NE]; [exists (p + 1); apply St; auto|].
  destruct (in_dec Nat.eq_dec (p + 1) brk) as [I|NI]; [exists (p + 1); apply St; auto|].
  destruct (thai_dec w (p + 1)) as [T'|NT]; [|exists (p + 1); apply St; auto].
  destruct (IH (p + 1) ltac:(lia) T') as (q & [A B C F G]). exists q. constructor; [lia|lia| | |exact G].
  - intros j J. destruct (Nat.eq_dec j p) as [->|N]; [exact T|]. apply C. lia.
  - intros x X J. apply (F x X). destruct (Nat.eq_dec x (p + 1)) as [->|N]; [contradiction|lia].
Qed.

Lemma between_join w p q r : p <= q -> q <= r -> r <= length w -> between w p r = between w p q ++ between w q r.
Proof.
  intros A B C. assert (E : between w p r ++ skipn r w = (between w p q ++ between w q r) ++ skipn r w).
  { rewrite <- app_assoc, <- (between_skip w q r), <- (between_skip w p q), <- (between_skip w p r); auto; lia. }
  apply app_inv_tail in E. exact E.
Qed.
Lemma between_ends w p q : p <= q -> q <= length w -> ends (firstn q w) (between w p q).
Proof.
  intros A B. exists (firstn p w). unfold between. rewrite <- (firstn_skipn p (firstn q w)) at 1. rewrite firstn_firstn, Nat.min_l by lia.
  f_equal. rewrite skipn_firstn_comm. reflexivity.
Qed.

Section Drop.
Variable D : list N -> list SylString -> Prop.
Variable w : list N.
Variables brk brk' : list nat.
Variable b : nat.
Hypothesis sub : forall x, In x brk' -> In x brk.
Hypothesis only : forall x, In x brk -> In x brk' \/ x = b.
Hypothesis free : In b brk -> Spare D w b \/ outside w b \/ In b brk'.
Notation n := (length w).

Lemma word_drop p q : wordTo w brk p q -> wordTo w brk' p q \/
  (q = b /\ Spare D w b /\ exists q', b < q' /\ q' <= n /\ wordTo w brk' p q').
Proof.
  intros [A B C F G]. assert (Same : q = n \/ In q brk' \/ ~ thaiAt w q -> wordTo w brk' p q).
  { intros E. constructor; auto. }
  destruct G as [G|[G|G]]; [left; auto| |left; auto].
  destruct (only q G) as [I| ->]; [left; auto|]. destruct (in_dec Nat.eq_dec b brk') as [I|NI]; [left; auto|].
  destruct (thai_dec w b) as [T|NT]; [|left; auto]. right. split; [reflexivity|].
  destruct (free G) as [S|[O|I]]; [|exfalso|contradiction].
  - split; [exact S|]. destruct (word_exists w brk' n b ltac:(lia) T) as (q' & [A' B' C' F' G']).
    exists q'. split; [lia|]. split; [lia|]. constructor; [lia|lia| | |exact G'].
    + intros k K. destruct (Nat.lt_ge_cases k b); [apply C; lia|apply C'; lia].
    + intros x X K. destruct (Nat.lt_total x b) as [L|[->|L]]; [exact (F x (sub x X) ltac:(lia))|contradiction|exact (F' x X ltac:(lia))].
  - destruct O as [->|[O|O]]; [lia| |contradiction]. apply O, C. lia.
Qed.

Section Crossing.
Variables p q' : nat.
Hypothesis S : Spare D w b.
Hypothesis Lp : p < b.
Hypothesis Lq : b < q'.
Hypothesis Le : q' <= n.
Lemma Eb : between w p q' = between w p b ++ between w b q'.
Proof. apply between_join; lia. Qed.
Lemma cross_seam : Seam (between w p b) (between w b q').
Proof.
  apply (Seam_sub _ _ _ _ (skipn q' w) (sp_seam _ _ _ S)); [apply between_ends; lia|apply between_skip; lia|].
  intros E0. apply (f_equal (@length N)) in E0. rewrite between_len in E0 by lia. cbn in E0. lia.
Qed.
Lemma cross_listed : (forall k r strs, ~ listedWord D (between w p b) k r strs) ->
  forall k r strs, ~ listedWord D (between w p q') k r strs.
Proof.
  intros NL k r strs ((E & O & Dk) & NE & NF).
  assert (Ln : length k + length r = q' - p) by (rewrite <- app_length, <- E; apply between_len; lia).
  destruct (Nat.le_gt_cases (length k) (b - p)) as [L|L].
  - rewrite Eb in E. pose proof (between_len w p b ltac:(lia) ltac:(lia)) as Lb.
    destruct (app_eq_app _ _ _ _ E) as (m & [(E1 & E2)|(E1 & E2)]).
    + apply (NL k m strs). split; [|split; assumption]. split; [exact E1|]. split; [|exact Dk].
      destruct m as [|c m]; [exact I|]. rewrite E2 in O. exact O.
    + assert (m = []) as ->. { rewrite E1, app_length, Lb in L. destruct m; [reflexivity|cbn in L; lia]. }
      rewrite app_nil_r in E1. subst k. apply (NL (between w p b) [] strs). split; [|split; assumption]. split; [symmetry; apply app_nil_r|]. split; [exact I|exact Dk].
  - apply (sp_word _ _ _ S p (p + length k) strs); [lia|lia|]. replace (between w p (p + length k)) with k; [exact Dk|].
    rewrite (between_join w p (p + length k) q') in E by lia. pose proof (between_len w p (p + length k) ltac:(lia) ltac:(lia)) as L2.
    apply app_eq_app in E. destruct E as (m & [(E1 & E2)|(E1 & E2)]); apply (f_equal (@length N)) in E1 as E3; rewrite app_length in E3;
      (destruct m; [|cbn in E3; lia]); rewrite app_nil_r in E1; congruence.
Qed.
Lemma cross_spelled s r : namePlace w p -> Spelled (Z.of_nat p) (between w p b) s r ->
  Spelled (Z.of_nat p) (between w p q') s (r ++ between w b q').
Proof.
  intros NP Sp. rewrite Eb. inversion Sp as [g r' Ng Lg Fg E|r' E|c C E]; subst.
  - rewrite <- app_assoc. cbn [app]. apply Spl_group; assumption.
  - apply Spl_stop.
  - exfalso. pose proof (between_len w p b ltac:(lia) ltac:(lia)) as L. rewrite <- E in L. cbn in L.
    apply (sp_lone _ _ _ S). replace (b - 1) with p by lia. split; [exact NP|]. exists c. split; [|exact C].
    rewrite <- (Nat.add_0_r p), <- (between_nth w p b 0) by lia. rewrite <- E. reflexivity.
Qed.
Lemma cross_spelled_back : (exists s r, Spelled (Z.of_nat p) (between w p q') s r) ->
  exists s r, Spelled (Z.of_nat p) (between w p b) s r.
Proof.
  pose proof cross_seam as Q. pose proof (between_len w p b ltac:(lia) ltac:(lia)) as L. pose proof (between_len w b q' ltac:(lia) ltac:(lia)) as L2.
  intros (s & r & Sp). rewrite Eb in Sp. set (u := between w p b) in *. set (v := between w b q') in *.
  inversion Sp as [g r' Ng Lg Fg E|r' E|c C E]; subst.
  - apply app_eq_app in E. destruct E as (m & [(E1 & E2)|(E1 & E2)]).
    + exfalso. apply (sm_stop _ _ Q (length m)).
      * rewrite E1, app_length, L in Lg. lia.
      * rewrite E2, nth_error_app2, Nat.sub_diag by lia. reflexivity.
    + destruct m as [|c m]; cbn in E2.
      * exfalso. apply (sm_stop _ _ Q 0); [lia|]. rewrite <- E2. reflexivity.
      * injection E2 as <- E2. rewrite E1. eexists _, m. apply Spl_group; assumption.
  - destruct u as [|c u]; [cbn in L; lia|]. injection E as <- E. eexists _, u. apply Spl_stop.
  - exfalso. apply (f_equal (@length N)) in E. rewrite app_length, L, L2 in E. cbn in E. lia.
Qed.
Lemma cross_seen : seenTo w p b = b /\ seenTo w p q' = q'.
Proof.
  unfold seenTo. destruct (nth_error w p) as [c|] eqn:E; [|auto]. split.
  - destruct (memN c (letters "แโใไ")) eqn:M; [|reflexivity]. destruct (b =? p + 1) eqn:E1; [|reflexivity]. exfalso.
    apply Nat.eqb_eq in E1. apply (sm_eager _ _ (sp_seam _ _ _ S) c); [apply memN_In, M|].
    replace [c] with (between w p b); [apply between_ends; lia|].
    destruct (between_cons w p b c ltac:(lia) ltac:(lia) E) as (t & Et). rewrite Et. f_equal.
    pose proof (between_len w p b ltac:(lia) ltac:(lia)) as L. rewrite Et in L. destruct t; [reflexivity|cbn in L; lia].
  - rewrite (proj2 (Nat.eqb_neq q' (p + 1))) by lia. rewrite andb_false_r. reflexivity.
Qed.
Lemma cross_len (r : list N) : b - length r = q' - length (r ++ between w b q').
Proof. clear Lp S. rewrite app_length, between_len by lia. lia. Qed.
End Crossing.

Lemma pass_drop p lk es e lk' : Pass D w brk p lk es e lk' -> Pass D w brk' p lk es e lk'.
Proof.
  intros H. destruct H as [q F|q k r strs W LW|q s r W NL NP Sp|q pre x r lk' W NL NS Se R].
  - apply P_foreign. exact F.
  - destruct (word_drop p q W) as [W'|(-> & S & q' & L & Le & W')]; [apply (P_word _ _ _ _ _ q k r strs); assumption|].
    apply (P_word _ _ _ _ _ q' k (r ++ between w b q') strs); [exact W'|].
    pose proof (wt_lt _ _ _ _ W) as Lt. rewrite (between_join w p b q') by lia.
    destruct LW as ((E & O & Dk) & NE & NF). split; [|split; assumption]. split; [rewrite E; symmetry; apply app_assoc|].
    split; [|exact Dk]. destruct r as [|c r]; cbn [app]; [|exact O].
    destruct (sm_start _ _ (cross_seam p q' S Lt L Le)) as (c & t & E1 & Sc). rewrite E1. exact Sc.
  - destruct (word_drop p q W) as [W'|(-> & S & q' & L & Le & W')]; [apply P_names; assumption|].
    pose proof (wt_lt _ _ _ _ W) as Lt. rewrite (cross_len q' L Le r). apply P_names; [exact W'| |exact NP|].
    + exact (cross_listed p q' S Lt L Le NL).
    + exact (cross_spelled p q' S Lt L Le s r NP Sp).
  - destruct (word_drop p q W) as [W'|(-> & S & q' & L & Le & W')]; [apply P_read; assumption|].
    pose proof (wt_lt _ _ _ _ W) as Lt. destruct (cross_seen p q' S Lt L Le) as (S1 & S2). rewrite S1 in Se, R |- *.
    rewrite (cross_len q' L Le r). rewrite <- S2 at 1 3. apply P_read; [exact W'| | |lia|].
    + exact (cross_listed p q' S Lt L Le NL).
    + intros (NP & X). apply NS. split; [exact NP|]. exact (cross_spelled_back p q' S Lt L Le X).
    + rewrite S2. pose proof (cross_seam p q' S Lt L Le) as Q. rewrite (between_join w p b q') by lia.
      destruct (sm_start _ _ Q) as (c & t & Ec & Sc). apply (Reads_app _ c t Ec Sc (proj1 (sm_silent _ _ Q)) (proj2 (sm_silent _ _ Q))); assumption.
Qed.
Lemma step_drop p lk es e lk' : Step D w brk p lk es e lk' -> Step D w brk' p lk es e lk'.
Proof. intros [? ? ? H T|? ? ? H T]; [apply St_plain|apply St_stop]; auto using pass_drop. Qed.
Lemma comes_drop p lk : Comes D w brk p lk -> Comes D w brk' p lk.
Proof. induction 1 as [|p lk es e lk' C IH S]; [apply Co_start|]. exact (Co_step _ _ _ _ _ _ _ _ IH (step_drop _ _ _ _ _ S)). Qed.
Lemma ends_drop p lk : Ends D w brk p lk -> Ends D w brk' p lk.
Proof. induction 1 as [|p lk es e lk' S E IH]; [apply En_end|]. exact (En_step _ _ _ _ _ _ _ _ (step_drop _ _ _ _ _ S) IH). Qed.
Lemma reading_drop s : Reading D w brk s -> Reading D w brk' s.
Proof.
  intros (N & P). split; [exact N|]. clear N. revert P. generalize 0%Z, (Z.of_nat (length w)). induction s as [|v s IH]; intros f e P; [exact P|].
  destruct P as ((p & lk & es & e' & lk' & C & S & E & I) & P). split; [|apply IH, P].
  exists p, lk, es, e', lk'. split; [apply comes_drop, C|]. split; [apply step_drop, S|]. split; [apply ends_drop, E|exact I].
Qed.
Lemma stuck_drop : stuck D w brk -> stuck D w brk'.
Proof. intros (p & lk & c & C & X). exists p, lk, c. split; [apply comes_drop, C|exact X]. Qed.
End Drop.

(** The breaks [brk] without some that are spare or not within a Thai
    stretch. *)
Definition spared (D : list N -> list SylString -> Prop) (w : list N) (brk brk' : list nat) : Prop :=
  incl brk' brk /\ forall b, In b brk -> In b brk' \/ Spare D w b \/ outside w b.

Lemma drop_all (P : list nat -> Prop) D w brk' :
  (forall a a' b, (forall x, In x a' -> In x a) -> (forall x, In x a -> In x a' \/ x = b) ->
    (In b a -> Spare D w b \/ outside w b \/ In b a') -> P a -> P a') ->
  forall ds brk, spared D w brk brk' -> (forall x, In x brk -> In x brk' \/ In x ds) -> P brk -> P brk'.
Proof.
  intros H. induction ds as [|d ds IH]; intros brk (I & Sp) C Pb.
  - apply (H brk brk' 0); [exact I| | |exact Pb].
    + intros x X. destruct (C x X) as [Y|[]]. left. exact Y.
    + intros X. destruct (C 0 X) as [Y|[]]. auto.
  - set (mid := filter (fun x => negb (x =? d) || existsb (Nat.eqb x) brk') brk).
    assert (M : forall x, In x mid <-> In x brk /\ (x <> d \/ In x brk')).
    { intros x. unfold mid. rewrite filter_In, orb_true_iff, negb_true_iff, Nat.eqb_neq. split; intros (A & B); (split; [exact A|]); (destruct B as [B|B]; [left; exact B|right]).
      - apply existsb_exists in B. destruct B as (y & Y & E). apply Nat.eqb_eq in E. congruence.
      - apply existsb_exists. exists x. split; [exact B|apply Nat.eqb_refl]. }
    apply (IH mid).
    + split; [intros x X; apply M; auto|]. intros b B. apply M in B. apply Sp. tauto.
    + intros x X. apply M in X. destruct X as (X & Y). destruct (C x X) as [Z|[->|Z]]; [auto| |auto]. destruct Y as [Y|Y]; [congruence|auto].
    + apply (H brk mid d); [intros x X; apply M in X; tauto| | |exact Pb].
      * intros x X. destruct (Nat.eq_dec x d) as [->|Nx]; [auto|]. left. apply M. auto.
      * intros X. destruct (Sp d X) as [Y|[Y|Y]]; [|auto|auto]. right. right. apply M. auto.
Qed.
Lemma reading_spared D w brk brk' s : spared D w brk brk' -> Reading D w brk s -> Reading D w brk' s.
Proof.
  intros Sp. apply (drop_all (fun a => Reading D w a s) D w brk' ) with (ds := brk); [|exact Sp|auto].
  intros a a' b A B F. exact (reading_drop D w a a' b A B F s).
Qed.
Lemma stuck_spared D w brk brk' : spared D w brk brk' -> stuck D w brk -> stuck D w brk'.
Proof.
  intros Sp. apply (drop_all (fun a => stuck D w a) D w brk' ) with (ds := brk); [|exact Sp|auto].
  intros a a' b A B F. exact (stuck_drop D w a a' b A B F).
Qed.

(** ** C99: leaving out word breaks *)
Lemma C99_lemma w dict brk brk' l' : dictOKo dict ->
  StronglySorted lt brk -> Forall (fun x => x <= length w) brk -> StronglySorted lt brk' ->
  spared (entry dict) w brk brk' -> pronounced libthai_ct w dict brk' l' ->
  exists l, pronounced libthai_ct w dict brk l /\ incl l l'.
Proof.
  intros D S I S' Sp P'. assert (I' : Forall (fun x => x <= length w) brk').
  { rewrite Forall_forall in *. intros x X. apply I, (proj1 Sp), X. }
  destruct (C71_lemma2 w dict brk D S I) as [(St & _)|(_ & l & P)].
  - exfalso. apply (stuck_spared _ _ _ _ Sp) in St. destruct (C71_lemma2 w dict brk' D S' I') as [(_ & f & T)|(X & _)]; [|exact (X St)].
    destruct P' as (f1 & d & E & _). destruct (C23_lemma libthai_ct w dict brk') as (r & f2 & _ & Sf & A).
    specialize (T (Nat.max f f2) ltac:(lia)). specialize (Sf (Nat.max f f2) ltac:(lia)). destruct (A f1) as [Y|Y]; congruence.
  - exists l. split; [exact P|]. intros s X. apply (C71_lemma w dict brk' l' D S' I' P'). apply (reading_spared _ _ _ _ _ Sp).
    apply (C71_lemma w dict brk l D S I P), X.
Qed.
(** If word breaks that are spare or not within a Thai stretch are left out,
    every pronunciation is still listed. *)
Theorem C99_breaks w dict brk brk' l' : dictOKo dict ->
  StronglySorted lt brk -> Forall (fun x => x <= length w) brk -> StronglySorted lt brk' ->
  spared (entry dict) w brk brk' -> pronounced libthai_ct w dict brk' l' ->
  exists l, pronounced libthai_ct w dict brk l /\ incl l l'.
Proof. exact (C99_lemma w dict brk brk' l'). Qed.
Print Assumptions C99_breaks.

(** The answers of the program: with option [-n] a word that is answered is
    answered without the option as well, and the pronunciations are among those
    given with it. *)
Definition noBreaks (w : list N) : list nat := [].
Lemma C99_lemma2 dict b word w : from_bytes word = Ok w -> spared (entry dict) w (b w) [] ->
  (hopeless dict b word -> hopeless dict noBreaks word) /\
  forall l l', allReadings dict b word l -> allReadings dict noBreaks word l' -> incl l l'.
Proof.
  intros E Sp. split.
  - intros [H|(w' & E' & H)]; [left; exact H|]. right. exists w. split; [exact E|]. replace w' with w in H by congruence.
    exact (stuck_spared _ _ _ _ Sp H).
  - intros l l' (w1 & E1 & _ & R1) (w2 & E2 & _ & R2) s I. replace w1 with w in R1 by congruence. replace w2 with w in R2 by congruence.
    apply R2. apply (reading_spared _ _ _ _ _ Sp). apply R1, I.
Qed.
Theorem C99_answers dict b word w : from_bytes word = Ok w -> spared (entry dict) w (b w) [] ->
  (hopeless dict b word -> hopeless dict noBreaks word) /\
  forall l l', allReadings dict b word l -> allReadings dict noBreaks word l' -> incl l l'.
Proof. exact (C99_lemma2 dict b word w). Qed.
Print Assumptions C99_answers.

(** ** Examples *)
Definition is (o : option N) (c : N) : bool := match o with Some x => (x =? c)%N | None => false end.
Definition seamb (u v : list N) : bool :=
  match v with
  | [] => false
  | c :: _ =>
    startsSyl c && negb (is (nth_error v 1) UTH_THANTHAKHAT) && negb (is (nth_error v 2) UTH_THANTHAKHAT) &&
    forallb (fun k => negb (is (nth_error v k) fullStop)) [0; 1; 2; 3] &&
    match rev u with
    | [] => true
    | x :: b =>
      negb ((c =? UTH_RO_RUA)%N && (x =? UTH_RO_RUA)%N) &&
      (leadVowel c || negb (x =? UTH_SARA_UEE)%N && negb (isMark x && is (hd_error b) UTH_SARA_UEE)) &&
      negb (x =? UTH_RU)%N && negb (x =? UTH_LU)%N &&
      negb ((c =? UTH_YO_YAK)%N && memN UTH_SARA_E (firstn 4 (x :: b))) &&
      negb (isMark x && is (hd_error b) UTH_O_ANG && is (nth_error b 2) UTH_SARA_E) &&
      negb (memN x (letters "แโใไ"))
    end
  end.
Lemma ends_rev u l : ends u l -> exists a, rev u = rev l ++ a.
Proof. intros (a & ->). exists (rev a). apply rev_app_distr. Qed.
Lemma is_not o c : negb (is o c) = true -> o <> Some c.
Proof. intros H ->. cbn in H. rewrite N.eqb_refl in H. discriminate H. Qed.
Lemma seam_by u v : seamb u v = true -> Seam u v.
Proof.
  destruct v as [|c v]; [discriminate|]. cbn [seamb]. rewrite !andb_true_iff. intros ((((S & K1) & K2) & F) & H).
  rewrite forallb_forall in F.
  assert (R : forall x b, rev u = x :: b -> 
      negb ((c =? UTH_RO_RUA)%N && (x =? UTH_RO_RUA)%N) = true /\
      leadVowel c || negb (x =? UTH_SARA_UEE)%N && negb (isMark x && is (hd_error b) UTH_SARA_UEE) = true /\
      (x <> UTH_RU /\ x <> UTH_LU) /\
      negb ((c =? UTH_YO_YAK)%N && memN UTH_SARA_E (firstn 4 (x :: b))) = true /\
      negb (isMark x && is (hd_error b) UTH_O_ANG && is (nth_error b 2) UTH_SARA_E) = true /\
      negb (memN x (letters "แโใไ")) = true).
  { intros x b E. rewrite E, !andb_true_iff in H. destruct H as ((((((A & B) & C) & D) & G) & I) & J).
    repeat (split; [assumption|]). split; [|auto]. apply negb_true_iff, N.eqb_neq in C, D. auto. }
  clear H. constructor.
  - eauto.
  - split; apply is_not; assumption.
  - intros k L. apply is_not, F. cbn. lia.
  - intros E X. injection E as ->. destruct (ends_rev _ _ X) as (a & Ea). destruct (R _ _ Ea) as (H & _). rewrite N.eqb_refl in H. discriminate H.
  - intros d E L. injection E as <-. split; [intros X|intros m M X]; destruct (ends_rev _ _ X) as (a & Ea); destruct (R _ _ Ea) as (_ & H & _); rewrite L in H.
    + discriminate H.
    + cbn in H. rewrite M, andb_false_r in H. discriminate H.
  - split; intros X; destruct (ends_rev _ _ X) as (a & Ea); destruct (R _ _ Ea) as (_ & _ & (H1 & H2) & _); congruence.
  - intros E l X L I. injection E as ->. destruct (ends_rev _ _ X) as (a & Ea). destruct (rev u) as [|x b] eqn:Eu.
    + symmetry in Ea. apply app_eq_nil in Ea. destruct Ea as (Ea & _). apply in_rev in I. rewrite Ea in I. exact I.
    + destruct (R x b eq_refl) as (_ & _ & _ & H & _). rewrite N.eqb_refl in H. apply negb_true_iff in H. cbn [andb] in H.
      apply memN_notIn in H. apply H. rewrite Ea, firstn_app. apply in_or_app. left. rewrite firstn_all2 by (rewrite rev_length; exact L).
      apply -> in_rev. exact I.
  - intros d m M X. destruct (ends_rev _ _ X) as (a & Ea). destruct (R _ _ Ea) as (_ & _ & _ & _ & H & _). cbn in H. rewrite M in H. discriminate H.
  - intros d E X. destruct (ends_rev _ _ X) as (a & Ea). destruct (R _ _ Ea) as (_ & _ & _ & _ & _ & H).
    apply negb_true_iff, memN_notIn in H. exact (H E).
Qed.
Lemma no_entry k strs : ~ entry None k strs.
Proof. intros (d & v & E & _). discriminate E. Qed.
Lemma spare_by w b : seamb (firstn b w) (skipn b w) = true -> ~ namePlace w (b - 1) -> Spare (entry None) w b.
Proof. intros S N. constructor; [apply seam_by, S|intros (X & _); exact (N X)|]. intros i j strs _ _. apply no_entry. Qed.
Lemma no_name w p c : p <> 0 -> nth_error w (p - 1) = Some c -> (c =? 0x20)%N || (c =? fullStop)%N = false -> ~ namePlace w p.
Proof.
  intros P E H [X|(d & Ed & [->| ->])]; [contradiction| |]; replace c with c in H; rewrite E in Ed; injection Ed as ->; vm_compute in H; discriminate H.
Qed.

(** A pronunciation with the break [b] that is not listed without. *)
Definition lost (dict : option Dict) (b : nat) (s : string) : Prop :=
  b <= length (letters s) /\ exists l l' x, pronounced libthai_ct (letters s) dict [b] l /\
    pronounced libthai_ct (letters s) dict [] l' /\ In x l /\ ~ In x l'.
Definition sameSyl (x y : Syl) : bool := syl_eqb x y && (endPos x =? endPos y)%Z.
Fixpoint sameSyls (a b : SylString) : bool :=
  match a, b with [], [] => true | x :: a, y :: b => sameSyl x y && sameSyls a b | _, _ => false end.
Lemma sameSyls_refl a : sameSyls a a = true.
Proof. induction a as [|x a IH]; [reflexivity|]. cbn. unfold sameSyl. rewrite GroupProofs.syl_eqb_refl, Z.eqb_refl, IH. reflexivity. Qed.
Definition lostb dict b s : bool :=
  (b <=? length (letters s)) &&
  match listing dict [b] s, listing dict [] s with
  | Ok l, Ok l' => existsb (fun x => negb (existsb (sameSyls x) l')) l
  | _, _ => false
  end.
Lemma lost_by dict b s : lostb dict b s = true -> lost dict b s.
Proof.
  unfold lostb. rewrite andb_true_iff, Nat.leb_le. intros (L & H). split; [exact L|].
  destruct (listing dict [b] s) as [l| | |] eqn:E; try discriminate H. destruct (listing dict [] s) as [l'| | |] eqn:E'; try discriminate H.
  apply existsb_exists in H. destruct H as (x & X & H). exists l, l', x. split; [apply listing_pronounced, E|]. split; [apply listing_pronounced, E'|].
  split; [exact X|]. intros Y. apply negb_true_iff in H. rewrite (proj2 (existsb_exists _ _)) in H; [discriminate H|]. exists x. split; [exact Y|apply sameSyls_refl].
Qed.
(** Each condition on a spare break is needed: a syllable that starts with RU,
    an abbreviation, RO RUA at RO RUA, long UE, RU, YO YAK after SARA E, a mark
    on O ANG, a letter read by its name; with a dictionary, a silenced first or
    second letter after the break, a leading vowel before it, and a listed word
    across. *)
Definition lostWith (k data : string) (b : nat) (s : string) : Prop :=
  dictOKo (Some (oneWord k data)) /\ lost (Some (oneWord k data)) b s.
Theorem C99_conditions_needed :
  lost None 2 "ฤกฤ" /\ lost None 2 "กกกก." /\ lost None 3 "เกรรก" /\ lost None 2 "มืดา" /\ lost None 1 "ฤกก" /\
  lost None 2 "เกยก" /\ lost None 4 "เกอ่กา" /\ lost None 1 "กกา" /\
  lostWith "ก์ก" "k_ok1@3" 2 "กาก์ก" /\ lostWith "กิ์" "k_A_0@3" 3 "กากกิ์" /\ lostWith "ะ" "k_A_0@1" 1 "โกะ" /\
  lostWith "ตากลม" "t_Ak1@3,l_om0@5" 2 "ตากลม".
Proof.
  assert (W : forall k data b s, dictOKo (Some (oneWord k data)) -> lostb (Some (oneWord k data)) b s = true -> lostWith k data b s)
    by (intros k data b s H1 H2; split; [exact H1|apply lost_by, H2]).
  do 8 (split; [apply lost_by; vm_compute; reflexivity|]).
  do 3 (split; [apply W; [intros d H; injection H as <-; eapply dictCheck_sound; [reflexivity|vm_compute; reflexivity]|vm_compute; reflexivity]|]).
  apply W; [intros d H; injection H as <-; eapply dictCheck_sound; [reflexivity|vm_compute; reflexivity]|vm_compute; reflexivity].
Qed.
Print Assumptions C99_conditions_needed.
(** So breaks do not only take pronunciations away. *)
Theorem C99_breaks_only_remove_refuted : ~ forall w brk l l', StronglySorted lt brk -> Forall (fun x => x <= length w) brk ->
  pronounced libthai_ct w None brk l -> pronounced libthai_ct w None [] l' -> incl l l'.
Proof.
  intros H. destruct C99_conditions_needed as (_ & _ & _ & (L & l & l' & x & P & P' & X & Y) & _).
  apply Y. apply (H (letters "มืดา") [2] l l'); auto. repeat constructor.
Qed.

(** "ตากลม": the eye is round, or drying in the wind; the text without breaks
    has the pronunciations of both and more. *)
Definition windText : list N := letters "ตากลม a มา".
Example C99_case : dictOKo None /\ StronglySorted lt [3; 5; 8] /\ StronglySorted lt [2] /\
  Forall (fun x => x <= length windText) [2; 3; 5; 8] /\
  spared (entry None) windText [2] [] /\ spared (entry None) windText [3; 5; 8] [] /\ outside windText 8 /\
  exists l2 l3 l, pronounced libthai_ct windText None [2] l2 /\ pronounced libthai_ct windText None [3; 5; 8] l3 /\
    pronounced libthai_ct windText None [] l /\ incl (l2 ++ l3) l /\ length l2 = 3 /\ length l3 = 1 /\ length l = 7.
Proof.
  assert (S2 : spared (entry None) windText [2] []).
  { split; [intros x []|]. intros b [<-|[]]. right. left. apply spare_by; [vm_compute; reflexivity|].
    eapply no_name; [discriminate|vm_compute; reflexivity|vm_compute; reflexivity]. }
  assert (Out : forall b, nth_error windText b = Some 0x20%N -> outside windText b).
  { intros b E. right. right. intros (c & E' & T). rewrite E in E'. injection E' as <-. vm_compute in T. discriminate T. }
  assert (O8 : outside windText 8). { right. left. intros (c & E & T). vm_compute in E. injection E as <-. vm_compute in T. discriminate T. }
  assert (S3 : spared (entry None) windText [3; 5; 8] []).
  { split; [intros x []|]. intros b [<-|[<-|[<-|[]]]]; right; [left|right; apply Out; vm_compute; reflexivity|right; exact O8].
    apply spare_by; [vm_compute; reflexivity|]. eapply no_name; [discriminate|vm_compute; reflexivity|vm_compute; reflexivity]. }
  assert (D : dictOKo None) by (intros d X; discriminate X).
  assert (T3 : StronglySorted lt [3; 5; 8]) by (repeat constructor).
  assert (T2 : StronglySorted lt [2]) by (repeat constructor).
  assert (F : Forall (fun x => x <= length windText) [2; 3; 5; 8]) by (repeat constructor; vm_compute; lia).
  repeat (split; [assumption|]).
  assert (P : exists l, pronounced libthai_ct windText None [] l /\ length l = 7).
  { eexists. split; [apply listing_pronounced; vm_compute; reflexivity|reflexivity]. }
  assert (P2 : exists l, pronounced libthai_ct windText None [2] l /\ length l = 3).
  { eexists. split; [apply listing_pronounced; vm_compute; reflexivity|reflexivity]. }
  assert (P3 : exists l, pronounced libthai_ct windText None [3; 5; 8] l /\ length l = 1).
  { eexists. split; [apply listing_pronounced; vm_compute; reflexivity|reflexivity]. }
  destruct P as (l & P & N), P2 as (l2 & P2 & N2), P3 as (l3 & P3 & N3). exists l2, l3, l. repeat (split; [assumption|]). split; [|auto].
  assert (Eq : forall brk a b, pronounced libthai_ct windText None brk a -> pronounced libthai_ct windText None brk b -> a = b).
  { intros brk a b (f1 & d1 & E1 & L1) (f2 & d2 & E2 & L2). destruct (C23_lemma libthai_ct windText None brk) as (r & f & _ & _ & A).
    destruct (A f1) as [Y|Y], (A f2) as [Z|Z]; congruence. }
  apply incl_app.
  - destruct (C99_breaks windText None [2] [] l D T2) as (a & Pa & I); [inversion F; auto|constructor|exact S2|exact P|]. rewrite (Eq _ _ _ P2 Pa). exact I.
  - destruct (C99_breaks windText None [3; 5; 8] [] l D T3) as (a & Pa & I); [inversion F; auto|constructor|exact S3|exact P|]. rewrite (Eq _ _ _ P3 Pa). exact I.
Qed.
