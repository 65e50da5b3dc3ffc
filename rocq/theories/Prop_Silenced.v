(** Prop_Silenced.v - property C106: a silenced consonant at the end of a word
    is not heard. *)
From Coq Require Import String List NArith ZArith Bool Lia Arith.
From Verif Require Import Base ThUni ThCons Syl Utf Lattice Dag PronDag Dict Parser.
From Verif Require Import Spec OrderProofs GroupProofs DictProofs Prop_Syl ParserSpec ParserFacts ParserInv ParserResult ParserListed ParserDict.
From Verif Require Import Prop_Output Prop_Parser Grammar GrammarIff GrammarWord Prop_Grammar Prop_NoBreak.
From Verif Require Prop_Span.
Import ListNotations.
Local Open Scope string_scope.
Local Open Scope list_scope.
Local Open Scope bool_scope.
Local Open Scope nat_scope.

(** ** Vocabulary *)
(** The letters [w] in front of the silenced consonant [k] end so that the
    silencer cannot be taken for something else. *)
Record Quiet (k : N) (w : list N) : Prop := {
  (* no other silenced letter before it *)
  qt_silenced : ~ ends w [UTH_THANTHAKHAT];
  (* no silent I, U *)
  qt_iu : forall c v, oneOf "ฒตธร" c -> oneOf "ิุ" v -> ~ ends w [c; v];
  (* no long UE without O ANG *)
  qt_ue : ~ ends w [UTH_SARA_UEE] /\ forall m, isMark m = true -> ~ ends w [UTH_SARA_UEE; m];
  (* no RU, LU, short or long *)
  qt_ru : forall c, isRu c -> ~ ends w [c] /\ forall x, x = UTH_LAKKHANGYAO \/ x = UTH_SARA_AA -> ~ ends w [c; x];
  (* no silent YO YAK after MAIMALAI *)
  qt_ya : ends w [UTH_YO_YAK] -> forall l, ends w l -> length l <= 5 -> ~ In UTH_SARA_AI_MAIMALAI l;
  (* not RO RUA after RO RUA *)
  qt_ro : k = UTH_RO_RUA -> ~ ends w [UTH_RO_RUA];
  (* no mark on O ANG after SARA E and a consonant *)
  qt_ang : forall c m, isMark m = true -> ~ ends w [UTH_SARA_E; c; UTH_O_ANG; m]
}.

Section Adding.
Variable k : N.
Hypothesis Ck : consonant k = true.
Notation K := [k; UTH_THANTHAKHAT].
Definition join (r : list N) : list N := match r with [] => [] | _ => r ++ K end.
Definition lone1 (r : list N) : Prop := exists a, consonant a = true /\ r = [a].
Definition quiet1 (t : list N) : Prop := ~ ends t [UTH_THANTHAKHAT].

Lemma k_karan : (k =? UTH_THANTHAKHAT)%N = false.
Proof. apply N.eqb_neq. intros ->. discriminate Ck. Qed.
Lemma k_i : (k =? UTH_SARA_I)%N = false.
Proof. apply N.eqb_neq. intros ->. discriminate Ck. Qed.
Lemma k_u : (k =? UTH_SARA_U)%N = false.
Proof. apply N.eqb_neq. intros ->. discriminate Ck. Qed.
Lemma k_mark : isMark k = false.
Proof.
  destruct (isMark k) eqn:E; [|reflexivity]. exfalso. unfold isMark in E. apply andb_prop in E. destruct E as (A & B).
  apply N.leb_le in A, B. revert Ck. unfold consonant. rewrite !andb_true_iff, !N.leb_le. lia.
Qed.
Lemma k_start : startsSyl k = true.
Proof. unfold startsSyl. rewrite Ck. reflexivity. Qed.
Lemma k_not x : consonant x = false -> k <> x.
Proof. congruence. Qed.
Lemma join_ne r : r <> [] -> join r = r ++ K.
Proof. destruct r; [congruence|reflexivity]. Qed.
Lemma quiet_tail a t : quiet1 (a ++ t) -> quiet1 t.
Proof. intros Q E. apply Q, ends_app, E. Qed.
Lemma quiet_cons a t : quiet1 (a :: t) -> quiet1 t.
Proof. exact (quiet_tail [a] t). Qed.

Lemma silent_join t : quiet1 t -> silent (t ++ K) = join (silent t).
Proof.
  intros Q. destruct t as [|a [|b t]]; cbn.
  - rewrite Ck. reflexivity.
  - rewrite k_karan, andb_false_r. reflexivity.
  - destruct (consonant a && (b =? UTH_THANTHAKHAT)%N) eqn:E; [|reflexivity].
    destruct t; [|reflexivity]. apply andb_prop in E. destruct E as (_ & E). apply N.eqb_eq in E. subst b.
    exfalso. apply Q. exists [a]. reflexivity.
Qed.
Lemma silentIU_join t : quiet1 t -> t <> [] -> silentIU (t ++ K) = join (silentIU t).
Proof.
  intros Q NE. destruct t as [|a [|b [|c t]]]; cbn; [congruence| | |].
  - rewrite k_i, k_u, andb_false_r. reflexivity.
  - rewrite k_karan, andb_false_r. reflexivity.
  - destruct (_ && _) eqn:E; [|reflexivity]. destruct t; [|reflexivity]. apply andb_prop in E. destruct E as (_ & E).
    apply N.eqb_eq in E. subst c. exfalso. apply Q. exists [a; b]. reflexivity.
Qed.
Lemma silent2_join t : quiet1 t -> t <> [] -> ~ lone1 t -> silent2 (t ++ K) = join (silent2 t).
Proof.
  intros Q NE L. destruct t as [|a [|b [|c t]]]; cbn; [congruence| | |].
  - destruct (consonant a) eqn:C; [|reflexivity]. exfalso. apply L. exists a. auto.
  - rewrite k_karan, andb_false_r. reflexivity.
  - destruct (_ && _) eqn:E; [|reflexivity]. destruct t; [|reflexivity]. apply andb_prop in E. destruct E as (_ & E).
    apply N.eqb_eq in E. subst c. exfalso. apply Q. exists [a; b]. reflexivity.
Qed.
(** What is left after silenced letters is left before a further one too. *)
Lemma join_len r t : t <> [] -> r <> [] -> (length (join r) <? length (t ++ K)) = (length r <? length t).
Proof.
  intros A B. rewrite (join_ne r B), !app_length. destruct (Nat.ltb_spec (length r) (length t)); [apply Nat.ltb_lt|apply Nat.ltb_ge]; lia.
Qed.
Lemma silent_ne t : quiet1 t -> t <> [] -> silent t <> [].
Proof.
  intros Q NE. destruct t as [|a [|b t]]; cbn; [congruence|congruence|]. destruct (_ && _) eqn:E; [|congruence].
  intros ->. apply andb_prop in E. destruct E as (_ & E). apply N.eqb_eq in E. subst b. apply Q. exists [a]. reflexivity.
Qed.
Lemma silentIU_ne t : quiet1 t -> t <> [] -> silentIU t <> [].
Proof.
  intros Q NE. destruct t as [|a [|b [|c t]]]; cbn; try congruence. destruct (_ && _) eqn:E; [|congruence].
  intros ->. apply andb_prop in E. destruct E as (_ & E). apply N.eqb_eq in E. subst c. apply Q. exists [a; b]. reflexivity.
Qed.
Lemma silentOr_join t : quiet1 t ->
  (if length (silent (t ++ K)) <? length (t ++ K) then silent (t ++ K) else silentIU (t ++ K)) =
  join (if length (silent t) <? length t then silent t else silentIU t).
Proof.
  intros Q. destruct t as [|a t].
  { cbn. rewrite Ck. cbn. reflexivity. }
  rewrite (silent_join _ Q), (silentIU_join _ Q) by discriminate.
  rewrite join_len; [|discriminate|apply silent_ne; [exact Q|discriminate]].
  destruct (_ <? _); reflexivity.
Qed.
Lemma silentAny_lone a : consonant a = true -> silentAny [a] = [a].
Proof. reflexivity. Qed.
Lemma silentAny_K : silentAny K = [].
Proof. unfold silentAny. cbn. rewrite Ck. reflexivity. Qed.
Lemma silentAny_join t : quiet1 t -> ~ lone1 (silentAny t) -> silentAny (t ++ K) = join (silentAny t).
Proof.
  intros Q L. destruct t as [|a t]; [exact silentAny_K|].
  assert (L' : ~ lone1 (a :: t)). { intros (x & C & E). apply L. rewrite E. exists x. split; [exact C|reflexivity]. }
  unfold silentAny. cbv zeta. rewrite (silent_join _ Q), (silentIU_join _ Q), (silent2_join _ Q) by (exact L' || discriminate).
  rewrite !join_len; [|discriminate|apply silentIU_ne; [exact Q|discriminate]|discriminate|apply silent_ne; [exact Q|discriminate]].
  destruct (length (silent (a :: t)) <? _); [reflexivity|]. destruct (length (silentIU (a :: t)) <? _); reflexivity.
Qed.
Lemma silentAny_two a : consonant a = true -> silentAny (a :: K) = [].
Proof.
  intros C. unfold silentAny. cbn. rewrite k_karan, k_i, k_u, andb_false_r. cbn. rewrite C. cbn. rewrite Ck. reflexivity.
Qed.
Lemma mark_join t m l : mark t = (m, l) -> mark (t ++ K) = (m, l ++ K).
Proof.
  destruct t as [|c t]; cbn.
  - intros E. injection E as <- <-. rewrite k_mark. reflexivity.
  - destruct (isMark c); intros E; injection E as <- <-; reflexivity.
Qed.
Lemma mark_suffix t m l : mark t = (m, l) -> exists a, t = a ++ l /\ length a <= 1.
Proof.
  destruct t as [|c t]; cbn; [intros E; injection E as _ <-; exists []; auto|].
  destruct (isMark c); intros E; injection E as _ <-; [exists [c]|exists []]; cbn; auto.
Qed.
Lemma mark_quiet t m l : mark t = (m, l) -> quiet1 t -> quiet1 l.
Proof. intros M Q. destruct (mark_suffix _ _ _ M) as (a & -> & _). exact (quiet_tail a l Q). Qed.
Lemma silent_suffix t : exists a, t = a ++ silent t.
Proof. destruct t as [|a [|b t]]; cbn; [exists []; reflexivity..|]. destruct (_ && _); [exists [a; b]|exists []]; reflexivity. Qed.
Lemma silent_quiet t : quiet1 t -> quiet1 (silent t).
Proof. intros Q. destruct (silent_suffix t) as (a & E). rewrite E in Q. exact (quiet_tail _ _ Q). Qed.
Lemma hd_join t c : consonant c = false -> hd_error t <> Some c -> hd_error (t ++ K) <> Some c.
Proof. destruct t as [|a t]; cbn; [|auto]. intros S _ E. injection E as E. congruence. Qed.
Lemma endOrSyl_join t : endOrSyl t -> endOrSyl (t ++ K).
Proof. destruct t; cbn; [intros _; exact k_start|auto]. Qed.
Lemma endOrSyl_cut t : endOrSyl (t ++ K) -> endOrSyl t.
Proof. destruct t; cbn; auto. Qed.
Lemma noLong_join t : noLong t -> noLong (t ++ K).
Proof. destruct t as [|c t]; cbn; [intros _; split; apply k_not; reflexivity|auto]. Qed.

(** ** Finals *)
Lemma Final_join no t e r : Final no t e r -> quiet1 t -> ~ lone1 r -> Final no (t ++ K) e (join r).
Proof.
  intros [c t' C I] Q L. rewrite <- (silentAny_join t' (quiet_cons _ _ Q) L). exact (F_cons no c (t' ++ K) C I).
Qed.
Definition noIU (t : list N) : Prop := forall c v, oneOf "ฒตธร" c -> oneOf "ิุ" v -> ~ ends t [c; v].
Lemma link_cons x : linkVowel x -> consonant x = false.
Proof. intros H. unfold linkVowel, oneOf in H. cbn in H. repeat (destruct H as [<-|H]; [reflexivity|]). destruct H. Qed.
Lemma FS_join no t e r b : FinalOrShared no t e r b -> quiet1 t -> noIU t -> ~ lone1 r -> FinalOrShared no (t ++ K) e (join r) b.
Proof.
  intros [t' e' r' F|c r' C I S O E|c i r' C I O L E|c t' C I S H] Q U L1.
  - apply FS_final, Final_join; assumption.
  - destruct r' as [|x r'].
    + apply FS_final. cbn [join]. change (([c; UTH_RO_RUA] ++ K)) with (c :: UTH_RO_RUA :: K).
      pose proof (F_cons no c (UTH_RO_RUA :: K) C I) as F. rewrite (silentAny_two UTH_RO_RUA eq_refl) in F. exact F.
    + apply (FS_ro no c ((x :: r') ++ K) C I); [|exact O|apply endOrSyl_join, E].
      change (UTH_RO_RUA :: (x :: r') ++ K) with ((UTH_RO_RUA :: x :: r') ++ K).
      rewrite silentAny_join; [rewrite S; reflexivity|exact (quiet_cons _ _ Q)|].
      rewrite S. intros (a & _ & X). discriminate X.
  - destruct r' as [|x r']; [exfalso; apply (U c i O L); exists []; reflexivity|].
    apply (FS_iu no c i ((x :: r') ++ K) C I O L). apply endOrSyl_join, E.
  - cbn [join app]. apply (FS_shared no c (t' ++ K) C I).
    + rewrite silentAny_join; [|exact (quiet_cons _ _ Q)|]; rewrite S.
      * apply join_ne. destruct H; discriminate.
      * intros (a & Ca & E). subst t'. inversion H as [x0 t0 Lx|]; subst. apply link_cons in Lx. congruence.
    + destruct H as [x t' Lx E|x y t' X Y]; [|exact (Sh_cons c x y (t' ++ K) X Y)].
      apply Sh_vowel; [exact Lx|]. intros (E' & _). destruct t'; discriminate E'.
Qed.

(** ** Initials and rimes *)
Definition safeR (t : list N) : Prop := k = UTH_RO_RUA -> ~ ends t [UTH_RO_RUA].
Lemma noRo_join t : (t = [] -> k <> UTH_RO_RUA) -> noRo t -> noRo (t ++ K).
Proof. destruct t as [|c t]; cbn; [intros A _; exact (A eq_refl)|auto]. Qed.
Lemma Initial_join lk t o r : InitialAt lk t o r -> safeR t -> InitialAt lk (t ++ K) o (r ++ K).
Proof.
  intros H Q. assert (Z : forall c, t = c :: UTH_RO_RUA :: r -> noRo r -> noRo (r ++ K)).
  { intros c E N. apply noRo_join; [|exact N]. intros -> X. apply (Q X). exists [c]. exact E. }
  destruct H; try (econstructor; eauto using noLong_join; fail).
  - cbn. apply I_ho; [assumption..|]. intros ->. eapply Z; [reflexivity|auto].
  - cbn. apply I_lead; [assumption..|]. intros ->. eapply Z; [reflexivity|auto].
Qed.
Lemma noIU_tail a t : noIU (a ++ t) -> noIU t.
Proof. intros U c v A B E. apply (U c v A B), ends_app, E. Qed.
Lemma mark_noIU t m l : mark t = (m, l) -> noIU t -> noIU l.
Proof. intros M Q. destruct (mark_suffix _ _ _ M) as (a & -> & _). exact (noIU_tail a l Q). Qed.
Lemma silent_noIU t : noIU t -> noIU (silent t).
Proof. intros Q. destruct (silent_suffix t) as (a & E). rewrite E in Q. exact (noIU_tail _ _ Q). Qed.
Lemma FS_ne no t e r b : FinalOrShared no t e r b -> t <> [].
Proof. intros [t' e' r' []| | |]; discriminate. Qed.
Lemma Final_ne no t e r : Final no t e r -> t <> [].
Proof. intros []; discriminate. Qed.
Lemma of_silent_ne t : silent t <> [] -> t <> [].
Proof. destruct t; cbn; congruence. Qed.
Lemma silent_join_ne t : quiet1 t -> silent t <> [] -> silent (t ++ K) = silent t ++ K.
Proof. intros Q N. rewrite (silent_join t Q). apply join_ne, N. Qed.
Lemma silentIU_keep t : quiet1 t -> t <> [] -> silentIU t = t -> silentIU (t ++ K) = t ++ K.
Proof. intros Q N E. rewrite (silentIU_join t Q N), E. apply join_ne, N. Qed.

Definition safeU (t : list N) : Prop := ~ ends t [UTH_SARA_UEE] /\ forall m, isMark m = true -> ~ ends t [UTH_SARA_UEE; m].
Ltac qt := solve [assumption | eapply quiet_cons; eassumption | eapply mark_quiet; [eassumption|eapply quiet_cons; eassumption]
  | eapply mark_quiet; eassumption | eapply quiet_cons; eapply mark_quiet; eassumption
  | eapply quiet_cons; eapply quiet_cons; eapply mark_quiet; eassumption
  | eapply quiet_cons; eapply mark_quiet; [eassumption|eapply quiet_cons; eassumption]
  | eapply quiet_cons; eapply quiet_cons; eapply mark_quiet; [eassumption|eapply quiet_cons; eassumption]].
Lemma Rime_join lk o t vo e m r b : Rime lk o t vo e m r b -> quiet1 t -> noIU t -> safeU t -> ~ lone1 r ->
  Rime lk o (t ++ K) vo e m (join r) b.
Proof.
  intros H Q U (S1 & S2) L. destruct H; cbn [app];
    try match goal with M : mark _ = _ |- _ => pose proof (mark_join _ _ _ M) as M'; cbn [app] in M' end.
  - rewrite <- silent_join by qt. eapply R_ua; eassumption.
  - rewrite <- silent_join by qt. eapply R_uaa; [eassumption|]. apply hd_join; [reflexivity|assumption].
  - eapply R_an. apply FS_join; [assumption|qt|exact (noIU_tail [_] _ U)|assumption].
  - eapply R_an_marked; [eassumption|assumption|]. apply Final_join; [assumption|qt|assumption].
  - rewrite <- silentOr_join by qt. eapply R_above_open; eassumption.
  - assert (Q' : quiet1 t') by qt. pose proof (FS_ne _ _ _ _ _ H2) as N.
    assert (U' : noIU (silent t')). { apply silent_noIU. eapply mark_noIU; [eassumption|exact (noIU_tail [_] _ U)]. }
    eapply R_above_shared; [eassumption|eassumption| |].
    + apply silentIU_keep; [exact Q'|apply of_silent_ne, N|assumption].
    + rewrite silent_join_ne by assumption. apply FS_join; [assumption|apply silent_quiet, Q'|exact U'|assumption].
  - assert (Q' : quiet1 t') by qt. pose proof (Final_ne _ _ _ _ H2) as N.
    eapply R_above_final; [eassumption|eassumption| |].
    + apply silentIU_keep; [exact Q'|apply of_silent_ne, N|assumption].
    + rewrite silent_join_ne by assumption. apply Final_join; [assumption|apply silent_quiet, Q'|assumption].
  - rewrite <- silent_join by qt. eapply R_uee. eassumption.
  - destruct t' as [|c t'].
    { exfalso. destruct t as [|c t]; [apply S1; exists []; reflexivity|]. cbn in H. destruct (isMark c) eqn:Mc; [|discriminate H].
      injection H as _ ->. apply (S2 c Mc). exists []. reflexivity. }
    eapply R_uee_bare; [eassumption|assumption].
  - eapply R_uee_final; [eassumption|]. apply Final_join; [assumption|qt|assumption].
  - assert (Q' : quiet1 t) by (apply (quiet_tail [UTH_MAITAIKHU; UTH_O_ANG]); exact Q). pose proof (Final_ne _ _ _ _ H) as N.
    eapply R_au. rewrite silent_join_ne by assumption. apply Final_join; [assumption|apply silent_quiet, Q'|assumption].
  - rewrite <- silent_join by qt. eapply R_a; eassumption.
  - rewrite <- silent_join by qt. eapply R_aa; eassumption.
  - assert (Q' : quiet1 r) by qt. pose proof (FS_ne _ _ _ _ _ H0) as N.
    assert (U' : noIU (silent r)). { apply silent_noIU, (noIU_tail [UTH_SARA_AA]). exact (mark_noIU _ _ _ H U). }
    eapply R_aa_final; [eassumption|]. rewrite silent_join_ne by assumption. apply FS_join; [assumption|apply silent_quiet, Q'|exact U'|assumption].
  - rewrite <- silent_join by qt. eapply R_am; eassumption.
  - eapply R_ua_final; [eassumption|]. apply Final_join; [assumption|qt|assumption].
  - rewrite <- silent_join by qt. eapply R_auu; eassumption.
  - assert (Q' : quiet1 r) by qt. pose proof (Final_ne _ _ _ _ H0) as N.
    eapply R_auu_final; [eassumption|]. rewrite silent_join_ne by assumption. apply Final_join; [assumption|apply silent_quiet, Q'|assumption].
  - rewrite <- silent_join by qt. eapply R_on; eassumption.
  - assert (Q' : quiet1 r) by qt.
    assert (Q2 : quiet1 r').
    { apply (quiet_cons UTH_RO_RUA). rewrite <- H0. destruct (ics_eqb _ _); [exact Q'|apply silent_quiet, Q']. }
    rewrite <- silent_join by exact Q2. eapply R_ran; [eassumption|]. destruct (ics_eqb _ _); [rewrite H0; reflexivity|].
    rewrite silent_join_ne; [rewrite H0; reflexivity|exact Q'|rewrite H0; discriminate].
  - assert (Q' : quiet1 r) by qt.
    assert (Q2 : quiet1 r').
    { apply (quiet_cons UTH_RO_RUA). rewrite <- H0. destruct (ics_eqb _ _); [exact Q'|apply silent_quiet, Q']. }
    assert (U0 : noIU r) by (apply (noIU_tail [UTH_RO_RUA]); exact (mark_noIU _ _ _ H U)).
    assert (U2 : noIU r').
    { apply (noIU_tail [UTH_RO_RUA]). cbn [app]. rewrite <- H0. destruct (ics_eqb _ _); [exact U0|apply silent_noIU, U0]. }
    pose proof (FS_ne _ _ _ _ _ H2) as N.
    eapply R_rac; [eassumption| | |].
    + instantiate (1 := r' ++ K). destruct (ics_eqb _ _); [rewrite H0; reflexivity|].
      rewrite silent_join_ne; [rewrite H0; reflexivity|exact Q'|rewrite H0; discriminate].
    + rewrite silent_join_ne; [rewrite H1; reflexivity|exact Q2|rewrite H1; exact N].
    + apply FS_join; assumption.
  - eapply R_o; [eassumption|assumption..|]. apply Final_join; [assumption|qt|assumption].
  - cbn [join app]. eapply R_ru; eassumption.
  - eapply R_ru_final; [eassumption|eassumption|]. apply FS_join; [assumption|qt|exact (mark_noIU _ _ _ H U)|assumption].
Qed.

Lemma k_oneOf s : existsb consonant (letters s) = false -> ~ oneOf s k.
Proof. intros F I. apply Bool.not_true_iff_false in F. apply F. apply existsb_exists. exists k. auto. Qed.
Definition safeM (o : Initial) (t : list N) : Prop := forall c, isMark c = true -> t = [c] -> notLedA o.
Lemma RimeE_join o t vo e m r b : RimeE o t vo e m r b -> quiet1 t -> noIU t -> safeM o t -> ~ lone1 r ->
  RimeE o (t ++ K) vo e m (join r) b.
Proof.
  assert (EE : forall m t, mark t = (m, K) -> notLedA o -> RimeE o t V_EE EC_NONE m [] false).
  { intros m0 t0 M NL. pose proof (E_ee o t0 m0 k [UTH_THANTHAKHAT] M NL) as X.
    assert (SK : silent K = []) by (cbn; rewrite Ck; reflexivity). rewrite SK in X. apply X.
    - apply k_oneOf. vm_compute. reflexivity.
    - intros _. apply k_oneOf. vm_compute. reflexivity.
    - intros (_ & Y). vm_compute in Y. discriminate Y. }
  intros H Q U SM L. destruct H; cbn [app];
    try match goal with M : mark _ = _ |- _ => pose proof (mark_join _ _ _ M) as M'; cbn [app] in M' end.
  - apply EE; [|assumption]. cbn. rewrite k_mark. reflexivity.
  - apply EE; [|exact (SM c H eq_refl)]. cbn. rewrite H. reflexivity.
  - assert (Q' : quiet1 t') by qt. pose proof (Final_ne _ _ _ _ H0) as N.
    eapply E_oe_final; [eassumption|]. rewrite silent_join_ne by assumption. apply Final_join; [assumption|apply silent_quiet, Q'|assumption].
  - rewrite <- silent_join by qt. eapply E_ia; eassumption.
  - rewrite <- silent_join by qt. eapply E_iaa; [eassumption|]. apply hd_join; [reflexivity|assumption].
  - assert (Q' : quiet1 r) by qt. pose proof (FS_ne _ _ _ _ _ H1) as N.
    assert (U' : noIU (silent r)). { apply silent_noIU, (noIU_tail [UTH_YO_YAK]). eapply mark_noIU; [eassumption|exact (noIU_tail [_] _ U)]. }
    eapply E_iaa_final; [eassumption|apply hd_join; [reflexivity|assumption]|]. rewrite silent_join_ne by assumption.
    apply FS_join; [assumption|apply silent_quiet, Q'|exact U'|assumption].
  - rewrite <- silent_join by qt. eapply E_uea; eassumption.
  - rewrite <- silent_join by qt. eapply E_ueaa; [eassumption|]. apply hd_join; [reflexivity|assumption].
  - assert (Q' : quiet1 r) by qt. pose proof (Final_ne _ _ _ _ H1) as N.
    eapply E_ueaa_final; [eassumption|apply hd_join; [reflexivity|assumption]|]. rewrite silent_join_ne by assumption.
    apply Final_join; [assumption|apply silent_quiet, Q'|assumption].
  - eapply E_e_final. apply Final_join; [assumption|qt|assumption].
  - rewrite <- silent_join by qt. eapply E_oe; eassumption.
  - rewrite <- silent_join by qt. eapply E_oee; [eassumption|]. apply hd_join; [reflexivity|assumption].
  - rewrite <- silent_join by qt. eapply E_e; eassumption.
  - rewrite <- silent_join by qt. eapply E_au; eassumption.
  - rewrite <- silent_join by qt. eapply E_ao; [eassumption|]. apply hd_join; [reflexivity|assumption].
  - rewrite <- silent_join by qt. eapply E_oey; [eassumption|]. apply endOrSyl_join. assumption.
  - rewrite <- silent_join by qt. cbn [app]. eapply E_ee; [eassumption|assumption..|]. intros (X & Y).
    match goal with N : ~ (_ /\ endOrSyl _) |- _ => apply N end. split; [exact X|]. apply endOrSyl_cut, Y.
  - assert (Q' : quiet1 (c :: r)) by qt. pose proof (FS_ne _ _ _ _ _ H3) as N.
    assert (U' : noIU (silent (c :: r))). { apply silent_noIU. exact (mark_noIU _ _ _ H U). }
    eapply E_ee_final; [eassumption|assumption..| |].
    + intros (X & Y). match goal with N : ~ (_ /\ endOrSyl _) |- _ => apply N end. split; [exact X|]. apply endOrSyl_cut, Y.
    + change (c :: r ++ K) with ((c :: r) ++ K). rewrite silent_join_ne by assumption.
      apply FS_join; [assumption|apply silent_quiet, Q'|exact U'|assumption].
Qed.
Definition safeY (l : N) (t : list N) : Prop := l = UTH_SARA_AI_MAIMALAI -> forall m, mark t <> (m, [UTH_YO_YAK]).
Lemma RimeL_join l t vo e m r b : RimeL l t vo e m r b -> quiet1 t -> noIU t -> safeY l t -> ~ lone1 r ->
  RimeL l (t ++ K) vo e m (join r) b.
Proof.
  intros H Q U Y L. destruct H;
    try match goal with M : mark _ = _ |- _ => pose proof (mark_join _ _ _ M) as M'; cbn [app] in M' end.
  - rewrite <- silent_join by qt. eapply L_ae; eassumption.
  - eapply L_ae_final; [eassumption|]. apply Final_join; [assumption|qt|assumption].
  - rewrite <- silent_join by qt. eapply L_aee; [eassumption|apply hd_join; [reflexivity|assumption]..].
  - assert (Q' : quiet1 t') by qt. pose proof (Final_ne _ _ _ _ H0) as N.
    eapply L_aee_final; [eassumption|]. rewrite silent_join_ne by assumption. apply Final_join; [assumption|apply silent_quiet, Q'|assumption].
  - rewrite <- silentOr_join by qt. eapply L_o; eassumption.
  - rewrite <- silentOr_join by qt. eapply L_oo; [eassumption|]. apply hd_join; [reflexivity|assumption].
  - assert (Q' : quiet1 t') by qt. pose proof (FS_ne _ _ _ _ _ H1) as N.
    assert (U' : noIU (silent t')). { apply silent_noIU. exact (mark_noIU _ _ _ H U). }
    eapply L_oo_final; [eassumption| |].
    + apply silentIU_keep; [exact Q'|apply of_silent_ne, N|assumption].
    + rewrite silent_join_ne by assumption. apply FS_join; [assumption|apply silent_quiet, Q'|exact U'|assumption].
  - rewrite <- silent_join by qt. eapply L_ai; eassumption.
  - destruct r as [|x r]; [exfalso; exact (Y eq_refl m H)|]. eapply L_aiy; [eassumption|assumption].
  - rewrite <- silent_join by qt. eapply L_aimuan; eassumption.
Qed.
Lemma Implied_join t p x r : Implied t p x r -> Implied (t ++ K) p x (join r).
Proof. intros H. destruct H; cbn [app join]; econstructor; eauto. Qed.
Definition safeRu (t : list N) : Prop := t <> [] /\ forall x, x = UTH_LAKKHANGYAO \/ x = UTH_SARA_AA -> t <> [x].
Lemma RimeRu_join t vo e r b : RimeRu t vo e r b -> quiet1 t -> noIU t -> safeRu t -> ~ lone1 r -> RimeRu (t ++ K) vo e (join r) b.
Proof.
  intros H Q U (N1 & N2) L. destruct H as [|x t X|c t C F|c t e r b E F]; cbn [app].
  - congruence.
  - destruct t as [|y t]; [exfalso; exact (N2 x X eq_refl)|]. apply U_long. exact X.
  - apply U_open; [exact C|]. intros (A & B). apply F. split; [exact A|]. apply endOrSyl_cut, B.
  - apply U_closed; [apply endOrSyl_join, E|]. exact (FS_join _ _ _ _ _ F Q U L).
Qed.

Lemma Reads_join lk t p x r b : Reads lk t p x r b -> Quiet k t -> ~ lone1 r -> Reads lk (t ++ K) p x (join r) b.
Proof.
  intros H [Q1 Q2 Q3 Q4 Q5 Q6 Q7] L1.
  assert (QT : forall a u, t = a ++ u -> quiet1 u) by (intros a u ->; exact (quiet_tail a u Q1)).
  assert (UT : forall a u, t = a ++ u -> noIU u) by (intros a u ->; exact (noIU_tail a u Q2)).
  assert (RO : forall a u, t = a ++ u -> safeR u) by (intros a u -> X Y; apply (Q6 X), ends_app, Y).
  assert (UE : forall a u, t = a ++ u -> safeU u).
  { intros a u ->. destruct Q3 as (A & B). split; [intros Y; apply A, ends_app, Y|]. intros m M Y. apply (B m M), ends_app, Y. }
  destruct H as [t o t1 vo e m r b p x I R L S|t o t1 vo e m r b p x I R L S|l t o t1 vo e m r b p x I R L S|t p x r I|c t vo e r b tn U R T].
  - destruct (initial_suffix _ _ _ _ I) as (a & E & _).
    eapply Rd_plain; [apply Initial_join; [exact I|exact (RO [] t eq_refl)]|apply Rime_join; [exact R|exact (QT a t1 E)|exact (UT a t1 E)|exact (UE a t1 E)|exact L1]|exact L|exact S].
  - destruct (initial_suffix _ _ _ _ I) as (a & E & La).
    assert (E' : UTH_SARA_E :: t = (UTH_SARA_E :: a) ++ t1) by (rewrite E; reflexivity).
    eapply Rd_e; [apply Initial_join; [exact I|exact (RO [UTH_SARA_E] t eq_refl)]|
      apply RimeE_join; [exact R|exact (QT _ t1 E')|exact (UT _ t1 E')| |exact L1]|exact L|exact S].
    intros c M ->. destruct (led_dec o) as [X|X]; [exact X|exfalso].
    destruct (lead_ang _ _ _ _ I X) as (d & ->). apply (Q7 d c M). apply ends_refl.
  - destruct (initial_suffix _ _ _ _ I) as (a & E & La).
    assert (E' : l :: t = (l :: a) ++ t1) by (rewrite E; reflexivity).
    eapply Rd_lead; [apply Initial_join; [exact I|exact (RO [l] t eq_refl)]|
      apply RimeL_join; [exact R|exact (QT _ t1 E')|exact (UT _ t1 E')| |exact L1]|exact L|exact S].
    intros -> m' M. destruct (mark_suffix _ _ _ M) as (a' & E2 & La'). apply (Q5) with (l := UTH_SARA_AI_MAIMALAI :: t).
    + exists (UTH_SARA_AI_MAIMALAI :: a ++ a'). rewrite E, E2. cbn. rewrite app_assoc. reflexivity.
    + apply ends_refl.
    + rewrite E, E2. cbn. rewrite !app_length. cbn. lia.
    + left. reflexivity.
  - apply Rd_implied, Implied_join, I.
  - eapply Rd_ru; [exact U|apply RimeRu_join; [exact R|exact (QT [c] t eq_refl)|exact (UT [c] t eq_refl)| |exact L1]|exact T].
    destruct (Q4 c U) as (A & B). split; [intros ->; apply A, ends_refl|]. intros y Y ->. apply (B y Y), ends_refl.
Qed.
Lemma Quiet_tail a t : Quiet k (a ++ t) -> Quiet k t.
Proof.
  intros [Q1 Q2 Q3 Q4 Q5 Q6 Q7]. destruct Q3 as (Q3 & Q3').
  constructor; intros; try (intros X; revert X); eauto using ends_app.
  - intros X. eapply Q2; eauto using ends_app.
  - split; [intros X; apply Q3, ends_app, X|]. intros m M X. apply (Q3' m M), ends_app, X.
  - destruct (Q4 c H) as (A & B). split; [intros X; apply A, ends_app, X|]. intros x Hx X. apply (B x Hx), ends_app, X.
  - apply Q5; auto using ends_app.
  - intros X. apply (Q6 H), ends_app, X.
  - intros X. apply (Q7 c m H), ends_app, X.
Qed.

(** ** The way back: nothing is read with the silenced consonant only *)
Notation E1 := [UTH_THANTHAKHAT].
Definition open2 (r : list N) : Prop := r <> K /\ r <> E1.
(** The letters do not end in two consonants. *)
Definition noPair (t : list N) : Prop := forall a b, consonant a = true -> consonant b = true -> ~ ends t [a; b].
Lemma noPair_tail a t : noPair (a ++ t) -> noPair t.
Proof. intros U c v A B E. apply (U c v A B), ends_app, E. Qed.
Lemma join_inj r t : t <> [] -> join r = t ++ K -> r = t.
Proof.
  destruct r as [|a r]; cbn [join]; [|intros _ E; exact (app_inv_tail K _ _ E)].
  intros N E. destruct t; [congruence|discriminate E].
Qed.
Lemma app_join r : r ++ K <> K -> join r = r ++ K.
Proof. intros N. apply join_ne. intros ->. apply N. reflexivity. Qed.
Lemma silentAny_eq t : quiet1 t -> ~ lone1 t -> silentAny (t ++ K) = join (silentAny t).
Proof.
  intros Q L'. destruct t as [|a t]; [exact silentAny_K|].
  unfold silentAny. cbv zeta. rewrite (silent_join _ Q), (silentIU_join _ Q), (silent2_join _ Q) by (exact L' || discriminate).
  rewrite !join_len; [|discriminate|apply silentIU_ne; [exact Q|discriminate]|discriminate|apply silent_ne; [exact Q|discriminate]].
  destruct (length (silent (a :: t)) <? _); [reflexivity|]. destruct (length (silentIU (a :: t)) <? _); reflexivity.
Qed.
Lemma pair_lone c t : noPair (c :: t) -> canEnd c -> ~ lone1 t.
Proof. intros P (C & _) (a & A & ->). apply (P c a C A). exists []. reflexivity. Qed.
Lemma Final_cut no t e R : Final no (t ++ K) e R -> quiet1 t -> noPair t -> open2 R -> exists r, R = join r /\ Final no t e r.
Proof.
  intros H Q P (N1 & N2). remember (t ++ K) as T eqn:E. destruct H as [c t' C I]. destruct t as [|x t]; cbn in E; injection E as -> ->.
  - exfalso. apply N2. reflexivity.
  - exists (silentAny t). split; [|exact (F_cons no x t C I)].
    apply silentAny_eq; [exact (quiet_cons _ _ Q)|exact (pair_lone _ _ P C)].
Qed.
Lemma FS_cut no t e R b : FinalOrShared no (t ++ K) e R b -> quiet1 t -> noIU t -> noPair t -> open2 R ->
  exists r, R = join r /\ FinalOrShared no t e r b.
Proof.
  intros H Q U P N. remember (t ++ K) as T eqn:E. destruct H as [t' e' r' F|c r' C I S O Eo|c i r' C I O L Eo|c t' C I S H].
  - subst t'. destruct (Final_cut _ _ _ _ F Q P N) as (r & -> & F'). exists r. split; [reflexivity|]. apply FS_final, F'.
  - destruct t as [|x [|y [|z t]]]; cbn in E; injection E; clear E.
    + intros _ X _. discriminate X.
    + intros -> _ ->. discriminate Eo.
    + intros -> <- ->. destruct N as (N & _). congruence.
    + intros -> <- ->. exists (z :: t). split; [reflexivity|]. apply FS_ro; auto.
      change (UTH_RO_RUA :: z :: t ++ K) with ((UTH_RO_RUA :: z :: t) ++ K) in S.
      rewrite silentAny_eq in S; [|exact (quiet_cons _ _ Q)|intros (a & _ & X); discriminate X]. apply join_inj in S; [exact S|discriminate].
  - assert (Ni : consonant i = false). { unfold oneOf in L. cbn in L. repeat (destruct L as [<-|L]; [reflexivity|]). destruct L. }
    destruct t as [|x [|y [|z t]]]; cbn in E; injection E; clear E.
    + intros _ X _. subst i. destruct L as [L|[L|[]]]; discriminate L.
    + intros _ -> _. congruence.
    + intros -> _ _. destruct N as (N & _). congruence.
    + intros -> -> ->. exists (z :: t). split; [reflexivity|]. apply FS_iu; auto.
  - destruct t as [|x t]; cbn in E; injection E as -> ->.
    + inversion H as [x0 t0 Lx Ex|]; subst. unfold linkVowel, oneOf in Lx. cbn in Lx. exfalso.
      repeat (destruct Lx as [Lx|Lx]; [discriminate Lx|]). exact Lx.
    + pose proof (pair_lone _ _ P C) as Ln. pose proof (quiet_cons _ _ Q) as Q'. exists (x :: t). split; [reflexivity|].
      destruct t as [|y t].
      { cbn in S. pose proof silentAny_K as SK. cbn in SK. cbn in S. rewrite SK in S. discriminate S. }
      rewrite silentAny_eq in S by assumption. apply join_inj in S; [|discriminate].
      apply FS_shared; [exact C|exact I|exact S|]. remember ((y :: t) ++ K) as T eqn:ET. destruct H as [z t' Lz Ez|z z' t' Z Z'].
      * injection ET as -> ->. apply Sh_vowel; [exact Lz|]. intros (-> & O & V). apply (U x y O V). exists []. reflexivity.
      * destruct t as [|y' t]; cbn in ET; injection ET; [intros _ _ ->; exfalso; apply Ln; exists y; auto|].
        intros _ -> ->. apply Sh_cons; assumption.
Qed.
Lemma mark_cut0 t m L : mark (t ++ K) = (m, L) -> exists l, mark t = (m, l) /\ L = l ++ K.
Proof.
  destruct t as [|c t]; cbn.
  - rewrite k_mark. intros E. injection E as <- <-. exists []. auto.
  - destruct (isMark c); intros E; injection E as <- <-; eexists; split; reflexivity.
Qed.
Lemma mark_cut t m x L : mark (t ++ K) = (m, x :: L) -> consonant x = false \/ L <> E1 -> exists l, mark t = (m, x :: l) /\ L = l ++ K.
Proof.
  intros M N. destruct (mark_cut0 _ _ _ M) as (l & E & X). destruct l as [|y l]; cbn in X; injection X.
  - intros -> ->. destruct N; congruence.
  - intros -> ->. eauto.
Qed.
Lemma hd_cut t c : hd_error (t ++ K) <> Some c -> hd_error t <> Some c.
Proof. destruct t; cbn; [discriminate|auto]. Qed.
Definition good (t : list N) : Prop := quiet1 t /\ noIU t /\ noPair t.
Lemma good_tail a t : good (a ++ t) -> good t.
Proof. intros (A & B & C). split; [exact (quiet_tail a t A)|]. split; [exact (noIU_tail a t B)|exact (noPair_tail a t C)]. Qed.
Lemma good_cons a t : good (a :: t) -> good t.
Proof. exact (good_tail [a] t). Qed.
Lemma good_mark t m l : mark t = (m, l) -> good t -> good l.
Proof. intros M Q. destruct (mark_suffix _ _ _ M) as (a & -> & _). exact (good_tail a l Q). Qed.
Lemma good_silent t : good t -> good (silent t).
Proof. intros Q. destruct (silent_suffix t) as (a & E). rewrite E in Q. exact (good_tail _ _ Q). Qed.
Lemma FSs_cut no l e R b : FinalOrShared no (silent (l ++ K)) e R b -> good l -> open2 R ->
  exists r, R = join r /\ FinalOrShared no (silent l) e r b.
Proof.
  intros H G N. pose proof (FS_ne _ _ _ _ _ H) as Ne. rewrite silent_join in H, Ne by apply G.
  assert (Ns : silent l <> []) by (intros Z; apply Ne; rewrite Z; reflexivity). rewrite join_ne in H by exact Ns.
  destruct (good_silent l G) as (A & B & C). exact (FS_cut _ _ _ _ _ H A B C N).
Qed.
Lemma Fs_cut no l e R : Final no (silent (l ++ K)) e R -> good l -> open2 R -> exists r, R = join r /\ Final no (silent l) e r.
Proof.
  intros H G N. pose proof (Final_ne _ _ _ _ H) as Ne. rewrite silent_join in H, Ne by apply G.
  assert (Ns : silent l <> []) by (intros Z; apply Ne; rewrite Z; reflexivity). rewrite join_ne in H by exact Ns.
  destruct (good_silent l G) as (A & B & C). exact (Final_cut _ _ _ _ H A C N).
Qed.
Lemma FSg_cut no l e R b : FinalOrShared no (l ++ K) e R b -> good l -> open2 R -> exists r, R = join r /\ FinalOrShared no l e r b.
Proof. intros H (A & B & C) N. exact (FS_cut _ _ _ _ _ H A B C N). Qed.
Lemma Fg_cut no l e R : Final no (l ++ K) e R -> good l -> open2 R -> exists r, R = join r /\ Final no l e r.
Proof. intros H (A & B & C) N. exact (Final_cut _ _ _ _ H A C N). Qed.
Lemma silentE1 : silent E1 = E1.
Proof. reflexivity. Qed.
Lemma FS_E1 no e R b : ~ FinalOrShared no E1 e R b.
Proof.
  intros H. remember E1 as T eqn:E. destruct H as [t' e' r' F|c r' C|c i r' C|c t' (C & _)]; [destruct F as [c t' (C & _)]| | |]; try discriminate E; injection E as -> ->; discriminate C.
Qed.
Lemma F_E1 no e R : ~ Final no E1 e R.
Proof. intros H. apply (FS_E1 no e R false). apply FS_final, H. Qed.
Lemma silentIU_eq t : quiet1 t -> silentIU (t ++ K) = t ++ K -> silentIU t = t.
Proof.
  intros Q E. destruct t as [|a t]; [reflexivity|]. rewrite silentIU_join in E by (exact Q || discriminate).
  apply join_inj in E; [exact E|discriminate].
Qed.
Lemma ro_cut (c : bool) l r' : good l -> r' <> E1 -> (if c then l ++ K else silent (l ++ K)) = UTH_RO_RUA :: r' ->
  exists l', (if c then l else silent l) = UTH_RO_RUA :: l' /\ r' = l' ++ K /\ good l'.
Proof.
  intros G N E. assert (Z : forall u, good u -> u ++ K = UTH_RO_RUA :: r' -> exists l', u = UTH_RO_RUA :: l' /\ r' = l' ++ K /\ good l').
  { intros [|y u] Gu X; cbn in X; injection X; [congruence|]. intros <- ->. exists u. split; [reflexivity|]. split; [reflexivity|exact (good_cons _ _ Gu)]. }
  destruct c; [exact (Z l G E)|]. rewrite silent_join in E by apply G. destruct (silent l) as [|y u] eqn:S; [discriminate E|].
  apply Z; [rewrite <- S; exact (good_silent l G)|exact E].
Qed.
Lemma sign_cut x L l : x :: L = l ++ K -> consonant x = false -> exists l', l = x :: l' /\ L = l' ++ K.
Proof. destruct l as [|y l]; cbn; intros E C; injection E; [intros _ ->; congruence|]. intros -> ->. eauto. Qed.
Lemma above_sign (v : EVowel) (s : N) l : In (s, v) l -> forallb (fun q => negb (consonant (fst q))) l = true -> consonant s = false.
Proof. intros I F. rewrite forallb_forall in F. specialize (F _ I). cbn in F. apply negb_true_iff, F. Qed.
Ltac mcut := match goal with M : mark (_ ++ K) = (_, ?x :: _) |- _ => apply mark_cut in M; [destruct M as (l & M & EL); try subst|] end.
Ltac gd := solve [assumption | eapply good_cons; eassumption | eapply good_mark; [eassumption|assumption]
  | eapply good_mark; [eassumption|eapply good_cons; eassumption]
  | eapply good_cons; eapply good_mark; [eassumption|assumption]
  | eapply good_cons; eapply good_mark; [eassumption|eapply good_cons; eassumption]
  | eapply good_cons; eapply good_cons; eapply good_mark; [eassumption|assumption]
  | eapply good_cons; eapply good_cons; eapply good_mark; [eassumption|eapply good_cons; eassumption]].
Ltac sil := eexists; split; [apply silent_join; match goal with |- quiet1 ?u => assert (good u) as (? & _) by gd; assumption end|].
Ltac e1 := right; intros ->; match goal with N : open2 _ |- _ => destruct N as (_ & N); apply N; reflexivity end.
Ltac fin H L := let r0 := fresh "r0" in
  apply L in H; [destruct H as (r0 & -> & H)|gd|assumption]; exists r0; split; [reflexivity|].
Lemma Rime_cut lk o t vo e m R b : Rime lk o (t ++ K) vo e m R b -> good t -> open2 R -> exists r, R = join r /\ Rime lk o t vo e m r b.
Proof.
  intros H G N. remember (t ++ K) as T eqn:E.
  destruct H as [u m r M|u m r M Hd|u e r b F|u m t' e r M Nm F|v s u m t' I M|v s u t' e r b I M S F|v s u m t' e r I M S F
    |u m r M|u m t' M Hd|u m t' e r M F|u e r F|u m r M|u m r M|u m r e r' b M F|u m r M|u m r e r' M F|u m r M|u m r e r' M F
    |u m r M So|u m r r' M Er|u m r r' e r'' b M Er S F|u m t' e r M O1 O2 O3 F|u m c t' v M O1 C O2|u m t' v e r b M O1 F];
  try (apply sign_cut in E; [destruct E as (t0 & -> & E0); try subst u|first [reflexivity|exact (above_sign _ _ _ I eq_refl)]]);
  try subst u.
  - mcut; [|right; discriminate]. apply sign_cut in EL; [|reflexivity]. destruct EL as (l' & -> & ->). sil. eapply R_ua; eassumption.
  - mcut; [|e1]. sil. eapply R_uaa; [eassumption|]. apply hd_cut in Hd. exact Hd.
  - fin F FSg_cut. apply R_an. assumption.
  - destruct (mark_cut0 _ _ _ M) as (l & M' & ->). fin F Fg_cut. eapply R_an_marked; eassumption.
  - destruct (mark_cut0 _ _ _ M) as (l & M' & ->). eexists. split; [|eapply R_above_open; eassumption].
    apply silentOr_join. assert (good l) as (? & _) by gd; assumption.
  - destruct (mark_cut0 _ _ _ M) as (l & M' & ->). assert (G' : good l) by gd. fin F FSs_cut.
    eapply R_above_shared; [eassumption|eassumption| |assumption]. apply silentIU_eq; [apply G'|assumption].
  - destruct (mark_cut0 _ _ _ M) as (l & M' & ->). assert (G' : good l) by gd. fin F Fs_cut.
    eapply R_above_final; [eassumption|eassumption| |assumption]. apply silentIU_eq; [apply G'|assumption].
  - mcut; [|e1]. sil. eapply R_uee; eassumption.
  - destruct (mark_cut0 _ _ _ M) as (l & M' & ->). destruct l as [|c l]; [destruct N as (N & _); exfalso; apply N; reflexivity|].
    exists (c :: l). split; [reflexivity|]. eapply R_uee_bare; eassumption.
  - destruct (mark_cut0 _ _ _ M) as (l & M' & ->). fin F Fg_cut. eapply R_uee_final; eassumption.
  - destruct t0 as [|y t0]; cbn in E0; injection E0; clear E0.
    + intros -> _. exfalso. exact (F_E1 _ _ _ F).
    + intros -> <-. apply good_cons in G. fin F Fs_cut. apply R_au. assumption.
  - mcut; [|left; reflexivity]. sil. eapply R_a; eassumption.
  - mcut; [|left; reflexivity]. sil. eapply R_aa; eassumption.
  - mcut; [|left; reflexivity]. fin F FSs_cut. eapply R_aa_final; eassumption.
  - mcut; [|left; reflexivity]. sil. eapply R_am; eassumption.
  - mcut; [|right; intros ->; exact (F_E1 _ _ _ F)]. fin F Fg_cut. eapply R_ua_final; eassumption.
  - mcut; [|e1]. sil. eapply R_auu; eassumption.
  - mcut; [|right; intros ->; exact (F_E1 _ _ _ F)]. fin F Fs_cut. eapply R_auu_final; eassumption.
  - mcut; [|e1]. sil. eapply R_on; eassumption.
  - mcut; [|right; intros ->; destruct (ics_eqb _ _); discriminate Er].
    apply ro_cut in Er; [destruct Er as (l' & Er & -> & G')|gd|intros ->; apply (proj2 N); reflexivity].
    exists (silent l'). split; [apply silent_join, G'|]. eapply R_ran; eassumption.
  - mcut; [|right; intros ->; destruct (ics_eqb _ _); discriminate Er].
    apply ro_cut in Er; [destruct Er as (l' & Er & -> & G')|gd|intros ->; exact (FS_E1 _ _ _ _ F)].
    fin F FSg_cut. eapply R_rac; [eassumption|eassumption| |eassumption].
    destruct l' as [|y l']; [reflexivity|]. rewrite silent_join in S by apply G'. apply join_inj in S; [exact S|discriminate].
  - destruct (mark_cut0 _ _ _ M) as (l & M' & ->). fin F Fg_cut. eapply R_o; eassumption.
  - destruct (mark_cut0 _ _ _ M) as (l & M' & EL). destruct l as [|y l]; [exfalso; apply (proj1 N); exact EL|].
    cbn in EL. injection EL as -> ->. exists (y :: l). split; [reflexivity|]. eapply R_ru; eassumption.
  - destruct (mark_cut0 _ _ _ M) as (l & M' & ->). fin F FSg_cut. eapply R_ru_final; eassumption.
Qed.
Lemma k_mark1 c t : isMark c = true -> [c] <> t ++ K.
Proof. intros M. destruct t as [|x [|y t]]; discriminate. Qed.
Lemma RimeE_cut o t vo e m R b : RimeE o (t ++ K) vo e m R b -> good t -> open2 R -> exists r, R = join r /\ RimeE o t vo e m r b.
Proof.
  intros H G N. remember (t ++ K) as T eqn:E.
  destruct H as [A|c M|u m t' e r M F|u m r M|u m r M Hd|u m r e r' b M Hd F|u m r M|u m r M Hd|u m r e r' M Hd F|u e r F
    |u m r M|u m r M Hd|u m r M A|u m r M|u m r M Hd|u m r M Eo|u m c r M A O1 O2 Y|u m c r e r' b M A O Y F];
  try (apply sign_cut in E; [destruct E as (t0 & -> & E0); try subst u|reflexivity]);
  try subst u.
  - destruct t; discriminate E.
  - exfalso. exact (k_mark1 _ _ M E).
  - destruct (mark_cut0 _ _ _ M) as (l & M' & ->). fin F Fs_cut. eapply E_oe_final; eassumption.
  - mcut; [|right; discriminate]. apply sign_cut in EL; [|reflexivity]. destruct EL as (l' & -> & ->). sil. eapply E_ia; eassumption.
  - mcut; [|e1]. sil. eapply E_iaa; [eassumption|exact (hd_cut _ _ Hd)].
  - mcut; [|right; intros ->; exact (FS_E1 _ _ _ _ F)]. fin F FSs_cut. eapply E_iaa_final; [eassumption|exact (hd_cut _ _ Hd)|eassumption].
  - mcut; [|right; discriminate]. apply sign_cut in EL; [|reflexivity]. destruct EL as (l' & -> & ->). sil. eapply E_uea; eassumption.
  - mcut; [|e1]. sil. eapply E_ueaa; [eassumption|exact (hd_cut _ _ Hd)].
  - mcut; [|right; intros ->; exact (F_E1 _ _ _ F)]. fin F Fs_cut. eapply E_ueaa_final; [eassumption|exact (hd_cut _ _ Hd)|eassumption].
  - fin F Fg_cut. apply E_e_final. assumption.
  - mcut; [|right; discriminate]. apply sign_cut in EL; [|reflexivity]. destruct EL as (l' & -> & ->). sil. eapply E_oe; eassumption.
  - mcut; [|e1]. sil. eapply E_oee; [eassumption|exact (hd_cut _ _ Hd)].
  - mcut; [|left; reflexivity]. sil. eapply E_e; eassumption.
  - mcut; [|left; reflexivity]. apply sign_cut in EL; [|reflexivity]. destruct EL as (l' & -> & ->). sil. eapply E_au; eassumption.
  - mcut; [|left; reflexivity]. sil. eapply E_ao; [eassumption|exact (hd_cut _ _ Hd)].
  - mcut; [|e1]. sil. eapply E_oey; [eassumption|exact (endOrSyl_cut _ Eo)].
  - destruct (mark_cut0 _ _ _ M) as (l & M' & EL). destruct l as [|y l]; cbn in EL; injection EL as -> ->.
    + exists []. split; [apply (silent_join []); intros ([|] & X); discriminate X|].
      destruct t as [|x t]; cbn in M'; [injection M' as <-; apply E_end, A|].
      destruct (isMark x) eqn:Mx; [|discriminate M']. injection M' as <- ->. apply E_end_marked, Mx.
    + eexists. split; [exact (silent_join (y :: l) (proj1 (good_mark _ _ _ M' G)))|]. eapply E_ee; [eassumption|assumption..|].
      intros (A1 & A2). apply Y. split; [exact A1|apply endOrSyl_join, A2].
  - destruct (mark_cut0 _ _ _ M) as (l & M' & EL). rewrite EL in F. fin F FSs_cut.
    destruct l as [|y l]; cbn in EL; injection EL as -> ->; [exfalso; exact (FS_ne _ _ _ _ _ F eq_refl)|].
    eapply E_ee_final; [eassumption|assumption..| |eassumption].
    intros (A1 & A2). apply Y. split; [exact A1|apply endOrSyl_join, A2].
Qed.
Lemma RimeL_cut l t vo e m R b : RimeL l (t ++ K) vo e m R b -> good t -> open2 R -> exists r, R = join r /\ RimeL l t vo e m r b.
Proof.
  intros H G N. remember (t ++ K) as T eqn:E.
  destruct H as [u m r M|u m r e r' M F|u m t' M H1 H2|u m t' e r M F|u m r M|u m t' M H1|u m t' e r b M S F|u m t' M|u m r M Eo|u m t' M]; subst u.
  - mcut; [|left; reflexivity]. sil. eapply L_ae; eassumption.
  - mcut; [|left; reflexivity]. fin F Fg_cut. eapply L_ae_final; eassumption.
  - destruct (mark_cut0 _ _ _ M) as (l & M' & ->). sil. eapply L_aee; [eassumption|exact (hd_cut _ _ H1)|exact (hd_cut _ _ H2)].
  - destruct (mark_cut0 _ _ _ M) as (l & M' & ->). fin F Fs_cut. eapply L_aee_final; eassumption.
  - mcut; [|left; reflexivity]. eexists. split; [apply silentOr_join; assert (good l) as (? & _) by gd; assumption|]. eapply L_o; eassumption.
  - destruct (mark_cut0 _ _ _ M) as (l & M' & ->). eexists.
    split; [apply silentOr_join; assert (good l) as (? & _) by gd; assumption|]. eapply L_oo; [eassumption|exact (hd_cut _ _ H1)].
  - destruct (mark_cut0 _ _ _ M) as (l & M' & ->). assert (G' : good l) by gd. fin F FSs_cut.
    eapply L_oo_final; [eassumption| |eassumption]. apply silentIU_eq; [apply G'|assumption].
  - destruct (mark_cut0 _ _ _ M) as (l & M' & ->). sil. eapply L_ai; eassumption.
  - mcut; [|e1]. exists l. split; [symmetry; apply app_join, N|]. eapply L_aiy; [eassumption|exact (endOrSyl_cut _ Eo)].
  - destruct (mark_cut0 _ _ _ M) as (l & M' & ->). sil. eapply L_aimuan; eassumption.
Qed.
Lemma noRo_cut t : noRo (t ++ K) -> noRo t.
Proof. destruct t; cbn; auto. Qed.
Lemma noLong_cut t : noLong (t ++ K) -> noLong t.
Proof. destruct t; cbn; auto. Qed.
Definition noRu (t : list N) : Prop := forall c, isRu c -> ~ ends t [c].
Lemma Initial_cut lk t o R : t <> [] -> InitialAt lk (t ++ K) o R -> noRu t -> (exists r, R = r ++ K /\ InitialAt lk t o r) \/ R = E1.
Proof.
  intros Ne H U. remember (t ++ K) as T eqn:E.
  assert (Z : forall c d u, c :: d :: u = t ++ K -> u <> E1 -> exists t2, t = c :: d :: t2 /\ u = t2 ++ K).
  { intros c d u X Nu. destruct t as [|x [|y t2]]; cbn in X; injection X; [congruence|congruence|]. intros -> -> ->. eauto. }
  assert (Z1 : forall u, u = E1 \/ u <> E1).
  { intros [|x [|y u]]; try (right; discriminate). destruct (N.eq_dec x UTH_THANTHAKHAT) as [->|X]; [left; reflexivity|right; congruence]. }
  assert (ZR : forall c u, c :: UTH_RU :: u = t ++ K -> exists t2, t = c :: UTH_RU :: t2 /\ u = t2 ++ K /\ t2 <> []).
  { intros c u X. destruct t as [|x [|y t2]]; cbn in X; injection X; [congruence|intros _ Y; rewrite <- Y in Ck; discriminate Ck|].
    intros -> <- ->. exists t2. split; [reflexivity|]. split; [reflexivity|]. intros ->.
    apply (U UTH_RU (or_introl eq_refl)). exists [x]. reflexivity. }
  destruct H.
  1: { left. destruct t as [|x t2]; [congruence|]. cbn in E. injection E as -> ->. exists t2. split; [reflexivity|]. apply I_one. assumption. }
  1-6: destruct (Z1 t0) as [X|X]; [right; exact X|left]; destruct (Z _ _ _ E X) as (t2 & -> & ->); exists t2; (split; [reflexivity|]);
       constructor; eauto using noRo_cut.
  all: left; destruct (ZR _ _ E) as (t2 & -> & E2 & N2).
  all: try (subst t0; exists t2; split; [reflexivity|]; econstructor; eauto using noLong_cut; fail).
  destruct t2 as [|y t2]; [congruence|]. cbn in E2. injection E2 as -> ->. exists (y :: t2). split; [reflexivity|]. apply I_ru_khrue; assumption.
Qed.
Lemma Rime_E1 lk o vo e m R b : ~ Rime lk o E1 vo e m R b.
Proof.
  intros H. remember E1 as T eqn:E. destruct H as [u m r M|u m r M Hd|u e r b F|u m t' e r M Nm F|v s u m t' I M|v s u t' e r b I M S F|v s u m t' e r I M S F
    |u m r M|u m t' M Hd|u m t' e r M F|u e r F|u m r M|u m r M|u m r e r' b M F|u m r M|u m r e r' M F|u m r M|u m r e r' M F
    |u m r M So|u m r r' M Er|u m r r' e r'' b M Er S F|u m t' e r M O1 O2 O3 F|u m c t' v M O1 C O2|u m t' v e r b M O1 F];
  try discriminate E; try (subst u; discriminate M);
  try (injection E as -> _; exfalso; unfold In in I; repeat (destruct I as [I|I]; [discriminate I|]); exact I); subst u.
  - injection M as <- <-. exact (F_E1 _ _ _ F).
  - injection M as <- <- <-. discriminate C.
  - injection M as <- <-. exact (FS_E1 _ _ _ _ F).
Qed.
Lemma RimeE_E1 o vo e m R b : RimeE o E1 vo e m R b -> R = E1.
Proof.
  intros H. remember E1 as T eqn:E.
  destruct H as [A|c M|u m t' e r M F|u m r M|u m r M Hd|u m r e r' b M Hd F|u m r M|u m r M Hd|u m r e r' M Hd F|u e r F
    |u m r M|u m r M Hd|u m r M A|u m r M|u m r M Hd|u m r M Eo|u m c r M A O1 O2 Y|u m c r e r' b M A O Y F];
  try discriminate E; try (subst u; discriminate M).
  - injection E as ->. discriminate M.
  - subst u. injection M as <- <- <-. reflexivity.
  - subst u. injection M as <- <- <-. exfalso. exact (FS_E1 _ _ _ _ F).
Qed.
Lemma RimeL_E1 l vo e m R b : RimeL l E1 vo e m R b -> R = E1.
Proof.
  intros H. remember E1 as T eqn:E.
  destruct H as [u m r M|u m r e r' M F|u m t' M H1 H2|u m t' e r M F|u m r M|u m t' M H1|u m t' e r b M S F|u m t' M|u m r M Eo|u m t' M]; subst u;
    try discriminate M; injection M as <- <-; try reflexivity; exfalso; [exact (F_E1 _ _ _ F)|exact (FS_E1 _ _ _ _ F)].
Qed.
Lemma Implied_cut t p x R : t <> [] -> Implied (t ++ K) p x R -> open2 R -> exists r, R = join r /\ Implied t p x r.
Proof.
  intros Ne H (N1 & N2). remember (t ++ K) as T eqn:E.
  destruct H; destruct t as [|a1 [|a2 [|a3 [|a4 t']]]]; try congruence; cbn in E; injection E; clear E; intros; subst;
    try discriminate; try (exfalso; apply N1; reflexivity); try (exfalso; apply N2; reflexivity).
  all: try (match goal with A : UTH_THANTHAKHAT = _ \/ _ |- _ => destruct A; discriminate end).
  all: try (match goal with A : _ \/ _ |- _ => destruct A as [A|A]; rewrite A in Ck; discriminate Ck end).
  all: eexists; split; [|solve [eapply M_aura; eassumption|eapply M_bori; eassumption|eapply M_jora; eassumption|eapply M_bodi; eassumption
    |eapply M_a; eassumption|eapply M_rue; eassumption]]; reflexivity.
Qed.
Lemma RimeRu_cut t vo e R b : t <> [] -> RimeRu (t ++ K) vo e R b -> good t -> open2 R -> exists r, R = join r /\ RimeRu t vo e r b.
Proof.
  intros Ne H G N. remember (t ++ K) as T eqn:E. destruct H as [|x u X|c u C Y|c u e r b Eo F].
  - destruct t; discriminate E.
  - destruct t as [|y t]; [congruence|]. cbn in E. injection E as -> ->. exists t. split; [symmetry; apply app_join, N|]. apply U_long, X.
  - destruct t as [|y t]; [congruence|]. cbn in E. injection E as -> ->. exists (y :: t). split; [reflexivity|]. apply U_open; [exact C|].
    intros (A & B). apply Y. split; [exact A|apply endOrSyl_join, B].
  - destruct t as [|y t]; [congruence|]. cbn in E. injection E as -> ->. change (y :: t ++ K) with ((y :: t) ++ K) in F.
    fin F FSg_cut. apply U_closed; [exact (endOrSyl_cut _ Eo)|exact F].
Qed.
Lemma Initial_K lk o R : InitialAt lk K o R -> R = E1.
Proof.
  intros H. remember K as T eqn:E. destruct H; injection E; clear E; intros; subst; try reflexivity; try discriminate.
Qed.
Lemma RimeL_sign l t vo e m R b : RimeL l t vo e m R b -> consonant l = false.
Proof. intros []; reflexivity. Qed.
Lemma Reads_cut lk t p x R b : t <> [] -> Reads lk (t ++ K) p x R b -> Quiet k t -> noPair t -> open2 R -> exists r, R = join r /\ Reads lk t p x r b.
Proof.
  intros Ne H Q P N. assert (G : good t) by (split; [exact (qt_silenced _ _ Q)|split; [exact (qt_iu _ _ Q)|exact P]]).
  assert (U : noRu t) by (intros c C; apply (qt_ru _ _ Q c C)).
  remember (t ++ K) as T eqn:E.
  destruct H as [u o t1 vo e m r b p x I Rm L S|u o t1 vo e m r b p x I Rm L S|l u o t1 vo e m r b p x I Rm L S|u p x r I|c u vo e r b tn C Rm T].
  - subst u. destruct (Initial_cut _ _ _ _ Ne I U) as [(t2 & -> & I')| ->]; [|exfalso; exact (Rime_E1 _ _ _ _ _ _ _ Rm)].
    destruct (initial_suffix _ _ _ _ I') as (a & Ea & _).
    apply Rime_cut in Rm; [destruct Rm as (r0 & -> & Rm)|rewrite Ea in G; exact (good_tail _ _ G)|exact N].
    exists r0. split; [reflexivity|]. eapply Rd_plain; eassumption.
  - apply sign_cut in E; [|reflexivity]. destruct E as (t0 & -> & ->). destruct t0 as [|y t0].
    { exfalso. apply (proj2 N). rewrite (Initial_K _ _ _ I) in Rm. exact (RimeE_E1 _ _ _ _ _ _ Rm). }
    destruct (Initial_cut lk (y :: t0) o t1 ltac:(discriminate) I) as [(t2 & -> & I')| ->].
    + intros c C X. apply (U c C). apply (ends_app [UTH_SARA_E]), X.
    + destruct (initial_suffix _ _ _ _ I') as (a & Ea & _).
      apply RimeE_cut in Rm; [destruct Rm as (r0 & -> & Rm)|apply good_cons in G; rewrite Ea in G; exact (good_tail _ _ G)|exact N].
      exists r0. split; [reflexivity|]. eapply Rd_e; eassumption.
    + exfalso. apply (proj2 N). exact (RimeE_E1 _ _ _ _ _ _ Rm).
  - apply sign_cut in E; [|exact (RimeL_sign _ _ _ _ _ _ _ Rm)]. destruct E as (t0 & -> & ->). destruct t0 as [|y t0].
    { exfalso. apply (proj2 N). rewrite (Initial_K _ _ _ I) in Rm. exact (RimeL_E1 _ _ _ _ _ _ Rm). }
    destruct (Initial_cut lk (y :: t0) o t1 ltac:(discriminate) I) as [(t2 & -> & I')| ->].
    + intros c C X. apply (U c C). apply (ends_app [l]), X.
    + destruct (initial_suffix _ _ _ _ I') as (a & Ea & _).
      apply RimeL_cut in Rm; [destruct Rm as (r0 & -> & Rm)|apply good_cons in G; rewrite Ea in G; exact (good_tail _ _ G)|exact N].
      exists r0. split; [reflexivity|]. eapply Rd_lead; eassumption.
    + exfalso. apply (proj2 N). exact (RimeL_E1 _ _ _ _ _ _ Rm).
  - subst u. apply Implied_cut in I; [|exact Ne|exact N]. destruct I as (r0 & -> & I). exists r0. split; [reflexivity|]. apply Rd_implied, I.
  - apply sign_cut in E; [|destruct C; subst; reflexivity]. destruct E as (t0 & -> & ->).
    assert (Nt : t0 <> []) by (intros ->; apply (U c C), ends_refl).
    apply RimeRu_cut in Rm; [|exact Nt|exact (good_cons _ _ G)|exact N]. destruct Rm as (r0 & -> & Rm). exists r0. split; [reflexivity|].
    eapply Rd_ru; eassumption.
Qed.
Lemma join_inj2 r t : join r = join t -> r = t.
Proof.
  destruct t as [|a t]; [|exact (join_inj r (a :: t) ltac:(discriminate))]. destruct r as [|b r]; [reflexivity|]. discriminate.
Qed.
Lemma Rime_nil lk o vo e m R b : ~ Rime lk o [] vo e m R b.
Proof.
  intros H. remember (@nil N) as T eqn:E. destruct H as [u m r M|u m r M Hd|u e r b F|u m t' e r M Nm F|v s u m t' I M|v s u t' e r b I M S F|v s u m t' e r I M S F
    |u m r M|u m t' M Hd|u m t' e r M F|u e r F|u m r M|u m r M|u m r e r' b M F|u m r M|u m r e r' M F|u m r M|u m r e r' M F
    |u m r M So|u m r r' M Er|u m r r' e r'' b M Er S F|u m t' e r M O1 O2 O3 F|u m c t' v M O1 C O2|u m t' v e r b M O1 F];
  try discriminate E; try (subst u; discriminate M); subst u; injection M as <- <-; [exact (Final_ne _ _ _ _ F eq_refl)|exact (FS_ne _ _ _ _ _ F eq_refl)].
Qed.
Lemma lone_stuck a lk p x r b : consonant a = true -> ~ Reads lk [a] p x r b.
Proof.
  intros C H. remember [a] as T eqn:E.
  destruct H as [u o t1 vo e m r b p x I Rm L S|u o t1 vo e m r b p x I Rm L S|l u o t1 vo e m r b p x I Rm L S|u p x r I|c u vo e r b tn U Rm T].
  - subst u. inversion I; subst. exact (Rime_nil _ _ _ _ _ _ _ Rm).
  - injection E as <- _. discriminate C.
  - injection E as <- _. rewrite (RimeL_sign _ _ _ _ _ _ _ Rm) in C. discriminate C.
  - subst u. inversion I.
  - injection E as <- _. destruct U; subst; discriminate C.
Qed.
Lemma K_stuck lk p x r b : ~ Reads lk K p x r b.
Proof.
  intros H. remember K as T eqn:E.
  destruct H as [u o t1 vo e m r b p x I Rm L S|u o t1 vo e m r b p x I Rm L S|l u o t1 vo e m r b p x I Rm L S|u p x r I|c u vo e r b tn U Rm T].
  - subst u. rewrite (Initial_K _ _ _ I) in Rm. exact (Rime_E1 _ _ _ _ _ _ _ Rm).
  - injection E as E _. rewrite <- E in Ck. discriminate Ck.
  - injection E as E _. rewrite <- E, (RimeL_sign _ _ _ _ _ _ _ Rm) in Ck. discriminate Ck.
  - subst u. inversion I; subst; discriminate.
  - injection E as E _. rewrite <- E in Ck. destruct U; subst; discriminate Ck.
Qed.
Lemma E1_stuck lk p x r b : ~ Reads lk E1 p x r b.
Proof.
  intros H. remember E1 as T eqn:E.
  destruct H as [u o t1 vo e m r b p x I Rm L S|u o t1 vo e m r b p x I Rm L S|l u o t1 vo e m r b p x I Rm L S|u p x r I|c u vo e r b tn U Rm T].
  - subst u. inversion I; subst; discriminate.
  - discriminate E.
  - injection E as -> _. inversion Rm.
  - subst u. inversion I.
  - injection E as -> _. destruct U; discriminate.
Qed.

(** ** Words *)
Variable w : list N.
Hypothesis Wn : w <> [].
Hypothesis QW : Quiet k w.
Notation W' := (w ++ K).
Notation Sf t := (exists u, w = u ++ t).
Lemma Sf_quiet t : Sf t -> Quiet k t.
Proof. intros (u & E). rewrite E in QW. exact (Quiet_tail u t QW). Qed.
Lemma Fin_reads w' t lk : Finishes noWords w' t lk -> t <> [] -> exists p x r lk', Reads lk t p x r lk'.
Proof. intros F Ne. destruct F as [|t lk es r lk' W F]; [congruence|]. apply way_none in W. destruct W as (p & x & R & _). eauto. Qed.
Lemma Fin_lone r lk : Finishes noWords w r lk -> ~ lone1 r.
Proof. intros F (a & A & ->). destruct (Fin_reads _ _ _ F ltac:(discriminate)) as (p & x & r & b & R). exact (lone_stuck _ _ _ _ _ _ A R). Qed.
Lemma Fin_open r lk : Finishes noWords W' r lk -> open2 r.
Proof.
  intros F. split; intros ->; destruct (Fin_reads _ _ _ F ltac:(discriminate)) as (p & x & r & b & R); [exact (K_stuck _ _ _ _ _ R)|exact (E1_stuck _ _ _ _ _ R)].
Qed.
Lemma reads_ne lk t p x r b : Reads lk t p x r b -> t <> [].
Proof. intros R ->. apply Prop_Span.reads_len in R. destruct p; cbn in R; lia. Qed.
Lemma Sf_reads lk t p x r b : Sf t -> Reads lk t p x r b -> Sf r.
Proof. intros S R. exact (reads_suf w lk t p x r b S R). Qed.
Lemma Fin_join t lk : Finishes noWords w t lk -> Sf t -> Finishes noWords W' (join t) lk.
Proof.
  induction 1 as [lk|t lk es r lk' W F IH]; intros S; [apply Fn_end|]. apply way_none in W. destruct W as (p & x & R & _).
  eapply Fn_step; [apply way_none; exists p, x; split; [|reflexivity]|exact (IH (Sf_reads _ _ _ _ _ _ S R))].
  rewrite (join_ne t) by exact (reads_ne _ _ _ _ _ _ R). apply Reads_join; [exact R|exact (Sf_quiet t S)|exact (Fin_lone _ _ F)].
Qed.
Lemma way_join t lk p x r lk' : Sf t -> Reads lk t p x r lk' -> Finishes noWords w r lk' -> Reads lk (join t) p x (join r) lk'.
Proof.
  intros S R F. rewrite (join_ne t) by exact (reads_ne _ _ _ _ _ _ R). apply Reads_join; [exact R|exact (Sf_quiet t S)|exact (Fin_lone _ _ F)].
Qed.
Lemma reach_Sf t lk : Reached noWords w t lk -> Sf t.
Proof.
  induction 1 as [|t lk es r lk' _ IH W]; [exists []; reflexivity|]. apply way_none in W. destruct W as (p & x & R & _). exact (Sf_reads _ _ _ _ _ _ IH R).
Qed.
Lemma Reach_join t lk : Reached noWords w t lk -> Finishes noWords w t lk -> Reached noWords W' (join t) lk.
Proof.
  induction 1 as [|t lk es r lk' R0 IH W]; intros F; [rewrite (join_ne w Wn); apply Rc_start|].
  pose proof W as W0. apply way_none in W0. destruct W0 as (p & x & R & _). pose proof (reach_Sf _ _ R0) as S.
  eapply Rc_step; [apply IH; exact (Fn_step _ _ _ _ _ _ _ W F)|]. apply way_none. exists p, x. split; [|reflexivity]. exact (way_join _ _ _ _ _ _ S R F).
Qed.
Lemma Used_join t p x r : Used w t p x r -> Used W' (join t) p x (join r).
Proof.
  intros (lk & lk' & R0 & R & F). pose proof (reach_Sf _ _ R0) as S. exists lk, lk'.
  assert (Ft : Finishes noWords w t lk) by (eapply Fn_step; [apply way_none; eauto|exact F]).
  split; [exact (Reach_join _ _ R0 Ft)|]. split; [exact (way_join _ _ _ _ _ _ S R F)|exact (Fin_join _ _ F (Sf_reads _ _ _ _ _ _ S R))].
Qed.
Lemma Says_join t s : Says w t s -> exists s', Says W' (join t) s' /\ map spoken s' = map spoken s.
Proof.
  induction 1 as [|t x r s U S (s' & IH & E)|t p x p' x' r s U1 U2 S (s' & IH & E)].
  - exists []. split; [apply Sy_end|reflexivity].
  - eexists. split; [apply Sy_one; [exact (Used_join _ _ _ _ U)|exact IH]|]. cbn [map]. rewrite E. reflexivity.
  - eexists. split; [eapply Sy_two; [exact (Used_join _ _ _ _ U1)|exact (Used_join _ _ _ _ U2)|exact IH]|]. cbn [map]. rewrite E. reflexivity.
Qed.

(** And back. *)
Hypothesis PW : noPair w.
Lemma Sf_pair t : Sf t -> noPair t.
Proof. intros (u & E). rewrite E in PW. exact (noPair_tail u t PW). Qed.
Lemma way_cut t lk p x R lk' : Sf t -> Reads lk (join t) p x R lk' -> Finishes noWords W' R lk' ->
  exists r, R = join r /\ Sf r /\ Reads lk t p x r lk'.
Proof.
  intros S Rd F. assert (Nt : t <> []) by (intros ->; exact (reads_ne _ _ _ _ _ _ Rd eq_refl)). rewrite (join_ne t Nt) in Rd.
  apply Reads_cut in Rd; [|exact Nt|exact (Sf_quiet t S)|exact (Sf_pair t S)|exact (Fin_open _ _ F)].
  destruct Rd as (r & -> & Rd). exists r. split; [reflexivity|]. split; [exact (Sf_reads _ _ _ _ _ _ S Rd)|exact Rd].
Qed.
Lemma Fin_cut T lk : Finishes noWords W' T lk -> forall t, T = join t -> Sf t -> Finishes noWords w t lk.
Proof.
  induction 1 as [lk|T lk es R lk' W F IH]; intros t E S.
  - destruct t as [|a t]; [apply Fn_end|discriminate E].
  - subst T. apply way_none in W. destruct W as (p & x & Rd & _). destruct (way_cut _ _ _ _ _ _ S Rd F) as (r & -> & Sr & Rd').
    eapply Fn_step; [apply way_none; eauto|]. exact (IH r eq_refl Sr).
Qed.
Lemma Reach_cut T lk : Reached noWords W' T lk -> Finishes noWords W' T lk -> exists t, T = join t /\ Sf t /\ Reached noWords w t lk.
Proof.
  induction 1 as [|T lk es R lk' R0 IH W]; intros F.
  - exists w. split; [symmetry; exact (join_ne w Wn)|]. split; [exists []; reflexivity|apply Rc_start].
  - destruct (IH (Fn_step _ _ _ _ _ _ _ W F)) as (t & -> & S & R1). apply way_none in W. destruct W as (p & x & Rd & _).
    destruct (way_cut _ _ _ _ _ _ S Rd F) as (r & -> & Sr & Rd'). exists r. split; [reflexivity|]. split; [exact Sr|].
    eapply Rc_step; [exact R1|]. apply way_none. eauto.
Qed.
Lemma Used_cut t p x R : Sf t -> Used W' (join t) p x R -> exists r, R = join r /\ Sf r /\ Used w t p x r.
Proof.
  intros S (lk & lk' & R0 & Rd & F).
  assert (Ft : Finishes noWords W' (join t) lk) by (eapply Fn_step; [apply way_none; eauto|exact F]).
  destruct (Reach_cut _ _ R0 Ft) as (t' & E & _ & R1). apply join_inj2 in E. subst t'.
  destruct (way_cut _ _ _ _ _ _ S Rd F) as (r & -> & Sr & Rd'). exists r. split; [reflexivity|]. split; [exact Sr|].
  exists lk, lk'. split; [exact R1|]. split; [exact Rd'|]. exact (Fin_cut _ _ F r eq_refl Sr).
Qed.
Lemma Says_cut T s' : Says W' T s' -> forall t, T = join t -> Sf t -> exists s, Says w t s /\ map spoken s = map spoken s'.
Proof.
  induction 1 as [|T x R s U S IH|T p x p' x' R s U1 U2 S IH]; intros t E St; subst.
  - destruct t as [|a t]; [|discriminate E]. exists []. split; [apply Sy_end|reflexivity].
  - destruct (Used_cut _ _ _ _ St U) as (r & -> & Sr & U'). destruct (IH r eq_refl Sr) as (s1 & A & B).
    eexists. split; [apply Sy_one; [exact U'|exact A]|]. cbn [map]. rewrite B. reflexivity.
  - destruct (Used_cut _ _ _ _ St U1) as (r & -> & Sr & U1'). destruct (Used_cut _ _ _ _ St U2) as (r' & Er & _ & U2').
    apply join_inj2 in Er. subst r'. destruct (IH r eq_refl Sr) as (s1 & A & B).
    eexists. split; [eapply Sy_two; [exact U1'|exact U2'|exact A]|]. cbn [map]. rewrite B. reflexivity.
Qed.
End Adding.

(** ** C106 *)
Lemma unlisted_stem dict w k : consonant k = true -> unlisted dict (w ++ [k; UTH_THANTHAKHAT]) -> unlisted dict w.
Proof.
  intros C U u q r strs -> Eo. apply (U u q (r ++ [k; UTH_THANTHAKHAT]) strs); [rewrite <- !app_assoc; reflexivity|].
  exact (endOrSyl_join k C r Eo).
Qed.
Lemma consonant_range k : consonant k = true -> (0xe01 <= k <= 0xe2e)%N.
Proof. unfold consonant. rewrite !andb_true_iff, !N.leb_le. tauto. Qed.
Lemma letters_stem w k : Forall (fun c => thaiLetter c = true) w -> consonant k = true -> Forall (fun c => thaiLetter c = true) (w ++ [k; UTH_THANTHAKHAT]).
Proof.
  intros L C. apply Forall_app. split; [exact L|]. constructor; [|constructor; [reflexivity|constructor]].
  apply consonant_range in C.
  unfold thaiLetter. destruct C as (A & B). rewrite (proj2 (N.leb_le _ _) A). replace (k <=? 0xe39)%N with true by (symmetry; apply N.leb_le; lia).
  cbn. apply negb_true_iff, N.eqb_neq. lia.
Qed.
Lemma C106_lemma w k dict brk brk' l l' : Forall (fun c => thaiLetter c = true) w -> 2 <= length w -> consonant k = true -> Quiet k w ->
  (forall x, In x brk -> x = 0 \/ x = length w) -> (forall x, In x brk' -> x = 0 \/ x = length w + 2) ->
  dictOKo dict -> unlisted dict (w ++ [k; UTH_THANTHAKHAT]) ->
  pronounced libthai_ct w dict brk l -> pronounced libthai_ct (w ++ [k; UTH_THANTHAKHAT]) dict brk' l' ->
  (forall s, In s l -> exists s', In s' l' /\ map spoken s' = map spoken s) /\
  (noPair w -> forall s', In s' l' -> exists s, In s l /\ map spoken s = map spoken s').
Proof.
  intros L N C Q B B' D U P P'.
  assert (Wn : w <> []) by (intros ->; cbn in N; lia).
  assert (A : forall s, In s l <-> Says w w s) by exact (C56_word_grammar w dict brk l L N B D (unlisted_stem _ _ _ C U) P).
  assert (A' : forall s, In s l' <-> Says (w ++ [k; UTH_THANTHAKHAT]) (w ++ [k; UTH_THANTHAKHAT]) s).
  { apply (C56_word_grammar _ dict brk' l'); [exact (letters_stem w k L C)|rewrite app_length; lia|rewrite app_length; exact B'|exact D|exact U|exact P']. }
  split.
  - intros s I. apply A in I. destruct (Says_join k C w Wn Q w s I) as (s' & I' & E). rewrite (join_ne k w Wn) in I'. exists s'. split; [apply A', I'|exact E].
  - intros Pr s' I'. apply A' in I'. destruct (Says_cut k C w Wn Q Pr _ s' I' w) as (s & I & E); [symmetry; exact (join_ne k w Wn)|exists []; reflexivity|].
    exists s. split; [apply A, I|exact E].
Qed.

(** Every pronunciation of the word stays one with the silenced consonant. *)
Theorem C106_kept w k dict brk brk' l l' : Forall (fun c => thaiLetter c = true) w -> 2 <= length w -> consonant k = true -> Quiet k w ->
  (forall x, In x brk -> x = 0 \/ x = length w) -> (forall x, In x brk' -> x = 0 \/ x = length w + 2) ->
  dictOKo dict -> unlisted dict (w ++ [k; UTH_THANTHAKHAT]) ->
  pronounced libthai_ct w dict brk l -> pronounced libthai_ct (w ++ [k; UTH_THANTHAKHAT]) dict brk' l' ->
  forall s, In s l -> exists s', In s' l' /\ map spoken s' = map spoken s.
Proof. intros L N C Q B B' D U P P'. exact (proj1 (C106_lemma w k dict brk brk' l l' L N C Q B B' D U P P')). Qed.
Print Assumptions C106_kept.
(** None is added if the word does not end in two consonants. *)
Theorem C106_none_added w k dict brk brk' l l' : Forall (fun c => thaiLetter c = true) w -> 2 <= length w -> consonant k = true -> Quiet k w ->
  (forall a b, consonant a = true -> consonant b = true -> ~ ends w [a; b]) ->
  (forall x, In x brk -> x = 0 \/ x = length w) -> (forall x, In x brk' -> x = 0 \/ x = length w + 2) ->
  dictOKo dict -> unlisted dict (w ++ [k; UTH_THANTHAKHAT]) ->
  pronounced libthai_ct w dict brk l -> pronounced libthai_ct (w ++ [k; UTH_THANTHAKHAT]) dict brk' l' ->
  forall s', In s' l' -> exists s, In s l /\ map spoken s = map spoken s'.
Proof. intros L N C Q Pr B B' D U P P'. exact (proj2 (C106_lemma w k dict brk brk' l l' L N C Q B B' D U P P') Pr). Qed.
Print Assumptions C106_none_added.

(** ** The conditions are needed *)
Definition spoken_dec (a b : list N + (EInitConsSound * ESecInitCons * EVowel * EEndConsClass * ETone)) : {a = b} + {a <> b}.
Proof. repeat decide equality. Defined.
Definition heardIn (s : SylString) (l : list SylString) : bool :=
  existsb (fun s' => if list_eq_dec spoken_dec (map spoken s') (map spoken s) then true else false) l.
Lemma heardIn_iff s l : heardIn s l = true <-> exists s', In s' l /\ map spoken s' = map spoken s.
Proof.
  unfold heardIn. rewrite existsb_exists. split; intros (s' & I & E); exists s'; (split; [exact I|]).
  - destruct (list_eq_dec spoken_dec (map spoken s') (map spoken s)) as [X|]; [exact X|discriminate E].
  - destruct (list_eq_dec spoken_dec (map spoken s') (map spoken s)) as [|X]; [reflexivity|congruence].
Qed.
(** The text [s] has a pronunciation that the text [s'] has not. *)
Definition unheard (s s' : string) : Prop := exists l l' x, pronounced libthai_ct (letters s) None [] l /\
  pronounced libthai_ct (letters s') None [] l' /\ In x l /\ forall y, In y l' -> map spoken y <> map spoken x.
Definition unheardb (s s' : string) : bool :=
  match listing None [] s, listing None [] s' with Ok l, Ok l' => existsb (fun x => negb (heardIn x l')) l | _, _ => false end.
Lemma unheard_by s s' : unheardb s s' = true -> unheard s s'.
Proof.
  unfold unheardb. destruct (listing None [] s) as [l| | |] eqn:E; try discriminate. destruct (listing None [] s') as [l'| | |] eqn:E'; try discriminate.
  intros H. apply existsb_exists in H. destruct H as (x & I & H). exists l, l', x. split; [apply listing_pronounced, E|].
  split; [apply listing_pronounced, E'|]. split; [exact I|]. intros y Y Eq. apply negb_true_iff in H.
  assert (X : heardIn x l' = true) by (apply heardIn_iff; eauto). congruence.
Qed.
(** Lost: after another silenced letter, silent I or U, bare long UE, RU and LU,
    silent YO YAK, RO RUA before RO RUA, a mark on O ANG.  Added: after two
    consonants, both of which are then silent. *)
Theorem C106_conditions_needed :
  unheard "จันท์" "จันท์ร์" /\ unheard "ชาติ" "ชาติก์" /\ unheard "ธาตุ" "ธาตุก์" /\ unheard "คื" "คืน์" /\ unheard "ลื่" "ลื่น์" /\
  unheard "กาฤ" "กาฤก์" /\ unheard "ฤๅ" "ฤๅก์" /\ unheard "ฤา" "ฤาก์" /\ unheard "ไทย" "ไทยก์" /\ unheard "แปร" "แปรร์" /\ unheard "เกอ่" "เกอ่ก์" /\
  unheard "จันทร์" "จันท" /\ unheard "สมรก์" "สมร".
Proof. repeat split; apply unheard_by; vm_compute; reflexivity. Qed.
Print Assumptions C106_conditions_needed.
(** So the silenced consonant is not always unheard. *)
Theorem C106_always_refuted : ~ forall w k l l', consonant k = true ->
  pronounced libthai_ct w None [] l -> pronounced libthai_ct (w ++ [k; UTH_THANTHAKHAT]) None [] l' ->
  forall s, In s l -> exists s', In s' l' /\ map spoken s' = map spoken s.
Proof.
  intros H. destruct C106_conditions_needed as ((l & l' & x & P & P' & I & Z) & _).
  destruct (H (letters "จันท์") UTH_RO_RUA l l' eq_refl P P' x I) as (y & Y & E). exact (Z y Y E).
Qed.

(** A word that ends in none of the letters concerned. *)
Lemma quiet_last k w a u : w = u ++ [a] -> memN a (letters "์ิุืฤฦๅาย่้๊๋ร") = false -> Quiet k w.
Proof.
  intros -> H. apply memN_notIn in H.
  assert (Z : forall v x, ends (u ++ [a]) (v ++ [x]) -> x = a).
  { intros v x (b & E). rewrite app_assoc in E. apply app_inj_tail in E. symmetry. apply E. }
  assert (M : forall m, isMark m = true -> In m (letters "์ิุืฤฦๅาย่้๊๋ร")).
  { intros m M. unfold isMark in M. apply andb_true_iff in M. rewrite !N.leb_le in M.
    assert (X : m = 0xe48%N \/ m = 0xe49%N \/ m = 0xe4a%N \/ m = 0xe4b%N) by lia. cbn. intuition congruence. }
  constructor.
  - intros E. apply (Z []) in E. subst a. apply H. cbn. tauto.
  - intros c v _ V E. apply (Z [c]) in E. subst v. apply H. destruct V as [<-|[<-|[]]]; cbn; tauto.
  - split; [intros E; apply (Z []) in E; subst a; apply H; cbn; tauto|]. intros m Mm E. apply (Z [_]) in E. subst m. exact (H (M _ Mm)).
  - intros c C. split; [intros E; apply (Z []) in E; subst a; apply H; destruct C as [-> | ->]; cbn; tauto|].
    intros x X E. apply (Z [_]) in E. subst x. apply H. destruct X as [-> | ->]; cbn; tauto.
  - intros E. apply (Z []) in E. exfalso. subst a. apply H. cbn. tauto.
  - intros _ E. apply (Z []) in E. subst a. apply H. cbn. tauto.
  - intros c m Mm E. apply (Z [_; _; _]) in E. subst m. exact (H (M _ Mm)).
Qed.
(** "อาทิตย์" (Sunday) is said like "อาทิต". *)
Example C106_case : let w := letters "อาทิต" in let w' := w ++ [UTH_YO_YAK; UTH_THANTHAKHAT] in
  Forall (fun c => thaiLetter c = true) w /\ 2 <= length w /\ consonant UTH_YO_YAK = true /\ Quiet UTH_YO_YAK w /\
  (forall a b, consonant a = true -> consonant b = true -> ~ ends w [a; b]) /\
  (forall x, In x [5] -> x = 0 \/ x = length w) /\ (forall x, In x [7] -> x = 0 \/ x = length w + 2) /\
  dictOKo None /\ unlisted None w' /\
  exists l l', pronounced libthai_ct w None [5] l /\ pronounced libthai_ct w' None [7] l' /\ length l = 2 /\
    (forall s, In s l -> exists s', In s' l' /\ map spoken s' = map spoken s) /\
    (forall s', In s' l' -> exists s, In s l /\ map spoken s = map spoken s').
Proof.
  cbv zeta. set (w := letters "อาทิต").
  assert (A1 : Forall (fun c => thaiLetter c = true) w) by letters_ok.
  assert (A2 : 2 <= length w) by (vm_compute; lia).
  assert (A3 : Quiet UTH_YO_YAK w) by exact (quiet_last _ w UTH_TO_TAO (letters "อาทิ") eq_refl eq_refl).
  assert (A4 : forall a b, consonant a = true -> consonant b = true -> ~ ends w [a; b]).
  { intros a b A _ (u & E). assert (X : nth 3 w 0%N = a).
    { assert (L : length u = 3) by (apply (f_equal (@length N)) in E; rewrite app_length in E; cbn in E; lia).
      rewrite E, app_nth2, L by lia. reflexivity. }
    rewrite <- X in A. vm_compute in A. discriminate A. }
  assert (A5 : forall x, In x [5] -> x = 0 \/ x = length w) by (intros x [<-|[]]; right; reflexivity).
  assert (A6 : forall x, In x [7] -> x = 0 \/ x = length w + 2) by (intros x [<-|[]]; right; reflexivity).
  assert (A7 : dictOKo None) by (intros d X; discriminate X).
  assert (A8 : unlisted None (w ++ [UTH_YO_YAK; UTH_THANTHAKHAT])) by apply unlisted_none.
  repeat (split; [first [assumption|reflexivity]|]).
  assert (P : exists l, pronounced libthai_ct w None [5] l /\ length l = 2).
  { eexists. split; [apply listing_pronounced; vm_compute; reflexivity|reflexivity]. }
  assert (P' : exists l, pronounced libthai_ct (w ++ [UTH_YO_YAK; UTH_THANTHAKHAT]) None [7] l).
  { eexists. apply (listing_pronounced None [7] "อาทิตย์"). vm_compute. reflexivity. }
  destruct P as (l & P & N), P' as (l' & P'). exists l, l'. do 3 (split; [assumption|]). split.
  - exact (C106_kept w UTH_YO_YAK None [5] [7] l l' A1 A2 eq_refl A3 A5 A6 A7 A8 P P').
  - exact (C106_none_added w UTH_YO_YAK None [5] [7] l l' A1 A2 eq_refl A3 A4 A5 A6 A7 A8 P P').
Qed.
