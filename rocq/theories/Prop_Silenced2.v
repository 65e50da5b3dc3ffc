(** Prop_Silenced2.v - property C107: two silenced letters after a final
    consonant are not heard. *)
From Coq Require Import String List NArith ZArith Bool Lia Arith.
From Verif Require Import Base ThUni ThCons Syl Utf Lattice Dag PronDag Dict Parser.
From Verif Require Import Spec OrderProofs GroupProofs DictProofs Prop_Syl ParserSpec ParserFacts ParserInv ParserResult ParserListed ParserDict.
From Verif Require Import Prop_Output Prop_Parser Grammar GrammarIff GrammarWord Prop_Grammar Prop_NoBreak.
From Verif Require Prop_Span Prop_Silenced.
Import ListNotations.
Local Open Scope string_scope.
Local Open Scope list_scope.
Local Open Scope bool_scope.
Local Open Scope nat_scope.

(** ** Vocabulary *)
(** The word [w] ends in a consonant that can only be a final: one that is not
    also used to write vowels, after a letter with which no syllable starts. *)
Definition closedWord (w : list N) : Prop := exists y c, ends w [y; c] /\ startsSyl y = false /\ consonant c = true /\ ~ oneOf "วยอร" c.
(** A consonant, or I or U. *)
Definition silencable (v : N) : Prop := consonant v = true \/ oneOf "ิุ" v.

Section Adding.
Variables k v c : N.
Hypothesis Ck : consonant k = true.
Hypothesis Sv : silencable v.
Hypothesis Cc : consonant c = true.
Hypothesis Oc : ~ oneOf "วยอร" c.
Notation K := [k; v; UTH_THANTHAKHAT].
Definition join (r : list N) : list N := match r with [] => [] | _ => r ++ K end.
Definition Good (t : list N) : Prop := ends t [c] /\ forall y, ends t [y; c] -> startsSyl y = false.
Definition other (x : N) : bool := negb (consonant x) || memN x (letters "วยอร").

Lemma k_karan : (k =? UTH_THANTHAKHAT)%N = false.
Proof. apply N.eqb_neq. intros ->. discriminate Ck. Qed.
Lemma k_i : (k =? UTH_SARA_I)%N = false.
Proof. apply N.eqb_neq. intros ->. discriminate Ck. Qed.
Lemma k_u : (k =? UTH_SARA_U)%N = false.
Proof. apply N.eqb_neq. intros ->. discriminate Ck. Qed.
Lemma v_karan : (v =? UTH_THANTHAKHAT)%N = false.
Proof. apply N.eqb_neq. intros ->. destruct Sv as [X|[X|[X|[]]]]; discriminate X. Qed.
Lemma c_other x : other x = true -> x <> c.
Proof.
  unfold other. rewrite orb_true_iff, negb_true_iff. intros [H|H] ->; [congruence|]. apply memN_In in H. exact (Oc H).
Qed.
Lemma join_ne r : r <> [] -> join r = r ++ K.
Proof. destruct r; [congruence|reflexivity]. Qed.
Lemma good_ne t : Good t -> t <> [].
Proof. intros ((a & E) & _) ->. destruct a; discriminate E. Qed.
Lemma good_app a t : Good (a ++ t) -> t <> [] -> Good t.
Proof.
  intros ((b & E) & P) Ne. split; [|intros y X; apply P, ends_app, X].
  destruct (exists_last Ne) as (t' & z & ->). rewrite app_assoc in E. apply app_inj_tail in E. destruct E as (_ & ->). exists t'. reflexivity.
Qed.
Lemma good_or x t : Good (x :: t) -> t = [] \/ Good t.
Proof. intros G. destruct t as [|y t]; [auto|right]. apply (good_app [x]); [exact G|discriminate]. Qed.
Lemma good_cons x t : Good (x :: t) -> other x = true -> Good t.
Proof.
  intros G O. destruct (good_or _ _ G) as [->|H]; [|exact H]. exfalso. apply c_other in O. destruct G as (([|a [|b u]] & E) & _); cbn in E; congruence.
Qed.
Lemma mark_other x : isMark x = true -> other x = true.
Proof.
  intros M. unfold other. apply orb_true_iff. left. apply negb_true_iff. unfold isMark in M. apply andb_true_iff in M. rewrite !N.leb_le in M.
  apply not_true_iff_false. unfold consonant. rewrite !andb_true_iff, !N.leb_le. lia.
Qed.
Lemma good_mark t m l : mark t = (m, l) -> Good t -> Good l.
Proof.
  destruct t as [|x t]; cbn; [intros _ G; destruct (good_ne _ G eq_refl)|].
  destruct (isMark x) eqn:M; intros E G; injection E as _ <-; [exact (good_cons _ _ G (mark_other x M))|exact G].
Qed.
Lemma good_silent t : Good t -> Good (silent t).
Proof.
  intros G. destruct t as [|a [|b t]]; cbn; [exact G|exact G|]. destruct (_ && _) eqn:E; [|exact G].
  apply andb_prop in E. destruct E as (_ & E). apply N.eqb_eq in E. subst b. apply (good_app [a]) in G; [|discriminate]. exact (good_cons _ _ G eq_refl).
Qed.
Lemma silent_join t : Good t -> silent (t ++ K) = silent t ++ K.
Proof.
  intros G. destruct t as [|a [|b t]]; cbn.
  - destruct (good_ne _ G eq_refl).
  - rewrite k_karan, andb_false_r. reflexivity.
  - destruct (_ && _); reflexivity.
Qed.
Lemma silent_to t : Good t -> silent (t ++ K) = join (silent t).
Proof. intros G. rewrite (silent_join t G). symmetry. apply join_ne, good_ne, good_silent, G. Qed.
Lemma silentIU_join t : Good t -> silentIU (t ++ K) = silentIU t ++ K.
Proof.
  intros G. destruct t as [|a [|b [|d t]]]; cbn.
  - destruct (good_ne _ G eq_refl).
  - rewrite k_i, k_u, andb_false_r. reflexivity.
  - rewrite k_karan, andb_false_r. reflexivity.
  - destruct (_ && _); reflexivity.
Qed.
Lemma silentIU_ne t : Good t -> silentIU t <> [].
Proof.
  intros G. destruct t as [|a [|b [|d t]]]; cbn; try discriminate; [exact (good_ne _ G)|]. destruct (_ && _) eqn:E; [|discriminate].
  intros ->. apply andb_prop in E. destruct E as (_ & E). apply N.eqb_eq in E. subst d.
  apply (good_app [a; b]) in G; [|discriminate]. destruct (good_ne _ (good_cons _ _ G eq_refl) eq_refl).
Qed.
Lemma silent2_join t : Good t -> silent2 (t ++ K) = silent2 t ++ K.
Proof.
  intros G. destruct t as [|a [|b [|d t]]]; cbn.
  - destruct (good_ne _ G eq_refl).
  - rewrite v_karan, andb_false_r. reflexivity.
  - rewrite k_karan, andb_false_r. reflexivity.
  - destruct (_ && _); reflexivity.
Qed.
Lemma silent2_ne t : Good t -> silent2 t <> [].
Proof.
  intros G. destruct t as [|a [|b [|d t]]]; cbn; try discriminate; [exact (good_ne _ G)|]. destruct (_ && _) eqn:E; [|discriminate].
  intros ->. apply andb_prop in E. destruct E as (_ & E). apply N.eqb_eq in E. subst d.
  apply (good_app [a; b]) in G; [|discriminate]. destruct (good_ne _ (good_cons _ _ G eq_refl) eq_refl).
Qed.
Lemma app_len (r t : list N) : (length (r ++ K) <? length (t ++ K)) = (length r <? length t).
Proof. rewrite !app_length. destruct (Nat.ltb_spec (length r) (length t)); [apply Nat.ltb_lt|apply Nat.ltb_ge]; lia. Qed.
Lemma silentOr_join t : Good t ->
  (if length (silent (t ++ K)) <? length (t ++ K) then silent (t ++ K) else silentIU (t ++ K)) =
  join (if length (silent t) <? length t then silent t else silentIU t).
Proof.
  intros G. rewrite (silent_join t G), (silentIU_join t G), app_len. rewrite join_ne; [destruct (_ <? _); reflexivity|].
  destruct (_ <? _); [exact (good_ne _ (good_silent t G))|exact (silentIU_ne t G)].
Qed.
Lemma silentAny_K : silentAny K = [].
Proof.
  unfold silentAny. cbn. rewrite v_karan, andb_false_r. cbn. rewrite Ck. cbn. destruct Sv as [X|[<-|[<-|[]]]]; [|reflexivity|reflexivity].
  destruct ((v =? UTH_SARA_I) || (v =? UTH_SARA_U))%N; [reflexivity|]. cbn. rewrite X. reflexivity.
Qed.
Lemma silentAny_join t : Good t -> silentAny (t ++ K) = silentAny t ++ K /\ silentAny t <> [].
Proof.
  intros G. unfold silentAny. cbv zeta. rewrite (silent_join _ G), (silentIU_join _ G), (silent2_join _ G), !app_len.
  destruct (length (silent t) <? _); [split; [reflexivity|exact (good_ne _ (good_silent t G))]|].
  destruct (length (silentIU t) <? _); (split; [reflexivity|]); [exact (silentIU_ne t G)|exact (silent2_ne t G)].
Qed.
Lemma silentAny_to t : t = [] \/ Good t -> silentAny (t ++ K) = join (silentAny t).
Proof.
  intros [->|G]; [exact silentAny_K|]. destruct (silentAny_join t G) as (E & N). rewrite E. symmetry. apply join_ne, N.
Qed.
Lemma mark_join t m l : mark t = (m, l) -> Good t -> mark (t ++ K) = (m, l ++ K).
Proof.
  destruct t as [|x t]; cbn; [intros _ G; destruct (good_ne _ G eq_refl)|].
  destruct (isMark x); intros E _; injection E as <- <-; reflexivity.
Qed.
Lemma hd_join t x : Good t -> hd_error t <> Some x -> hd_error (t ++ K) <> Some x.
Proof. intros G. destruct t; [destruct (good_ne _ G eq_refl)|auto]. Qed.
Lemma endOrSyl_join t : endOrSyl t -> endOrSyl (t ++ K).
Proof. destruct t; cbn; [intros _; unfold startsSyl; rewrite Ck; reflexivity|auto]. Qed.
Lemma endOrSyl_cut t : endOrSyl (t ++ K) -> endOrSyl t.
Proof. destruct t; cbn; auto. Qed.

(** ** Finals *)
Lemma Final_join no t e r : Final no t e r -> Good t -> Final no (t ++ K) e (join r).
Proof. intros [x t' C I] G. rewrite <- (silentAny_to t' (good_or _ _ G)). exact (F_cons no x (t' ++ K) C I). Qed.
Lemma FS_join no t e r b : FinalOrShared no t e r b -> Good t -> FinalOrShared no (t ++ K) e (join r) b.
Proof.
  intros [t' e' r' F|x r' C I S O E|x i r' C I O L E|x t' C I S H] G.
  - apply FS_final, Final_join; assumption.
  - assert (G1 : Good (UTH_RO_RUA :: r')) by (apply (good_app [x]); [exact G|discriminate]). pose proof (good_cons _ _ G1 eq_refl) as G2.
    rewrite join_ne by exact (good_ne _ G2). apply (FS_ro no x (r' ++ K) C I); [|exact O|apply endOrSyl_join, E].
    destruct (silentAny_join _ G1) as (A & _). cbn [app] in A. rewrite A, S. reflexivity.
  - assert (G1 : Good (i :: r')) by (apply (good_app [x]); [exact G|discriminate]).
    assert (G2 : Good r') by (apply (good_cons _ _ G1); destruct L as [<-|[<-|[]]]; reflexivity).
    rewrite join_ne by exact (good_ne _ G2). apply (FS_iu no x i (r' ++ K) C I O L), endOrSyl_join, E.
  - assert (G1 : Good t') by (destruct (good_or _ _ G) as [->|X]; [inversion H|exact X]).
    cbn [join app]. apply (FS_shared no x (t' ++ K) C I).
    + rewrite (proj1 (silentAny_join _ G1)), S. reflexivity.
    + destruct H as [z t' Lx E|z y t' X Y]; [|exact (Sh_cons x z y (t' ++ K) X Y)].
      apply Sh_vowel; [exact Lx|]. intros (E' & _). destruct t'; discriminate E'.
Qed.

(** ** Initials and rimes *)
Lemma noRo_join t : t <> [] -> noRo t -> noRo (t ++ K).
Proof. destruct t; [congruence|auto]. Qed.
Lemma noLong_join t : t <> [] -> noLong t -> noLong (t ++ K).
Proof. destruct t; [congruence|auto]. Qed.
Lemma Initial_join lk t o r : InitialAt lk t o r -> r <> [] -> InitialAt lk (t ++ K) o (r ++ K).
Proof.
  intros H N. destruct H; cbn [app]; try (econstructor; eauto using noRo_join, noLong_join; fail).
Qed.
(** The final consonant is not part of an initial after a leading vowel. *)
Lemma last_is (u : list N) x : Good (u ++ [x]) -> x = c.
Proof. intros ((a & E) & _). apply app_inj_tail in E. apply E. Qed.
Lemma Initial_room l lk t o r : InitialAt lk t o r -> startsSyl l = true -> Good (l :: t) -> r <> [].
Proof.
  intros H L G E. assert (One : forall x, t = [x] -> False).
  { intros x ->. pose proof (last_is [l] x G). subst x. destruct G as (_ & P). rewrite (P l) in L; [discriminate L|exists []; reflexivity]. }
  assert (Two : forall x y, t = [x; y] -> startsSyl x = true -> False).
  { intros x y -> S. pose proof (last_is [l; x] y G). subst y. destruct G as (_ & P). rewrite (P x) in S; [discriminate S|exists [l]; reflexivity]. }
  assert (St : forall x, consonant x = true -> startsSyl x = true) by (intros x X; unfold startsSyl; rewrite X; reflexivity).
  assert (StO : forall s x, oneOf s x -> forallb consonant (letters s) = true -> startsSyl x = true).
  { intros s x X F. apply St. rewrite forallb_forall in F. exact (F x X). }
  destruct H; subst; try discriminate; try (exact (One _ eq_refl)); eapply Two; try reflexivity; try (apply St; assumption);
    try (eapply StO; [eassumption|vm_compute; reflexivity]).
  destruct H as [H|(_ & H)]; (eapply StO; [exact H|vm_compute; reflexivity]).
Qed.
Ltac gm := first [assumption | eapply good_mark; [eassumption|assumption] | eapply good_mark; [eassumption|eapply good_cons; [eassumption|reflexivity]]].
Ltac g := solve [assumption | eapply good_cons; [eassumption|reflexivity] | gm
  | eapply good_cons; [gm|reflexivity] | eapply good_cons; [eapply good_cons; [gm|reflexivity]|reflexivity]].
Ltac mj := match goal with M : mark ?u = _ |- _ => let M' := fresh "M'" in assert (M' := mark_join _ _ _ M ltac:(g)); cbn [app] in M' end.
Lemma Rime_join lk o t vo e m r b : Rime lk o t vo e m r b -> Good t -> Rime lk o (t ++ K) vo e m (join r) b.
Proof.
  intros H G.
  destruct H as [u m r M|u m r M Hd|u e r b F|u m t' e r M Nm F|x s u m t' I M|x s u t' e r b I M S F|x s u m t' e r I M S F
    |u m r M|u m t' M Hd|u m t' e r M F|u e r F|u m r M|u m r M|u m r e r' b M F|u m r M|u m r e r' M F|u m r M|u m r e r' M F
    |u m r M So|u m r r' M Er|u m r r' e r'' b M Er S F|u m t' e r M O1 O2 O3 F|u m x t' y M O1 C O2|u m t' y e r b M O1 F];
  try (assert (G1 : Good u) by (eapply good_cons; [exact G|first [reflexivity|unfold In in I; repeat (destruct I as [I|I]; [injection I as <- _; reflexivity|]); destruct I]]));
  cbn [app].
  - mj. rewrite <- silent_to by g. eapply R_ua; eassumption.
  - mj. rewrite <- silent_to by g. eapply R_uaa; [eassumption|]. apply hd_join; [g|assumption].
  - apply R_an. apply FS_join; assumption.
  - mj. eapply R_an_marked; [eassumption|assumption|]. apply Final_join; [assumption|g].
  - mj. rewrite <- silentOr_join by g. eapply R_above_open; eassumption.
  - mj. assert (G2 : Good t') by g. eapply R_above_shared; [eassumption|eassumption| |].
    + rewrite silentIU_join by exact G2. rewrite S. reflexivity.
    + rewrite silent_join by exact G2. apply FS_join; [assumption|apply good_silent, G2].
  - mj. assert (G2 : Good t') by g. eapply R_above_final; [eassumption|eassumption| |].
    + rewrite silentIU_join by exact G2. rewrite S. reflexivity.
    + rewrite silent_join by exact G2. apply Final_join; [assumption|apply good_silent, G2].
  - mj. rewrite <- silent_to by g. eapply R_uee; eassumption.
  - mj. assert (G2 : Good t') by g. rewrite join_ne by exact (good_ne _ G2). eapply R_uee_bare; [eassumption|].
    destruct t' as [|z t']; [destruct (good_ne _ G2 eq_refl)|exact Hd].
  - mj. eapply R_uee_final; [eassumption|]. apply Final_join; [assumption|g].
  - assert (G2 : Good u) by (apply (good_cons UTH_O_ANG); [apply (good_app [UTH_MAITAIKHU]); [exact G|discriminate]|reflexivity]).
    apply R_au. rewrite silent_join by exact G2. apply Final_join; [assumption|apply good_silent, G2].
  - mj. rewrite <- silent_to by g. eapply R_a; eassumption.
  - mj. rewrite <- silent_to by g. eapply R_aa; eassumption.
  - mj. assert (G2 : Good r) by g. eapply R_aa_final; [eassumption|]. rewrite silent_join by exact G2. apply FS_join; [assumption|apply good_silent, G2].
  - mj. rewrite <- silent_to by g. eapply R_am; eassumption.
  - mj. eapply R_ua_final; [eassumption|]. apply Final_join; [assumption|g].
  - mj. rewrite <- silent_to by g. eapply R_auu; eassumption.
  - mj. assert (G2 : Good r) by g. eapply R_auu_final; [eassumption|]. rewrite silent_join by exact G2. apply Final_join; [assumption|apply good_silent, G2].
  - mj. rewrite <- silent_to by g. eapply R_on; eassumption.
  - mj. assert (G2 : Good r) by g.
    assert (G3 : Good (UTH_RO_RUA :: r')) by (rewrite <- Er; destruct (ics_eqb _ _); [exact G2|apply good_silent, G2]).
    rewrite <- silent_to by g. eapply R_ran; [eassumption|]. rewrite silent_join by exact G2.
    change (UTH_RO_RUA :: r' ++ K) with ((UTH_RO_RUA :: r') ++ K). rewrite <- Er. destruct (ics_eqb _ _); reflexivity.
  - mj. assert (G2 : Good r) by g.
    assert (G3 : Good (UTH_RO_RUA :: r')) by (rewrite <- Er; destruct (ics_eqb _ _); [exact G2|apply good_silent, G2]).
    assert (G4 : Good r') by g. eapply (R_rac lk o _ _ _ (r' ++ K)); [eassumption| | |apply FS_join; eassumption].
    + rewrite silent_join by exact G2. change (UTH_RO_RUA :: r' ++ K) with ((UTH_RO_RUA :: r') ++ K). rewrite <- Er. destruct (ics_eqb _ _); reflexivity.
    + rewrite silent_join by exact G4. rewrite S. reflexivity.
  - mj. eapply R_o; [eassumption|assumption..|]. apply Final_join; [assumption|g].
  - mj. cbn [join app]. eapply R_ru; eassumption.
  - mj. eapply R_ru_final; [eassumption|eassumption|]. apply FS_join; [assumption|g].
Qed.
Lemma RimeE_join o t vo e m r b : RimeE o t vo e m r b -> Good t -> RimeE o (t ++ K) vo e m (join r) b.
Proof.
  intros H G.
  destruct H as [A|x M|u m t' e r M F|u m r M|u m r M Hd|u m r e r' b M Hd F|u m r M|u m r M Hd|u m r e r' M Hd F|u e r F
    |u m r M|u m r M Hd|u m r M A|u m r M|u m r M Hd|u m r M Eo|u m x r M A O1 O2 Y|u m x r e r' b M A O Y F];
  try (assert (G1 : Good u) by (eapply good_cons; [exact G|reflexivity])); cbn [app].
  - destruct (good_ne _ G eq_refl).
  - exfalso. exact (good_ne _ (good_cons _ _ G (mark_other _ M)) eq_refl).
  - mj. assert (G2 : Good t') by g. eapply E_oe_final; [eassumption|]. rewrite silent_join by exact G2. apply Final_join; [assumption|apply good_silent, G2].
  - mj. rewrite <- silent_to by g. eapply E_ia; eassumption.
  - mj. rewrite <- silent_to by g. eapply E_iaa; [eassumption|]. apply hd_join; [g|assumption].
  - mj. assert (G2 : Good r) by g. eapply E_iaa_final; [eassumption|apply hd_join; assumption|]. rewrite silent_join by exact G2. apply FS_join; [assumption|apply good_silent, G2].
  - mj. rewrite <- silent_to by g. eapply E_uea; eassumption.
  - mj. rewrite <- silent_to by g. eapply E_ueaa; [eassumption|]. apply hd_join; [g|assumption].
  - mj. assert (G2 : Good r) by g. eapply E_ueaa_final; [eassumption|apply hd_join; assumption|]. rewrite silent_join by exact G2. apply Final_join; [assumption|apply good_silent, G2].
  - apply E_e_final. apply Final_join; assumption.
  - mj. rewrite <- silent_to by g. eapply E_oe; eassumption.
  - mj. rewrite <- silent_to by g. eapply E_oee; [eassumption|]. apply hd_join; [g|assumption].
  - mj. rewrite <- silent_to by g. eapply E_e; eassumption.
  - mj. rewrite <- silent_to by g. eapply E_au; eassumption.
  - mj. rewrite <- silent_to by g. eapply E_ao; [eassumption|]. apply hd_join; [g|assumption].
  - mj. rewrite <- silent_to by g. eapply E_oey; [eassumption|]. apply endOrSyl_join. assumption.
  - mj. rewrite <- silent_to by g. cbn [app]. eapply E_ee; [eassumption|assumption..|]. intros (X & Z). apply Y. split; [exact X|apply endOrSyl_cut, Z].
  - mj. assert (G2 : Good (x :: r)) by g. eapply E_ee_final; [eassumption|assumption..| |].
    + intros (X & Z). apply Y. split; [exact X|apply endOrSyl_cut, Z].
    + change (x :: r ++ K) with ((x :: r) ++ K). rewrite silent_join by exact G2. apply FS_join; [assumption|apply good_silent, G2].
Qed.
Lemma RimeL_join l t vo e m r b : RimeL l t vo e m r b -> Good t -> RimeL l (t ++ K) vo e m (join r) b.
Proof.
  intros H G.
  destruct H as [u m r M|u m r e r' M F|u m t' M H1 H2|u m t' e r M F|u m r M|u m t' M H1|u m t' e r b M S F|u m t' M|u m r M Eo|u m t' M]; mj.
  - rewrite <- silent_to by g. eapply L_ae; eassumption.
  - eapply L_ae_final; [eassumption|]. apply Final_join; [assumption|g].
  - assert (G2 : Good t') by g. rewrite <- silent_to by exact G2. eapply L_aee; [eassumption|apply hd_join; assumption..].
  - assert (G2 : Good t') by g. eapply L_aee_final; [eassumption|]. rewrite silent_join by exact G2. apply Final_join; [assumption|apply good_silent, G2].
  - rewrite <- silentOr_join by g. eapply L_o; eassumption.
  - assert (G2 : Good t') by g. rewrite <- silentOr_join by exact G2. eapply L_oo; [eassumption|]. apply hd_join; assumption.
  - assert (G2 : Good t') by g. eapply L_oo_final; [eassumption| |].
    + rewrite silentIU_join by exact G2. rewrite S. reflexivity.
    + rewrite silent_join by exact G2. apply FS_join; [assumption|apply good_silent, G2].
  - rewrite <- silent_to by g. eapply L_ai; eassumption.
  - assert (G2 : Good r) by g. rewrite join_ne by exact (good_ne _ G2). eapply L_aiy; [eassumption|]. apply endOrSyl_join. assumption.
  - rewrite <- silent_to by g. eapply L_aimuan; eassumption.
Qed.
Lemma Implied_join t p x r : Implied t p x r -> Implied (t ++ K) p x (join r).
Proof. intros H. destruct H; cbn [app join]; econstructor; eauto. Qed.
Lemma RimeRu_join t vo e r b : RimeRu t vo e r b -> Good t -> RimeRu (t ++ K) vo e (join r) b.
Proof.
  intros H G. destruct H as [|x t X|x t C F|x t e r b E F]; cbn [app].
  - destruct (good_ne _ G eq_refl).
  - rewrite join_ne; [apply U_long, X|]. apply good_ne, (good_cons _ _ G). destruct X; subst; reflexivity.
  - apply U_open; [exact C|]. intros (A & B). apply F. split; [exact A|]. apply endOrSyl_cut, B.
  - apply U_closed; [apply endOrSyl_join, E|]. exact (FS_join _ _ _ _ _ F G).
Qed.
Lemma RimeL_lead l t vo e m R b : RimeL l t vo e m R b -> startsSyl l = true.
Proof. intros []; reflexivity. Qed.
Lemma Reads_join lk t p x r b : Reads lk t p x r b -> Good t -> Reads lk (t ++ K) p x (join r) b.
Proof.
  intros H G.
  destruct H as [t o t1 vo e m r b p x I R L S|t o t1 vo e m r b p x I R L S|l t o t1 vo e m r b p x I R L S|t p x r I|y t vo e r b tn U R T].
  - assert (N : t1 <> []) by (intros ->; exact (Prop_Silenced.Rime_nil _ _ _ _ _ _ _ R)).
    destruct (initial_suffix _ _ _ _ I) as (a & E & _). assert (G1 : Good t1) by (rewrite E in G; exact (good_app _ _ G N)).
    eapply Rd_plain; [exact (Initial_join _ _ _ _ I N)|exact (Rime_join _ _ _ _ _ _ _ _ R G1)|exact L|exact S].
  - pose proof (Initial_room UTH_SARA_E _ _ _ _ I eq_refl G) as N. pose proof (good_cons _ _ G eq_refl) as G0.
    destruct (initial_suffix _ _ _ _ I) as (a & E & _). assert (G1 : Good t1) by (rewrite E in G0; exact (good_app _ _ G0 N)).
    eapply Rd_e; [exact (Initial_join _ _ _ _ I N)|exact (RimeE_join _ _ _ _ _ _ _ R G1)|exact L|exact S].
  - pose proof (Initial_room _ _ _ _ _ I (RimeL_lead _ _ _ _ _ _ _ R) G) as N.
    destruct (initial_suffix _ _ _ _ I) as (a & E & _).
    assert (G1 : Good t1) by (rewrite E in G; exact (good_app (l :: a) _ G N)).
    eapply Rd_lead; [exact (Initial_join _ _ _ _ I N)|exact (RimeL_join _ _ _ _ _ _ _ R G1)|exact L|exact S].
  - apply Rd_implied, Implied_join, I.
  - eapply Rd_ru; [exact U|apply RimeRu_join; [exact R|]|exact T]. apply (good_cons _ _ G). destruct U; subst; reflexivity.
Qed.

(** ** Words *)
Variable w : list N.
Hypothesis GW : Good w.
Notation W' := (w ++ K).
Notation Sf t := (exists u, w = u ++ t).
Lemma reads_ne lk t p x r b : Reads lk t p x r b -> t <> [].
Proof. intros R ->. apply Prop_Span.reads_len in R. destruct p; cbn in R; lia. Qed.
Lemma Sf_reads lk t p x r b : Sf t -> Reads lk t p x r b -> Sf r.
Proof. intros S R. exact (reads_suf w lk t p x r b S R). Qed.
Lemma way_join t lk p x r lk' : Sf t -> Reads lk t p x r lk' -> Reads lk (join t) p x (join r) lk'.
Proof.
  intros (u & E) R. pose proof (reads_ne _ _ _ _ _ _ R) as N. rewrite (join_ne t N). apply Reads_join; [exact R|].
  rewrite E in GW. exact (good_app u t GW N).
Qed.
Lemma Fin_join t lk : Finishes noWords w t lk -> Sf t -> Finishes noWords W' (join t) lk.
Proof.
  induction 1 as [lk|t lk es r lk' W F IH]; intros S; [apply Fn_end|]. apply way_none in W. destruct W as (p & x & R & _).
  eapply Fn_step; [apply way_none; exists p, x; split; [exact (way_join _ _ _ _ _ _ S R)|reflexivity]|exact (IH (Sf_reads _ _ _ _ _ _ S R))].
Qed.
Lemma Reach_join t lk : Reached noWords w t lk -> Sf t /\ Reached noWords W' (join t) lk.
Proof.
  induction 1 as [|t lk es r lk' R0 (S & IH) W]; [split; [exists []; reflexivity|rewrite (join_ne w (good_ne _ GW)); apply Rc_start]|].
  apply way_none in W. destruct W as (p & x & R & _). split; [exact (Sf_reads _ _ _ _ _ _ S R)|].
  eapply Rc_step; [exact IH|]. apply way_none. exists p, x. split; [exact (way_join _ _ _ _ _ _ S R)|reflexivity].
Qed.
Lemma Used_join t p x r : Used w t p x r -> Used W' (join t) p x (join r).
Proof.
  intros (lk & lk' & R0 & R & F). destruct (Reach_join _ _ R0) as (S & R1). exists lk, lk'.
  split; [exact R1|]. split; [exact (way_join _ _ _ _ _ _ S R)|exact (Fin_join _ _ F (Sf_reads _ _ _ _ _ _ S R))].
Qed.
Lemma Says_join t s : Says w t s -> exists s', Says W' (join t) s' /\ map spoken s' = map spoken s.
Proof.
  induction 1 as [|t x r s U S (s' & IH & E)|t p x p' x' r s U1 U2 S (s' & IH & E)].
  - exists []. split; [apply Sy_end|reflexivity].
  - eexists. split; [apply Sy_one; [exact (Used_join _ _ _ _ U)|exact IH]|]. cbn [map]. rewrite E. reflexivity.
  - eexists. split; [eapply Sy_two; [exact (Used_join _ _ _ _ U1)|exact (Used_join _ _ _ _ U2)|exact IH]|]. cbn [map]. rewrite E. reflexivity.
Qed.
End Adding.

(** ** No pronunciation is added after MAI HAN AKAT and the final *)
Section Cutting.
Variables k v c : N.
Hypothesis Ck : consonant k = true.
Hypothesis Sv : silencable v.
Hypothesis Cc : consonant c = true.
Hypothesis Oc : ~ oneOf "วยอร" c.
Notation K := [k; v; UTH_THANTHAKHAT].
Notation join := (join k v).
(** The letters end in MAI HAN AKAT, perhaps a mark, and [c]. *)
Definition Han (t : list N) : Prop := ends t [UTH_MAI_HAN_AKAT; c] \/ exists m, isMark m = true /\ ends t [UTH_MAI_HAN_AKAT; m; c].
Definition tail2 (t : list N) : Prop := t = [c] \/ exists m, isMark m = true /\ t = [m; c].
Lemma han_cons x t : Han (x :: t) -> (x = UTH_MAI_HAN_AKAT /\ tail2 t) \/ Han t.
Proof.
  intros [([|y a] & E)|(m & M & [|y a] & E)]; cbn in E; injection E as -> E.
  - left. split; [reflexivity|left; exact E].
  - right. left. exists a. exact E.
  - left. split; [reflexivity|right; exists m; auto].
  - right. right. exists m. split; [exact M|]. exists a. exact E.
Qed.
Lemma han_next x t : Han (x :: t) -> x <> UTH_MAI_HAN_AKAT -> Han t.
Proof. intros H N. destruct (han_cons _ _ H) as [(E & _)|G]; [congruence|exact G]. Qed.
Lemma han_ne t : Han t -> t <> [].
Proof. intros [([|y a] & E)|(m & M & [|y a] & E)] ->; discriminate E. Qed.
Lemma cons_han x : consonant x = true -> x <> UTH_MAI_HAN_AKAT.
Proof. intros C ->. discriminate C. Qed.
Lemma mark_han x : isMark x = true -> x <> UTH_MAI_HAN_AKAT.
Proof. intros C ->. discriminate C. Qed.
Lemma cut1 x L t : x :: L = t ++ K -> Han t -> exists l, t = x :: l /\ L = l ++ K.
Proof. intros E H. destruct t as [|y t]; [destruct (han_ne _ H eq_refl)|]. cbn in E. injection E as -> ->. exists t. auto. Qed.
Lemma cut2 x L t : x :: L = t ++ K -> Han t -> x <> UTH_MAI_HAN_AKAT -> exists l, t = x :: l /\ L = l ++ K /\ Han l.
Proof. intros E H N. destruct (cut1 _ _ _ E H) as (l & -> & ->). exists l. split; [reflexivity|]. split; [reflexivity|exact (han_next _ _ H N)]. Qed.
Lemma mark_cutH t m L : mark (t ++ K) = (m, L) -> Han t -> exists l, mark t = (m, l) /\ L = l ++ K /\ Han l.
Proof.
  intros M H. destruct t as [|x t]; [destruct (han_ne _ H eq_refl)|]. cbn in *. destruct (isMark x) eqn:E; injection M as <- <-.
  - exists t. split; [reflexivity|]. split; [reflexivity|exact (han_next _ _ H (mark_han _ E))].
  - exists (x :: t). split; [reflexivity|]. split; [reflexivity|exact H].
Qed.
Lemma han_silent t : Han t -> silent (t ++ K) = silent t ++ K /\ Han (silent t).
Proof.
  intros H. destruct t as [|a [|b t]]; cbn.
  - destruct (han_ne _ H eq_refl).
  - exfalso. destruct (han_cons _ _ H) as [(_ & [X|(m & _ & X)])|X]; [discriminate X|discriminate X|exact (han_ne _ X eq_refl)].
  - destruct (_ && _) eqn:E; [|split; [reflexivity|exact H]]. apply andb_prop in E. destruct E as (E1 & E2). apply N.eqb_eq in E2. subst b.
    split; [reflexivity|]. apply (han_next UTH_THANTHAKHAT); [|discriminate]. exact (han_next _ _ H (cons_han _ E1)).
Qed.
Lemma k_kar : (k =? UTH_THANTHAKHAT)%N = false.
Proof. exact (k_karan k Ck). Qed.
Lemma han_silentIU t : Han t -> silentIU (t ++ K) = silentIU t ++ K /\ Han (silentIU t).
Proof.
  intros H. destruct t as [|a [|b [|d t]]]; cbn.
  - destruct (han_ne _ H eq_refl).
  - exfalso. destruct (han_cons _ _ H) as [(_ & [X|(m & _ & X)])|X]; [discriminate X|discriminate X|exact (han_ne _ X eq_refl)].
  - rewrite k_kar, andb_false_r. split; [reflexivity|exact H].
  - destruct (_ && _) eqn:E; [|split; [reflexivity|exact H]]. apply andb_prop in E. destruct E as (E1 & E2). apply N.eqb_eq in E2. subst d.
    apply andb_prop in E1. destruct E1 as (Ea & Eb). split; [reflexivity|]. apply (han_next UTH_THANTHAKHAT); [|discriminate].
    apply (han_next b); [exact (han_next _ _ H (cons_han _ Ea))|]. intros ->. discriminate Eb.
Qed.
Lemma han_silent2 t : Han t -> silent2 (t ++ K) = silent2 t ++ K /\ Han (silent2 t).
Proof.
  intros H. destruct t as [|a [|b [|d t]]]; cbn.
  - destruct (han_ne _ H eq_refl).
  - exfalso. destruct (han_cons _ _ H) as [(_ & [X|(m & _ & X)])|X]; [discriminate X|discriminate X|exact (han_ne _ X eq_refl)].
  - rewrite k_kar, andb_false_r. split; [reflexivity|exact H].
  - destruct (_ && _) eqn:E; [|split; [reflexivity|exact H]]. apply andb_prop in E. destruct E as (E1 & E2). apply N.eqb_eq in E2. subst d.
    apply andb_prop in E1. destruct E1 as (Ea & Eb). split; [reflexivity|]. apply (han_next UTH_THANTHAKHAT); [|discriminate].
    apply (han_next b); [exact (han_next _ _ H (cons_han _ Ea))|exact (cons_han _ Eb)].
Qed.
Lemma han_or t : Han t -> exists r, (if length (silent (t ++ K)) <? length (t ++ K) then silent (t ++ K) else silentIU (t ++ K)) = r ++ K /\
  r = (if length (silent t) <? length t then silent t else silentIU t) /\ Han r.
Proof.
  intros H. destruct (han_silent t H) as (E1 & H1), (han_silentIU t H) as (E2 & H2). rewrite E1, E2, (app_len k v).
  eexists. split; [|split; [reflexivity|]]; destruct (_ <? _); auto.
Qed.
Lemma han_any t : Han t -> silentAny (t ++ K) = silentAny t ++ K /\ Han (silentAny t).
Proof.
  intros H. destruct (han_silent t H) as (E1 & H1), (han_silentIU t H) as (E2 & H2), (han_silent2 t H) as (E3 & H3).
  unfold silentAny. cbv zeta. rewrite E1, E2, E3, !(app_len k v).
  destruct (length (silent t) <? _); [auto|]. destruct (length (silentIU t) <? _); auto.
Qed.
Lemma han_hd t x : Han t -> hd_error (t ++ K) <> Some x -> hd_error t <> Some x.
Proof. intros H. destruct t; [destruct (han_ne _ H eq_refl)|auto]. Qed.
Lemma han_join t : Han t -> join t = t ++ K.
Proof. intros H. apply join_ne, han_ne, H. Qed.
Lemma one_han s x : forallb consonant (letters s) = true -> oneOf s x -> x <> UTH_MAI_HAN_AKAT.
Proof. intros F O. apply cons_han. rewrite forallb_forall in F. exact (F x O). Qed.
(** The rest of a reading of [t ++ K]. *)
Definition Rest (R r : list N) : Prop := R = join r /\ (r = [] \/ Han r).
Lemma rest_of r : Han r -> Rest (r ++ K) r.
Proof. intros H. split; [symmetry; exact (han_join r H)|right; exact H]. Qed.

Lemma F_cutH no t e R : Final no (t ++ K) e R -> Han t -> exists r, Rest R r /\ Final no t e r.
Proof.
  intros F H. remember (t ++ K) as T eqn:E. destruct F as [x u C I]. destruct (cut2 _ _ _ E H (cons_han _ (proj1 C))) as (l & -> & -> & G).
  destruct (han_any l G) as (A & B). rewrite A. exists (silentAny l). split; [exact (rest_of _ B)|]. exact (F_cons no x l C I).
Qed.
Lemma endOrSyl_han t : Han t -> endOrSyl (t ++ K) -> endOrSyl t.
Proof. destruct t; cbn; auto. Qed.
Lemma FS_cutH no t e R b : FinalOrShared no (t ++ K) e R b -> Han t -> exists r, Rest R r /\ FinalOrShared no t e r b.
Proof.
  intros F H. remember (t ++ K) as T eqn:E. destruct F as [T' e' R' F|x R' C I S O Eo|x i R' C I O L Eo|x T' C I S Sh].
  - subst T'. destruct (F_cutH _ _ _ _ F H) as (r & A & B). exists r. split; [exact A|apply FS_final, B].
  - destruct (cut2 _ _ _ E H (cons_han _ (proj1 C))) as (l & -> & E1 & G). destruct (cut2 _ _ _ E1 G ltac:(discriminate)) as (l' & -> & -> & G').
    exists l'. split; [exact (rest_of _ G')|]. apply FS_ro; [exact C|exact I| |exact O|exact (endOrSyl_han _ G' Eo)].
    destruct (han_any _ G) as (A & _). cbn [app] in A. rewrite A in S. change (UTH_RO_RUA :: l' ++ K) with ((UTH_RO_RUA :: l') ++ K) in S.
    exact (app_inv_tail _ _ _ S).
  - destruct (cut2 _ _ _ E H (cons_han _ (proj1 C))) as (l & -> & E1 & G).
    assert (Ni : i <> UTH_MAI_HAN_AKAT) by (destruct L as [<-|[<-|[]]]; discriminate).
    destruct (cut2 _ _ _ E1 G Ni) as (l' & -> & -> & G'). exists l'. split; [exact (rest_of _ G')|]. apply FS_iu; try assumption. exact (endOrSyl_han _ G' Eo).
  - destruct (cut2 _ _ _ E H (cons_han _ (proj1 C))) as (l & -> & -> & G). exists (x :: l). split; [exact (rest_of (x :: l) H)|].
    apply FS_shared; [exact C|exact I|destruct (han_any _ G) as (A & _); rewrite A in S; exact (app_inv_tail _ _ _ S)|].
    clear E S. remember (l ++ K) as L eqn:E. destruct Sh as [y t' Lv Nv|y z t' Cy Cz].
    + destruct (cut1 _ _ _ E G) as (l' & -> & ->). apply Sh_vowel; [exact Lv|]. intros (-> & _ & X).
      apply (han_next y) in G; [exact (han_ne _ G eq_refl)|]. destruct X as [<-|[<-|[]]]; discriminate.
    + destruct (cut2 _ _ _ E G (cons_han _ Cy)) as (l' & -> & E1 & G'). destruct (cut1 _ _ _ E1 G') as (l'' & -> & ->). exact (Sh_cons x y z l'' Cy Cz).
Qed.
(** Right after MAI HAN AKAT. *)
Lemma FS_tail e R b : FinalOrShared (letters "ว") (c :: K) e R b -> R = [] /\ FinalOrShared (letters "ว") [c] e [] b.
Proof.
  intros F. pose proof (silentAny_K k v Ck Sv) as Z. inversion F as [T' e' R' F'|x R' C I S O Eo|x i R' C I O L Eo|x T' C I S Sh]; subst.
  - inversion F' as [x u C I]; subst. split; [exact Z|]. apply FS_final. exact (F_cons _ c [] C I).
  - rewrite S in Z. discriminate Z.
  - exfalso. destruct L as [<-|[<-|[]]]; discriminate Ck.
  - rewrite S in Z. discriminate Z.
Qed.
Lemma F_tail no e R : Final no (c :: K) e R -> R = [] /\ Final no [c] e [].
Proof.
  intros F. pose proof (silentAny_K k v Ck Sv) as Z. inversion F as [x u C I]; subst. split; [exact Z|]. exact (F_cons _ c [] C I).
Qed.
Lemma c_mark : isMark c = false.
Proof. destruct (isMark c) eqn:M; [|reflexivity]. exfalso. exact (c_other c Cc Oc c (mark_other c M) eq_refl). Qed.
Lemma tail_mark t m L : tail2 t -> mark (t ++ K) = (m, L) -> L = c :: K /\ mark t = (m, [c]).
Proof. intros [->|(x & X & ->)]; cbn; [rewrite c_mark|rewrite X]; intros E; injection E as <- <-; auto. Qed.

Lemma noRo_han t : Han t -> noRo (t ++ K) -> noRo t.
Proof. destruct t; cbn; auto. Qed.
Lemma noLong_han t : Han t -> noLong (t ++ K) -> noLong t.
Proof. destruct t; cbn; auto. Qed.
Lemma canEnd_cons x : canEnd x -> consonant x = true.
Proof. intros C. exact (proj1 C). Qed.
Ltac nh := first [discriminate | apply cons_han; assumption | apply cons_han; apply canEnd_cons; assumption | apply mark_han; assumption
  | eapply one_han; [|eassumption]; vm_compute; reflexivity].
Ltac cut E H := let l := fresh "l" in let G := fresh "G" in let E1 := fresh "E1" in
  destruct (cut2 _ _ _ E H ltac:(nh)) as (l & -> & E1 & G).
Lemma Initial_cutH lk t o R : InitialAt lk (t ++ K) o R -> Han t -> exists r, R = r ++ K /\ Han r /\ InitialAt lk t o r.
Proof.
  intros I H. remember (t ++ K) as T eqn:E.
  destruct I as [x t' C|x t' Lk O N|x t' O N|x t' Lk O|x t' Lk O|d t' C Cl N|x d t' C C' N|x t' O N|x t' O N|x t' O N|x t' O N|x t' O N|x y t' O Cy|x v' t' C O N V|x v' t' C O N V].
  - cut E H. subst. exists l. split; [reflexivity|]. split; [assumption|]. constructor; assumption.
  - cut E H. cut E1 G. subst. eexists. split; [reflexivity|]. split; [eassumption|]. apply I_false; auto using noRo_han.
  - assert (Nx : x <> UTH_MAI_HAN_AKAT) by (destruct O as [O|(_ & O)]; nh).
    destruct (cut2 _ _ _ E H Nx) as (l & -> & E1 & G). cut E1 G. subst. eexists. split; [reflexivity|]. split; [eassumption|]. apply I_ra; auto using noRo_han.
  - cut E H. cut E1 G. subst. eexists. split; [reflexivity|]. split; [eassumption|]. apply I_la; auto.
  - cut E H. cut E1 G. subst. eexists. split; [reflexivity|]. split; [eassumption|]. apply I_wa; auto.
  - cut E H. cut E1 G. subst. eexists. split; [reflexivity|]. split; [eassumption|]. apply I_ho; auto using noRo_han.
  - cut E H. cut E1 G. subst. eexists. split; [reflexivity|]. split; [eassumption|]. apply I_lead; auto using noRo_han.
  - cut E H. cut E1 G. subst. eexists. split; [reflexivity|]. split; [eassumption|]. apply I_ru_ri; auto using noLong_han.
  - cut E H. cut E1 G. subst. eexists. split; [reflexivity|]. split; [eassumption|]. apply I_ru_si; auto using noLong_han.
  - cut E H. cut E1 G. subst. eexists. split; [reflexivity|]. split; [eassumption|]. apply I_ru_sari; auto using noLong_han.
  - cut E H. cut E1 G. subst. eexists. split; [reflexivity|]. split; [eassumption|]. apply I_ru_wrue; auto using noLong_han.
  - cut E H. cut E1 G. subst. eexists. split; [reflexivity|]. split; [eassumption|]. apply I_ru_narue; auto using noLong_han.
  - cut E H. destruct (cut2 _ _ _ E1 G ltac:(nh)) as (l2 & -> & E2 & G0). destruct (cut1 _ _ _ E2 G0) as (l1 & -> & ->). exists (y :: l1). split; [reflexivity|]. split; [assumption|]. apply I_ru_khrue; auto.
  - cut E H. cut E1 G. subst. eexists. split; [reflexivity|]. split; [eassumption|]. apply I_ru_any; auto using noLong_han.
  - cut E H. cut E1 G. subst. eexists. split; [reflexivity|]. split; [eassumption|]. apply I_ru_any_lead; auto using noLong_han.
Qed.
Ltac mk H := match goal with M : mark _ = _ |- _ => let l := fresh "ml" in let G := fresh "mG" in let E := fresh "mE" in
  destruct (mark_cutH _ _ _ M H) as (l & ?M & E & G) end.
Ltac sl G := let A := fresh in let B := fresh in destruct (han_silent _ G) as (A & B); rewrite ?A in *; eexists; (split; [exact (rest_of _ B)|]).
Lemma Rime_cutH lk o t vo e m R b : Rime lk o (t ++ K) vo e m R b -> Han t -> exists r, Rest R r /\ Rime lk o t vo e m r b.
Proof.
  intros I H. remember (t ++ K) as T eqn:E.
  destruct I as [u m r M|u m r M Hd|u e r b F|u m t' e r M Nm F|x s u m t' I M|x s u t' e r b I M S F|x s u m t' e r I M S F
    |u m r M|u m t' M Hd|u m t' e r M F|u e r F|u m r M|u m r M|u m r e r' b M F|u m r M|u m r e r' M F|u m r M|u m r e r' M F
    |u m r M So|u m r r' M Er|u m r r' e r'' b M Er S F|u m t' e r M O1 O2 O3 F|u m x t' y M O1 C O2|u m t' y e r b M O1 F].
  (* MAI HAN AKAT *)
  1-4: destruct (cut1 _ _ _ E H) as (l0 & -> & ->); destruct (han_cons _ _ H) as [(_ & Tl)|G].
  - destruct (tail_mark _ _ _ Tl M) as (X & _). exfalso. injection X as X _. apply Oc. left. exact X.
  - mk G. cut mE mG. cut E1 G0. subst. sl G1. eapply R_ua; eassumption.
  - destruct (tail_mark _ _ _ Tl M) as (X & _). exfalso. injection X as X _. apply Oc. left. exact X.
  - mk G. cut mE mG. subst. sl G0. eapply R_uaa; [eassumption|exact (han_hd _ _ G0 Hd)].
  - destruct Tl as [->|(y & Y & ->)].
    + destruct (FS_tail _ _ _ F) as (-> & F'). exists []. split; [split; [reflexivity|left; reflexivity]|]. apply R_an. exact F'.
    + exfalso. cbn [app] in F. assert (C : consonant y = true) by (inversion F as [? ? ? F'|? ? C|? ? ? C|? ? C]; subst; [inversion F' as [? ? C]; subst|..]; exact (proj1 C)).
      apply Prop_Silenced.consonant_range in C. unfold isMark in Y. apply andb_prop in Y. rewrite !N.leb_le in Y. lia.
  - destruct (FS_cutH _ _ _ _ _ F G) as (r0 & A & B). exists r0. split; [exact A|]. apply R_an, B.
  - destruct (tail_mark _ _ _ Tl M) as (-> & M'). destruct (F_tail _ _ _ F) as (-> & F'). exists []. split; [split; [reflexivity|left; reflexivity]|]. eapply R_an_marked; eassumption.
  - mk G. subst. destruct (F_cutH _ _ _ _ F mG) as (r0 & A & B). exists r0. split; [exact A|]. eapply R_an_marked; eassumption.
  (* vowels above and below *)
  - assert (Ns : s <> UTH_MAI_HAN_AKAT) by (intros ->; repeat (destruct I as [I|I]; [discriminate I|]); destruct I).
    destruct (cut2 _ _ _ E H Ns) as (l0 & -> & -> & G). mk G. subst. destruct (han_or _ mG) as (r0 & A & Er & B). exists r0. rewrite A. split; [exact (rest_of _ B)|].
    rewrite Er. eapply R_above_open; eassumption.
  - assert (Ns : s <> UTH_MAI_HAN_AKAT) by (intros ->; repeat (destruct I as [I|I]; [discriminate I|]); destruct I).
    destruct (cut2 _ _ _ E H Ns) as (l0 & -> & -> & G). mk G. subst. destruct (han_silent _ mG) as (A & B). rewrite A in F.
    destruct (FS_cutH _ _ _ _ _ F B) as (r0 & C & D). exists r0. split; [exact C|]. eapply R_above_shared; try eassumption.
    destruct (han_silentIU _ mG) as (A' & _). rewrite A' in S. exact (app_inv_tail _ _ _ S).
  - assert (Ns : s <> UTH_MAI_HAN_AKAT) by (intros ->; repeat (destruct I as [I|I]; [discriminate I|]); destruct I).
    destruct (cut2 _ _ _ E H Ns) as (l0 & -> & -> & G). mk G. subst. destruct (han_silent _ mG) as (A & B). rewrite A in F.
    destruct (F_cutH _ _ _ _ F B) as (r0 & C & D). exists r0. split; [exact C|]. eapply R_above_final; try eassumption.
    destruct (han_silentIU _ mG) as (A' & _). rewrite A' in S. exact (app_inv_tail _ _ _ S).
  - cut E H. subst. mk G. cut mE mG. subst. sl G0. eapply R_uee; eassumption.
  - cut E H. subst. mk G. subst. exists ml. split; [exact (rest_of _ mG)|]. eapply R_uee_bare; [eassumption|]. destruct ml; [exact Logic.I|exact Hd].
  - cut E H. subst. mk G. subst. destruct (F_cutH _ _ _ _ F mG) as (r0 & A & B). exists r0. split; [exact A|]. eapply R_uee_final; eassumption.
  - cut E H. cut E1 G. subst. destruct (han_silent _ G0) as (A & B). rewrite A in F. destruct (F_cutH _ _ _ _ F B) as (r0 & C & D). exists r0. split; [exact C|]. apply R_au, D.
  - subst. mk H. cut mE mG. subst. sl G. eapply R_a; eassumption.
  - subst. mk H. cut mE mG. subst. sl G. eapply R_aa; eassumption.
  - subst. mk H. cut mE mG. subst. destruct (han_silent _ G) as (A & B). rewrite A in F. destruct (FS_cutH _ _ _ _ _ F B) as (r0 & C & D). exists r0. split; [exact C|]. eapply R_aa_final; eassumption.
  - subst. mk H. cut mE mG. subst. sl G. eapply R_am; eassumption.
  - subst. mk H. cut mE mG. subst. destruct (F_cutH _ _ _ _ F G) as (r0 & C & D). exists r0. split; [exact C|]. eapply R_ua_final; eassumption.
  - subst. mk H. cut mE mG. subst. sl G. eapply R_auu; eassumption.
  - subst. mk H. cut mE mG. subst. destruct (han_silent _ G) as (A & B). rewrite A in F. destruct (F_cutH _ _ _ _ F B) as (r0 & C & D). exists r0. split; [exact C|]. eapply R_auu_final; eassumption.
  - subst. mk H. cut mE mG. subst. sl G. eapply R_on; eassumption.
  - subst. mk H. cut mE mG. subst. destruct (han_silent _ G) as (A & B). rewrite A in Er.
    assert (X : exists l', (if ics_eqb (oSound o) RA then l else silent l) = UTH_RO_RUA :: l' /\ r' = l' ++ K /\ Han l').
    { destruct (ics_eqb _ _); symmetry in Er; [destruct (cut2 _ _ _ Er G ltac:(discriminate)) as (l' & -> & -> & G')|destruct (cut2 _ _ _ Er B ltac:(discriminate)) as (l' & E1 & -> & G')]; exists l'; auto. }
    destruct X as (l' & E1 & -> & G'). sl G'. eapply R_ran; eassumption.
  - subst. mk H. cut mE mG. subst. destruct (han_silent _ G) as (A & B). rewrite A in Er.
    assert (X : exists l', (if ics_eqb (oSound o) RA then l else silent l) = UTH_RO_RUA :: l' /\ r' = l' ++ K /\ Han l').
    { destruct (ics_eqb _ _); symmetry in Er; [destruct (cut2 _ _ _ Er G ltac:(discriminate)) as (l' & -> & -> & G')|destruct (cut2 _ _ _ Er B ltac:(discriminate)) as (l' & E1 & -> & G')]; exists l'; auto. }
    destruct X as (l' & E1 & -> & G'). destruct (FS_cutH _ _ _ _ _ F G') as (r0 & C & D). exists r0. split; [exact C|]. eapply R_rac; try eassumption.
    destruct (han_silent _ G') as (A' & _). rewrite A' in S. exact (app_inv_tail _ _ _ S).
  - subst. mk H. subst. destruct (F_cutH _ _ _ _ F mG) as (r0 & C & D). exists r0. split; [exact C|]. eapply R_o; first [eassumption|reflexivity].
  - subst. mk H. destruct (cut1 _ _ _ mE mG) as (l & -> & ->). exists (x :: l). split; [exact (rest_of (x :: l) mG)|]. eapply R_ru; eassumption.
  - subst. mk H. subst. destruct (FS_cutH _ _ _ _ _ F mG) as (r0 & C & D). exists r0. split; [exact C|]. eapply R_ru_final; eassumption.
Qed.
Lemma RimeE_cutH o t vo e m R b : RimeE o (t ++ K) vo e m R b -> Han t -> exists r, Rest R r /\ RimeE o t vo e m r b.
Proof.
  intros I H. remember (t ++ K) as T eqn:E.
  destruct I as [A|x M|u m t' e r M F|u m r M|u m r M Hd|u m r e r' b M Hd F|u m r M|u m r M Hd|u m r e r' M Hd F|u e r F
    |u m r M|u m r M Hd|u m r M A|u m r M|u m r M Hd|u m r M Eo|u m x r M A O1 O2 Y|u m x r e r' b M A O Y F].
  - destruct t; discriminate E.
  - destruct t as [|? [|? t]]; discriminate E.
  - cut E H. subst. mk G. subst. destruct (han_silent _ mG) as (A & B). rewrite A in F. destruct (F_cutH _ _ _ _ F B) as (r0 & C & D). exists r0. split; [exact C|]. eapply E_oe_final; eassumption.
  - cut E H. subst. mk G. cut mE mG. cut E1 G0. subst. sl G1. eapply E_ia; eassumption.
  - cut E H. subst. mk G. cut mE mG. subst. sl G0. eapply E_iaa; [eassumption|exact (han_hd _ _ G0 Hd)].
  - cut E H. subst. mk G. cut mE mG. subst. destruct (han_silent _ G0) as (A & B). rewrite A in F. destruct (FS_cutH _ _ _ _ _ F B) as (r0 & C & D). exists r0. split; [exact C|]. eapply E_iaa_final; [eassumption|exact (han_hd _ _ G0 Hd)|exact D].
  - cut E H. subst. mk G. cut mE mG. cut E1 G0. subst. sl G1. eapply E_uea; eassumption.
  - cut E H. subst. mk G. cut mE mG. subst. sl G0. eapply E_ueaa; [eassumption|exact (han_hd _ _ G0 Hd)].
  - cut E H. subst. mk G. cut mE mG. subst. destruct (han_silent _ G0) as (A & B). rewrite A in F. destruct (F_cutH _ _ _ _ F B) as (r0 & C & D). exists r0. split; [exact C|]. eapply E_ueaa_final; [eassumption|exact (han_hd _ _ G0 Hd)|exact D].
  - cut E H. subst. destruct (F_cutH _ _ _ _ F G) as (r0 & C & D). exists r0. split; [exact C|]. apply E_e_final, D.
  - subst. mk H. cut mE mG. cut E1 G. subst. sl G0. eapply E_oe; eassumption.
  - subst. mk H. cut mE mG. subst. sl G. eapply E_oee; [eassumption|exact (han_hd _ _ G Hd)].
  - subst. mk H. cut mE mG. subst. sl G. eapply E_e; eassumption.
  - subst. mk H. cut mE mG. cut E1 G. subst. sl G0. eapply E_au; eassumption.
  - subst. mk H. cut mE mG. subst. sl G. eapply E_ao; [eassumption|exact (han_hd _ _ G Hd)].
  - subst. mk H. cut mE mG. subst. sl G. eapply E_oey; [eassumption|exact (endOrSyl_han _ G Eo)].
  - subst. mk H. destruct (cut1 _ _ _ mE mG) as (l & -> & ->). change (x :: l ++ K) with ((x :: l) ++ K). destruct (han_silent _ mG) as (Z & B). rewrite Z.
    exists (silent (x :: l)). split; [exact (rest_of _ B)|]. eapply E_ee; [eassumption|assumption..|]. intros (X1 & X2). apply Y. split; [exact X1|].
    destruct l as [|z l]; [|exact X2]. exfalso. subst x. apply (han_next UTH_YO_YAK) in mG; [exact (han_ne _ mG eq_refl)|discriminate].
  - subst. mk H. destruct (cut1 _ _ _ mE mG) as (l & -> & ->). change (x :: l ++ K) with ((x :: l) ++ K) in F. destruct (han_silent _ mG) as (Z & B). rewrite Z in F.
    destruct (FS_cutH _ _ _ _ _ F B) as (r0 & C & D). exists r0. split; [exact C|]. eapply E_ee_final; [eassumption|assumption..| |exact D]. intros (X1 & X2). apply Y. split; [exact X1|].
    destruct l as [|z l]; [|exact X2]. exfalso. subst x. apply (han_next UTH_YO_YAK) in mG; [exact (han_ne _ mG eq_refl)|discriminate].
Qed.
Lemma RimeL_cutH l t vo e m R b : RimeL l (t ++ K) vo e m R b -> Han t -> exists r, Rest R r /\ RimeL l t vo e m r b.
Proof.
  intros I H. remember (t ++ K) as T eqn:E.
  destruct I as [u m r M|u m r e r' M F|u m t' M H1 H2|u m t' e r M F|u m r M|u m t' M H1|u m t' e r b M S F|u m t' M|u m r M Eo|u m t' M]; subst; mk H.
  - cut mE mG. subst. sl G. eapply L_ae; eassumption.
  - cut mE mG. subst. destruct (F_cutH _ _ _ _ F G) as (r0 & C & D). exists r0. split; [exact C|]. eapply L_ae_final; eassumption.
  - subst. sl mG. eapply L_aee; [eassumption|exact (han_hd _ _ mG H1)|exact (han_hd _ _ mG H2)].
  - subst. destruct (han_silent _ mG) as (A & B). rewrite A in F. destruct (F_cutH _ _ _ _ F B) as (r0 & C & D). exists r0. split; [exact C|]. eapply L_aee_final; eassumption.
  - cut mE mG. subst. destruct (han_or _ G) as (r0 & A & Er & B). rewrite A. exists r0. split; [exact (rest_of _ B)|]. rewrite Er. eapply L_o; eassumption.
  - subst. destruct (han_or _ mG) as (r0 & A & Er & B). rewrite A. exists r0. split; [exact (rest_of _ B)|]. rewrite Er. eapply L_oo; [eassumption|exact (han_hd _ _ mG H1)].
  - subst. destruct (han_silent _ mG) as (A & B). rewrite A in F. destruct (FS_cutH _ _ _ _ _ F B) as (r0 & C & D). exists r0. split; [exact C|]. eapply L_oo_final; [eassumption| |exact D].
    destruct (han_silentIU _ mG) as (A' & _). rewrite A' in S. exact (app_inv_tail _ _ _ S).
  - subst. sl mG. eapply L_ai; eassumption.
  - cut mE mG. subst. exists l. split; [exact (rest_of _ G)|]. eapply L_aiy; [eassumption|exact (endOrSyl_han _ G Eo)].
  - subst. sl mG. eapply L_aimuan; eassumption.
Qed.
Lemma Implied_cutH t p x R : Implied (t ++ K) p x R -> Han t -> exists r, Rest R r /\ Implied t p x r.
Proof.
  intros I H. remember (t ++ K) as T eqn:E.
  destruct I as [y z u p O Sz Nz P|z u p P|z u p P|z u p Z P|y z u p Cy Sz P|y z u p Cy O N X P].
  - cut E H. destruct (cut2 _ _ _ E1 G ltac:(nh)) as (l2 & -> & E2 & G2). destruct (cut1 _ _ _ E2 G2) as (l3 & -> & ->).
    exists (z :: l3). split; [exact (rest_of (z :: l3) G2)|]. apply M_aura; assumption.
  - cut E H. destruct (cut2 _ _ _ E1 G ltac:(nh)) as (l2 & -> & E2 & G2). destruct (cut2 _ _ _ E2 G2 ltac:(nh)) as (l3 & -> & E3 & G3). destruct (cut1 _ _ _ E3 G3) as (l4 & -> & ->).
    exists (z :: l4). split; [exact (rest_of (z :: l4) G3)|]. apply M_bori; assumption.
  - cut E H. destruct (cut2 _ _ _ E1 G ltac:(nh)) as (l2 & -> & E2 & G2). destruct (cut2 _ _ _ E2 G2 ltac:(nh)) as (l3 & -> & E3 & G3). destruct (cut1 _ _ _ E3 G3) as (l4 & -> & ->).
    exists (z :: l4). split; [exact (rest_of (z :: l4) G3)|]. apply M_jora; assumption.
  - cut E H. destruct (cut2 _ _ _ E1 G ltac:(nh)) as (l2 & -> & E2 & G2). destruct (cut1 _ _ _ E2 G2) as (l3 & -> & ->).
    exists (UTH_DO_DEK :: z :: l3). split; [exact (rest_of (UTH_DO_DEK :: z :: l3) G)|]. apply M_bodi; assumption.
  - cut E H. destruct (cut1 _ _ _ E1 G) as (l3 & -> & ->). exists (z :: l3). split; [exact (rest_of (z :: l3) G)|]. apply M_a; assumption.
  - cut E H. destruct (cut2 _ _ _ E1 G ltac:(nh)) as (l2 & -> & E2 & G2). destruct (cut1 _ _ _ E2 G2) as (l3 & -> & ->).
    exists (z :: l3). split; [exact (rest_of (z :: l3) G2)|]. apply M_rue; assumption.
Qed.
Lemma RimeRu_cutH t vo e R b : RimeRu (t ++ K) vo e R b -> Han t -> exists r, Rest R r /\ RimeRu t vo e r b.
Proof.
  intros I H. remember (t ++ K) as T eqn:E. destruct I as [|x u X|x u C F|x u e r b Eo F].
  - destruct t; discriminate E.
  - destruct (cut2 _ _ _ E H ltac:(destruct X; subst; discriminate)) as (l & -> & -> & G). exists l. split; [exact (rest_of _ G)|]. apply U_long, X.
  - cut E H. subst. exists (x :: l). split; [exact (rest_of (x :: l) H)|]. apply U_open; [exact C|]. intros (A & B). apply F. split; [exact A|].
    destruct l; [destruct (han_ne _ G eq_refl)|exact B].
  - destruct (cut1 _ _ _ E H) as (l & -> & ->). change (x :: l ++ K) with ((x :: l) ++ K) in F. destruct (FS_cutH _ _ _ _ _ F H) as (r0 & A & B). exists r0. split; [exact A|].
    apply U_closed; [|exact B]. destruct l; [exact Logic.I|exact Eo].
Qed.
Lemma Reads_cutH lk t p x R b : Reads lk (t ++ K) p x R b -> Han t -> exists r, Rest R r /\ Reads lk t p x r b.
Proof.
  intros I H. remember (t ++ K) as T eqn:E.
  destruct I as [T o t1 vo e m R b p x I R0 L S|T o t1 vo e m R b p x I R0 L S|l T o t1 vo e m R b p x I R0 L S|T p x R I|y T vo e R b tn U R0 Tn].
  - subst T. destruct (Initial_cutH _ _ _ _ I H) as (r1 & -> & G & I'). destruct (Rime_cutH _ _ _ _ _ _ _ _ R0 G) as (r & A & B).
    exists r. split; [exact A|]. eapply Rd_plain; eassumption.
  - destruct (cut2 _ _ _ E H ltac:(discriminate)) as (t0 & -> & -> & G0). destruct (Initial_cutH _ _ _ _ I G0) as (r1 & -> & G & I'). destruct (RimeE_cutH _ _ _ _ _ _ _ R0 G) as (r & A & B).
    exists r. split; [exact A|]. eapply Rd_e; eassumption.
  - assert (Nl : l <> UTH_MAI_HAN_AKAT) by (destruct R0; discriminate).
    destruct (cut2 _ _ _ E H Nl) as (t0 & -> & -> & G0). destruct (Initial_cutH _ _ _ _ I G0) as (r1 & -> & G & I'). destruct (RimeL_cutH _ _ _ _ _ _ _ R0 G) as (r & A & B).
    exists r. split; [exact A|]. eapply Rd_lead; eassumption.
  - subst T. destruct (Implied_cutH _ _ _ _ I H) as (r & A & B). exists r. split; [exact A|]. apply Rd_implied, B.
  - assert (Ny : y <> UTH_MAI_HAN_AKAT) by (destruct U; subst; discriminate).
    destruct (cut2 _ _ _ E H Ny) as (t0 & -> & -> & G0). destruct (RimeRu_cutH _ _ _ _ _ R0 G0) as (r & A & B). exists r. split; [exact A|]. eapply Rd_ru; eassumption.
Qed.

(** ** Words *)
Variable w : list N.
Hypothesis HW : Han w.
Notation W' := (w ++ K).
Lemma way_cut t lk p x R lk' : t = [] \/ Han t -> Reads lk (join t) p x R lk' -> exists r, R = join r /\ (r = [] \/ Han r) /\ Reads lk t p x r lk'.
Proof.
  intros [->|H] R0; [destruct (reads_ne _ _ _ _ _ _ R0 eq_refl)|]. rewrite (han_join _ H) in R0.
  destruct (Reads_cutH _ _ _ _ _ _ R0 H) as (r & (A & B) & C). eauto.
Qed.
Lemma join_inj t t' : join t = join t' -> t = t'.
Proof.
  destruct t as [|x t], t' as [|y t']; cbn [Prop_Silenced2.join]; intros E; try discriminate E; [reflexivity|]. exact (app_inv_tail _ _ _ E).
Qed.
Lemma Fin_cut T lk : Finishes noWords W' T lk -> forall t, T = join t -> t = [] \/ Han t -> Finishes noWords w t lk.
Proof.
  induction 1 as [lk|T lk es R lk' W F IH]; intros t E H.
  - destruct t; [apply Fn_end|discriminate E].
  - subst T. apply way_none in W. destruct W as (p & x & R0 & _). destruct (way_cut _ _ _ _ _ _ H R0) as (r & -> & Hr & R1).
    eapply Fn_step; [apply way_none; exists p, x; split; [exact R1|reflexivity]|exact (IH r eq_refl Hr)].
Qed.
Lemma Reach_cut T lk : Reached noWords W' T lk -> exists t, T = join t /\ (t = [] \/ Han t) /\ Reached noWords w t lk.
Proof.
  induction 1 as [|T lk es R lk' R0 (t & -> & H & IH) W].
  - exists w. split; [symmetry; exact (han_join _ HW)|]. split; [right; exact HW|apply Rc_start].
  - apply way_none in W. destruct W as (p & x & R1 & _). destruct (way_cut _ _ _ _ _ _ H R1) as (r & -> & Hr & R2). exists r. split; [reflexivity|]. split; [exact Hr|].
    eapply Rc_step; [exact IH|]. apply way_none. exists p, x. split; [exact R2|reflexivity].
Qed.
Lemma Used_cut t p x R : Used W' (join t) p x R -> exists r, R = join r /\ Used w t p x r.
Proof.
  intros (lk & lk' & R0 & R1 & F). destruct (Reach_cut _ _ R0) as (t' & E & H & R2). apply join_inj in E. subst t'.
  destruct (way_cut _ _ _ _ _ _ H R1) as (r & -> & Hr & R3). exists r. split; [reflexivity|]. exists lk, lk'. split; [exact R2|]. split; [exact R3|exact (Fin_cut _ _ F r eq_refl Hr)].
Qed.
Lemma Says_cut T s' : Says W' T s' -> forall t, T = join t -> exists s, Says w t s /\ map spoken s = map spoken s'.
Proof.
  induction 1 as [|T x R s' U S IH|T p x p' x' R s' U1 U2 S IH]; intros t E.
  - destruct t; [|discriminate E]. exists []. split; [apply Sy_end|reflexivity].
  - subst T. destruct (Used_cut _ _ _ _ U) as (r & -> & U'). destruct (IH r eq_refl) as (s & Ss & E). eexists. split; [apply Sy_one; [exact U'|exact Ss]|].
    cbn [map]. rewrite E. reflexivity.
  - subst T. destruct (Used_cut _ _ _ _ U1) as (r & -> & U1'). destruct (Used_cut _ _ _ _ U2) as (r' & E' & U2'). apply join_inj in E'. subst r'.
    destruct (IH r eq_refl) as (s & Ss & E). eexists. split; [eapply Sy_two; [exact U1'|exact U2'|exact Ss]|].
    cbn [map]. rewrite E. reflexivity.
Qed.
End Cutting.

(** ** C107 *)
Lemma silencable_letter v : silencable v -> thaiLetter v = true.
Proof.
  intros [C|[<-|[<-|[]]]]; [|reflexivity|reflexivity]. apply Prop_Silenced.consonant_range in C. unfold thaiLetter. destruct C as (A & B).
  rewrite (proj2 (N.leb_le _ _) A). replace (v <=? 0xe39)%N with true by (symmetry; apply N.leb_le; lia).
  cbn. apply negb_true_iff, N.eqb_neq. lia.
Qed.
Lemma C107_lemma w k v dict brk brk' l l' : Forall (fun c => thaiLetter c = true) w -> closedWord w -> consonant k = true -> silencable v ->
  (forall x, In x brk -> x = 0 \/ x = length w) -> (forall x, In x brk' -> x = 0 \/ x = length w + 3) ->
  dictOKo dict -> unlisted dict (w ++ [k; v; UTH_THANTHAKHAT]) ->
  pronounced libthai_ct w dict brk l -> pronounced libthai_ct (w ++ [k; v; UTH_THANTHAKHAT]) dict brk' l' ->
  forall s, In s l -> exists s', In s' l' /\ map spoken s' = map spoken s.
Proof.
  intros L (y & c & (u & Ew) & Sy & Cc & Oc) Ck Sv B B' D U P P' s I.
  assert (N : 2 <= length w) by (rewrite Ew, app_length; cbn; lia).
  assert (Ul : unlisted dict w).
  { intros a q r strs E Eo. apply (U a q (r ++ [k; v; UTH_THANTHAKHAT]) strs); [rewrite E, <- !app_assoc; reflexivity|].
    exact (endOrSyl_join k v Ck r Eo). }
  apply (C56_word_grammar w dict brk l L N B D Ul P) in I.
  assert (G : Good c w).
  { split; [exists (u ++ [y]); rewrite Ew, <- app_assoc; reflexivity|]. intros z (a & E). rewrite Ew in E.
    change [y; c] with ([y] ++ [c]) in E. change [z; c] with ([z] ++ [c]) in E. rewrite !app_assoc in E.
    apply app_inj_tail in E. destruct E as (E & _). apply app_inj_tail in E. destruct E as (_ & <-). exact Sy. }
  destruct (Says_join k v c Ck Sv Cc Oc w G w s I) as (s' & I' & E). exists s'. split; [|exact E].
  rewrite (join_ne k v w (good_ne c w G)) in I'.
  apply (C56_word_grammar (w ++ [k; v; UTH_THANTHAKHAT]) dict brk' l'); [|rewrite app_length; lia|rewrite app_length; exact B'|exact D|exact U|exact P'|exact I'].
  apply Forall_app. split; [exact L|]. constructor; [exact (silencable_letter k (or_introl Ck))|]. constructor; [exact (silencable_letter v Sv)|]. constructor; [reflexivity|constructor].
Qed.
(** Every pronunciation of the word stays one with the two silenced letters. *)
Theorem C107_kept w k v dict brk brk' l l' : Forall (fun c => thaiLetter c = true) w -> closedWord w -> consonant k = true -> silencable v ->
  (forall x, In x brk -> x = 0 \/ x = length w) -> (forall x, In x brk' -> x = 0 \/ x = length w + 3) ->
  dictOKo dict -> unlisted dict (w ++ [k; v; UTH_THANTHAKHAT]) ->
  pronounced libthai_ct w dict brk l -> pronounced libthai_ct (w ++ [k; v; UTH_THANTHAKHAT]) dict brk' l' ->
  forall s, In s l -> exists s', In s' l' /\ map spoken s' = map spoken s.
Proof. exact (C107_lemma w k v dict brk brk' l l'). Qed.
Print Assumptions C107_kept.
(** The last vowel is MAI HAN AKAT, perhaps with a mark. *)
Definition hanWord (w : list N) : Prop := exists c, consonant c = true /\ ~ oneOf "วยอร" c /\
  (ends w [UTH_MAI_HAN_AKAT; c] \/ exists m, isMark m = true /\ ends w [UTH_MAI_HAN_AKAT; m; c]).
Lemma C107_lemma2 w k v dict brk brk' l l' : Forall (fun c => thaiLetter c = true) w -> hanWord w -> consonant k = true -> silencable v ->
  (forall x, In x brk -> x = 0 \/ x = length w) -> (forall x, In x brk' -> x = 0 \/ x = length w + 3) ->
  dictOKo dict -> unlisted dict (w ++ [k; v; UTH_THANTHAKHAT]) ->
  pronounced libthai_ct w dict brk l -> pronounced libthai_ct (w ++ [k; v; UTH_THANTHAKHAT]) dict brk' l' ->
  forall s', In s' l' -> exists s, In s l /\ map spoken s = map spoken s'.
Proof.
  intros L (c & Cc & Oc & H) Ck Sv B B' D U P P' s' I.
  assert (N : 2 <= length w) by (destruct H as [(u & ->)|(m & _ & u & ->)]; rewrite app_length; cbn; lia).
  assert (Ul : unlisted dict w).
  { intros a q r strs E Eo. apply (U a q (r ++ [k; v; UTH_THANTHAKHAT]) strs); [rewrite E, <- !app_assoc; reflexivity|].
    exact (endOrSyl_join k v Ck r Eo). }
  apply (C56_word_grammar (w ++ [k; v; UTH_THANTHAKHAT]) dict brk' l') in I; [|apply Forall_app; split; [exact L|]; constructor; [exact (silencable_letter k (or_introl Ck))|]; constructor; [exact (silencable_letter v Sv)|]; constructor; [reflexivity|constructor]
    |rewrite app_length; lia|rewrite app_length; exact B'|exact D|exact U|exact P'].
  destruct (Says_cut k v c Ck Sv Cc Oc w H _ s' I w (eq_sym (han_join k v c w H))) as (s & S & E). exists s. split; [|exact E].
  apply (C56_word_grammar w dict brk l L N B D Ul P). exact S.
Qed.
(** After MAI HAN AKAT and the final, the longer word has no others. *)
Theorem C107_none_added w k v dict brk brk' l l' : Forall (fun c => thaiLetter c = true) w -> hanWord w -> consonant k = true -> silencable v ->
  (forall x, In x brk -> x = 0 \/ x = length w) -> (forall x, In x brk' -> x = 0 \/ x = length w + 3) ->
  dictOKo dict -> unlisted dict (w ++ [k; v; UTH_THANTHAKHAT]) ->
  pronounced libthai_ct w dict brk l -> pronounced libthai_ct (w ++ [k; v; UTH_THANTHAKHAT]) dict brk' l' ->
  forall s', In s' l' -> exists s, In s l /\ map spoken s = map spoken s'.
Proof. exact (C107_lemma2 w k v dict brk brk' l l'). Qed.
Print Assumptions C107_none_added.
(** After an open syllable, a consonant preceded by a consonant or a leading
    vowel, WO WAEN, YO YAK, O ANG and RO RUA, pronunciations are lost; and
    others can be added even after a final consonant. *)
Theorem C107_conditions_needed : Prop_Silenced.unheard "กา" "กาทร์" /\ Prop_Silenced.unheard "แกล" "แกลทร์" /\ Prop_Silenced.unheard "เก" "เกทร์" /\
  Prop_Silenced.unheard "ตัว" "ตัวทร์" /\ Prop_Silenced.unheard "เสีย" "เสียทร์" /\ Prop_Silenced.unheard "มือ" "มือทร์" /\ Prop_Silenced.unheard "จรร" "จรรทร์" /\
  Prop_Silenced.unheard "กานทร์" "กาน".
Proof. repeat split; apply Prop_Silenced.unheard_by; vm_compute; reflexivity. Qed.
Print Assumptions C107_conditions_needed.
(** "จันทร์" (moon), "สิทธิ์" (right) and "พันธุ์" (breed) are said like "จัน",
    "สิท" and "พัน". *)
Example C107_case : Forall (fun q : string * N * N * nat => match q with (s, k, v, n) =>
  Forall (fun c => thaiLetter c = true) (letters s) /\ closedWord (letters s) /\ consonant k = true /\ silencable v /\
  dictOKo None /\ unlisted None (letters s ++ [k; v; UTH_THANTHAKHAT]) /\
  exists l l', pronounced libthai_ct (letters s) None [] l /\ pronounced libthai_ct (letters s ++ [k; v; UTH_THANTHAKHAT]) None [] l' /\
    length l = n /\ forall x, In x l -> exists x', In x' l' /\ map spoken x' = map spoken x end)
  [("จัน", UTH_THO_THAHAN, UTH_RO_RUA, 1); ("สิท", UTH_THO_THONG, UTH_SARA_I, 1); ("พัน", UTH_THO_THONG, UTH_SARA_U, 1)].
Proof.
  assert (W : forall s y c u k v n, letters s = u ++ [y; c] -> startsSyl y = false -> consonant c = true -> memN c (letters "วยอร") = false ->
    Forall (fun c => thaiLetter c = true) (letters s) -> consonant k = true -> silencable v ->
    (exists l, pronounced libthai_ct (letters s) None [] l /\ length l = n) ->
    (exists l', pronounced libthai_ct (letters s ++ [k; v; UTH_THANTHAKHAT]) None [] l') ->
    Forall (fun c => thaiLetter c = true) (letters s) /\ closedWord (letters s) /\ consonant k = true /\ silencable v /\
    dictOKo None /\ unlisted None (letters s ++ [k; v; UTH_THANTHAKHAT]) /\
    exists l l', pronounced libthai_ct (letters s) None [] l /\ pronounced libthai_ct (letters s ++ [k; v; UTH_THANTHAKHAT]) None [] l' /\
      length l = n /\ forall x, In x l -> exists x', In x' l' /\ map spoken x' = map spoken x).
  { intros s y c u k v n E Sy C O L Ck Sv (l & P & Nl) (l' & P').
    assert (Cw : closedWord (letters s)).
    { exists y, c. split; [exists u; exact E|]. split; [exact Sy|]. split; [exact C|]. apply memN_notIn in O. exact O. }
    assert (D : dictOKo None) by (intros d X; discriminate X).
    assert (U : unlisted None (letters s ++ [k; v; UTH_THANTHAKHAT])) by apply unlisted_none.
    repeat (split; [assumption|]). exists l, l'. repeat (split; [assumption|]).
    exact (C107_kept (letters s) k v None [] [] l l' L Cw Ck Sv ltac:(intros x []) ltac:(intros x []) D U P P'). }
  constructor; [|constructor; [|constructor; [|constructor]]].
  - apply (W "จัน" UTH_MAI_HAN_AKAT UTH_NO_NU (letters "จ")); [reflexivity|reflexivity|reflexivity|reflexivity|letters_ok|reflexivity|left; reflexivity| |].
    + eexists. split; [apply listing_pronounced; vm_compute; reflexivity|reflexivity].
    + eexists. apply (listing_pronounced None [] "จันทร์"). vm_compute. reflexivity.
  - apply (W "สิท" UTH_SARA_I UTH_THO_THAHAN (letters "ส")); [reflexivity|reflexivity|reflexivity|reflexivity|letters_ok|reflexivity|right; cbn; tauto| |].
    + eexists. split; [apply listing_pronounced; vm_compute; reflexivity|reflexivity].
    + eexists. apply (listing_pronounced None [] "สิทธิ์"). vm_compute. reflexivity.
  - apply (W "พัน" UTH_MAI_HAN_AKAT UTH_NO_NU (letters "พ")); [reflexivity|reflexivity|reflexivity|reflexivity|letters_ok|reflexivity|right; cbn; tauto| |].
    + eexists. split; [apply listing_pronounced; vm_compute; reflexivity|reflexivity].
    + eexists. apply (listing_pronounced None [] "พันธุ์"). vm_compute. reflexivity.
Qed.
(** No other pronunciation of "จันทร์" and "พันธุ์". *)
Example C107_han_case : Forall (fun q : string * N * N => match q with (s, k, v) =>
  Forall (fun c => thaiLetter c = true) (letters s) /\ hanWord (letters s) /\ consonant k = true /\ silencable v /\
  dictOKo None /\ unlisted None (letters s ++ [k; v; UTH_THANTHAKHAT]) /\
  exists l l', pronounced libthai_ct (letters s) None [] l /\ pronounced libthai_ct (letters s ++ [k; v; UTH_THANTHAKHAT]) None [] l' /\
    length l' = 1 /\ forall x, In x l' -> exists x', In x' l /\ map spoken x' = map spoken x end)
  [("จัน", UTH_THO_THAHAN, UTH_RO_RUA); ("พัน", UTH_THO_THONG, UTH_SARA_U)].
Proof.
  assert (W : forall s u k v, letters s = u ++ [UTH_MAI_HAN_AKAT; UTH_NO_NU] ->
    Forall (fun c => thaiLetter c = true) (letters s) -> consonant k = true -> silencable v ->
    (exists l, pronounced libthai_ct (letters s) None [] l) ->
    (exists l', pronounced libthai_ct (letters s ++ [k; v; UTH_THANTHAKHAT]) None [] l' /\ length l' = 1) ->
    Forall (fun c => thaiLetter c = true) (letters s) /\ hanWord (letters s) /\ consonant k = true /\ silencable v /\
    dictOKo None /\ unlisted None (letters s ++ [k; v; UTH_THANTHAKHAT]) /\
    exists l l', pronounced libthai_ct (letters s) None [] l /\ pronounced libthai_ct (letters s ++ [k; v; UTH_THANTHAKHAT]) None [] l' /\
      length l' = 1 /\ forall x, In x l' -> exists x', In x' l /\ map spoken x' = map spoken x).
  { intros s u k v E L Ck Sv (l & P) (l' & P' & Nl).
    assert (Hw : hanWord (letters s)).
    { exists UTH_NO_NU. split; [reflexivity|]. split; [apply memN_notIn; reflexivity|]. left. exists u. exact E. }
    assert (D : dictOKo None) by (intros d X; discriminate X).
    assert (U : unlisted None (letters s ++ [k; v; UTH_THANTHAKHAT])) by apply unlisted_none.
    repeat (split; [assumption|]). exists l, l'. repeat (split; [assumption|]).
    exact (C107_none_added (letters s) k v None [] [] l l' L Hw Ck Sv ltac:(intros x []) ltac:(intros x []) D U P P'). }
  constructor; [|constructor; [|constructor]].
  - apply (W "จัน" (letters "จ")); [reflexivity|letters_ok|reflexivity|left; reflexivity| |].
    + eexists. apply listing_pronounced. vm_compute. reflexivity.
    + eexists. split; [apply (listing_pronounced None [] "จันทร์"); vm_compute; reflexivity|reflexivity].
  - apply (W "พัน" (letters "พ")); [reflexivity|letters_ok|reflexivity|right; cbn; tauto| |].
    + eexists. apply listing_pronounced. vm_compute. reflexivity.
    + eexists. split; [apply (listing_pronounced None [] "พันธุ์"); vm_compute; reflexivity|reflexivity].
Qed.
