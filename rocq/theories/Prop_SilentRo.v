(** Prop_SilentRo.v - property C108: RO RUA, I or U after a final consonant
    that takes it silent. *)
From Coq Require Import String List NArith ZArith Bool Lia Arith.
From Verif Require Import Base ThUni ThCons Syl Utf Lattice Dag PronDag Dict Parser.
From Verif Require Import Spec OrderProofs GroupProofs DictProofs Prop_Syl ParserSpec ParserFacts ParserInv ParserResult ParserListed ParserDict.
From Verif Require Import Prop_Output Prop_Parser Grammar GrammarIff GrammarWord Prop_Grammar Prop_NoBreak.
From Verif Require Prop_Span Prop_Silenced.
Import ListNotations.
Local Open Scope string_scope.
Local Open Scope list_scope.
Local Open Scope bool_scope.
Local Open Scope nat_scope.

(** ** Vocabulary *)
(** Vowels whose final may be followed by a silent letter. *)
Definition wideVowel (y : N) : bool := memN y (letters "ัาิีุู").
(** [z] is silent after the final [c]: "จักร", "ชาติ", "ธาตุ". *)
Definition silentAfter (c z : N) : Prop := (oneOf "กคชตท" c /\ z = UTH_RO_RUA) \/ (oneOf "ฒตธร" c /\ oneOf "ิุ" z).
(** The word [w] ends in the final [c] right after a vowel that takes a
    silent letter after its final; I after SARA E writes another vowel. *)
Definition wideEnd (w : list N) (c : N) : Prop := exists y, ends w [y; c] /\ wideVowel y = true /\
  (y = UTH_SARA_I -> forall a b, ~ ends w [UTH_SARA_E; a; y; c] /\ ~ ends w [UTH_SARA_E; a; b; y; c]).

Section Adding.
Variables c z : N.
Hypothesis Sz : silentAfter c z.
Notation K := [z].
Definition join (r : list N) : list N := match r with [] => [] | _ => r ++ K end.
Definition Good (t : list N) : Prop := ends t [c] /\ (forall y, ends t [y; c] -> wideVowel y = true) /\
  (forall a b, ~ ends t [UTH_SARA_E; a; UTH_SARA_I; c] /\ ~ ends t [UTH_SARA_E; a; b; UTH_SARA_I; c]).

Lemma z_karan : (z =? UTH_THANTHAKHAT)%N = false.
Proof. apply N.eqb_neq. intros ->. destruct Sz as [(_ & X)|(_ & [X|[X|[]]])]; discriminate X. Qed.
Lemma c_in : In c (letters "กคชตทฒธร").
Proof. destruct Sz as [(H & _)|(H & _)]; vm_compute in H; vm_compute; tauto. Qed.
Lemma c_cons : consonant c = true.
Proof. exact (proj1 (forallb_forall consonant (letters "กคชตทฒธร")) eq_refl c c_in). Qed.
Definition other (x : N) : bool := negb (memN x (letters "กคชตทฒธร")).
Lemma c_other x : other x = true -> x <> c.
Proof. unfold other. rewrite negb_true_iff. intros H ->. pose proof c_in as I. apply memN_In in I. congruence. Qed.
Lemma join_ne r : r <> [] -> join r = r ++ K.
Proof. destruct r; [congruence|reflexivity]. Qed.
Lemma good_ne t : Good t -> t <> [].
Proof. intros ((a & E) & _) ->. destruct a; discriminate E. Qed.
Lemma good_app a t : Good (a ++ t) -> t <> [] -> Good t.
Proof.
  intros ((b & E) & P & Q) Ne. split; [|split; [intros y X; apply P, ends_app, X|intros a' b'; split; intros X; apply (ends_app a) in X; destruct (Q a' b'); auto]].
  destruct (exists_last Ne) as (t' & x & ->). rewrite app_assoc in E. apply app_inj_tail in E. destruct E as (_ & ->). exists t'. reflexivity.
Qed.
Lemma good_or x t : Good (x :: t) -> t = [] \/ Good t.
Proof. intros G. destruct t as [|y t]; [auto|right]. apply (good_app [x]); [exact G|discriminate]. Qed.
Lemma good_tail x t : Good (x :: t) -> x :: t <> [c] -> Good t.
Proof. intros G N. destruct (good_or _ _ G) as [->|H]; [|exact H]. exfalso. apply N. destruct G as (([|a [|b u]] & E) & _); cbn in E; congruence. Qed.
Lemma good_cons x t : Good (x :: t) -> other x = true -> Good t.
Proof. intros G O. apply (good_tail x t G). intros E. injection E as -> _. exact (c_other _ O eq_refl). Qed.
(** What stands after a letter that is no wide vowel is not the lone final. *)
Definition Mid (t : list N) : Prop := t <> [] /\ exists x, wideVowel x = false /\ Good (x :: t).
Lemma mid_good t : Mid t -> Good t.
Proof. intros (N & x & _ & G). exact (good_app [x] t G N). Qed.
Lemma mid_last t : Mid t -> t <> [c].
Proof. intros (_ & x & W & (_ & P & _)) ->. rewrite (P x) in W; [discriminate W|exists []; reflexivity]. Qed.
Lemma mid_cons x t : Mid (x :: t) -> Good t.
Proof. intros M. exact (good_tail x t (mid_good _ M) (mid_last _ M)). Qed.
Lemma mid_next x t : Mid (x :: t) -> wideVowel x = false -> Mid t.
Proof. intros M W. split; [exact (good_ne _ (mid_cons _ _ M))|]. exists x. split; [exact W|exact (mid_good _ M)]. Qed.
Lemma good_next x t : Good (x :: t) -> wideVowel x = false -> other x = true -> Mid t.
Proof. intros G W O. split; [exact (good_ne _ (good_cons _ _ G O))|]. exists x. split; [exact W|exact G]. Qed.
Lemma mark_range x : isMark x = true -> (0xe48 <= x <= 0xe4b)%N.
Proof. unfold isMark. rewrite andb_true_iff, !N.leb_le. auto. Qed.
Lemma mark_other x : isMark x = true -> other x = true /\ wideVowel x = false.
Proof.
  intros M. apply mark_range in M. split; [unfold other; apply negb_true_iff|unfold wideVowel]; apply memN_notIn; intros I; vm_compute in I; lia.
Qed.
Lemma good_mark t m l : mark t = (m, l) -> Good t -> Good l.
Proof.
  destruct t as [|x t]; cbn; [intros _ G; destruct (good_ne _ G eq_refl)|].
  destruct (isMark x) eqn:M; intros E G; injection E as _ <-; [exact (good_cons _ _ G (proj1 (mark_other x M)))|exact G].
Qed.
Lemma marked_mid t m l : mark t = (m, l) -> m <> SAMAN -> Good t -> Mid l.
Proof.
  destruct t as [|x t]; cbn; [intros _ _ G; destruct (good_ne _ G eq_refl)|].
  destruct (isMark x) eqn:M; intros E N G; injection E as X <-; [exact (good_next _ _ G (proj2 (mark_other x M)) (proj1 (mark_other x M)))|congruence].
Qed.
Lemma mid_mark t m l : mark t = (m, l) -> Mid t -> Mid l.
Proof.
  destruct t as [|x t]; cbn; [intros _ ([] & _); reflexivity|].
  destruct (isMark x) eqn:M; intros E G; injection E as _ <-; [exact (mid_next _ _ G (proj2 (mark_other x M)))|exact G].
Qed.
Lemma good_silent t : Good t -> Good (silent t).
Proof.
  intros G. destruct t as [|a [|b t]]; cbn; [exact G|exact G|]. destruct (_ && _) eqn:E; [|exact G].
  apply andb_prop in E. destruct E as (_ & E). apply N.eqb_eq in E. subst b. apply (good_app [a]) in G; [|discriminate]. exact (good_cons _ _ G eq_refl).
Qed.
Lemma mid_silent t : Mid t -> Mid (silent t).
Proof.
  intros G. destruct t as [|a [|b t]]; cbn; [exact G|exact G|]. destruct (_ && _) eqn:E; [|exact G].
  apply andb_prop in E. destruct E as (_ & E). apply N.eqb_eq in E. subst b. apply mid_good in G. apply (good_app [a]) in G; [|discriminate]. exact (good_next _ _ G eq_refl eq_refl).
Qed.
Lemma silent_join t : Good t -> silent (t ++ K) = silent t ++ K.
Proof.
  intros G. destruct t as [|a [|b t]]; cbn.
  - destruct (good_ne _ G eq_refl).
  - rewrite z_karan, andb_false_r. reflexivity.
  - destruct (_ && _); reflexivity.
Qed.
Lemma silent_to t : Good t -> silent (t ++ K) = join (silent t).
Proof. intros G. rewrite (silent_join t G). symmetry. apply join_ne, good_ne, good_silent, G. Qed.
Lemma silentIU_join t : Good t -> silentIU (t ++ K) = silentIU t ++ K.
Proof.
  intros G. destruct t as [|a [|b [|d t]]]; cbn.
  - destruct (good_ne _ G eq_refl).
  - reflexivity.
  - rewrite z_karan, andb_false_r. reflexivity.
  - destruct (_ && _); reflexivity.
Qed.
Lemma silentIU_ne t : Good t -> silentIU t <> [].
Proof.
  intros G. destruct t as [|a [|b [|d t]]]; cbn; try discriminate; [exact (good_ne _ G)|]. destruct (_ && _) eqn:E; [|discriminate].
  intros ->. apply andb_prop in E. destruct E as (_ & E). apply N.eqb_eq in E. subst d.
  apply (good_app [a; b]) in G; [|discriminate]. destruct (good_ne _ (good_cons _ _ G eq_refl) eq_refl).
Qed.
Lemma silent2_join t : Good t -> silent2 (t ++ K) = silent2 t ++ K.
Proof.
  intros G. destruct t as [|a [|b [|d t]]]; cbn.
  - destruct (good_ne _ G eq_refl).
  - reflexivity.
  - rewrite z_karan, andb_false_r. reflexivity.
  - destruct (_ && _); reflexivity.
Qed.
Lemma silent2_ne t : Good t -> silent2 t <> [].
Proof.
  intros G. destruct t as [|a [|b [|d t]]]; cbn; try discriminate; [exact (good_ne _ G)|]. destruct (_ && _) eqn:E; [|discriminate].
  intros ->. apply andb_prop in E. destruct E as (_ & E). apply N.eqb_eq in E. subst d.
  apply (good_app [a; b]) in G; [|discriminate]. destruct (good_ne _ (good_cons _ _ G eq_refl) eq_refl).
Qed.
Lemma app_len (r t : list N) : (length (r ++ K) <? length (t ++ K)) = (length r <? length t).
Proof. rewrite !app_length. destruct (Nat.ltb_spec (length r) (length t)); [apply Nat.ltb_lt|apply Nat.ltb_ge]; lia. Qed.
Lemma silentOr_join t : Good t ->
  (if length (silent (t ++ K)) <? length (t ++ K) then silent (t ++ K) else silentIU (t ++ K)) =
  join (if length (silent t) <? length t then silent t else silentIU t).
Proof.
  intros G. rewrite (silent_join t G), (silentIU_join t G), app_len. rewrite join_ne; [destruct (_ <? _); reflexivity|].
  destruct (_ <? _); [exact (good_ne _ (good_silent t G))|exact (silentIU_ne t G)].
Qed.
Lemma silentAny_join t : Good t -> silentAny (t ++ K) = silentAny t ++ K /\ silentAny t <> [].
Proof.
  intros G. unfold silentAny. cbv zeta. rewrite (silent_join _ G), (silentIU_join _ G), (silent2_join _ G), !app_len.
  destruct (length (silent t) <? _); [split; [reflexivity|exact (good_ne _ (good_silent t G))]|].
  destruct (length (silentIU t) <? _); (split; [reflexivity|]); [exact (silentIU_ne t G)|exact (silent2_ne t G)].
Qed.
Lemma silentAny_to t : Good t -> silentAny (t ++ K) = join (silentAny t).
Proof. intros G. destruct (silentAny_join t G) as (E & N). rewrite E. symmetry. apply join_ne, N. Qed.
Lemma mark_join t m l : mark t = (m, l) -> Good t -> mark (t ++ K) = (m, l ++ K).
Proof.
  destruct t as [|x t]; cbn; [intros _ G; destruct (good_ne _ G eq_refl)|].
  destruct (isMark x); intros E _; injection E as <- <-; reflexivity.
Qed.
Lemma hd_join t x : Good t -> hd_error t <> Some x -> hd_error (t ++ K) <> Some x.
Proof. intros G. destruct t; [destruct (good_ne _ G eq_refl)|auto]. Qed.
Lemma endOrSyl_join t : Good t -> endOrSyl t -> endOrSyl (t ++ K).
Proof. intros G. destruct t; [destruct (good_ne _ G eq_refl)|auto]. Qed.
Lemma endOrSyl_cut t : endOrSyl (t ++ K) -> endOrSyl t.
Proof. destruct t; cbn; auto. Qed.

(** ** Finals *)
Lemma Final_join no t e r : Final no t e r -> Mid t -> Final no (t ++ K) e (join r).
Proof. intros [x t' C I] G. rewrite <- (silentAny_to t' (mid_cons _ _ G)). exact (F_cons no x (t' ++ K) C I). Qed.
Lemma FS_join no t e r b : FinalOrShared no t e r b -> Good t -> FinalOrShared no (t ++ K) e (join r) b.
Proof.
  intros [t' e' r' F|x r' C I S O E|x i r' C I O L E|x t' C I S H] G.
  - destruct F as [x t' C I]. destruct (good_or _ _ G) as [->|G1].
    + assert (x = c) by (destruct G as (([|a [|b' u]] & E) & _); cbn in E; congruence). subst x.
      cbn [app silentAny join silent silentIU silent2 length Nat.ltb Nat.leb].
      destruct Sz as [(O & ->)|(O & L)]; [apply FS_ro; [exact C|exact I|reflexivity|exact O|exact Logic.I]|apply FS_iu; [exact C|exact I|exact O|exact L|exact Logic.I]].
    + rewrite <- (silentAny_to t' G1). apply FS_final. exact (F_cons no x (t' ++ K) C I).
  - assert (G1 : Good (UTH_RO_RUA :: r')) by (apply (good_app [x]); [exact G|discriminate]).
    assert (G2 : Good r').
    { apply (mid_cons UTH_RO_RUA). split; [discriminate|]. exists x. split; [|exact G]. revert O. clear. intros O. revert x O. apply (proj1 (Forall_forall _ _)). vm_compute. repeat constructor. }
    rewrite join_ne by exact (good_ne _ G2). apply (FS_ro no x (r' ++ K) C I); [|exact O|apply endOrSyl_join; assumption].
    destruct (silentAny_join _ G1) as (A & _). cbn [app] in A. rewrite A, S. reflexivity.
  - assert (G1 : Good (i :: r')) by (apply (good_app [x]); [exact G|discriminate]).
    assert (G2 : Good r') by (apply (good_cons _ _ G1); destruct L as [<-|[<-|[]]]; reflexivity).
    rewrite join_ne by exact (good_ne _ G2). apply (FS_iu no x i (r' ++ K) C I O L), endOrSyl_join; assumption.
  - assert (G1 : Good t') by (destruct (good_or _ _ G) as [->|X]; [inversion H|exact X]).
    cbn [join app]. apply (FS_shared no x (t' ++ K) C I).
    + rewrite (proj1 (silentAny_join _ G1)), S. reflexivity.
    + destruct H as [y t' Lx E|y y' t' X Y]; [|exact (Sh_cons x y y' (t' ++ K) X Y)].
      apply Sh_vowel; [exact Lx|]. intros (E' & _). destruct t'; discriminate E'.
Qed.

(** ** Initials and rimes *)
Lemma noRo_join t : t <> [] -> noRo t -> noRo (t ++ K).
Proof. destruct t; [congruence|auto]. Qed.
Lemma noLong_join t : t <> [] -> noLong t -> noLong (t ++ K).
Proof. destruct t; [congruence|auto]. Qed.
Lemma Initial_join lk t o r : InitialAt lk t o r -> r <> [] -> InitialAt lk (t ++ K) o (r ++ K).
Proof.
  intros H N. destruct H; cbn [app]; try (econstructor; eauto using noRo_join, noLong_join; fail).
Qed.
(** An initial ends in a letter that is no wide vowel. *)
Lemma narrow x : consonant x = true -> wideVowel x = false.
Proof. intros C. apply Prop_Silenced.consonant_range in C. unfold wideVowel. apply memN_notIn. intros I. vm_compute in I. lia. Qed.
Lemma narrowO s x : forallb consonant (letters s) = true -> oneOf s x -> wideVowel x = false.
Proof. intros F O. apply narrow. rewrite forallb_forall in F. exact (F x O). Qed.
Lemma Initial_last lk t o r : InitialAt lk t o r -> exists a x, t = a ++ x :: r /\ length a <= 1 /\ wideVowel x = false /\ (a = [] \/ exists y, a = [y] /\ wideVowel y = false).
Proof.
  intros H.
  assert (Two : forall y x r, wideVowel x = false -> wideVowel y = false -> exists a x', y :: x :: r = a ++ x' :: r /\ length a <= 1 /\ wideVowel x' = false /\ (a = [] \/ exists y, a = [y] /\ wideVowel y = false)).
  { intros y x r0 X Y. exists [y], x. split; [reflexivity|]. split; [cbn; lia|]. split; [exact X|]. right. exists y. auto. }
  destruct H;
    try (apply Two; [first [reflexivity|apply narrow; assumption]|first [reflexivity|apply narrow; assumption|eapply narrowO; [|eassumption]; vm_compute; reflexivity]]).
  - exists [], c0. split; [reflexivity|]. split; [cbn; lia|]. split; [apply narrow; assumption|left; reflexivity].
  - apply Two; [reflexivity|]. destruct H as [H|(_ & H)]; (eapply narrowO; [|exact H]; vm_compute; reflexivity).
Qed.
Lemma Initial_mid lk t o r : InitialAt lk t o r -> Good t -> r <> [] -> Mid r.
Proof.
  intros H G N. destruct (Initial_last _ _ _ _ H) as (a & x & -> & _ & W & _). split; [exact N|]. exists x. split; [exact W|]. apply (good_app a); [exact G|discriminate].
Qed.
Lemma Initial_room l lk t o r : InitialAt lk t o r -> wideVowel l = false -> Good (l :: t) -> r <> [].
Proof.
  intros H L G E. destruct (Initial_last _ _ _ _ H) as (a & x & -> & _ & W & A). subst r.
  assert (X : exists u y, l :: a ++ [x] = u ++ [y; x] /\ wideVowel y = false).
  { destruct A as [->|(y & -> & Y)]; [exists [], l|exists [l], y]; split; first [reflexivity|assumption]. }
  destruct X as (u & y & Eq & Y). rewrite Eq in G. destruct G as ((v & V) & P & _).
  change [y; x] with ([y] ++ [x]) in V. rewrite app_assoc in V. apply app_inj_tail in V. destruct V as (_ & ->).
  rewrite (P y) in Y; [discriminate Y|exists u; reflexivity].
Qed.
Ltac mj := match goal with M : mark ?u = _ |- _ => let M' := fresh "M'" in assert (M' := mark_join _ _ _ M ltac:(first [assumption|apply mid_good; assumption])); cbn [app] in M' end.
(** Collects what is known of the rest after a mark. *)
Ltac gl := match goal with M : mark ?u = (_, ?l), G : Mid ?u |- _ => let X := fresh "Ml" in assert (X := mid_mark _ _ _ M G)
  | M : mark ?u = (_, ?l), G : Good ?u |- _ => let X := fresh "Gl" in assert (X := good_mark _ _ _ M G) end.
Ltac g := solve [assumption | eapply good_cons; [eapply mid_cons; eassumption|reflexivity] | apply mid_good; assumption | eapply mid_cons; eassumption | eapply mid_cons; eapply mid_next; [eassumption|reflexivity]
  | eapply good_cons; [eassumption|reflexivity] | eapply good_cons; [eapply good_cons; [eassumption|reflexivity]|reflexivity]].
Ltac mi := solve [assumption | eapply mid_next; [eassumption|reflexivity] | eapply good_next; [eassumption|reflexivity|reflexivity]].
Lemma Rime_join lk o t vo e m r b : Rime lk o t vo e m r b -> Mid t -> Rime lk o (t ++ K) vo e m (join r) b.
Proof.
  intros H G.
  destruct H as [u m r M|u m r M Hd|u e r b F|u m t' e r M Nm F|x s u m t' I M|x s u t' e r b I M S F|x s u m t' e r I M S F
    |u m r M|u m t' M Hd|u m t' e r M F|u e r F|u m r M|u m r M|u m r e r' b M F|u m r M|u m r e r' M F|u m r M|u m r e r' M F
    |u m r M So|u m r r' M Er|u m r r' e r'' b M Er S F|u m t' e r M O1 O2 O3 F|u m x t' y M O1 C O2|u m t' y e r b M O1 F];
  cbn [app];
  try (assert (G1 : Good u) by (eapply mid_cons; exact G)); try gl; try mj.
  - rewrite <- silent_to by g. eapply R_ua; eassumption.
  - rewrite <- silent_to by g. eapply R_uaa; [eassumption|]. apply hd_join; [g|assumption].
  - apply R_an. apply FS_join; assumption.
  - eapply R_an_marked; [eassumption|assumption|]. apply Final_join; [assumption|exact (marked_mid _ _ _ M Nm G1)].
  - rewrite <- silentOr_join by g. eapply R_above_open; eassumption.
  - eapply R_above_shared; [eassumption|eassumption| |].
    + rewrite silentIU_join by exact Gl. rewrite S. reflexivity.
    + rewrite silent_join by exact Gl. apply FS_join; [assumption|apply good_silent, Gl].
  - assert (IU : silentIU (t' ++ K) = t' ++ K) by (rewrite silentIU_join by exact Gl; rewrite S; reflexivity).
    destruct (wideVowel s) eqn:Ws.
    + assert (Dm : m = SAMAN \/ m <> SAMAN) by (destruct m; first [left; reflexivity|right; discriminate]). destruct Dm as [->|Nm].
      * eapply R_above_shared; [|eassumption|exact IU|rewrite silent_join by exact Gl; apply FS_join; [apply FS_final; exact F|apply good_silent, Gl]].
        unfold In in I. repeat (destruct I as [I|I]; [injection I as <- <-; first [discriminate Ws|cbn; tauto]|]). destruct I.
      * eapply R_above_final; [eassumption|eassumption|exact IU|]. rewrite silent_join by exact Gl. apply Final_join; [exact F|apply mid_silent, (marked_mid _ _ _ M Nm G1)].
    + eapply R_above_final; [eassumption|eassumption|exact IU|]. rewrite silent_join by exact Gl. apply Final_join; [exact F|apply mid_silent].
      apply (mid_mark _ _ _ M). exact (mid_next _ _ G Ws).
  - rewrite <- silent_to by g. eapply R_uee; eassumption.
  - rewrite join_ne by exact (good_ne _ Gl). eapply R_uee_bare; [eassumption|].
    destruct t' as [|y t']; [destruct (good_ne _ Gl eq_refl)|exact Hd].
  - eapply R_uee_final; [eassumption|]. apply Final_join; [assumption|]. apply (mid_mark _ _ _ M). exact (mid_next _ _ G eq_refl).
  - assert (G2 : Mid u) by (apply (mid_next UTH_O_ANG); [apply (mid_next UTH_MAITAIKHU); [exact G|reflexivity]|reflexivity]).
    apply R_au. rewrite silent_join by exact (mid_good _ G2). apply Final_join; [assumption|apply mid_silent, G2].
  - rewrite <- silent_to by g. eapply R_a; eassumption.
  - rewrite <- silent_to by g. eapply R_aa; eassumption.
  - assert (G2 : Good r) by g. eapply R_aa_final; [eassumption|]. rewrite silent_join by exact G2. apply FS_join; [assumption|apply good_silent, G2].
  - rewrite <- silent_to by g. eapply R_am; eassumption.
  - eapply R_ua_final; [eassumption|]. apply Final_join; [assumption|mi].
  - rewrite <- silent_to by g. eapply R_auu; eassumption.
  - assert (G2 : Mid r) by mi. eapply R_auu_final; [eassumption|]. rewrite silent_join by g. apply Final_join; [assumption|apply mid_silent, G2].
  - rewrite <- silent_to by g. eapply R_on; eassumption.
  - assert (G2 : Mid r) by mi.
    assert (G3 : Mid (UTH_RO_RUA :: r')) by (rewrite <- Er; destruct (ics_eqb _ _); [exact G2|apply mid_silent, G2]).
    rewrite <- silent_to by g. eapply R_ran; [eassumption|]. rewrite silent_join by g.
    change (UTH_RO_RUA :: r' ++ K) with ((UTH_RO_RUA :: r') ++ K). rewrite <- Er. destruct (ics_eqb _ _); reflexivity.
  - assert (G2 : Mid r) by mi.
    assert (G3 : Mid (UTH_RO_RUA :: r')) by (rewrite <- Er; destruct (ics_eqb _ _); [exact G2|apply mid_silent, G2]).
    assert (G4 : Good r') by g. eapply (R_rac lk o _ _ _ (r' ++ K)); [eassumption| | |apply FS_join; eassumption].
    + rewrite silent_join by g. change (UTH_RO_RUA :: r' ++ K) with ((UTH_RO_RUA :: r') ++ K). rewrite <- Er. destruct (ics_eqb _ _); reflexivity.
    + rewrite silent_join by exact G4. rewrite S. reflexivity.
  - eapply R_o; [eassumption|assumption..|]. apply Final_join; [assumption|assumption].
  - cbn [join app]. eapply R_ru; eassumption.
  - eapply R_ru_final; [eassumption|eassumption|]. apply FS_join; [assumption|g].
Qed.
Lemma Final_join' no t e r : Final no t e r -> Good t -> t <> [c] -> Final no (t ++ K) e (join r).
Proof. intros [x t' C I] G N. rewrite <- (silentAny_to t' (good_tail _ _ G N)). exact (F_cons no x (t' ++ K) C I). Qed.
Lemma silent_last t : Good t -> silent t = [c] -> t = [c].
Proof.
  intros G. destruct t as [|a [|b t]]; cbn; auto. destruct (_ && _) eqn:E; [|auto].
  apply andb_prop in E. destruct E as (_ & E). apply N.eqb_eq in E. subst b. intros ->. exfalso.
  destruct G as (_ & P & _). assert (X : wideVowel UTH_THANTHAKHAT = true) by (apply P; exists [a]; reflexivity). discriminate X.
Qed.
Lemma RimeE_join o t vo e m r b : RimeE o t vo e m r b -> Mid t -> (forall u, t = UTH_SARA_I :: u -> u <> [c]) -> RimeE o (t ++ K) vo e m (join r) b.
Proof.
  intros H G NE.
  destruct H as [A|x M|u m t' e r M F|u m r M|u m r M Hd|u m r e r' b M Hd F|u m r M|u m r M Hd|u m r e r' M Hd F|u e r F
    |u m r M|u m r M Hd|u m r M A|u m r M|u m r M Hd|u m r M Eo|u m x r M A O1 O2 Y|u m x r e r' b M A O Y F];
  cbn [app]; try (assert (G1 : Good u) by (eapply mid_cons; exact G)); try gl; try mj.
  - destruct (good_ne _ (mid_good _ G) eq_refl).
  - exfalso. exact (good_ne _ (mid_cons _ _ G) eq_refl).
  - eapply E_oe_final; [eassumption|]. rewrite silent_join by exact Gl. apply Final_join'; [assumption|apply good_silent, Gl|].
    intros X. apply (silent_last _ Gl) in X. subst t'. specialize (NE u eq_refl). destruct u as [|y u]; [discriminate M|]. cbn in M.
    destruct (isMark y) eqn:My; injection M as _ E; [|congruence]. subst u.
    apply (mid_last [c]); [|reflexivity]. exact (good_next _ _ G1 (proj2 (mark_other y My)) (proj1 (mark_other y My))).
  - rewrite <- silent_to by g. eapply E_ia; eassumption.
  - rewrite <- silent_to by g. eapply E_iaa; [eassumption|]. apply hd_join; [g|assumption].
  - assert (G2 : Good r) by g. eapply E_iaa_final; [eassumption|apply hd_join; assumption|]. rewrite silent_join by exact G2. apply FS_join; [assumption|apply good_silent, G2].
  - rewrite <- silent_to by g. eapply E_uea; eassumption.
  - rewrite <- silent_to by g. eapply E_ueaa; [eassumption|]. apply hd_join; [g|assumption].
  - assert (G2 : Mid r) by mi. eapply E_ueaa_final; [eassumption|apply hd_join; [g|assumption]|]. rewrite silent_join by g. apply Final_join; [assumption|apply mid_silent, G2].
  - apply E_e_final. apply Final_join; [assumption|mi].
  - rewrite <- silent_to by g. eapply E_oe; eassumption.
  - rewrite <- silent_to by g. eapply E_oee; [eassumption|]. apply hd_join; [g|assumption].
  - rewrite <- silent_to by g. eapply E_e; eassumption.
  - rewrite <- silent_to by g. eapply E_au; eassumption.
  - rewrite <- silent_to by g. eapply E_ao; [eassumption|]. apply hd_join; [g|assumption].
  - rewrite <- silent_to by g. eapply E_oey; [eassumption|]. apply endOrSyl_join; [g|assumption].
  - rewrite <- silent_to by g. cbn [app]. eapply E_ee; [eassumption|assumption..|]. intros (X & Z). apply Y. split; [exact X|apply endOrSyl_cut, Z].
  - assert (G2 : Good (x :: r)) by g. eapply E_ee_final; [eassumption|assumption..| |].
    + intros (X & Z). apply Y. split; [exact X|apply endOrSyl_cut, Z].
    + change (x :: r ++ K) with ((x :: r) ++ K). rewrite silent_join by exact G2. apply FS_join; [assumption|apply good_silent, G2].
Qed.
Lemma RimeL_join l t vo e m r b : RimeL l t vo e m r b -> Mid t -> RimeL l (t ++ K) vo e m (join r) b.
Proof.
  intros H G.
  destruct H as [u m r M|u m r e r' M F|u m t' M H1 H2|u m t' e r M F|u m r M|u m t' M H1|u m t' e r b M S F|u m t' M|u m r M Eo|u m t' M]; gl; mj.
  - rewrite <- silent_to by g. eapply L_ae; eassumption.
  - eapply L_ae_final; [eassumption|]. apply Final_join; [assumption|mi].
  - assert (G2 : Good t') by g. rewrite <- silent_to by exact G2. eapply L_aee; [eassumption|apply hd_join; assumption..].
  - eapply L_aee_final; [eassumption|]. rewrite silent_join by g. apply Final_join; [assumption|apply mid_silent; assumption].
  - rewrite <- silentOr_join by g. eapply L_o; eassumption.
  - assert (G2 : Good t') by g. rewrite <- silentOr_join by exact G2. eapply L_oo; [eassumption|]. apply hd_join; assumption.
  - assert (G2 : Good t') by g. eapply L_oo_final; [eassumption| |].
    + rewrite silentIU_join by exact G2. rewrite S. reflexivity.
    + rewrite silent_join by exact G2. apply FS_join; [assumption|apply good_silent, G2].
  - rewrite <- silent_to by g. eapply L_ai; eassumption.
  - assert (G2 : Good r) by g. rewrite join_ne by exact (good_ne _ G2). eapply L_aiy; [eassumption|]. apply endOrSyl_join; assumption.
  - rewrite <- silent_to by g. eapply L_aimuan; eassumption.
Qed.
Lemma Implied_join t p x r : Implied t p x r -> Implied (t ++ K) p x (join r).
Proof. intros H. destruct H; cbn [app join]; econstructor; eauto. Qed.
Lemma RimeRu_join t vo e r b : RimeRu t vo e r b -> Mid t -> RimeRu (t ++ K) vo e (join r) b.
Proof.
  intros H G. destruct H as [|x t X|x t C F|x t e r b E F]; cbn [app].
  - destruct (good_ne _ (mid_good _ G) eq_refl).
  - rewrite join_ne; [apply U_long, X|]. exact (good_ne _ (mid_cons _ _ G)).
  - apply U_open; [exact C|]. intros (A & B). apply F. split; [exact A|]. apply endOrSyl_cut, B.
  - apply U_closed; [apply endOrSyl_join; [exact (mid_cons _ _ G)|exact E]|]. exact (FS_join _ _ _ _ _ F (mid_good _ G)).
Qed.
Lemma RimeL_lead l t vo e m R b : RimeL l t vo e m R b -> wideVowel l = false /\ other l = true.
Proof. intros []; split; reflexivity. Qed.
Lemma Reads_join lk t p x r b : Reads lk t p x r b -> Good t -> t <> [c] -> Reads lk (t ++ K) p x (join r) b.
Proof.
  intros H G Nc.
  destruct H as [t o t1 vo e m r b p x I R L S|t o t1 vo e m r b p x I R L S|l t o t1 vo e m r b p x I R L S|t p x r I|y t vo e r b tn U R T].
  - assert (N : t1 <> []) by (intros ->; exact (Prop_Silenced.Rime_nil _ _ _ _ _ _ _ R)).
    eapply Rd_plain; [exact (Initial_join _ _ _ _ I N)|exact (Rime_join _ _ _ _ _ _ _ _ R (Initial_mid _ _ _ _ I G N))|exact L|exact S].
  - pose proof (Initial_room UTH_SARA_E _ _ _ _ I eq_refl G) as N. pose proof (good_cons _ _ G eq_refl) as G0.
    eapply Rd_e; [exact (Initial_join _ _ _ _ I N)|apply (RimeE_join _ _ _ _ _ _ _ R (Initial_mid _ _ _ _ I G0 N))|exact L|exact S].
    intros u -> ->. destruct (Initial_last _ _ _ _ I) as (a & y & -> & _ & _ & A). destruct G as (_ & _ & Q).
    destruct A as [->|(y' & -> & _)]; [apply (proj1 (Q y y))|apply (proj2 (Q y' y))]; exists []; reflexivity.
  - destruct (RimeL_lead _ _ _ _ _ _ _ R) as (W & O). pose proof (Initial_room _ _ _ _ _ I W G) as N. pose proof (good_cons _ _ G O) as G0.
    eapply Rd_lead; [exact (Initial_join _ _ _ _ I N)|exact (RimeL_join _ _ _ _ _ _ _ R (Initial_mid _ _ _ _ I G0 N))|exact L|exact S].
  - apply Rd_implied, Implied_join, I.
  - eapply Rd_ru; [exact U|apply RimeRu_join; [exact R|]|exact T]. destruct U; subst; exact (good_next _ _ G eq_refl eq_refl).
Qed.

(** ** Words *)
Variable w : list N.
Hypothesis GW : Good w.
Notation W' := (w ++ K).
Notation Sf t := (exists u, w = u ++ t).
Lemma reads_ne lk t p x r b : Reads lk t p x r b -> t <> [].
Proof. intros R ->. apply Prop_Span.reads_len in R. destruct p; cbn in R; lia. Qed.
(** A lone consonant is not read. *)
Lemma reads_one lk p x r b : ~ Reads lk [c] p x r b.
Proof.
  intros H. pose proof c_in as Ci. remember [c] as t eqn:E.
  destruct H as [t o t1 vo e m r b p x I R L S|t o t1 vo e m r b p x I R L S|l t o t1 vo e m r b p x I R L S|t p x r I|y t vo e r b tn U R T].
  - destruct (Initial_last _ _ _ _ I) as (a & y & Et & _). rewrite Et in E. destruct a as [|? [|? ?]]; [|discriminate E..]. injection E as _ ->.
    exact (Prop_Silenced.Rime_nil _ _ _ _ _ _ _ R).
  - injection E as E _. exact (c_other UTH_SARA_E eq_refl E).
  - injection E as E _. exact (c_other l (proj2 (RimeL_lead _ _ _ _ _ _ _ R)) E).
  - destruct I; discriminate E.
  - assert (O : other y = true) by (clear - U; destruct U; subst; reflexivity). injection E as E _. exact (c_other y O E).
Qed.
Lemma Sf_reads lk t p x r b : Sf t -> Reads lk t p x r b -> Sf r.
Proof. intros S R. exact (reads_suf w lk t p x r b S R). Qed.
Lemma way_join t lk p x r lk' : Sf t -> Reads lk t p x r lk' -> Reads lk (join t) p x (join r) lk'.
Proof.
  intros (u & E) R. pose proof (reads_ne _ _ _ _ _ _ R) as N. rewrite (join_ne t N). apply Reads_join; [exact R| |].
  - rewrite E in GW. exact (good_app u t GW N).
  - intros ->. exact (reads_one _ _ _ _ _ R).
Qed.
Lemma Fin_join t lk : Finishes noWords w t lk -> Sf t -> Finishes noWords W' (join t) lk.
Proof.
  induction 1 as [lk|t lk es r lk' W F IH]; intros S; [apply Fn_end|]. apply way_none in W. destruct W as (p & x & R & _).
  eapply Fn_step; [apply way_none; exists p, x; split; [exact (way_join _ _ _ _ _ _ S R)|reflexivity]|exact (IH (Sf_reads _ _ _ _ _ _ S R))].
Qed.
Lemma Reach_join t lk : Reached noWords w t lk -> Sf t /\ Reached noWords W' (join t) lk.
Proof.
  induction 1 as [|t lk es r lk' R0 (S & IH) W]; [split; [exists []; reflexivity|rewrite (join_ne w (good_ne _ GW)); apply Rc_start]|].
  apply way_none in W. destruct W as (p & x & R & _). split; [exact (Sf_reads _ _ _ _ _ _ S R)|].
  eapply Rc_step; [exact IH|]. apply way_none. exists p, x. split; [exact (way_join _ _ _ _ _ _ S R)|reflexivity].
Qed.
Lemma Used_join t p x r : Used w t p x r -> Used W' (join t) p x (join r).
Proof.
  intros (lk & lk' & R0 & R & F). destruct (Reach_join _ _ R0) as (S & R1). exists lk, lk'.
  split; [exact R1|]. split; [exact (way_join _ _ _ _ _ _ S R)|exact (Fin_join _ _ F (Sf_reads _ _ _ _ _ _ S R))].
Qed.
Lemma Says_join t s : Says w t s -> exists s', Says W' (join t) s' /\ map spoken s' = map spoken s.
Proof.
  induction 1 as [|t x r s U S (s' & IH & E)|t p x p' x' r s U1 U2 S (s' & IH & E)].
  - exists []. split; [apply Sy_end|reflexivity].
  - eexists. split; [apply Sy_one; [exact (Used_join _ _ _ _ U)|exact IH]|]. cbn [map]. rewrite E. reflexivity.
  - eexists. split; [eapply Sy_two; [exact (Used_join _ _ _ _ U1)|exact (Used_join _ _ _ _ U2)|exact IH]|]. cbn [map]. rewrite E. reflexivity.
Qed.
End Adding.

(** ** C108 *)
Lemma C108_lemma w c z dict brk brk' l l' : Forall (fun c => thaiLetter c = true) w -> wideEnd w c -> silentAfter c z ->
  (forall x, In x brk -> x = 0 \/ x = length w) -> (forall x, In x brk' -> x = 0 \/ x = length w + 1) ->
  dictOKo dict -> unlisted dict w -> unlisted dict (w ++ [z]) ->
  pronounced libthai_ct w dict brk l -> pronounced libthai_ct (w ++ [z]) dict brk' l' ->
  forall s, In s l -> exists s', In s' l' /\ map spoken s' = map spoken s.
Proof.
  intros L (y & (u & Ew) & Wy & NE) Sz B B' D Ul U P P' s I.
  assert (N : 2 <= length w) by (rewrite Ew, app_length; cbn; lia).
  apply (C56_word_grammar w dict brk l L N B D Ul P) in I.
  assert (Ly : forall x, ends w [x; c] -> x = y).
  { intros x (a & E). rewrite Ew in E.
    change [y; c] with ([y] ++ [c]) in E. change [x; c] with ([x] ++ [c]) in E. rewrite !app_assoc in E.
    apply app_inj_tail in E. destruct E as (E & _). apply app_inj_tail in E. symmetry. apply E. }
  assert (G : Good c w).
  { split; [exists (u ++ [y]); rewrite Ew, <- app_assoc; reflexivity|]. split; [intros x X; rewrite (Ly x X); exact Wy|].
    intros a b. split; intros X.
    - assert (E : UTH_SARA_I = y) by (apply Ly; destruct X as (v & X); exists (v ++ [UTH_SARA_E; a]); rewrite X, <- app_assoc; reflexivity).
      subst y. exact (proj1 (NE eq_refl a b) X).
    - assert (E : UTH_SARA_I = y) by (apply Ly; destruct X as (v & X); exists (v ++ [UTH_SARA_E; a; b]); rewrite X, <- app_assoc; reflexivity).
      subst y. exact (proj2 (NE eq_refl a b) X). }
  destruct (Says_join c z Sz w G w s I) as (s' & I' & E). exists s'. split; [|exact E].
  rewrite (join_ne z w (good_ne c w G)) in I'.
  apply (C56_word_grammar (w ++ [z]) dict brk' l'); [|rewrite app_length; lia|rewrite app_length; exact B'|exact D|exact U|exact P'|exact I'].
  apply Forall_app. split; [exact L|]. constructor; [|constructor].
  destruct Sz as [(_ & ->)|(_ & [<-|[<-|[]]])]; reflexivity.
Qed.
(** Every pronunciation of the word stays one with the silent letter. *)
Theorem C108_kept w c z dict brk brk' l l' : Forall (fun c => thaiLetter c = true) w -> wideEnd w c -> silentAfter c z ->
  (forall x, In x brk -> x = 0 \/ x = length w) -> (forall x, In x brk' -> x = 0 \/ x = length w + 1) ->
  dictOKo dict -> unlisted dict w -> unlisted dict (w ++ [z]) ->
  pronounced libthai_ct w dict brk l -> pronounced libthai_ct (w ++ [z]) dict brk' l' ->
  forall s, In s l -> exists s', In s' l' /\ map spoken s' = map spoken s.
Proof. exact (C108_lemma w c z dict brk brk' l l'). Qed.
Print Assumptions C108_kept.
(** Not after the other vowels, not under a tone mark, not
    after I that belongs to SARA E, and not with other finals; and the longer
    word can have further pronunciations. *)
Theorem C108_conditions_needed : Prop_Silenced.unheard "ลึก" "ลึกร" /\ Prop_Silenced.unheard "แมต" "แมตร" /\ Prop_Silenced.unheard "กั้ก" "กั้กร" /\
  Prop_Silenced.unheard "เกิต" "เกิตร" /\ Prop_Silenced.unheard "เกริต" "เกริตร" /\ Prop_Silenced.unheard "กาบ" "กาบร" /\ Prop_Silenced.unheard "กาก" "กากิ" /\
  Prop_Silenced.unheard "ชาติ" "ชาต".
Proof. repeat split; apply Prop_Silenced.unheard_by; vm_compute; reflexivity. Qed.
Print Assumptions C108_conditions_needed.
(** "จักร" (wheel), "บัตร" (card), "ชาติ" (nation) and "ธาตุ" (element) are said
    like "จัก", "บัต", "ชาต" and "ธาต". *)
Example C108_case : Forall (fun q : string * N * N => match q with (s, c, z) =>
  Forall (fun c => thaiLetter c = true) (letters s) /\ wideEnd (letters s) c /\ silentAfter c z /\
  dictOKo None /\ unlisted None (letters s) /\ unlisted None (letters s ++ [z]) /\
  exists l l', pronounced libthai_ct (letters s) None [] l /\ pronounced libthai_ct (letters s ++ [z]) None [] l' /\
    length l = 1 /\ forall x, In x l -> exists x', In x' l' /\ map spoken x' = map spoken x end)
  [("จัก", UTH_KO_KAI, UTH_RO_RUA); ("บัต", UTH_TO_TAO, UTH_RO_RUA); ("ชาต", UTH_TO_TAO, UTH_SARA_I); ("ธาต", UTH_TO_TAO, UTH_SARA_U)].
Proof.
  assert (W : forall s y c u z, letters s = u ++ [y; c] -> wideVowel y = true -> (y =? UTH_SARA_I)%N = false -> silentAfter c z ->
    Forall (fun c => thaiLetter c = true) (letters s) ->
    (exists l, pronounced libthai_ct (letters s) None [] l /\ length l = 1) ->
    (exists l', pronounced libthai_ct (letters s ++ [z]) None [] l') ->
    Forall (fun c => thaiLetter c = true) (letters s) /\ wideEnd (letters s) c /\ silentAfter c z /\
    dictOKo None /\ unlisted None (letters s) /\ unlisted None (letters s ++ [z]) /\
    exists l l', pronounced libthai_ct (letters s) None [] l /\ pronounced libthai_ct (letters s ++ [z]) None [] l' /\
      length l = 1 /\ forall x, In x l -> exists x', In x' l' /\ map spoken x' = map spoken x).
  { intros s y c u z E Wy Ny Sz L (l & P & Nl) (l' & P').
    assert (We : wideEnd (letters s) c).
    { exists y. split; [exists u; exact E|]. split; [exact Wy|]. intros X. apply N.eqb_eq in X. congruence. }
    assert (D : dictOKo None) by (intros d X; discriminate X).
    assert (U0 : unlisted None (letters s)) by apply unlisted_none.
    assert (U : unlisted None (letters s ++ [z])) by apply unlisted_none.
    repeat (split; [assumption|]). exists l, l'. repeat (split; [assumption|]).
    exact (C108_kept (letters s) c z None [] [] l l' L We Sz ltac:(intros x []) ltac:(intros x []) D U0 U P P'). }
  constructor; [|constructor; [|constructor; [|constructor; [|constructor]]]].
  - apply (W "จัก" UTH_MAI_HAN_AKAT UTH_KO_KAI (letters "จ")); [reflexivity|reflexivity|reflexivity|left; split; [vm_compute; tauto|reflexivity]|letters_ok| |].
    + eexists. split; [apply listing_pronounced; vm_compute; reflexivity|reflexivity].
    + eexists. apply (listing_pronounced None [] "จักร"). vm_compute. reflexivity.
  - apply (W "บัต" UTH_MAI_HAN_AKAT UTH_TO_TAO (letters "บ")); [reflexivity|reflexivity|reflexivity|left; split; [vm_compute; tauto|reflexivity]|letters_ok| |].
    + eexists. split; [apply listing_pronounced; vm_compute; reflexivity|reflexivity].
    + eexists. apply (listing_pronounced None [] "บัตร"). vm_compute. reflexivity.
  - apply (W "ชาต" UTH_SARA_AA UTH_TO_TAO (letters "ช")); [reflexivity|reflexivity|reflexivity|right; split; vm_compute; tauto|letters_ok| |].
    + eexists. split; [apply listing_pronounced; vm_compute; reflexivity|reflexivity].
    + eexists. apply (listing_pronounced None [] "ชาติ"). vm_compute. reflexivity.
  - apply (W "ธาต" UTH_SARA_AA UTH_TO_TAO (letters "ธ")); [reflexivity|reflexivity|reflexivity|right; split; vm_compute; tauto|letters_ok| |].
    + eexists. split; [apply listing_pronounced; vm_compute; reflexivity|reflexivity].
    + eexists. apply (listing_pronounced None [] "ธาตุ"). vm_compute. reflexivity.
Qed.
