(** ThUni.v - Thai Unicode constants and the libthai character classes.

    Constants: thortho/thuni.h:8-94 (only those used by the code).
    Character classes: libthai's [th_wcis*] functions are an external
    dependency; they are modelled by the record [CType].  Theorems that need
    something of them take the hypothesis [ctype_ok]; [libthai_ct] is the
    concrete instance used in the computed examples. *)
From Coq Require Import List NArith Bool.
From Verif Require Import Base.
Import ListNotations.
Local Open Scope N_scope.

(* thortho/thuni.h:8-94 *)
Definition UTH_KO_KAI := 0x0e01.
Definition UTH_KHO_KHAI := 0x0e02.
Definition UTH_KHO_KHUAT := 0x0e03.
Definition UTH_KHO_KHWAI := 0x0e04.
Definition UTH_KHO_KHON := 0x0e05.
Definition UTH_KHO_RAKHANG := 0x0e06.
Definition UTH_NGO_NGU := 0x0e07.
Definition UTH_CHO_CHAN := 0x0e08.
Definition UTH_CHO_CHING := 0x0e09.
Definition UTH_CHO_CHANG := 0x0e0a.
Definition UTH_SO_SO := 0x0e0b.
Definition UTH_CHO_CHOE := 0x0e0c.
Definition UTH_YO_YING := 0x0e0d.
Definition UTH_DO_CHADA := 0x0e0e.
Definition UTH_TO_PATAK := 0x0e0f.
Definition UTH_THO_THAN := 0x0e10.
Definition UTH_THO_NANGMONTHO := 0x0e11.
Definition UTH_THO_PHUTHAO := 0x0e12.
Definition UTH_NO_NEN := 0x0e13.
Definition UTH_DO_DEK := 0x0e14.
Definition UTH_TO_TAO := 0x0e15.
Definition UTH_THO_THUNG := 0x0e16.
Definition UTH_THO_THAHAN := 0x0e17.
Definition UTH_THO_THONG := 0x0e18.
Definition UTH_NO_NU := 0x0e19.
Definition UTH_BO_BAIMAI := 0x0e1a.
Definition UTH_PO_PLA := 0x0e1b.
Definition UTH_PHO_PHUNG := 0x0e1c.
Definition UTH_FO_FA := 0x0e1d.
Definition UTH_PHO_PHAN := 0x0e1e.
Definition UTH_FO_FAN := 0x0e1f.
Definition UTH_PHO_SAMPHAO := 0x0e20.
Definition UTH_MO_MA := 0x0e21.
Definition UTH_YO_YAK := 0x0e22.
Definition UTH_RO_RUA := 0x0e23.
Definition UTH_RU := 0x0e24.
Definition UTH_LO_LING := 0x0e25.
Definition UTH_LU := 0x0e26.
Definition UTH_WO_WAEN := 0x0e27.
Definition UTH_SO_SALA := 0x0e28.
Definition UTH_SO_RUSI := 0x0e29.
Definition UTH_SO_SUA := 0x0e2a.
Definition UTH_HO_HIP := 0x0e2b.
Definition UTH_LO_CHULA := 0x0e2c.
Definition UTH_O_ANG := 0x0e2d.
Definition UTH_HO_NOKHUK := 0x0e2e.
Definition UTH_SARA_A := 0x0e30.
Definition UTH_MAI_HAN_AKAT := 0x0e31.
Definition UTH_SARA_AA := 0x0e32.
Definition UTH_SARA_AM := 0x0e33.
Definition UTH_SARA_I := 0x0e34.
Definition UTH_SARA_II := 0x0e35.
Definition UTH_SARA_UE := 0x0e36.
Definition UTH_SARA_UEE := 0x0e37.
Definition UTH_SARA_U := 0x0e38.
Definition UTH_SARA_UU := 0x0e39.
Definition UTH_PHINTHU := 0x0e3a.
Definition UTH_SARA_E := 0x0e40.
Definition UTH_SARA_AE := 0x0e41.
Definition UTH_SARA_O := 0x0e42.
Definition UTH_SARA_AI_MAIMUAN := 0x0e43.
Definition UTH_SARA_AI_MAIMALAI := 0x0e44.
Definition UTH_LAKKHANGYAO := 0x0e45.
Definition UTH_MAITAIKHU := 0x0e47.
Definition UTH_MAI_EK := 0x0e48.
Definition UTH_MAI_THO := 0x0e49.
Definition UTH_MAI_TRI := 0x0e4a.
Definition UTH_MAI_CHATTAWA := 0x0e4b.
Definition UTH_THANTHAKHAT := 0x0e4c.

(** libthai's wide-character predicates (external; <thai/thwctype.h>). *)
Record CType := {
  th_wcisthcons : N -> bool;   (* consonant *)
  th_wcisthvowel : N -> bool;  (* any vowel *)
  th_wcisthtone : N -> bool;   (* tone mark *)
  th_wcisldvowel : N -> bool;  (* leading vowel *)
  th_wcisupvowel : N -> bool;  (* vowel above the consonant *)
  th_wcisblvowel : N -> bool   (* vowel below the consonant *)
}.

(** libthai's classification of the Thai block, as documented there:
    consonants are KO KAI..HO NOKHUK without RU and LU; RU and LU are vowels;
    MAI HAN AKAT counts as an upper vowel; MAITAIKHU, NIKHAHIT, PHINTHU,
    THANTHAKHAT and YAMAKKAN are diacritics, not vowels. *)
Definition libthai_ct : CType := {|
  th_wcisthcons := fun c =>
    (UTH_KO_KAI <=? c) && (c <=? UTH_HO_NOKHUK)
    && negb (c =? UTH_RU) && negb (c =? UTH_LU);
  th_wcisthvowel := fun c =>
    (c =? UTH_RU) || (c =? UTH_LU)
    || ((UTH_SARA_A <=? c) && (c <=? UTH_SARA_UU))
    || ((UTH_SARA_E <=? c) && (c <=? UTH_LAKKHANGYAO));
  th_wcisthtone := fun c => (UTH_MAI_EK <=? c) && (c <=? UTH_MAI_CHATTAWA);
  th_wcisldvowel := fun c => (UTH_SARA_E <=? c) && (c <=? UTH_SARA_AI_MAIMALAI);
  th_wcisupvowel := fun c =>
    (c =? UTH_MAI_HAN_AKAT) || ((UTH_SARA_I <=? c) && (c <=? UTH_SARA_UEE));
  th_wcisblvowel := fun c => (c =? UTH_SARA_U) || (c =? UTH_SARA_UU)
|}.

(** What the theorems assume of libthai, and nothing more. *)
Record ctype_ok (ct : CType) : Prop := {
  cons_range : forall c, th_wcisthcons ct c = true ->
    (UTH_KO_KAI <= c /\ c <= UTH_HO_NOKHUK /\ c <> UTH_RU /\ c <> UTH_LU);
  tone_range : forall c, th_wcisthtone ct c = true ->
    c = UTH_MAI_EK \/ c = UTH_MAI_THO \/ c = UTH_MAI_TRI \/ c = UTH_MAI_CHATTAWA;
  ldvowel_range : forall c, th_wcisldvowel ct c = true ->
    c = UTH_SARA_E \/ c = UTH_SARA_AE \/ c = UTH_SARA_O \/
    c = UTH_SARA_AI_MAIMUAN \/ c = UTH_SARA_AI_MAIMALAI;
  upvowel_range : forall c, th_wcisupvowel ct c = true ->
    c = UTH_MAI_HAN_AKAT \/ c = UTH_SARA_I \/ c = UTH_SARA_II \/
    c = UTH_SARA_UE \/ c = UTH_SARA_UEE;
  blvowel_range : forall c, th_wcisblvowel ct c = true ->
    c = UTH_SARA_U \/ c = UTH_SARA_UU;
  vowel_range : forall c, th_wcisthvowel ct c = true -> 0x0e00 <= c /\ c <= 0x0e7f
}.
