(** Prop_Roman.v - property C60: romanization of syllables. *)
From Coq Require Import String Ascii List NArith ZArith Bool Arith Lia.
From Verif Require Import Spec Base ThUni ThCons Syl Utf SylOut OrderProofs ParserSpec ParserFacts Prop_Syl Prop_Notation.
Import ListNotations.
Local Open Scope string_scope.

(** ** C60: the Royal Institute table *)
(** Letters at the beginning and at the end of a syllable, and vowels. *)
Definition royalInitial : list (string * string) :=
  [ ("k", "ก"); ("kh", "ขฃคฅฆ"); ("ng", "ง"); ("ch", "จฉชฌ"); ("s", "ซศษส"); ("y", "ญย"); ("d", "ฎด"); ("t", "ฏต");
    ("th", "ฐฑฒถทธ"); ("n", "ณน"); ("b", "บ"); ("p", "ป"); ("ph", "ผพภ"); ("f", "ฝฟ"); ("m", "ม"); ("r", "ร"); ("l", "ลฬ");
    ("w", "ว"); ("h", "หฮ"); ("", "อ") ].
Definition royalSecond : list (string * ESecInitCons) := [ ("", SEC_NONE); ("r", SEC_RA); ("l", SEC_LA); ("w", SEC_WA) ].
Definition royalFinal : list (string * string) :=
  [ ("k", "กขคฆ"); ("ng", "ง"); ("t", "จชซฎฏฐฑฒดตถทธศษส"); ("n", "ญณนรลฬ"); ("p", "บปพฟภ"); ("m", "ม"); ("i", "ย"); ("o", "ว") ].
Definition royalVowel : list (string * list EVowel) :=
  [ ("a", [V_A; V_AA]); ("i", [V_I; V_II]); ("ue", [V_UE; V_UEE]); ("u", [V_U; V_UU]); ("e", [V_E; V_EE]); ("ae", [V_AE; V_AEE]);
    ("o", [V_O; V_OO; V_AU; V_AUU]); ("oe", [V_OE; V_OEE]); ("ia", [V_IA; V_IAA]); ("uea", [V_UEA; V_UEAA]); ("ua", [V_UA; V_UAA]) ].
(** The sound of an initial letter, and the class of a final letter. *)
Definition initialSound (c : N) (i : EInitConsSound) : Prop := exists s, In (i, s) soundGroups /\ In c (letters s).
Definition finalClass (c : N) (e : EEndConsClass) : Prop := exists s, In (e, s) endGroups /\ In c (letters s).
Inductive RoyalFinal : EEndConsClass -> string -> Prop :=
| RF_none : RoyalFinal EC_NONE ""
| RF_letter c e r s : finalClass c e -> In (r, s) royalFinal -> In c (letters s) -> RoyalFinal e r.
Inductive Royal (i : EInitConsSound) (i2 : ESecInitCons) (v : EVowel) (e : EEndConsClass) : string -> Prop :=
| Roy c r1 s1 r2 r3 vs r4 : initialSound c i -> In (r1, s1) royalInitial -> In c (letters s1) ->
    In (r2, i2) royalSecond -> In (r3, vs) royalVowel -> In v vs -> RoyalFinal e r4 ->
    Royal i i2 v e (r1 ++ r2 ++ r3 ++ r4).

(** Every letter has one text. *)
Definition initTexts (i : EInitConsSound) : list string :=
  flat_map (fun p => if ics_eqb (fst p) i then
    flat_map (fun c => flat_map (fun q => if memN c (letters (snd q)) then [fst q] else []) royalInitial) (letters (snd p))
    else []) soundGroups.
Definition endTexts (e : EEndConsClass) : list string :=
  ((if ec_eqb e EC_NONE then [""] else []) ++
  flat_map (fun p => if ec_eqb (fst p) e then
    flat_map (fun c => flat_map (fun q => if memN c (letters (snd q)) then [fst q] else []) royalFinal) (letters (snd p))
    else []) endGroups)%list.
Definition vowelTexts (v : EVowel) : list string :=
  flat_map (fun q => if existsb (Z.eqb v) (snd q) then [fst q] else []) royalVowel.
Definition secTexts (v : ESecInitCons) : list string :=
  flat_map (fun q => if Z.eqb v (snd q) then [fst q] else []) royalSecond.
Definition allAre (m : Res string) (l : list string) : bool :=
  match m with Ok t => negb (match l with [] => true | _ => false end) && forallb (String.eqb t) l | _ => false end.
Lemma tables_ok : forallb (fun i => allAre (assocAt ics_eqb RomanInitConsTbl_ i) (initTexts i)) (tl allICS) &&
  forallb (fun i => allAre (assocAt Z.eqb RomanSecInitConsTbl_ i) (secTexts i)) allSec &&
  forallb (fun i => allAre (assocAt Z.eqb RomanVowelTbl_ i) (vowelTexts i)) vowelCodes &&
  forallb (fun i => allAre (assocAt ec_eqb RomanEndConsTbl_ i) (endTexts i)) allEC = true.
Proof. vm_compute. reflexivity. Qed.
Lemma allAre_ok m l : allAre m l = true -> exists t, m = Ok t /\ In t l /\ forall x, In x l -> x = t.
Proof.
  unfold allAre. destruct m as [t| | |]; try discriminate. rewrite andb_true_iff, forallb_forall.
  intros (A & B). exists t. split; [reflexivity|]. assert (C : forall x, In x l -> x = t).
  { intros x X. specialize (B x X). apply String.eqb_eq in B. congruence. }
  split; [|exact C]. destruct l as [|y l]; [discriminate|]. rewrite <- (C y) by (left; reflexivity). left; reflexivity.
Qed.
Lemma initTexts_ok i r : In r (initTexts i) <-> exists c s, initialSound c i /\ In (r, s) royalInitial /\ In c (letters s).
Proof.
  unfold initTexts, initialSound. rewrite in_flat_map. split.
  - intros ((i' & s) & H1 & H2). cbn [fst snd] in H2. destruct (ics_eqb i' i) eqn:E; [|destruct H2].
    apply ics_eqb_eq in E. subst i'. apply in_flat_map in H2. destruct H2 as (c & H2 & H3). apply in_flat_map in H3.
    destruct H3 as ((r' & s') & H3 & H4). cbn [fst snd] in H4. destruct (memN c (letters s')) eqn:M; [|destruct H4].
    apply memN_In in M. destruct H4 as [<-|[]]. eauto 8.
  - intros (c & s & (s0 & H1 & H2) & H3 & H4). exists (i, s0). split; [exact H1|]. cbn [fst snd].
    assert (ics_eqb i i = true) as -> by (apply ics_eqb_eq; reflexivity).
    apply in_flat_map. exists c. split; [exact H2|]. apply in_flat_map. exists (r, s). split; [exact H3|]. cbn [fst snd].
    apply memN_In in H4. rewrite H4. left; reflexivity.
Qed.
Lemma endTexts_ok e r : In r (endTexts e) <-> RoyalFinal e r.
Proof.
  unfold endTexts. rewrite in_app_iff, in_flat_map. split.
  - intros [H|((e' & s) & H1 & H2)].
    + destruct (ec_eqb e EC_NONE) eqn:E; [|destruct H]. apply ec_eqb_eq in E. subst e. destruct H as [<-|[]]. constructor.
    + cbn [fst snd] in H2. destruct (ec_eqb e' e) eqn:E; [|destruct H2].
      apply ec_eqb_eq in E. subst e'. apply in_flat_map in H2. destruct H2 as (c & H2 & H3). apply in_flat_map in H3.
      destruct H3 as ((r' & s') & H3 & H4). cbn [fst snd] in H4. destruct (memN c (letters s')) eqn:M; [|destruct H4].
      apply memN_In in M. destruct H4 as [<-|[]]. eapply RF_letter; [exists s; eauto|eauto|eauto].
  - intros [|c e' r' s (s0 & H1 & H2) H3 H4]; [left; left; reflexivity|right]. exists (e', s0). split; [exact H1|]. cbn [fst snd].
    assert (ec_eqb e' e' = true) as -> by (apply ec_eqb_eq; reflexivity).
    apply in_flat_map. exists c. split; [exact H2|]. apply in_flat_map. exists (r', s). split; [exact H3|]. cbn [fst snd].
    apply memN_In in H4. rewrite H4. left; reflexivity.
Qed.
Lemma vowelTexts_ok v r : In r (vowelTexts v) <-> exists vs, In (r, vs) royalVowel /\ In v vs.
Proof.
  unfold vowelTexts. rewrite in_flat_map. split.
  - intros ((r' & vs) & H1 & H2). cbn [fst snd] in H2. destruct (existsb (Z.eqb v) vs) eqn:E; [|destruct H2].
    destruct H2 as [<-|[]]. apply existsb_exists in E. destruct E as (x & E1 & E2). apply Z.eqb_eq in E2. subst x. eauto.
  - intros (vs & H1 & H2). exists (r, vs). split; [exact H1|]. cbn [fst snd].
    assert (existsb (Z.eqb v) vs = true) as -> by (apply existsb_exists; exists v; split; [exact H2|apply Z.eqb_refl]). left; reflexivity.
Qed.
Lemma secTexts_ok v r : In r (secTexts v) <-> In (r, v) royalSecond.
Proof.
  unfold secTexts. rewrite in_flat_map. split.
  - intros ((r' & x) & H1 & H2). cbn [fst snd] in H2. destruct (Z.eqb_spec v x) as [->|]; [|destruct H2].
    destruct H2 as [<-|[]]. exact H1.
  - intros H. exists (r, v). split; [exact H|]. cbn [fst snd]. rewrite Z.eqb_refl. left; reflexivity.
Qed.
Lemma roman_parts s : wellFormed s -> exists r1 r2 r3 r4,
  assocAt ics_eqb RomanInitConsTbl_ (iCons1 s) = Ok r1 /\ (forall x, In x (initTexts (iCons1 s)) <-> x = r1) /\
  assocAt Z.eqb RomanSecInitConsTbl_ (iCons2 s) = Ok r2 /\ (forall x, In x (secTexts (iCons2 s)) <-> x = r2) /\
  assocAt Z.eqb RomanVowelTbl_ (vowel s) = Ok r3 /\ (forall x, In x (vowelTexts (vowel s)) <-> x = r3) /\
  assocAt ec_eqb RomanEndConsTbl_ (eCons s) = Ok r4 /\ (forall x, In x (endTexts (eCons s)) <-> x = r4) /\
  RomanSylOutput s = Ok (r1 ++ r2 ++ r3 ++ r4).
Proof.
  intros W. pose proof W as (A1 & A2 & A3 & A4 & A5). pose proof tables_ok as T. rewrite !andb_true_iff, !forallb_forall in T.
  destruct T as (((T1 & T2) & T3) & T4).
  destruct (allAre_ok _ _ (T1 _ (sound_in _ A2))) as (r1 & E1 & I1 & U1).
  destruct (allAre_ok _ _ (T2 _ A3)) as (r2 & E2 & I2 & U2).
  destruct (allAre_ok _ _ (T3 _ A4)) as (r3 & E3 & I3 & U3).
  destruct (allAre_ok _ _ (T4 _ (ec_in (eCons s)))) as (r4 & E4 & I4 & U4).
  exists r1, r2, r3, r4. unfold RomanSylOutput. rewrite wf_blank, wf_lit by exact W. rewrite E1, E2, E3, E4. cbn [bind].
  repeat split; auto; intros X; subst; assumption.
Qed.
Lemma C60_lemma s t : wellFormed s -> RomanSylOutput s = Ok t <-> Royal (iCons1 s) (iCons2 s) (vowel s) (eCons s) t.
Proof.
  intros W. destruct (roman_parts s W) as (r1 & r2 & r3 & r4 & _ & U1 & _ & U2 & _ & U3 & _ & U4 & ->). split.
  - intros H. injection H as <-.
    destruct (proj1 (initTexts_ok _ _) (proj2 (U1 r1) eq_refl)) as (c & s1 & H1 & H2 & H3).
    destruct (proj1 (vowelTexts_ok _ _) (proj2 (U3 r3) eq_refl)) as (vs & H4 & H5).
    eapply Roy; eauto.
    + apply secTexts_ok, U2. reflexivity.
    + apply endTexts_ok, U4. reflexivity.
  - intros [c x1 s1 x2 x3 vs x4 H1 H2 H3 H4 H5 H6 H7].
    assert (x1 = r1) as -> by (apply U1, initTexts_ok; eauto).
    assert (x2 = r2) as -> by (apply U2, secTexts_ok; exact H4).
    assert (x3 = r3) as -> by (apply U3, vowelTexts_ok; eauto).
    assert (x4 = r4) as -> by (apply U4, endTexts_ok; exact H7). reflexivity.
Qed.
Theorem C60_royal_institute s t : wellFormed s ->
  RomanSylOutput s = Ok t <-> Royal (iCons1 s) (iCons2 s) (vowel s) (eCons s) t.
Proof. exact (C60_lemma s t). Qed.
Print Assumptions C60_royal_institute.
Example C60_case : wellFormed (SylOf THA SEC_NONE V_A KOEY SAMAN 3) /\
  RomanSylOutput (SylOf THA SEC_NONE V_A KOEY SAMAN 3) = Ok "thai".
Proof. split; [wf|reflexivity]. Qed.

(** Which syllables become the same text: the tone, the length of the vowel,
    the difference of JA and CHA and that of O and AU are lost. *)
Definition romanOnset (i : EInitConsSound) (c : ESecInitCons) : EInitConsSound * ESecInitCons :=
  onsetPart (if ics_eqb i JA then CHA else i) c.
Definition romanQuality (a b : EVowel) : Prop :=
  sameQuality a b \/ (In a [V_O; V_OO; V_AU; V_AUU] /\ In b [V_O; V_OO; V_AU; V_AUU]).
Definition romanSame (a b : Syl) : Prop :=
  romanOnset (iCons1 a) (iCons2 a) = romanOnset (iCons1 b) (iCons2 b) /\
  romanQuality (vowel a) (vowel b) /\ eCons a = eCons b.
Definition romOnset (i : EInitConsSound) (c : ESecInitCons) : Res string :=
  (a <- assocAt ics_eqb RomanInitConsTbl_ i ;; b <- assocAt Z.eqb RomanSecInitConsTbl_ c ;; Ok (a ++ b))%res.
Definition romRime (v : EVowel) (e : EEndConsClass) : Res string :=
  (a <- assocAt Z.eqb RomanVowelTbl_ v ;; b <- assocAt ec_eqb RomanEndConsTbl_ e ;; Ok (a ++ b))%res.
Definition oLike (v : EVowel) : bool := existsb (Z.eqb v) [V_O; V_OO; V_AU; V_AUU].
Definition romOnsetGood i c i' c' : bool :=
  Bool.eqb (resStrEqb (romOnset i c) (romOnset i' c')) (onsetEqb (romanOnset i c) (romanOnset i' c')) &&
  match romOnset i c with Ok s => noVowelLetter s | _ => false end.
Definition romRimeGood v e v' e' : bool :=
  Bool.eqb (resStrEqb (romRime v e) (romRime v' e')) ((qualityB v v' || (oLike v && oLike v')) && ec_eqb e e') &&
  match romRime v e with Ok s => startsVowel s | _ => false end.
Lemma rom_onsets_ok : sweep4 romOnsetGood (tl allICS) allSec = true.
Proof. vm_cast_no_check (eq_refl true). Qed.
Lemma rom_rimes_ok : sweep4 romRimeGood vowelCodes allEC = true.
Proof. vm_cast_no_check (eq_refl true). Qed.
Lemma oLike_ok v : oLike v = true <-> In v [V_O; V_OO; V_AU; V_AUU].
Proof.
  unfold oLike. rewrite existsb_exists. split; [intros (x & H & E); apply Z.eqb_eq in E; subst; exact H|].
  intros H. exists v. split; [exact H|apply Z.eqb_refl].
Qed.
Lemma rom_shape s : wellFormed s -> exists o r, romOnset (iCons1 s) (iCons2 s) = Ok o /\
  romRime (vowel s) (eCons s) = Ok r /\ noVowelLetter o = true /\ startsVowel r = true /\ RomanSylOutput s = Ok (o ++ r).
Proof.
  intros W. pose proof W as (A1 & A2 & A3 & A4 & A5).
  pose proof (sweep4_in _ _ _ _ _ _ _ rom_onsets_ok (sound_in _ A2) A3 (sound_in _ A2) A3) as O.
  pose proof (sweep4_in _ _ _ _ _ _ _ rom_rimes_ok A4 (ec_in (eCons s)) A4 (ec_in (eCons s))) as R.
  unfold romOnsetGood in O. unfold romRimeGood in R. apply andb_true_iff in O, R. destruct O as (_ & O), R as (_ & R).
  destruct (roman_parts s W) as (r1 & r2 & r3 & r4 & E1 & _ & E2 & _ & E3 & _ & E4 & _ & E).
  unfold romOnset, romRime in *. rewrite E1, E2, E3, E4 in *. cbn [bind] in *.
  exists (r1 ++ r2), (r3 ++ r4). repeat split; auto. rewrite E, sapp_assoc. reflexivity.
Qed.
Lemma C60_lemma2 a b : wellFormed a -> wellFormed b -> RomanSylOutput a = RomanSylOutput b <-> romanSame a b.
Proof.
  intros Wa Wb. destruct (rom_shape a Wa) as (o & r & O & R & N & V & ->).
  destruct (rom_shape b Wb) as (o' & r' & O' & R' & N' & V' & ->).
  pose proof Wa as (A1 & A2 & A3 & A4 & A5). pose proof Wb as (B1 & B2 & B3 & B4 & B5).
  pose proof (sweep4_in _ _ _ _ _ _ _ rom_onsets_ok (sound_in _ A2) A3 (sound_in _ B2) B3) as Og.
  pose proof (sweep4_in _ _ _ _ _ _ _ rom_rimes_ok A4 (ec_in (eCons a)) B4 (ec_in (eCons b))) as Rg.
  unfold romOnsetGood in Og. unfold romRimeGood in Rg. apply andb_true_iff in Og, Rg. destruct Og as (Og & _), Rg as (Rg & _).
  apply Bool.eqb_prop in Og, Rg. rewrite O, O' in Og. rewrite R, R' in Rg. cbn [resStrEqb] in Og, Rg.
  assert (OG : o = o' <-> romanOnset (iCons1 a) (iCons2 a) = romanOnset (iCons1 b) (iCons2 b)).
  { rewrite <- String.eqb_eq, Og. unfold onsetEqb. rewrite andb_true_iff, ics_eqb_eq, Z.eqb_eq.
    destruct (romanOnset _ _), (romanOnset _ _). cbn [fst snd]. split; [intros (-> & ->); reflexivity|intros X; injection X; auto]. }
  assert (RG : r = r' <-> romanQuality (vowel a) (vowel b) /\ eCons a = eCons b).
  { rewrite <- String.eqb_eq, Rg, andb_true_iff, orb_true_iff, andb_true_iff, ec_eqb_eq, qualityB_ok, !oLike_ok. reflexivity. }
  unfold romanSame. rewrite <- OG, <- RG. split.
  - intros E. injection E as E. apply onset_split in E; auto.
  - intros (-> & ->). reflexivity.
Qed.
Theorem C60_roman_merges a b : wellFormed a -> wellFormed b -> RomanSylOutput a = RomanSylOutput b <-> romanSame a b.
Proof. exact (C60_lemma2 a b). Qed.
Print Assumptions C60_roman_merges.
Example C60_merge_case : romanSame (SylOf JA SEC_NONE V_AUU KOT EK 3) (SylOf CHA SEC_NONE V_O KOT TRI 3) /\
  ~ romanSame (SylOf JA SEC_NONE V_AUU KOT EK 3) (SylOf CHA SEC_NONE V_O KOK TRI 3).
Proof.
  split; [|intros (_ & _ & H); discriminate]. split; [reflexivity|]. split; [right; cbn; tauto|reflexivity].
Qed.

(** ** C61: the phonetic text *)
(** Onset and ending are written as in the romanization, but JA is not CHA and
    the glides are [y] and [w]; every vowel has its own text, whose last letter
    tells the length; the tone is a digit. *)
Definition voiceInitial (i : EInitConsSound) (r : string) : Prop :=
  if ics_eqb i JA then r = "j" else exists c s, initialSound c i /\ In (r, s) royalInitial /\ In c (letters s).
Definition voiceFinal (e : EEndConsClass) (r : string) : Prop :=
  if ec_eqb e KOEY then r = "y" else if ec_eqb e KOEW then r = "w" else RoyalFinal e r.
(** Text of the vowel without its length, then that of the short and the long one. *)
Definition voiceVowels : list (string * (EVowel * string) * (EVowel * string)) :=
  [ ("a", (V_A, "h"), (V_AA, "a")); ("i", (V_I, "h"), (V_II, "y")); ("ue", (V_UE, "h"), (V_UEE, "e"));
    ("u", (V_U, "h"), (V_UU, "w")); ("e", (V_E, "h"), (V_EE, "y")); ("ae", (V_AE, "h"), (V_AEE, "e"));
    ("ia", (V_IA, "h"), (V_IAA, "a")); ("uea", (V_UEA, "h"), (V_UEAA, "a")); ("ua", (V_UA, "h"), (V_UAA, "a"));
    ("o", (V_O, "h"), (V_OO, "w")); ("ao", (V_AU, "h"), (V_AUU, "w")); ("oe", (V_OE, "h"), (V_OEE, "e")) ].
Inductive VoiceVowel (v : EVowel) : string -> Prop :=
| VV_short r x y : In (r, (v, x), y) voiceVowels -> VoiceVowel v (r ++ x)
| VV_long r x y : In (r, x, (v, y)) voiceVowels -> VoiceVowel v (r ++ y).
Definition voiceTone : list (string * ETone) := [ ("0", SAMAN); ("1", EK); ("2", THO); ("3", TRI); ("4", CHATTAWA) ].
Inductive Voice (i : EInitConsSound) (i2 : ESecInitCons) (v : EVowel) (e : EEndConsClass) (t : ETone) : string -> Prop :=
| Voi r1 r2 r3 r4 r5 : voiceInitial i r1 -> In (r2, i2) royalSecond -> VoiceVowel v r3 -> voiceFinal e r4 ->
    In (r5, t) voiceTone -> Voice i i2 v e t (r1 ++ r2 ++ r3 ++ r4 ++ r5).

Definition vInitTexts i : list string := if ics_eqb i JA then ["j"] else initTexts i.
Definition vEndTexts e : list string := if ec_eqb e KOEY then ["y"] else if ec_eqb e KOEW then ["w"] else endTexts e.
Definition vVowelTexts (v : EVowel) : list string :=
  flat_map (fun q => match q with (r, (a, x), (b, y)) =>
    ((if Z.eqb v a then [(r ++ x)%string] else []) ++ (if Z.eqb v b then [(r ++ y)%string] else []))%list end) voiceVowels.
Definition vToneTexts (t : ETone) : list string :=
  flat_map (fun q => if tone_eqb t (snd q) then [fst q] else []) voiceTone.
Definition allTone : list ETone := [SAMAN; EK; THO; TRI; CHATTAWA].
Lemma vtables_ok : forallb (fun i => allAre (assocAt ics_eqb PhoneticInitConsTbl_ i) (vInitTexts i)) (tl allICS) &&
  forallb (fun i => allAre (assocAt Z.eqb PhoneticSecInitConsTbl_ i) (secTexts i)) allSec &&
  forallb (fun i => allAre (assocAt Z.eqb PhoneticVowelTbl_ i) (vVowelTexts i)) vowelCodes &&
  forallb (fun i => allAre (assocAt ec_eqb PhoneticEndConsTbl_ i) (vEndTexts i)) allEC &&
  forallb (fun i => allAre (assocAt tone_eqb PhoneticToneTbl_ i) (vToneTexts i)) allTone = true.
Proof. vm_compute. reflexivity. Qed.
Lemma vInitTexts_ok i r : In r (vInitTexts i) <-> voiceInitial i r.
Proof. unfold vInitTexts, voiceInitial. destruct (ics_eqb i JA); [cbn; intuition congruence|apply initTexts_ok]. Qed.
Lemma vEndTexts_ok i r : In r (vEndTexts i) <-> voiceFinal i r.
Proof.
  unfold vEndTexts, voiceFinal. destruct (ec_eqb i KOEY); [cbn; intuition congruence|].
  destruct (ec_eqb i KOEW); [cbn; intuition congruence|apply endTexts_ok].
Qed.
Lemma vVowelTexts_ok v r : In r (vVowelTexts v) <-> VoiceVowel v r.
Proof.
  unfold vVowelTexts. rewrite in_flat_map. split.
  - intros (((p & (a & x)) & (b & y)) & H1 & H2). apply in_app_iff in H2. destruct H2 as [H2|H2].
    + destruct (Z.eqb_spec v a) as [->|]; [|destruct H2]. destruct H2 as [<-|[]]. econstructor 1; eauto.
    + destruct (Z.eqb_spec v b) as [->|]; [|destruct H2]. destruct H2 as [<-|[]]. econstructor 2; eauto.
  - intros [p x (b & y) H|p (a & x) y H]; eexists; (split; [exact H|]); cbv beta iota; rewrite Z.eqb_refl; apply in_app_iff; cbn; auto.
Qed.
Lemma vToneTexts_ok t r : In r (vToneTexts t) <-> In (r, t) voiceTone.
Proof.
  unfold vToneTexts. rewrite in_flat_map. split.
  - intros ((r' & x) & H1 & H2). cbn [fst snd] in H2. destruct (tone_eqb t x) eqn:E; [|destruct H2].
    apply tone_eqb_eq in E. subst. destruct H2 as [<-|[]]. exact H1.
  - intros H. exists (r, t). split; [exact H|]. cbn [fst snd].
    assert (tone_eqb t t = true) as -> by (apply tone_eqb_eq; reflexivity). left; reflexivity.
Qed.
Lemma C61_lemma s t : wellFormed s -> PhoneticOutput s = Ok t <-> Voice (iCons1 s) (iCons2 s) (vowel s) (eCons s) (tone s) t.
Proof.
  intros W. pose proof W as (A1 & A2 & A3 & A4 & A5). pose proof vtables_ok as T. rewrite !andb_true_iff, !forallb_forall in T.
  destruct T as ((((T1 & T2) & T3) & T4) & T5).
  destruct (allAre_ok _ _ (T1 _ (sound_in _ A2))) as (r1 & E1 & I1 & U1).
  destruct (allAre_ok _ _ (T2 _ A3)) as (r2 & E2 & I2 & U2).
  destruct (allAre_ok _ _ (T3 _ A4)) as (r3 & E3 & I3 & U3).
  destruct (allAre_ok _ _ (T4 _ (ec_in (eCons s)))) as (r4 & E4 & I4 & U4).
  assert (IT : In (tone s) allTone) by (destruct (tone s); cbn; tauto).
  destruct (allAre_ok _ _ (T5 _ IT)) as (r5 & E5 & I5 & U5).
  unfold PhoneticOutput. rewrite wf_blank, wf_lit by exact W. rewrite E1, E2, E3, E4, E5. cbn [bind]. split.
  - intros H. injection H as <-. constructor; [apply vInitTexts_ok|apply secTexts_ok|apply vVowelTexts_ok|apply vEndTexts_ok|apply vToneTexts_ok]; assumption.
  - intros [x1 x2 x3 x4 x5 H1 H2 H3 H4 H5].
    apply vInitTexts_ok, U1 in H1. apply secTexts_ok, U2 in H2. apply vVowelTexts_ok, U3 in H3.
    apply vEndTexts_ok, U4 in H4. apply vToneTexts_ok, U5 in H5. subst. reflexivity.
Qed.
Theorem C61_phonetic_text s t : wellFormed s ->
  PhoneticOutput s = Ok t <-> Voice (iCons1 s) (iCons2 s) (vowel s) (eCons s) (tone s) t.
Proof. exact (C61_lemma s t). Qed.
Print Assumptions C61_phonetic_text.
Example C61_case : wellFormed (SylOf JA SEC_NONE V_A KOEY EK 3) /\
  PhoneticOutput (SylOf JA SEC_NONE V_A KOEY EK 3) = Ok "jahy1".
Proof. split; [wf|reflexivity]. Qed.
