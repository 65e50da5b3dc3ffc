(** Prop_Codes.v - properties C66 and C67: the exact texts of the Thai
    respelling, the raw notation and the soundex. *)
From Coq Require Import String Ascii List NArith ZArith Bool Arith Lia.
From Verif Require Import Spec Base ThUni ThCons Syl Utf SylOut ThaiOut OrderProofs ParserSpec ParserFacts Prop_Syl Prop_Notation Prop_Roman.
Import ListNotations.
Local Open Scope string_scope.

(** ** C66: the simplest respelling *)
(** The letters a sound is respelled with: one of the middle class, or a low
    and a high one.  A sonorant is raised by HO HIP with a dot. *)
Definition middleLetters : list (EInitConsSound * string) :=
  [ (KA, "ก"); (JA, "จ"); (DA, "ด"); (TA, "ต"); (BA, "บ"); (PA, "ป"); (ICS_A, "อ") ].
Definition pairedLetters : list (EInitConsSound * (string * string)) :=
  [ (KHA, ("ค", "ข")); (CHA, ("ช", "ฉ")); (THA, ("ท", "ถ")); (PHA, ("พ", "ผ")); (FA, ("ฟ", "ฝ")); (SA, ("ซ", "ส")); (HA, ("ฮ", "ห")) ].
Definition sonorantLetters : list (EInitConsSound * string) :=
  [ (NGA, "ง"); (YA, "ย"); (NA, "น"); (MA, "ม"); (RA, "ร"); (LA, "ล"); (WA, "ว") ].
Inductive Onset : EInitConsSound -> EInitConsClass -> string -> Prop :=
| O_middle i c : In (i, c) middleLetters -> Onset i MID c
| O_low i l h : In (i, (l, h)) pairedLetters -> Onset i LOWP l
| O_high i l h : In (i, (l, h)) pairedLetters -> Onset i HIGH h
| O_plain i c : In (i, c) sonorantLetters -> Onset i LOWS c
| O_raised i c : In (i, c) sonorantLetters -> Onset i HIGH ("หฺ" ++ c).
Definition secondLetters : list (ESecInitCons * string) :=
  [ (SEC_NONE, ""); (SEC_RA, "ฺร"); (SEC_LA, "ฺล"); (SEC_WA, "ฺว") ].
Definition toneMarks : list (ETone * string) :=
  [ (SAMAN, ""); (EK, "่"); (THO, "้"); (TRI, "๊"); (CHATTAWA, "๋") ].
(** Marks in their order; with the same mark a high letter comes last. *)
Definition cost (m : ETone) (k : EInitConsClass) : nat :=
  2 * match m with SAMAN => 0 | EK => 1 | THO => 2 | TRI => 3 | CHATTAWA => 4 | T_INVALID => 5 end
  + match k with HIGH => 1 | _ => 0 end.
(** The onset and the mark that give the tone at the least cost. *)
Inductive Simplest (i : EInitConsSound) (dead short : bool) (t : ETone) : string -> string -> Prop :=
| Simp k c m s : Onset i k c -> In (m, s) toneMarks -> ReadTone k m dead short t ->
    (forall k' c' m' s', Onset i k' c' -> In (m', s') toneMarks -> ReadTone k' m' dead short t -> cost m k <= cost m' k') ->
    Simplest i dead short t c s
(** no onset and mark give a dead syllable the mid tone *)
| Simp_none k c : (forall k' c' m' s', Onset i k' c' -> In (m', s') toneMarks -> ~ ReadTone k' m' dead short t) ->
    Onset i k c -> k <> HIGH -> Simplest i dead short t c "".
Inductive Respelled (s : Syl) : string -> Prop :=
| Resp c c2 m : Simplest (iCons1 s) (writtenDead (vowel s) (eCons s)) (writtenShort (vowel s) (eCons s)) (tone s) c m ->
    In (iCons2 s, c2) secondLetters -> Respelled s (spelled (vowel s) (eCons s) (c ++ c2) m).

Definition onsets (i : EInitConsSound) : list (EInitConsClass * string) :=
  (flat_map (fun p => if ics_eqb (fst p) i then [(MID, snd p)] else []) middleLetters ++
   flat_map (fun p => if ics_eqb (fst p) i then [(LOWP, fst (snd p)); (HIGH, snd (snd p))] else []) pairedLetters ++
   flat_map (fun p => if ics_eqb (fst p) i then [(LOWS, snd p); (HIGH, ("หฺ" ++ snd p)%string)] else []) sonorantLetters)%list.
Lemma onsets_ok i k c : In (k, c) (onsets i) <-> Onset i k c.
Proof.
  assert (Q : forall j, ics_eqb j j = true) by (intros j; apply ics_eqb_eq; reflexivity).
  unfold onsets. rewrite !in_app_iff, !in_flat_map. split.
  - intros [((j & x) & H & K)|[((j & x) & H & K)|((j & x) & H & K)]]; cbn [fst snd] in K;
      (destruct (ics_eqb j i) eqn:E; [apply ics_eqb_eq in E; subst j|destruct K]).
    + destruct K as [K|[]]. injection K as <- <-. constructor. exact H.
    + destruct x as (l & h). cbn [fst snd] in K. destruct K as [K|[K|[]]]; injection K as <- <-; econstructor; exact H.
    + destruct K as [K|[K|[]]]; injection K as <- <-; constructor; exact H.
  - intros [j x H|j l h H|j l h H|j x H|j x H].
    + left. exists (j, x). split; [exact H|]. cbn [fst snd]. rewrite Q. left; reflexivity.
    + right; left. exists (j, (l, h)). split; [exact H|]. cbn [fst snd]. rewrite Q. left; reflexivity.
    + right; left. exists (j, (l, h)). split; [exact H|]. cbn [fst snd]. rewrite Q. right; left; reflexivity.
    + right; right. exists (j, x). split; [exact H|]. cbn [fst snd]. rewrite Q. left; reflexivity.
    + right; right. exists (j, x). split; [exact H|]. cbn [fst snd]. rewrite Q. right; left; reflexivity.
Qed.
(** All ways to write the tone, and the cheapest. *)
Definition ways (i : EInitConsSound) (dead short : bool) (t : ETone) : list (EInitConsClass * string * (ETone * string)) :=
  filter (fun x => tone_eqb (ToneFromWritten (fst (fst x)) (fst (snd x)) dead short) t) (list_prod (onsets i) toneMarks).
Definition wcost (x : EInitConsClass * string * (ETone * string)) : nat := cost (fst (snd x)) (fst (fst x)).
Definition texts (i : EInitConsSound) (dead short : bool) (t : ETone) : list (string * string) :=
  let ws := ways i dead short t in
  match ws with
  | [] => flat_map (fun x => match fst x with HIGH => [] | _ => [(snd x, "")] end) (onsets i)
  | _ => flat_map (fun x => if forallb (fun y => Nat.leb (wcost x) (wcost y)) ws then [(snd (fst x), snd (snd x))] else []) ws
  end.
Lemma onset_class i k c : Onset i k c -> k <> IC_INVALID.
Proof. intros []; discriminate. Qed.
Lemma mark_tone m s : In (m, s) toneMarks -> m <> T_INVALID.
Proof. intros H X. subst. repeat (destruct H as [H|H]; [discriminate H|]). destruct H. Qed.
Lemma ways_ok i dead short t k c m s : In (k, c, (m, s)) (ways i dead short t) <->
  Onset i k c /\ In (m, s) toneMarks /\ ReadTone k m dead short t.
Proof.
  unfold ways. rewrite filter_In, in_prod_iff, onsets_ok, tone_eqb_eq. cbn [fst snd]. split.
  - intros ((A & B) & E). split; [exact A|]. split; [exact B|]. apply readTone_fun; eauto using onset_class, mark_tone.
  - intros (A & B & R). split; [split; assumption|]. apply readTone_fun in R; eauto using onset_class, mark_tone.
Qed.
Lemma texts_ok i dead short t c s : In (c, s) (texts i dead short t) <-> Simplest i dead short t c s.
Proof.
  unfold texts. cbv zeta. destruct (ways i dead short t) as [|w0 ws0] eqn:W.
  - assert (No : forall k' c' m' s', Onset i k' c' -> In (m', s') toneMarks -> ~ ReadTone k' m' dead short t).
    { intros k' c' m' s' A B R. pose proof (proj2 (ways_ok i dead short t k' c' m' s') (conj A (conj B R))) as X. rewrite W in X. destruct X. }
    rewrite in_flat_map. split.
    + intros ((k & c') & A & B). apply onsets_ok in A. cbn [fst snd] in B. destruct k; cbn in B;
        try (destruct B as [B|[]]; injection B as <- <-; eapply Simp_none; eauto; discriminate); destruct B.
    + intros [k c' m s' A B R _|k c' _ A NH]; [exfalso; eapply No; eauto|]. exists (k, c'). split; [apply onsets_ok; exact A|].
      cbn [fst snd]. destruct k; try congruence; left; reflexivity.
  - rewrite <- W. rewrite in_flat_map. split.
    + intros ([[k c'] [m s']] & A & B). destruct (forallb _ _) eqn:F; [|destruct B]. destruct B as [B|[]]. injection B as <- <-.
      apply ways_ok in A. destruct A as (A1 & A2 & A3). eapply Simp; eauto. rewrite forallb_forall in F.
      intros k' c2 m' s2 X Y Z. specialize (F (k', c2, (m', s2)) (proj2 (ways_ok _ _ _ _ _ _ _ _) (conj X (conj Y Z)))).
      apply Nat.leb_le in F. exact F.
    + intros [k c' m s' A B R M|k c' No _ _].
      * exists (k, c', (m, s')). split; [apply ways_ok; auto|].
        assert (forallb (fun y => Nat.leb (wcost (k, c', (m, s'))) (wcost y)) (ways i dead short t) = true) as ->; [|left; reflexivity].
        apply forallb_forall. intros [[k2 c2] [m2 s2]] Y. apply ways_ok in Y. destruct Y as (Y1 & Y2 & Y3).
        apply Nat.leb_le. exact (M _ _ _ _ Y1 Y2 Y3).
      * exfalso. destruct w0 as [[k0 c0] [m0 s0]].
        assert (X : In (k0, c0, (m0, s0)) (ways i dead short t)) by (rewrite W; left; reflexivity).
        apply ways_ok in X. destruct X as (X1 & X2 & X3). exact (No _ _ _ _ X1 X2 X3).
Qed.
Definition pairEqb (a b : string * string) : bool := (String.eqb (fst a) (fst b) && String.eqb (snd a) (snd b))%bool.
Definition secLetter (i2 : ESecInitCons) : string :=
  match find (fun p => Z.eqb i2 (fst p)) secondLetters with Some p => snd p | None => "" end.
Definition textsGood (dead short : bool) (i2 : ESecInitCons) (i1 : EInitConsSound) (t : ETone) : bool :=
  match pairIn dead short i1 i2 t, texts i1 dead short t with
  | Ok p, [x] => pairEqb p (fst x ++ secLetter i2, snd x)
  | _, _ => false
  end.
Lemma textSweep_ok : sweep5 textsGood [true; false] [true; false] allSec (tl allICS) allT = true.
Proof. vm_cast_no_check (eq_refl true). Qed.
Lemma secLetter_ok i2 : validSec i2 -> forall c, In (i2, c) secondLetters <-> c = secLetter i2.
Proof.
  intros H c. assert (In i2 allSec) as I by exact H. cbn in I. destruct I as [<-|[<-|[<-|[<-|[]]]]]; vm_compute; intuition congruence.
Qed.
Lemma dead_ok v e : validVowel v -> IsDeadSyl (writtenShort v e) e = writtenDead v e.
Proof.
  intros H. pose proof (frame_good v e H) as G. unfold frameGood in G. destruct (spelling v e) as [[[a b] c] d].
  apply andb_true_iff in G. apply eqb_prop. apply G.
Qed.
Lemma C66_lemma s t : wellFormed s -> ThaiOutput s = Ok t <-> Respelled s t.
Proof.
  intros W. pose proof W as (A1 & A2 & A3 & A4 & A5). destruct s as [i1 i2 v e tn lit pos]. cbn [literal iCons1 iCons2 vowel tone] in *.
  subst lit.
  assert (G : textsGood (writtenDead v e) (writtenShort v e) i2 i1 tn = true).
  { apply (sweep5_in _ _ _ _ _ _ _ _ _ _ _ textSweep_ok).
    - destruct (writtenDead v e); cbn; tauto.
    - destruct (writtenShort v e); cbn; tauto.
    - exact A3.
    - apply sound_in. exact A2.
    - destruct tn; try congruence; cbn; tauto. }
  unfold textsGood in G. destruct (pairIn _ _ _ _ _) as [p| | |] eqn:P; try discriminate.
  destruct (texts _ _ _ _) as [|x [|]] eqn:T; try discriminate. unfold pairEqb in G. apply andb_true_iff in G. destruct G as (G1 & G2).
  apply String.eqb_eq in G1, G2. cbn [fst snd] in G1, G2.
  assert (E : ThaiOutput (mkSyl i1 i2 v e tn [] pos) = Ok (spelled v e (fst x ++ secLetter i2) (snd x))).
  { apply thai_frame; [exact A4|]. destruct p as (p1 & p2). cbn [fst snd] in G1, G2. subst. rewrite <- P.
    unfold pairFor, pairIn. pose proof (dead_ok v e A4) as D. rewrite D.
    destruct (writtenDead v e), (writtenShort v e); reflexivity. }
  assert (U : forall c m, Simplest i1 (writtenDead v e) (writtenShort v e) tn c m <-> (c, m) = x).
  { intros c m. rewrite <- texts_ok, T. cbn. intuition congruence. }
  rewrite E. split.
  - intros H. injection H as <-. constructor; cbn [iCons1 iCons2 vowel eCons tone]; [apply U; destruct x; reflexivity|].
    apply secLetter_ok; auto.
  - intros [c c2 m S H]. cbn [iCons1 iCons2 vowel eCons tone] in *. apply U in S. subst x. apply secLetter_ok in H; [|exact A3]. subst c2. reflexivity.
Qed.
Theorem C66_simplest_respelling s t : wellFormed s -> ThaiOutput s = Ok t <-> Respelled s t.
Proof. exact (C66_lemma s t). Qed.
Print Assumptions C66_simplest_respelling.
Example C66_case : wellFormed (SylOf KHA SEC_WA V_AA KON CHATTAWA 4) /\ Respelled (SylOf KHA SEC_WA V_AA KON CHATTAWA 4) "ขฺวาน" /\
  ~ Respelled (SylOf KHA SEC_WA V_AA KON CHATTAWA 4) "คฺว๋าน".
Proof.
  assert (W : wellFormed (SylOf KHA SEC_WA V_AA KON CHATTAWA 4)) by wf.
  split; [exact W|]. split; [apply C66_simplest_respelling; [exact W|vm_compute; reflexivity]|].
  intros H. apply C66_simplest_respelling in H; [|exact W]. vm_compute in H. discriminate.
Qed.

(** ** C67: the raw notation and the soundex *)
(** One sign for each sound: a letter of the sound on the right. *)
Definition codeInitial : list (string * string) :=
  [ ("k", "ก"); ("c", "ขฃคฅฆ"); ("g", "ง"); ("j", "จ"); ("J", "ฉชฌ"); ("s", "ซศษส"); ("y", "ญย"); ("d", "ฎด"); ("t", "ฏต");
    ("T", "ฐฑฒถทธ"); ("n", "ณน"); ("b", "บ"); ("p", "ป"); ("P", "ผพภ"); ("f", "ฝฟ"); ("m", "ม"); ("r", "ร"); ("l", "ลฬ");
    ("w", "ว"); ("h", "หฮ"); ("?", "อ") ].
Definition codeSecond : list (string * ESecInitCons) := [ ("_", SEC_NONE); ("r", SEC_RA); ("l", SEC_LA); ("w", SEC_WA) ].
(** A small letter for the short vowel and the capital for the long one. *)
Definition codeVowel : list (string * string * (EVowel * EVowel)) :=
  [ ("a", "A", (V_A, V_AA)); ("i", "I", (V_I, V_II)); ("v", "V", (V_UE, V_UEE)); ("u", "U", (V_U, V_UU)); ("e", "E", (V_E, V_EE));
    ("x", "X", (V_AE, V_AEE)); ("y", "Y", (V_IA, V_IAA)); ("z", "Z", (V_UEA, V_UEAA)); ("t", "T", (V_UA, V_UAA));
    ("o", "O", (V_O, V_OO)); ("c", "C", (V_AU, V_AUU)); ("w", "W", (V_OE, V_OEE)) ].
Definition codeFinal : list (string * EEndConsClass) :=
  [ ("_", EC_NONE); ("k", KOK); ("t", KOT); ("p", KOP); ("g", KONG); ("n", KON); ("m", KOM); ("y", KOEY); ("w", KOEW) ].
Inductive Coded (i : EInitConsSound) : string -> Prop :=
| Cod c r s : initialSound c i -> In (r, s) codeInitial -> In c (letters s) -> Coded i r.
Inductive CodedVowel (v : EVowel) : string -> string -> Prop :=
| CV_short a b l : In (a, b, (v, l)) codeVowel -> CodedVowel v a a
| CV_long a b k : In (a, b, (k, v)) codeVowel -> CodedVowel v b a.
(** Numbers in decimal. *)
Definition decimalDigits : string := "0123456789".
Inductive Decimal : Z -> string -> Prop :=
| D_one d c : (0 <= d < 10)%Z -> String.get (Z.to_nat d) decimalDigits = Some c -> Decimal d (String c "")
| D_more n t d c : (0 < n)%Z -> Decimal n t -> (0 <= d < 10)%Z -> String.get (Z.to_nat d) decimalDigits = Some c ->
    Decimal (10 * n + d) (t ++ String c "").
Definition Numeral (z : Z) (t : string) : Prop :=
  ((0 <= z)%Z /\ Decimal z t) \/ ((z < 0)%Z /\ exists u, Decimal (- z) u /\ t = ("-" ++ u)%string).
Inductive RawText (s : Syl) : string -> Prop :=
| Raw r1 r2 r3 b r4 r5 r6 : Coded (iCons1 s) r1 -> In (r2, iCons2 s) codeSecond -> CodedVowel (vowel s) r3 b ->
    In (r4, eCons s) codeFinal -> In (r5, tone s) voiceTone -> Numeral (endPos s) r6 ->
    RawText s (r1 ++ r2 ++ r3 ++ r4 ++ r5 ++ "@" ++ r6).
(** The soundex drops the second consonant, the length of the vowel and the
    tone, and writes r as l. *)
Inductive SoundexText (s : Syl) : string -> Prop :=
| Sdx r1 r3 b r4 : Coded (if ics_eqb (iCons1 s) RA then LA else iCons1 s) r1 -> CodedVowel (vowel s) r3 b ->
    In (r4, eCons s) codeFinal -> SoundexText s (r1 ++ b ++ r4).

Definition cInitTexts (i : EInitConsSound) : list string :=
  flat_map (fun p => if ics_eqb (fst p) i then
    flat_map (fun c => flat_map (fun q => if memN c (letters (snd q)) then [fst q] else []) codeInitial) (letters (snd p))
    else []) soundGroups.
Lemma cInitTexts_ok i r : In r (cInitTexts i) <-> Coded i r.
Proof.
  unfold cInitTexts. rewrite in_flat_map. split.
  - intros ((i' & s) & H1 & H2). cbn [fst snd] in H2. destruct (ics_eqb i' i) eqn:E; [|destruct H2].
    apply ics_eqb_eq in E. subst i'. apply in_flat_map in H2. destruct H2 as (c & H2 & H3). apply in_flat_map in H3.
    destruct H3 as ((r' & s') & H3 & H4). cbn [fst snd] in H4. destruct (memN c (letters s')) eqn:M; [|destruct H4].
    apply memN_In in M. destruct H4 as [<-|[]]. apply (Cod i c r' s'); [exists s; auto|exact H3|exact M].
  - intros [c r' s (s0 & H1 & H2) H3 H4]. exists (i, s0). split; [exact H1|]. cbn [fst snd].
    assert (ics_eqb i i = true) as -> by (apply ics_eqb_eq; reflexivity).
    apply in_flat_map. exists c. split; [exact H2|]. apply in_flat_map. exists (r', s). split; [exact H3|]. cbn [fst snd].
    apply memN_In in H4. rewrite H4. left; reflexivity.
Qed.
Definition cVowelTexts (v : EVowel) : list (string * string) :=
  flat_map (fun q => match q with (a, b, (k, l)) =>
    ((if Z.eqb v k then [(a, a)] else []) ++ (if Z.eqb v l then [(b, a)] else []))%list end) codeVowel.
Lemma cVowelTexts_ok v r b : In (r, b) (cVowelTexts v) <-> CodedVowel v r b.
Proof.
  unfold cVowelTexts. rewrite in_flat_map. split.
  - intros ([[x y] [k l]] & H1 & H2). apply in_app_iff in H2. destruct H2 as [H2|H2].
    + destruct (Z.eqb_spec v k) as [->|]; [|destruct H2]. destruct H2 as [H2|[]]. injection H2 as <- <-. econstructor 1; eauto.
    + destruct (Z.eqb_spec v l) as [->|]; [|destruct H2]. destruct H2 as [H2|[]]. injection H2 as <- <-. econstructor 2; eauto.
  - intros [x y l H|x y k H]; eexists; (split; [exact H|]); cbv beta iota; rewrite Z.eqb_refl; apply in_app_iff; cbn; auto.
Qed.
Definition cSecTexts (v : ESecInitCons) : list string := flat_map (fun q => if Z.eqb v (snd q) then [fst q] else []) codeSecond.
Lemma cSecTexts_ok v r : In r (cSecTexts v) <-> In (r, v) codeSecond.
Proof.
  unfold cSecTexts. rewrite in_flat_map. split.
  - intros ((r' & x) & H1 & H2). cbn [fst snd] in H2. destruct (Z.eqb_spec v x) as [->|]; [|destruct H2].
    destruct H2 as [<-|[]]. exact H1.
  - intros H. exists (r, v). split; [exact H|]. cbn [fst snd]. rewrite Z.eqb_refl. left; reflexivity.
Qed.
Definition cEndTexts (e : EEndConsClass) : list string := flat_map (fun q => if ec_eqb e (snd q) then [fst q] else []) codeFinal.
Lemma cEndTexts_ok e r : In r (cEndTexts e) <-> In (r, e) codeFinal.
Proof.
  unfold cEndTexts. rewrite in_flat_map. split.
  - intros ((r' & x) & H1 & H2). cbn [fst snd] in H2. destruct (ec_eqb e x) eqn:E; [|destruct H2].
    apply ec_eqb_eq in E. subst. destruct H2 as [<-|[]]. exact H1.
  - intros H. exists (r, e). split; [exact H|]. cbn [fst snd].
    assert (ec_eqb e e = true) as -> by (apply ec_eqb_eq; reflexivity). left; reflexivity.
Qed.
Definition vowelGood (v : EVowel) : bool :=
  match cVowelTexts v, assocAt Z.eqb RawVowelTbl_ v, assocAt Z.eqb SoundexVowelTbl_ v with
  | [x], Ok a, Ok b => pairEqb x (a, b)
  | _, _, _ => false
  end.
Lemma ctables_ok : forallb (fun i => allAre (assocAt ics_eqb RawInitConsTbl_ i) (cInitTexts i) &&
    allAre (assocAt ics_eqb SoundexInitConsTbl_ i) (cInitTexts (if ics_eqb i RA then LA else i))) (tl allICS) &&
  forallb (fun i => allAre (assocAt Z.eqb RawSecInitConsTbl_ i) (cSecTexts i)) allSec &&
  forallb vowelGood vowelCodes &&
  forallb (fun i => allAre (assocAt ec_eqb RawEndConsTbl_ i) (cEndTexts i) && allAre (assocAt ec_eqb SoundexEndConsTbl_ i) (cEndTexts i)) allEC &&
  forallb (fun i => allAre (assocAt tone_eqb RawToneTbl_ i) (vToneTexts i)) allTone = true.
Proof. vm_compute. reflexivity. Qed.
Lemma vowelGood_ok v : vowelGood v = true -> exists a b, assocAt Z.eqb RawVowelTbl_ v = Ok a /\
  assocAt Z.eqb SoundexVowelTbl_ v = Ok b /\ forall x y, CodedVowel v x y <-> x = a /\ y = b.
Proof.
  unfold vowelGood. destruct (cVowelTexts v) as [|p [|]] eqn:E; try discriminate.
  destruct (assocAt Z.eqb RawVowelTbl_ v) as [a| | |]; try discriminate. destruct (assocAt Z.eqb SoundexVowelTbl_ v) as [b| | |]; try discriminate.
  unfold pairEqb. rewrite andb_true_iff, !String.eqb_eq. cbn [fst snd]. intros (P1 & P2). exists a, b. split; [reflexivity|]. split; [reflexivity|].
  intros x y. rewrite <- cVowelTexts_ok, E. cbn [In]. destruct p as (p1 & p2). cbn [fst snd] in *. subst. intuition congruence.
Qed.
Lemma digit_get d : (0 <= d < 10)%Z -> String.get (Z.to_nat d) decimalDigits = Some (digitChar d).
Proof. intros H. digits H; reflexivity. Qed.
Lemma decimal_nonneg n t : Decimal n t -> (0 <= n)%Z.
Proof. induction 1; lia. Qed.
Lemma sapp_nil s : (s ++ "" = s)%string.
Proof. induction s as [|c s IH]; [reflexivity|]. cbn [String.append]. rewrite IH. reflexivity. Qed.
Lemma decimal_fun n t : Decimal n t -> forall t', Decimal n t' -> t' = t.
Proof.
  induction 1 as [d c H G|n t d c P D IH H G]; intros t' D'.
  - destruct D' as [d' c' H' G'|n' u d' c' P' D2 H' G']; [congruence|lia].
  - remember (10 * n + d)%Z as z eqn:E1. destruct D' as [d' c' H' G'|n' u d' c' P' D2 H' G']; [lia|].
    assert (n' = n /\ d' = d) as (-> & ->) by lia. rewrite (IH _ D2). congruence.
Qed.
Lemma dec_decimal fuel : forall n acc, (0 <= n < 10 ^ Z.of_nat (S fuel))%Z -> exists t, Decimal n t /\ decLoop (S fuel) n acc = (t ++ acc)%string.
Proof.
  induction fuel as [|f IH]; intros n acc H.
  - cbn in H. exists (String (digitChar n) ""). split; [apply D_one; [lia|apply digit_get; lia]|]. cbn [decLoop].
    destruct (Z.ltb_spec n 10); [|lia]. rewrite Z.mod_small by lia. reflexivity.
  - change (decLoop (S (S f)) n acc) with
      (let acc' := String (digitChar (n mod 10)) acc in if (n <? 10)%Z then acc' else decLoop (S f) (n / 10)%Z acc').
    cbv zeta. destruct (Z.ltb_spec n 10).
    + exists (String (digitChar n) ""). rewrite Z.mod_small by lia. split; [apply D_one; [lia|apply digit_get; lia]|reflexivity].
    + assert (R : (0 <= n / 10 < 10 ^ Z.of_nat (S f))%Z).
      { split; [apply Z.div_pos; lia|]. apply Z.div_lt_upper_bound; [lia|]. rewrite Nat2Z.inj_succ, Z.pow_succ_r in H by lia.
        rewrite Nat2Z.inj_succ, Z.pow_succ_r in H by lia. rewrite Nat2Z.inj_succ, Z.pow_succ_r by lia. lia. }
      destruct (IH (n / 10)%Z (String (digitChar (n mod 10)) acc) R) as (t & D & ->).
      exists (t ++ String (digitChar (n mod 10)) ""). split.
      * rewrite (Z.div_mod n 10) at 1 by lia. apply D_more; [|exact D|apply Z.mod_pos_bound; lia|apply digit_get, Z.mod_pos_bound; lia].
        apply Z.div_str_pos. lia.
      * rewrite sapp_assoc. reflexivity.
Qed.
Lemma numeral_ok z t : intRange z -> to_string z = t <-> Numeral z t.
Proof.
  intros R. unfold intRange in R. unfold to_string, Numeral. destruct (Z.ltb_spec z 0).
  - destruct (dec_decimal 9 (- z) "") as (u & D & E); [cbn; lia|]. rewrite E, sapp_nil. split.
    + intros <-. right. split; [assumption|]. exists u. auto.
    + intros [(X & _)|(_ & u' & D' & ->)]; [lia|]. rewrite (decimal_fun _ _ D _ D'). reflexivity.
  - destruct (dec_decimal 9 z "") as (u & D & E); [cbn; lia|]. rewrite E, sapp_nil. split.
    + intros <-. left. auto.
    + intros [(_ & D')|(X & _)]; [|lia]. symmetry. exact (decimal_fun _ _ D _ D').
Qed.
Lemma code_parts s : wellFormed s -> exists r1 r2 r3 r4 r5 q1 q3,
  (forall x, Coded (iCons1 s) x <-> x = r1) /\ (forall x, In (x, iCons2 s) codeSecond <-> x = r2) /\
  (forall x y, CodedVowel (vowel s) x y <-> x = r3 /\ y = q3) /\ (forall x, In (x, eCons s) codeFinal <-> x = r4) /\
  (forall x, In (x, tone s) voiceTone <-> x = r5) /\ (forall x, Coded (if ics_eqb (iCons1 s) RA then LA else iCons1 s) x <-> x = q1) /\
  RawOutput s = Ok (r1 ++ r2 ++ r3 ++ r4 ++ r5 ++ "@" ++ to_string (endPos s)) /\ SoundexOutput s = Ok (q1 ++ q3 ++ r4).
Proof.
  intros W. pose proof W as (A1 & A2 & A3 & A4 & A5). pose proof ctables_ok as T. rewrite !andb_true_iff, !forallb_forall in T.
  destruct T as ((((T1 & T2) & T3) & T4) & T5).
  pose proof (T1 _ (sound_in _ A2)) as X1. apply andb_true_iff in X1. destruct X1 as (X1 & Y1).
  pose proof (T4 _ (ec_in (eCons s))) as X4. apply andb_true_iff in X4. destruct X4 as (X4 & Y4).
  destruct (allAre_ok _ _ X1) as (r1 & E1 & I1 & U1). destruct (allAre_ok _ _ Y1) as (q1 & F1 & J1 & V1).
  destruct (allAre_ok _ _ (T2 _ A3)) as (r2 & E2 & I2 & U2).
  destruct (vowelGood_ok _ (T3 _ A4)) as (r3 & q3 & E3 & F3 & U3).
  destruct (allAre_ok _ _ X4) as (r4 & E4 & I4 & U4). destruct (allAre_ok _ _ Y4) as (q4 & F4 & J4 & V4).
  assert (IT : In (tone s) allTone) by (destruct (tone s); cbn; tauto).
  destruct (allAre_ok _ _ (T5 _ IT)) as (r5 & E5 & I5 & U5).
  assert (q4 = r4) by (apply U4; exact J4). subst q4.
  exists r1, r2, r3, r4, r5, q1, q3. unfold RawOutput, SoundexOutput. rewrite wf_blank, wf_lit by exact W.
  rewrite E1, E2, E3, E4, E5, F1, F3, F4. cbn [bind].
  split; [intros x; rewrite <- cInitTexts_ok; split; [apply U1|intros ->; exact I1]|].
  split; [intros x; rewrite <- cSecTexts_ok; split; [apply U2|intros ->; exact I2]|].
  split; [exact U3|].
  split; [intros x; rewrite <- cEndTexts_ok; split; [apply U4|intros ->; exact I4]|].
  split; [intros x; rewrite <- vToneTexts_ok; split; [apply U5|intros ->; exact I5]|].
  split; [intros x; rewrite <- cInitTexts_ok; split; [apply V1|intros ->; exact J1]|]. split; reflexivity.
Qed.
Lemma C67_lemma s t : wellFormed s -> intRange (endPos s) -> RawOutput s = Ok t <-> RawText s t.
Proof.
  intros W R. destruct (code_parts s W) as (r1 & r2 & r3 & r4 & r5 & q1 & q3 & U1 & U2 & U3 & U4 & U5 & _ & -> & _). split.
  - intros H. injection H as <-. apply (Raw s r1 r2 r3 q3 r4 r5); [apply U1|apply U2|apply U3|apply U4|apply U5|apply numeral_ok]; auto.
  - intros [x1 x2 x3 b x4 x5 x6 H1 H2 H3 H4 H5 H6]. apply U1 in H1. apply U2 in H2. apply U3 in H3. apply U4 in H4. apply U5 in H5.
    apply numeral_ok in H6; [|exact R]. destruct H3 as (-> & _). subst. reflexivity.
Qed.
Theorem C67_raw_text s t : wellFormed s -> intRange (endPos s) -> RawOutput s = Ok t <-> RawText s t.
Proof. exact (C67_lemma s t). Qed.
Print Assumptions C67_raw_text.
Lemma C67_lemma2 s t : wellFormed s -> SoundexOutput s = Ok t <-> SoundexText s t.
Proof.
  intros W. destruct (code_parts s W) as (r1 & r2 & r3 & r4 & r5 & q1 & q3 & _ & _ & U3 & U4 & _ & V1 & _ & ->). split.
  - intros H. injection H as <-. apply (Sdx s q1 r3 q3 r4); [apply V1|apply U3|apply U4]; auto.
  - intros [x1 x3 b x4 H1 H3 H4]. apply V1 in H1. apply U3 in H3. apply U4 in H4. destruct H3 as (_ & ->). subst. reflexivity.
Qed.
Theorem C67_soundex_text s t : wellFormed s -> SoundexOutput s = Ok t <-> SoundexText s t.
Proof. exact (C67_lemma2 s t). Qed.
Print Assumptions C67_soundex_text.
Example C67_case : wellFormed (SylOf RA SEC_NONE V_AA KON THO (-205)) /\ intRange (-205) /\
  RawText (SylOf RA SEC_NONE V_AA KON THO (-205)) "r_An2@-205" /\ SoundexText (SylOf RA SEC_NONE V_AA KON THO (-205)) "lan".
Proof.
  assert (W : wellFormed (SylOf RA SEC_NONE V_AA KON THO (-205))) by wf. assert (R : intRange (-205)) by (unfold intRange; lia).
  split; [exact W|]. split; [exact R|].
  split; [apply C67_raw_text; auto; vm_compute; reflexivity|apply C67_soundex_text; auto; vm_compute; reflexivity].
Qed.
