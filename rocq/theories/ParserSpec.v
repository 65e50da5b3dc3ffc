(** ParserSpec.v - specification vocabulary of the parser theorems: which
    letters a component of a syllable may come from.  Nothing here refers to
    the parsing functions. *)
From Coq Require Import List NArith ZArith Bool Arith Lia.
From Verif Require Import Base ThUni ThCons Syl.
Import ListNotations.

(** The 24 vowels and the four second elements of a syllable. *)
Definition vowelCodes : list Z :=
  [ V_A; V_AA; V_I; V_II; V_UE; V_UEE; V_U; V_UU; V_E; V_EE; V_AE; V_AEE;
    V_IA; V_IAA; V_UEA; V_UEAA; V_UA; V_UAA; V_O; V_OO; V_AU; V_AUU; V_OE; V_OEE ].
Definition validVowel (v : EVowel) : Prop := In v vowelCodes.
Definition validSec (c : ESecInitCons) : Prop :=
  In c [SEC_NONE; SEC_RA; SEC_LA; SEC_WA].
(** A spoken syllable whose five components are all meaningful. *)
Definition wellFormed (s : Syl) : Prop :=
  literal s = [] /\ iCons1 s <> ICS_INVALID /\ validSec (iCons2 s) /\
  validVowel (vowel s) /\ tone s <> T_INVALID.

(** The tone a tone mark writes. *)
Definition toneSign (c : N) : option ETone :=
  if (c =? 0x0e48)%N then Some EK
  else if (c =? 0x0e49)%N then Some THO
  else if (c =? 0x0e4a)%N then Some TRI
  else if (c =? 0x0e4b)%N then Some CHATTAWA
  else None.

Section Text.
Variable ct : CType.
Variable w : list N.

(** Character [c] stands at position [i], [lo <= i < hi]. *)
Definition charIn (lo hi : nat) (c : N) : Prop :=
  exists i, lo <= i < hi /\ nth_error w i = Some c.
(** The initial sound [s] is that of a consonant written in the span, or the
    "r"/"l" of RU/LU. *)
Definition soundIn (lo hi : nat) (s : EInitConsSound) : Prop :=
  (exists c, charIn lo hi c /\ th_wcisthcons ct c = true /\ InitConsSound c = Ok s)
  \/ (charIn lo hi UTH_RU /\ s = RA)
  \/ (charIn lo hi UTH_LU /\ s = LA).
(** The class of a consonant written in the span, or the low class that RU and
    LU have. *)
Definition classIn (lo hi : nat) (k : EInitConsClass) : Prop :=
  (exists c, charIn lo hi c /\ th_wcisthcons ct c = true /\ InitConsClass c = Ok k)
  \/ ((charIn lo hi UTH_RU \/ charIn lo hi UTH_LU) /\ k = LOWS).
(** A written tone: the mark is in the span, or there is none. *)
Definition toneIn (lo hi : nat) (t : ETone) : Prop :=
  t = SAMAN \/ exists c, charIn lo hi c /\ toneSign c = Some t.
(** An end class: none, that of a consonant of the span, or the one implied by
    SARA AM, by SARA E .. SARA AA, by SARA AI MAIMUAN / MAIMALAI. *)
Definition endIn (lo hi : nat) (e : EEndConsClass) : Prop :=
  e = EC_NONE
  \/ (exists c, charIn lo hi c /\ EndConsClass c = Ok e)
  \/ (charIn lo hi UTH_SARA_AM /\ e = KOM)
  \/ (nth_error w lo = Some UTH_SARA_E /\ charIn lo hi UTH_SARA_AA /\ e = KOEW)
  \/ ((nth_error w lo = Some UTH_SARA_AI_MAIMUAN
       \/ nth_error w lo = Some UTH_SARA_AI_MAIMALAI) /\ e = KOEY).

(** A pre-syllable: one consonant of the span with a short "a" or long "o" and
    the tone its class gives without a mark. *)
Definition preOk (lo hi : nat) (s : Syl) : Prop :=
  literal s = [] /\ iCons2 s = SEC_NONE /\ eCons s = EC_NONE /\
  (vowel s = V_A \/ vowel s = V_AUU) /\
  exists c k, charIn lo hi c /\ th_wcisthcons ct c = true /\
    InitConsSound c = Ok (iCons1 s) /\ InitConsClass c = Ok k /\
    tone s = ToneFromWritten k SAMAN (vowel s =? V_A)%Z (vowel s =? V_A)%Z.

Lemma charIn_mono lo hi lo' hi' c :
  charIn lo hi c -> lo' <= lo -> hi <= hi' -> charIn lo' hi' c.
Proof. intros (i & Hi & E) H1 H2. exists i. split; [lia|exact E]. Qed.
Lemma soundIn_mono lo hi lo' hi' s :
  soundIn lo hi s -> lo' <= lo -> hi <= hi' -> soundIn lo' hi' s.
Proof.
  intros [(c & H & R)|[(H & R)|(H & R)]] H1 H2.
  - left. exists c. split; [eapply charIn_mono; eauto|exact R].
  - right; left. split; [eapply charIn_mono; eauto|exact R].
  - right; right. split; [eapply charIn_mono; eauto|exact R].
Qed.
Lemma classIn_mono lo hi lo' hi' s :
  classIn lo hi s -> lo' <= lo -> hi <= hi' -> classIn lo' hi' s.
Proof.
  intros [(c & H & R)|([H|H] & R)] H1 H2.
  - left. exists c. split; [eapply charIn_mono; eauto|exact R].
  - right. split; [left; eapply charIn_mono; eauto|exact R].
  - right. split; [right; eapply charIn_mono; eauto|exact R].
Qed.
Lemma toneIn_mono lo hi lo' hi' t :
  toneIn lo hi t -> lo' <= lo -> hi <= hi' -> toneIn lo' hi' t.
Proof.
  intros [H|(c & H & R)] H1 H2; [left; exact H|right].
  exists c. split; [eapply charIn_mono; eauto|exact R].
Qed.
Lemma endIn_mono lo hi hi' e : endIn lo hi e -> hi <= hi' -> endIn lo hi' e.
Proof.
  intros [H|[(c & H & R)|[(H & R)|[(A & H & R)|R]]]] H1.
  - left; exact H.
  - right; left. exists c. split; [eapply charIn_mono; eauto|exact R].
  - right; right; left. split; [eapply charIn_mono; eauto|exact R].
  - right; right; right; left. split; [exact A|].
    split; [eapply charIn_mono; eauto|exact R].
  - right; right; right; right. exact R.
Qed.
Lemma preOk_mono lo hi lo' hi' s :
  preOk lo hi s -> lo' <= lo -> hi <= hi' -> preOk lo' hi' s.
Proof.
  intros (A & B & C & D & c & k & H & R) H1 H2. repeat (split; [assumption|]).
  exists c, k. split; [eapply charIn_mono; eauto|exact R].
Qed.
End Text.

(** Words of a text. *)
Section Words.
Variable ct : CType.
Variable w : list N.
Variable brk : list nat.

(** A character of Thai text: consonant, vowel, tone mark, MAITAIKHU,
    THANTHAKHAT; or a full stop. *)
Definition tokenChar (c : N) : bool :=
  ((c =? 0x2e) || th_wcisthcons ct c || th_wcisthvowel ct c || th_wcisthtone ct c
   || (c =? UTH_MAITAIKHU) || (c =? UTH_THANTHAKHAT))%N.
Definition tokenAt (k : nat) : Prop :=
  exists c, nth_error w k = Some c /\ tokenChar c = true.
(** A syllable can start here. *)
Definition sylStartAt (k : nat) : Prop :=
  exists c, nth_error w k = Some c /\ (th_wcisthcons ct c || th_wcisldvowel ct c) = true.
(** The first break listed that lies after [b]. *)
Definition firstBreak (b e : nat) : Prop :=
  exists l1 l2, brk = l1 ++ e :: l2 /\ b < e /\ Forall (fun x => x <= b) l1.
(** The word that starts at [b] ends at [e]. *)
Record wordEnd (b e : nat) : Prop := {
  we_lt : b < e;
  we_le : e <= length w;
  we_tok : forall k, b <= k < e -> tokenAt k;
  we_brk : forall x, firstBreak b x -> e <= x;
  we_max : e = length w \/ firstBreak b e \/ ~ tokenAt e
}.
(** A new letter group starts at [p]: text start, or after a space or stop. *)
Definition letterStart (p : nat) : Prop :=
  p = 0 \/ exists c, nth_error w (p - 1) = Some c /\ (c = 0x20 \/ c = 0x2e)%N.
End Words.
