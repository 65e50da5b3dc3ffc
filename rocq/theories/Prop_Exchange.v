(** Prop_Exchange.v - property C109: words that sound alike can take each
    other's place in a sentence. *)
From Coq Require Import String Ascii List NArith ZArith Bool Lia Arith.
From Verif Require Import Base ThUni ThCons Syl Utf Lattice Dag PronDag Dict Parser SylOut ThaiOut Output.
From Verif Require Import Spec OrderProofs GroupProofs DictProofs Prop_Syl ParserSpec ParserFacts ParserInv ParserResult ParserListed ParserDict.
From Verif Require Import Prop_Output Prop_Parser Prop_Product Grammar GrammarIff GrammarWord Prop_Grammar Prop_NoBreak.
From Verif Require Prop_Program Prop_Silenced Prop_Silenced2 Prop_SilentRo.
Import ListNotations.
Local Open Scope string_scope.
Local Open Scope list_scope.
Local Open Scope bool_scope.
Local Open Scope nat_scope.

(** ** Vocabulary *)
(** Every pronunciation of [l] is heard in [l'] as well. *)
Definition heardIn (l l' : list SylString) : Prop := forall s, In s l -> exists s', In s' l' /\ map spoken s' = map spoken s.
(** The notations that do not show positions. *)
Inductive Heard : (Syl -> Res string) -> Prop :=
| H_thai : Heard ThaiOutput | H_phonetic : Heard PhoneticOutput
| H_roman : Heard RomanSylOutput | H_soundex : Heard SoundexOutput.

(** ** What is heard decides what is written *)
Lemma heard_text f a b : Heard f -> spoken a = spoken b -> f a = f b.
Proof.
  intros H E. assert (B : syl_eqb a Blank = syl_eqb b Blank).
  { apply eq_true_iff_eq. rewrite !syl_eqb_spoken, E. reflexivity. }
  assert (C : literal a = literal b /\ (literal a = [] -> iCons1 a = iCons1 b /\ iCons2 a = iCons2 b /\ vowel a = vowel b /\ eCons a = eCons b /\ tone a = tone b)).
  { unfold spoken in E. destruct (literal a), (literal b); try discriminate E; [injection E as -> -> -> -> ->; repeat split; reflexivity|].
    injection E as -> ->. split; [reflexivity|discriminate]. }
  destruct C as (L & C). destruct H; unfold ThaiOutput, PhoneticOutput, RomanSylOutput, SoundexOutput, isLiteral; rewrite ?B, <- L;
    (destruct (literal a) as [|x y]; [|reflexivity]); destruct (C eq_refl) as (C1 & C2 & C3 & C4 & C5); rewrite ?C1, ?C2, ?C3, ?C4, ?C5; reflexivity.
Qed.
Lemma heard_line f d a : Heard f -> forall b x, map spoken a = map spoken b -> delimLoop f d x a = delimLoop f d x b.
Proof.
  intros H. induction a as [|u a IH]; intros [|v b] x E; try discriminate E; [reflexivity|].
  cbn [map] in E. assert (E1 : spoken u = spoken v) by congruence. assert (E2 : map spoken a = map spoken b) by congruence.
  cbn [delimLoop]. rewrite (heard_text f u v H E1), (IH b true E2), (IH b false E2).
  replace (syl_eqb v Blank) with (syl_eqb u Blank); [reflexivity|]. apply eq_true_iff_eq. rewrite !syl_eqb_spoken, E1. reflexivity.
Qed.
Lemma heard_turn ls ls' : Forall2 heardIn ls ls' -> forall ws ws' off off' ss, length ws = length ws' -> Forall2 (@In SylString) ss ls ->
  exists ss', Forall2 (@In SylString) ss' ls' /\ map spoken (inTurn off' ws' ss') = map spoken (inTurn off ws ss).
Proof.
  induction 1 as [|l l' ls ls' H F IH]; intros ws ws' off off' ss N S; inversion S as [|s ? ss0 ? I S0]; subst.
  - exists []. split; [constructor|]. destruct ws, ws'; reflexivity.
  - destruct (H s I) as (s' & I' & E). destruct ws as [|w ws], ws' as [|w' ws']; try discriminate N.
    + destruct (IH [] [] off off' ss0 eq_refl S0) as (ss' & A & _). exists (s' :: ss'). split; [constructor; assumption|reflexivity].
    + injection N as N. destruct (IH ws ws' (off + length w) (off' + length w') ss0 N S0) as (ss' & A & B).
      exists (s' :: ss'). split; [constructor; assumption|]. cbn [inTurn]. rewrite !map_app, !shift_spoken, E, B. reflexivity.
Qed.
Lemma F2_length {A B} (R : A -> B -> Prop) l l' : Forall2 R l l' -> length l = length l'.
Proof. induction 1; cbn; congruence. Qed.

(** ** C109 *)
Lemma C109_lemma ct dict dict' ws ws' ls ls' l l' : ctype_ok ct -> dictOKo dict -> dictOKo dict' ->
  ws <> [] -> sentence ct ws -> sentence ct ws' ->
  Forall2 (fun w l => pronounced ct w dict [] l) ws ls -> Forall2 (fun w l => pronounced ct w dict' [] l) ws' ls' ->
  Forall2 heardIn ls ls' ->
  pronounced ct (concat ws) dict (wordEnds 0 ws) l -> pronounced ct (concat ws') dict' (wordEnds 0 ws') l' -> heardIn l l'.
Proof.
  intros C D D' N S S' P P' H Pl Pl' s I.
  assert (Ln : length ws = length ws') by (rewrite (F2_length _ _ _ P), (F2_length _ _ _ P'); exact (F2_length _ _ _ H)).
  assert (N' : ws' <> []) by (intros ->; destruct ws; [congruence|discriminate Ln]).
  destruct (C55_word_by_word ct dict ws ls C D N S P) as (m & Pm & Em).
  destruct (C55_word_by_word ct dict' ws' ls' C D' N' S' P') as (m' & Pm' & Em').
  rewrite (Prop_Program.pron_fun _ _ _ _ _ _ Pl Pm) in I. rewrite (Prop_Program.pron_fun _ _ _ _ _ _ Pl' Pm').
  apply Em in I. destruct I as (ss & F & ->).
  destruct (heard_turn ls ls' H ws ws' 0 0 ss Ln F) as (ss' & F' & E). exists (inTurn 0 ws' ss'). split; [|exact E].
  apply Em'. exists ss'. split; [exact F'|reflexivity].
Qed.
(** If each word of one sentence is heard in the word at its place in another,
    so is the sentence. *)
Theorem C109_exchange ct dict dict' ws ws' ls ls' l l' : ctype_ok ct -> dictOKo dict -> dictOKo dict' ->
  ws <> [] -> sentence ct ws -> sentence ct ws' ->
  Forall2 (fun w l => pronounced ct w dict [] l) ws ls -> Forall2 (fun w l => pronounced ct w dict' [] l) ws' ls' ->
  Forall2 heardIn ls ls' ->
  pronounced ct (concat ws) dict (wordEnds 0 ws) l -> pronounced ct (concat ws') dict' (wordEnds 0 ws') l' -> heardIn l l'.
Proof. exact (C109_lemma ct dict dict' ws ws' ls ls' l l'). Qed.
Print Assumptions C109_exchange.
(** What is heard in another list is printed there, in every notation but the
    raw one and for every delimiter. *)
Theorem C109_lines f d l l' : Heard f -> heardIn l l' -> forall s, In s l ->
  exists s', In s' l' /\ map f s' = map f s /\ delimOutputStr f d s' = delimOutputStr f d s.
Proof.
  intros H L s I. destruct (L s I) as (s' & I' & E). exists s'. split; [exact I'|]. split; [|exact (heard_line f d s' H s true E)].
  clear I I'. revert s E. induction s' as [|v s' IH]; intros [|u s] E; try discriminate E; [reflexivity|]. cbn [map] in *.
  rewrite (IH s) by congruence. rewrite (heard_text f v u H) by congruence. reflexivity.
Qed.
Print Assumptions C109_lines.
Lemma raw_not : exists a b, spoken a = spoken b /\ RawOutput a <> RawOutput b.
Proof. exists (SylOf KA SEC_NONE V_AA EC_NONE SAMAN 2), (SylOf KA SEC_NONE V_AA EC_NONE SAMAN 3). split; [reflexivity|vm_compute; discriminate]. Qed.
(** The raw notation also shows where the syllables end. *)
Theorem C109_raw_refuted : ~ forall a b, spoken a = spoken b -> RawOutput a = RawOutput b.
Proof. intros H. destruct raw_not as (a & b & E & X). exact (X (H a b E)). Qed.
Print Assumptions C109_raw_refuted.

(** ** Silent letters in a sentence *)
(** [w'] is [w] itself, or [w] with silent letters at its end (C106-C108). *)
Inductive SilentLetters (w : list N) : list N -> Prop :=
| SL_same : SilentLetters w w
| SL_one k : Forall (fun c => thaiLetter c = true) w -> 2 <= length w -> consonant k = true -> Prop_Silenced.Quiet k w -> SilentLetters w (w ++ [k; UTH_THANTHAKHAT])
| SL_two k v : Forall (fun c => thaiLetter c = true) w -> Prop_Silenced2.closedWord w -> consonant k = true -> Prop_Silenced2.silencable v ->
    SilentLetters w (w ++ [k; v; UTH_THANTHAKHAT])
| SL_bare c z : Forall (fun c => thaiLetter c = true) w -> Prop_SilentRo.wideEnd w c -> Prop_SilentRo.silentAfter c z -> SilentLetters w (w ++ [z]).
Lemma silent_heard w w' dict l l' : dictOKo dict -> unlisted dict w -> unlisted dict w' -> SilentLetters w w' ->
  pronounced libthai_ct w dict [] l -> pronounced libthai_ct w' dict [] l' -> heardIn l l'.
Proof.
  intros D U U' S P P'. assert (B : forall n x : nat, In x [] -> x = 0 \/ x = n) by (intros n x []). destruct S as [|k L N C Q|k v L W C V|c z L W Z].
  - rewrite (Prop_Program.pron_fun _ _ _ _ _ _ P P'). intros s I. exists s. auto.
  - exact (Prop_Silenced.C106_kept w k dict [] [] l l' L N C Q (B _) (B _) D U' P P').
  - exact (Prop_Silenced2.C107_kept w k v dict [] [] l l' L W C V (B _) (B _) D U' P P').
  - exact (Prop_SilentRo.C108_kept w c z dict [] [] l l' L W Z (B _) (B _) D U U' P P').
Qed.
Lemma C109_lemma2 dict ws ws' ls ls' l l' : dictOKo dict -> Forall (unlisted dict) ws -> Forall (unlisted dict) ws' ->
  Forall2 SilentLetters ws ws' -> ws <> [] -> sentence libthai_ct ws -> sentence libthai_ct ws' ->
  Forall2 (fun w l => pronounced libthai_ct w dict [] l) ws ls -> Forall2 (fun w l => pronounced libthai_ct w dict [] l) ws' ls' ->
  pronounced libthai_ct (concat ws) dict (wordEnds 0 ws) l -> pronounced libthai_ct (concat ws') dict (wordEnds 0 ws') l' -> heardIn l l'.
Proof.
  intros D U U' SL N S S' P P' Pl Pl'. apply (C109_lemma libthai_ct dict dict ws ws' ls ls' l l' libthai_ok D D N S S' P P'); [|exact Pl|exact Pl'].
  clear N S S' Pl Pl'. revert ls ls' P P' U U'. induction SL as [|w w' ws ws' X SL IH]; intros ls ls' P P' U U'; inversion P; inversion P'; subst; constructor.
  - inversion U; inversion U'; subst. apply (silent_heard w w' dict); [exact D|eassumption|eassumption|exact X|eassumption|eassumption].
  - inversion U; inversion U'; subst. apply IH; assumption.
Qed.
(** A sentence keeps its pronunciations when words take on silent letters. *)
Theorem C109_silent dict ws ws' ls ls' l l' : dictOKo dict -> Forall (unlisted dict) ws -> Forall (unlisted dict) ws' ->
  Forall2 SilentLetters ws ws' -> ws <> [] -> sentence libthai_ct ws -> sentence libthai_ct ws' ->
  Forall2 (fun w l => pronounced libthai_ct w dict [] l) ws ls -> Forall2 (fun w l => pronounced libthai_ct w dict [] l) ws' ls' ->
  pronounced libthai_ct (concat ws) dict (wordEnds 0 ws) l -> pronounced libthai_ct (concat ws') dict (wordEnds 0 ws') l' -> heardIn l l'.
Proof. exact (C109_lemma2 dict ws ws' ls ls' l l'). Qed.
Print Assumptions C109_silent.
(** "วันศุกร์ จันทร์ ชาติ" against the same without its silent letters. *)
Example C109_case :
  let ws := map letters ["วัน"; "ศุก"; " "; "จัน"; " "; "ชาต"] in let ws' := map letters ["วัน"; "ศุกร์"; " "; "จันทร์"; " "; "ชาติ"] in
  dictOKo None /\ Forall (unlisted None) ws /\ Forall (unlisted None) ws' /\ Forall2 SilentLetters ws ws' /\ ws <> [] /\
  sentence libthai_ct ws /\ sentence libthai_ct ws' /\
  exists ls ls' l l', Forall2 (fun w l => pronounced libthai_ct w None [] l) ws ls /\ Forall2 (fun w l => pronounced libthai_ct w None [] l) ws' ls' /\
    pronounced libthai_ct (concat ws) None (wordEnds 0 ws) l /\ pronounced libthai_ct (concat ws') None (wordEnds 0 ws') l' /\
    length l = 1 /\ heardIn l l'.
Proof.
  cbv zeta. assert (D : dictOKo None) by (intros d X; discriminate X).
  assert (U : forall ws, Forall (unlisted None) ws) by (intros ws; apply Forall_forall; intros w _; apply unlisted_none).
  assert (SL : Forall2 SilentLetters (map letters ["วัน"; "ศุก"; " "; "จัน"; " "; "ชาต"]) (map letters ["วัน"; "ศุกร์"; " "; "จันทร์"; " "; "ชาติ"])).
  { cbn [map]. constructor; [apply SL_same|]. constructor.
    { apply (SL_one (letters "ศุก") UTH_RO_RUA); [letters_ok|vm_compute; lia|reflexivity|]. apply (Prop_Silenced.quiet_last _ _ UTH_KO_KAI (letters "ศุ")); reflexivity. }
    constructor; [apply SL_same|]. constructor.
    { apply (SL_two (letters "จัน") UTH_THO_THAHAN UTH_RO_RUA); [letters_ok| |reflexivity|left; reflexivity].
      exists UTH_MAI_HAN_AKAT, UTH_NO_NU. split; [exists (letters "จ"); reflexivity|]. split; [reflexivity|]. split; [reflexivity|]. apply memN_notIn. reflexivity. }
    constructor; [apply SL_same|]. constructor; [|constructor].
    apply (SL_bare (letters "ชาต") UTH_TO_TAO UTH_SARA_I); [letters_ok| |right; split; vm_compute; tauto].
    exists UTH_SARA_AA. split; [exists (letters "ช"); reflexivity|]. split; [reflexivity|discriminate]. }
  assert (Se : forall ws, ws = map letters ["วัน"; "ศุก"; " "; "จัน"; " "; "ชาต"] \/ ws = map letters ["วัน"; "ศุกร์"; " "; "จันทร์"; " "; "ชาติ"] -> sentence libthai_ct ws).
  { intros ws [-> | ->]; cbn [map sentence];
    repeat match goal with
    | |- _ /\ _ => split
    | |- letters _ <> [] => vm_compute; discriminate
    | |- follows _ _ _ => apply followsb_sound; vm_compute; reflexivity
    | |- True => exact I
    end. }
  split; [exact D|]. split; [apply U|]. split; [apply U|]. split; [exact SL|]. split; [discriminate|].
  split; [apply Se; left; reflexivity|]. split; [apply Se; right; reflexivity|].
  assert (P : exists ls, Forall2 (fun w l => pronounced libthai_ct w None [] l) (map letters ["วัน"; "ศุก"; " "; "จัน"; " "; "ชาต"]) ls).
  { eexists. cbn [map]. repeat (constructor; [apply listing_pronounced; vm_compute; reflexivity|]). constructor. }
  assert (P' : exists ls, Forall2 (fun w l => pronounced libthai_ct w None [] l) (map letters ["วัน"; "ศุกร์"; " "; "จันทร์"; " "; "ชาติ"]) ls).
  { eexists. cbn [map]. repeat (constructor; [apply listing_pronounced; vm_compute; reflexivity|]). constructor. }
  destruct P as (ls & P), P' as (ls' & P'). exists ls, ls'.
  assert (Q : exists l, pronounced libthai_ct (letters "วันศุก จัน ชาต") None [3; 6; 7; 10; 11; 14] l /\ length l = 1).
  { eexists. split; [apply listing_pronounced; vm_compute; reflexivity|reflexivity]. }
  assert (Q' : exists l, pronounced libthai_ct (letters "วันศุกร์ จันทร์ ชาติ") None [3; 8; 9; 15; 16; 20] l).
  { eexists. apply listing_pronounced. vm_compute. reflexivity. }
  destruct Q as (l & Q & Nl), Q' as (l' & Q'). exists l, l'. split; [exact P|]. split; [exact P'|]. split; [exact Q|]. split; [exact Q'|]. split; [exact Nl|].
  refine (C109_silent None _ _ ls ls' l l' D (U _) (U _) SL _ (Se _ (or_introl eq_refl)) (Se _ (or_intror eq_refl)) P P' Q Q'). discriminate.
Qed.
