(** Prop_Notation.v - property theorems C05, C15-C18, C44: the syllable
    notations. *)
From Coq Require Import String Ascii List ZArith NArith Bool Arith Lia.
From Verif Require Import Spec Base ThUni ThCons Syl OrderProofs Lattice LatticeProofs Dag PronDag
  Dict Utf UtfProofs SylOut ThaiOut Output Parser ParserSpec ParserFacts ParserResult ParserListed
  ParserLiteral Prop_Syl Prop_Parser.
Import ListNotations.
Local Open Scope Z_scope.

(** ** Table look-ups *)
Ltac alts H := cbn [In] in H;
  repeat match type of H with _ \/ _ => destruct H as [H|H] | False => contradiction end; subst.
Ltac allV := match goal with H : validVowel _ |- _ => unfold validVowel, vowelCodes in H; alts H end.
Ltac allS := match goal with H : validSec _ |- _ => unfold validSec in H; alts H end.

(** ** C15: every notation is total on well-formed syllables *)
Definition notations : list (Syl -> Res string) :=
  [RawOutput; PhoneticOutput; RomanSylOutput; SoundexOutput; ThaiOutput].
Definition writes (f : Syl -> Res string) (s : Syl) : Prop := exists t, f s = Ok t /\ t <> EmptyString.

Lemma app_ne_l a b : a <> EmptyString -> (a ++ b)%string <> EmptyString.
Proof. destruct a; [congruence|discriminate]. Qed.
Lemma app_ne_r a b : b <> EmptyString -> (a ++ b)%string <> EmptyString.
Proof. destruct a; [auto|discriminate]. Qed.

Lemma wf_blank s : wellFormed s -> syl_eqb s Blank = false.
Proof.
  intros (H1 & H2 & H3 & H4 & H5). unfold syl_eqb, isLiteral. rewrite H1. cbn [literal Blank SylDefault].
  destruct (ics_eqb (iCons1 s) (iCons1 Blank)) eqn:E; [|reflexivity]. apply ics_eqb_eq in E. contradiction (H2 E).
Qed.
Lemma wf_lit s : wellFormed s -> isLiteral s = false.
Proof. intros (H1 & _). unfold isLiteral. rewrite H1. reflexivity. Qed.

Definition okNe (m : Res string) : Prop := exists t, m = Ok t /\ t <> EmptyString.
Definition okAny (m : Res string) : Prop := exists t, m = Ok t.
Ltac fin := eexists; first [reflexivity | split; [reflexivity|discriminate]].
Lemma raw_i i : i <> ICS_INVALID -> okNe (assocAt ics_eqb RawInitConsTbl_ i).
Proof. destruct i; try congruence; intros _; fin. Qed.
Lemma raw_s c : validSec c -> okAny (assocAt Z.eqb RawSecInitConsTbl_ c).
Proof. intros H. allS; fin. Qed.
Lemma raw_v v : validVowel v -> okNe (assocAt Z.eqb RawVowelTbl_ v).
Proof. intros H. allV; fin. Qed.
Lemma raw_e e : okAny (assocAt ec_eqb RawEndConsTbl_ e).
Proof. destruct e; fin. Qed.
Lemma raw_t t : t <> T_INVALID -> okAny (assocAt tone_eqb RawToneTbl_ t).
Proof. destruct t; try congruence; intros _; fin. Qed.
Lemma pho_i i : i <> ICS_INVALID -> okAny (assocAt ics_eqb PhoneticInitConsTbl_ i).
Proof. destruct i; try congruence; intros _; fin. Qed.
Lemma pho_s c : validSec c -> okAny (assocAt Z.eqb PhoneticSecInitConsTbl_ c).
Proof. intros H. allS; fin. Qed.
Lemma pho_v v : validVowel v -> okNe (assocAt Z.eqb PhoneticVowelTbl_ v).
Proof. intros H. allV; fin. Qed.
Lemma pho_e e : okAny (assocAt ec_eqb PhoneticEndConsTbl_ e).
Proof. destruct e; fin. Qed.
Lemma pho_t t : t <> T_INVALID -> okAny (assocAt tone_eqb PhoneticToneTbl_ t).
Proof. destruct t; try congruence; intros _; fin. Qed.
Lemma rom_i i : i <> ICS_INVALID -> okAny (assocAt ics_eqb RomanInitConsTbl_ i).
Proof. destruct i; try congruence; intros _; fin. Qed.
Lemma rom_s c : validSec c -> okAny (assocAt Z.eqb RomanSecInitConsTbl_ c).
Proof. intros H. allS; fin. Qed.
Lemma rom_v v : validVowel v -> okNe (assocAt Z.eqb RomanVowelTbl_ v).
Proof. intros H. allV; fin. Qed.
Lemma rom_e e : okAny (assocAt ec_eqb RomanEndConsTbl_ e).
Proof. destruct e; fin. Qed.
Lemma sdx_i i : i <> ICS_INVALID -> okNe (assocAt ics_eqb SoundexInitConsTbl_ i).
Proof. destruct i; try congruence; intros _; fin. Qed.
Lemma sdx_v v : validVowel v -> okNe (assocAt Z.eqb SoundexVowelTbl_ v).
Proof. intros H. allV; fin. Qed.
Lemma sdx_e e : okAny (assocAt ec_eqb SoundexEndConsTbl_ e).
Proof. destruct e; fin. Qed.

Ltac step H := let t := fresh "t" in let E := fresh "E" in let N := fresh "N" in
  first [destruct H as (t & E & N) | destruct H as (t & E)]; rewrite E; cbn [bind].
Ltac nonEmpty := repeat first [assumption | discriminate | apply app_ne_l; assumption | apply app_ne_r].
Lemma raw_total s : wellFormed s -> writes RawOutput s.
Proof.
  intros W. pose proof W as (H1 & H2 & H3 & H4 & H5). unfold writes, RawOutput. rewrite wf_blank, wf_lit by exact W.
  step (raw_i _ H2). step (raw_s _ H3). step (raw_v _ H4). step (raw_e (eCons s)). step (raw_t _ H5).
  eexists. split; [reflexivity|]. nonEmpty.
Qed.
Lemma pho_total s : wellFormed s -> writes PhoneticOutput s.
Proof.
  intros W. pose proof W as (H1 & H2 & H3 & H4 & H5). unfold writes, PhoneticOutput. rewrite wf_blank, wf_lit by exact W.
  step (pho_i _ H2). step (pho_s _ H3). step (pho_v _ H4). step (pho_e (eCons s)). step (pho_t _ H5).
  eexists. split; [reflexivity|]. nonEmpty.
Qed.
Lemma rom_total s : wellFormed s -> writes RomanSylOutput s.
Proof.
  intros W. pose proof W as (H1 & H2 & H3 & H4 & H5). unfold writes, RomanSylOutput. rewrite wf_blank, wf_lit by exact W.
  step (rom_i _ H2). step (rom_s _ H3). step (rom_v _ H4). step (rom_e (eCons s)).
  eexists. split; [reflexivity|]. nonEmpty.
Qed.
Lemma sdx_total s : wellFormed s -> writes SoundexOutput s.
Proof.
  intros W. pose proof W as (H1 & H2 & H3 & H4 & H5). unfold writes, SoundexOutput. rewrite wf_blank, wf_lit by exact W.
  step (sdx_i _ H2). step (sdx_v _ H4). step (sdx_e (eCons s)).
  eexists. split; [reflexivity|]. nonEmpty.
Qed.

(** *** How the Thai respelling is put together *)
(** Written length: the diphthongs ia, uea and the vowel oe have no short form before an ending. *)
Definition writtenShort (v : EVowel) (e : EEndConsClass) : bool :=
  existsb (Z.eqb v) [V_A; V_I; V_UE; V_U; V_E; V_AE; V_O; V_UA; V_AU]
  || (existsb (Z.eqb v) [V_IA; V_UEA; V_OE] && ec_eqb e EC_NONE).
Definition writtenDead (v : EVowel) (e : EEndConsClass) : bool :=
  existsb (ec_eqb e) [KOK; KOT; KOP] || (writtenShort v e && ec_eqb e EC_NONE).
Definition endLetter (e : EEndConsClass) : string :=
  match e with
  | EC_NONE => "" | KOK => "ก" | KOT => "ด" | KOP => "บ" | KONG => "ง"
  | KON => "น" | KOM => "ม" | KOEY => "ย" | KOEW => "ว"
  end%string.
(** What is written before the initial, between the initial and the tone mark
    (without a mark, with a mark), and after the mark. *)
Definition spelling (v : EVowel) (e : EEndConsClass) : string * string * string * string :=
  let f := endLetter e in
  let none := ec_eqb e EC_NONE in
  let pick (l : list (EVowel * (string * string * string * string))) :=
    match find (fun x => Z.eqb v (fst x)) l with Some x => snd x | None => ("", "", "", "")%string end in
  (if none then pick
     [ (V_A, ("", "", "", "ะ")); (V_AA, ("", "", "", "า"));
       (V_I, ("", "ิ", "ิ", "")); (V_II, ("", "ี", "ี", ""));
       (V_UE, ("", "ึ", "ึ", "")); (V_UEE, ("", "ื", "ื", "อ"));
       (V_U, ("", "ุ", "ุ", "")); (V_UU, ("", "ู", "ู", ""));
       (V_E, ("เ", "", "", "ะ")); (V_EE, ("เ", "", "", ""));
       (V_AE, ("แ", "", "", "ะ")); (V_AEE, ("แ", "", "", ""));
       (V_O, ("โ", "", "", "ะ")); (V_OO, ("โ", "", "", ""));
       (V_IA, ("เ", "ี", "ี", "ยะ")); (V_IAA, ("เ", "ี", "ี", "ย"));
       (V_UEA, ("เ", "ื", "ื", "อะ")); (V_UEAA, ("เ", "ื", "ื", "อ"));
       (V_UA, ("", "ั", "ั", "วะ")); (V_UAA, ("", "ั", "ั", "ว"));
       (V_AU, ("เ", "", "", "าะ")); (V_AUU, ("", "", "", "อ"));
       (V_OE, ("เ", "", "", "อะ")); (V_OEE, ("เ", "", "", "อ")) ]
   else pick
     [ (V_A, if ec_eqb e KOEW then ("เ", "", "", "า") else ("", "ั", "ั", f));
       (V_AA, ("", "", "", "า" ++ f));
       (V_I, ("", "ิ", "ิ", f)); (V_II, ("", "ี", "ี", f));
       (V_UE, ("", "ึ", "ึ", f)); (V_UEE, ("", "ื", "ื", f));
       (V_U, ("", "ุ", "ุ", f)); (V_UU, ("", "ู", "ู", f));
       (V_E, ("เ", "็", "", f)); (V_EE, ("เ", "", "", f));
       (V_AE, ("แ", "็", "", f)); (V_AEE, ("แ", "", "", f));
       (V_O, ("", "", "", f)); (V_OO, ("โ", "", "", f));
       (V_IA, ("เ", "ี", "ี", "ย" ++ f)); (V_IAA, ("เ", "ี", "ี", "ย" ++ f));
       (V_UEA, ("เ", "ื", "ื", "อ" ++ f)); (V_UEAA, ("เ", "ื", "ื", "อ" ++ f));
       (V_UA, ("", "็", "", "ว" ++ f)); (V_UAA, ("", "", "", "ว" ++ f));
       (V_AU, ("", "็", "", "อ" ++ f)); (V_AUU, ("", "", "", "อ" ++ f));
       (V_OE, if ec_eqb e KOEY then ("เ", "", "", f) else ("เ", "ิ", "ิ", f));
       (V_OEE, if ec_eqb e KOEY then ("เ", "", "", f) else ("เ", "ิ", "ิ", f)) ])%string.

Definition spelled (v : EVowel) (e : EEndConsClass) (ini mark : string) : string :=
  let '(lead, plain, marked, tail) := spelling v e in
  (lead ++ ini ++ (match mark with EmptyString => plain | _ => marked end) ++ mark ++ tail)%string.

Lemma thai_frame v e : validVowel v -> forall i1 i2 t pos f m,
  pairFor (writtenShort v e) i1 i2 e t = Ok (f, m) ->
  ThaiOutput (mkSyl i1 i2 v e t [] pos) = Ok (spelled v e f m).
Proof.
  intros H. allV; intros i1 i2 t pos f m P; destruct e;
    cbv -[pairFor ThaiLiveIConsTonePair ThaiDeadShortIConsTonePair ThaiDeadLongIConsTonePair
          String.append] in P |- *;
    cbv [pairFor IsDeadSyl IsDeadEndConsClass ec_eqb ec_code orb andb N.eqb Pos.eqb] in P |- *;
    rewrite P; destruct m; reflexivity.
Qed.

(** *** Initials and marks *)
(** Class of a Thai letter by the textbook list. *)
Definition classTbl : list (EInitConsClass * list N) :=
  Eval vm_compute in map (fun g => (fst g, letters (snd g))) classGroups.
Definition classOf (c : N) : EInitConsClass :=
  match find (fun g => memN c (snd g)) classTbl with Some g => fst g | None => IC_INVALID end.
Definition soundTbl : list (EInitConsSound * list N) :=
  Eval vm_compute in map (fun g => (fst g, letters (snd g))) soundGroups.
Definition soundOf (c : N) : EInitConsSound :=
  match find (fun g => memN c (snd g)) soundTbl with Some g => fst g | None => ICS_INVALID end.
(** The letters of an initial: a letter of that sound, perhaps led by HO HIP
    with PHINTHU to raise a low letter; the second consonant after a PHINTHU. *)
Definition PHINTHU : N := 0x0e3a.
Definition HO_HIP : N := 0x0e2b.
Inductive InitialText : EInitConsSound -> ESecInitCons -> list N -> Prop :=
| IT_plain i c : listed soundGroups i c -> InitialText i SEC_NONE [c]
| IT_raised i c : listed soundGroups i c -> listed classGroups LOWS c ->
    InitialText i SEC_NONE [HO_HIP; PHINTHU; c]
| IT_second i i2 c u : InitialText i SEC_NONE u ->
    In (i2, c) [(SEC_RA, 0x0e23); (SEC_LA, 0x0e25); (SEC_WA, 0x0e27)]%N ->
    InitialText i i2 (u ++ [PHINTHU; c]).
Definition initialB (i : EInitConsSound) (u : list N) : bool :=
  match u with
  | [c] => ics_eqb (soundOf c) i
  | [h; p; c] => N.eqb h HO_HIP && N.eqb p PHINTHU && ics_eqb (soundOf c) i && ic_eqb (classOf c) LOWS
  | _ => false
  end.
Definition initialTextB (i : EInitConsSound) (i2 : ESecInitCons) (u : list N) : bool :=
  if Z.eqb i2 SEC_NONE then initialB i u
  else match rev u with
       | c :: p :: r => N.eqb p PHINTHU && initialB i (rev r) &&
           existsb (fun x => Z.eqb i2 (fst x) && N.eqb c (snd x))
             [(SEC_RA, 0x0e23); (SEC_LA, 0x0e25); (SEC_WA, 0x0e27)]%N
       | _ => false
       end.
Lemma soundOf_listed c i : ics_eqb (soundOf c) i = true -> i <> ICS_INVALID -> listed soundGroups i c.
Proof.
  intros E. apply ics_eqb_eq in E. subst i.
  unfold soundOf. destruct (find _ soundTbl) as [[k ls]|] eqn:E; [|congruence].
  intros _. apply find_some in E. destruct E as (I & M). cbn [fst snd] in *.
  change soundTbl with (map (fun g => (fst g, letters (snd g))) soundGroups) in I.
  apply in_map_iff in I. destruct I as ([k' ls'] & E & I). injection E as <- <-.
  exists ls'. split; [exact I|]. apply memN_In. exact M.
Qed.
Lemma classOf_listed c : classOf c <> IC_INVALID -> listed classGroups (classOf c) c.
Proof.
  unfold classOf. destruct (find _ classTbl) as [[k ls]|] eqn:E; [|congruence].
  intros _. apply find_some in E. destruct E as (I & M). cbn [fst snd] in *.
  change classTbl with (map (fun g => (fst g, letters (snd g))) classGroups) in I.
  apply in_map_iff in I. destruct I as ([k' ls'] & E & I). injection E as <- <-.
  exists ls'. split; [exact I|]. apply memN_In. exact M.
Qed.
Lemma initialB_ok i u : i <> ICS_INVALID -> initialB i u = true -> InitialText i SEC_NONE u.
Proof.
  intros Hi. unfold initialB. destruct u as [|a [|b [|c [|]]]]; try discriminate.
  - intros H. apply IT_plain. apply soundOf_listed; auto.
  - rewrite !andb_true_iff, !N.eqb_eq. intros (((-> & ->) & H) & K). apply ic_eqb_eq in K.
    apply IT_raised; [apply soundOf_listed; auto|]. rewrite <- K. apply classOf_listed. congruence.
Qed.
Lemma initialTextB_ok i i2 u : i <> ICS_INVALID -> initialTextB i i2 u = true -> InitialText i i2 u.
Proof.
  intros Hi. unfold initialTextB. destruct (Z.eqb_spec i2 SEC_NONE) as [->|Ne]; [apply initialB_ok; exact Hi|].
  destruct (rev u) as [|c [|p r]] eqn:R; try discriminate.
  rewrite !andb_true_iff, N.eqb_eq, existsb_exists. intros ((-> & H) & (x & I & E)).
  apply andb_true_iff in E. destruct E as (E1 & E2). apply Z.eqb_eq in E1. apply N.eqb_eq in E2.
  rewrite <- (rev_involutive u), R. cbn [rev]. rewrite <- app_assoc. cbn [app].
  apply IT_second; [apply initialB_ok; auto|]. subst. destruct x; exact I.
Qed.
Definition isToneMark (c : N) : bool := match toneSign c with Some _ => true | None => false end.
Definition markName (m : list N) : ETone :=
  match m with c :: _ => match toneSign c with Some t => t | None => SAMAN end | [] => SAMAN end.
(** The tone an initial of class [k] with mark [w] gets; where the textbook
    has no rule the mark names the tone. *)
Definition ReadTone (k : EInitConsClass) (w : ETone) (dead short : bool) (t : ETone) : Prop :=
  Textbook k w dead short t \/ (unspellable k w /\ t = w).
Lemma readTone_fun k w d sh t : k <> IC_INVALID -> w <> T_INVALID ->
  (ReadTone k w d sh t <-> ToneFromWritten k w d sh = t).
Proof.
  intros Hk Hw. destruct (tone_rules_lemma k w d sh Hk Hw) as (A & B & C & D). unfold ReadTone. split.
  - intros [H|(H & ->)]; [exact (B _ H)|exact (D H)].
  - intros E. destruct k; try congruence; destruct w; try congruence; subst t;
      first [left; apply A; intros [_ [X|X]]; discriminate
            |left; apply A; intros [[X|[X|X]] _]; discriminate
            |right; split; [split; auto|apply D; split; auto]].
Qed.

(** A text and its letters, all from the Thai block. *)
Definition thaiLetter (c : N) : bool := (N.leb 0x0e01 c && N.leb c 0x0e5b)%bool.
Definition spells (t : string) (u : list N) : Prop := t = utf8Encode u /\ forallb thaiLetter u = true.
Lemma spells_app a b u v : spells a u -> spells b v -> spells (a ++ b) (u ++ v).
Proof.
  intros (A & A') (B & B'). split; [|rewrite forallb_app, A', B'; reflexivity].
  subst. unfold utf8Encode. rewrite flat_map_app.
  generalize (flat_map utf8EncodeCp u) as x, (flat_map utf8EncodeCp v) as y. induction x as [|c x IH]; intros y; [reflexivity|].
  cbn [app string_of_list_ascii String.append]. rewrite IH. reflexivity.
Qed.
Lemma thai_scalar c : thaiLetter c = true -> scalar c /\ utf16EncodeCp c = [c].
Proof.
  unfold thaiLetter. rewrite andb_true_iff, !N.leb_le. intros H. split; [left; lia|].
  unfold utf16EncodeCp. destruct (N.ltb_spec c 0x10000); [reflexivity|lia].
Qed.
Lemma spells_letters t u : spells t u -> from_bytes t = Ok u.
Proof.
  intros (-> & F). unfold from_bytes, utf8Decode, utf8Encode.
  rewrite list_ascii_of_string_of_list_ascii.
  fold (enc8 u). rewrite dec8_encs.
  - cbn [bind]. f_equal. induction u as [|c u IH]; [reflexivity|]. cbn [forallb] in F. apply andb_true_iff in F.
    change (utf16Encode (c :: u)) with (utf16EncodeCp c ++ utf16Encode u)%list.
    rewrite IH by tauto. rewrite (proj2 (thai_scalar c (proj1 F))). reflexivity.
  - apply Forall_forall. intros c I. rewrite forallb_forall in F. apply thai_scalar. auto.
Qed.
Definition spellsb (t : string) : bool :=
  match from_bytes t with Ok u => String.eqb t (utf8Encode u) && forallb thaiLetter u | _ => false end.
Lemma spellsb_ok t : spellsb t = true -> spells t (letters t).
Proof.
  unfold spellsb, letters. destruct (from_bytes t) as [u| | |]; try discriminate.
  rewrite andb_true_iff. intros (A & B). apply String.eqb_eq in A. split; auto.
Qed.

Definition isConsB (c : N) : bool :=
  (N.leb 0x0e01 c && N.leb c 0x0e2e && negb (N.eqb c 0x0e24) && negb (N.eqb c 0x0e26))%bool.
Lemma isConsB_ok c : isConsB c = true <-> thaiConsonant c.
Proof.
  unfold isConsB, thaiConsonant. rewrite !andb_true_iff, !negb_true_iff, !N.leb_le, !N.eqb_neq. tauto.
Qed.

Definition pairIn (dead short : bool) :=
  if dead then (if short then ThaiDeadShortIConsTonePair else ThaiDeadLongIConsTonePair)
  else ThaiLiveIConsTonePair.
Definition pairGood (dead short : bool) (i2 : ESecInitCons) (i1 : EInitConsSound) (t : ETone) : bool :=
  match pairIn dead short i1 i2 t with
  | Ok (f, m) =>
      spellsb f && spellsb m &&
      match letters f with
      | c :: r =>
          isConsB c && negb (existsb isToneMark (c :: r)) &&
          negb (ic_eqb (classOf c) IC_INVALID) && initialTextB i1 i2 (c :: r) &&
          (match letters m with [] => true | [x] => isToneMark x | _ => false end) &&
          (if dead && tone_eqb t SAMAN then true
           else tone_eqb (ToneFromWritten (classOf c) (markName (letters m)) dead short) t)
      | [] => false
      end
  | _ => false
  end.
Definition allT := [SAMAN; EK; THO; TRI; CHATTAWA].
Definition sweep5 {A B C D E} (P : A -> B -> C -> D -> E -> bool) la lb lc ld le : bool :=
  forallb (fun a => forallb (fun b => forallb (fun c => forallb (fun d => forallb (P a b c d) le) ld) lc) lb) la.
Lemma sweep5_in {A B C D E} (P : A -> B -> C -> D -> E -> bool) la lb lc ld le a b c d e :
  sweep5 P la lb lc ld le = true -> In a la -> In b lb -> In c lc -> In d ld -> In e le -> P a b c d e = true.
Proof.
  unfold sweep5. intros S Ia Ib Ic Id Ie.
  rewrite forallb_forall in S. specialize (S a Ia). rewrite forallb_forall in S. specialize (S b Ib).
  rewrite forallb_forall in S. specialize (S c Ic). rewrite forallb_forall in S. specialize (S d Id).
  rewrite forallb_forall in S. exact (S e Ie).
Qed.
Definition allSec := [SEC_NONE; SEC_RA; SEC_LA; SEC_WA].
Lemma pairSweep_ok : sweep5 pairGood [true; false] [true; false] allSec (tl allICS) allT = true.
Proof. vm_cast_no_check (eq_refl true). Qed.
Lemma pair_good dead short i1 i2 t : i1 <> ICS_INVALID -> validSec i2 -> t <> T_INVALID ->
  pairGood dead short i2 i1 t = true.
Proof.
  intros H1 H2 H3. apply (sweep5_in _ _ _ _ _ _ _ _ _ _ _ pairSweep_ok).
  - destruct dead; cbn; tauto.
  - destruct short; cbn; tauto.
  - exact H2.
  - destruct i1; try congruence; cbn; tauto.
  - destruct t; try congruence; cbn; tauto.
Qed.

(** Reading a written text: its first consonant and its tone mark. *)
Definition firstConsonant (u : list N) (c : N) : Prop :=
  exists l r, u = (l ++ c :: r)%list /\ thaiConsonant c /\ Forall (fun x => ~ thaiConsonant x) l.
Definition toneMarks_ (u : list N) : list N := filter isToneMark u.
Definition writtenMark (u : list N) (w : ETone) : Prop :=
  (toneMarks_ u = [] /\ w = SAMAN) \/ (exists c, toneMarks_ u = [c] /\ toneSign c = Some w).
Definition ReadsTone (u : list N) (dead short : bool) (t : ETone) : Prop :=
  exists c k w, firstConsonant u c /\ listed classGroups k c /\ writtenMark u w /\ ReadTone k w dead short t.

Definition frameGood (v : EVowel) (e : EEndConsClass) : bool :=
  let '(a, b, c, d) := spelling v e in
  forallb spellsb [a; b; c; d] &&
  negb (existsb isToneMark (letters a ++ letters b ++ letters c ++ letters d)) &&
  negb (existsb isConsB (letters a)) &&
  Bool.eqb (IsDeadSyl (writtenShort v e) e) (writtenDead v e).
Lemma frame_good v e : validVowel v -> frameGood v e = true.
Proof.
  assert (S : forallb (fun v => forallb (frameGood v) allEC) vowelCodes = true) by (vm_compute; reflexivity).
  intros H. rewrite forallb_forall in S. specialize (S v H). rewrite forallb_forall in S. apply S.
  destruct e; cbn; tauto.
Qed.
Lemma noMarks u : existsb isToneMark u = false -> filter isToneMark u = [].
Proof.
  induction u as [|c u IH]; [reflexivity|]. cbn [existsb filter]. rewrite orb_false_iff. intros (-> & H). auto.
Qed.
Lemma thai_read s : wellFormed s ->
  exists ini mark c r,
    ThaiOutput s = Ok (spelled (vowel s) (eCons s) ini mark) /\
    spells ini (c :: r) /\ ini <> EmptyString /\ InitialText (iCons1 s) (iCons2 s) (c :: r) /\
    (from_bytes mark = Ok [] \/ exists x, from_bytes mark = Ok [x] /\ isToneMark x = true) /\
    exists u, spells (spelled (vowel s) (eCons s) ini mark) u /\
    (~ (tone s = SAMAN /\ writtenDead (vowel s) (eCons s) = true) ->
     ReadsTone u (writtenDead (vowel s) (eCons s)) (writtenShort (vowel s) (eCons s)) (tone s)).
Proof.
  intros (H1 & H2 & H3 & H4 & H5).
  pose proof (frame_good (vowel s) (eCons s) H4) as F. unfold frameGood in F.
  destruct (spelling (vowel s) (eCons s)) as [[[a b] c'] d] eqn:Sp.
  rewrite !andb_true_iff, !negb_true_iff in F. destruct F as (((F1 & F2) & F3) & F4).
  apply Bool.eqb_prop in F4.
  pose proof (pair_good (writtenDead (vowel s) (eCons s)) (writtenShort (vowel s) (eCons s)) (iCons1 s) (iCons2 s) (tone s) H2 H3 H5) as G.
  unfold pairGood in G.
  assert (PF : pairFor (writtenShort (vowel s) (eCons s)) (iCons1 s) (iCons2 s) (eCons s) (tone s)
               = pairIn (writtenDead (vowel s) (eCons s)) (writtenShort (vowel s) (eCons s)) (iCons1 s) (iCons2 s) (tone s)).
  { unfold pairFor, pairIn. rewrite F4. destruct (writtenDead _ _); [|reflexivity]. destruct (writtenShort _ _); reflexivity. }
  destruct (pairIn _ _ _ _ _) as [[f m]| | |] eqn:Ep; try discriminate.
  rewrite !andb_true_iff in G. destruct G as ((G1 & G2) & G3).
  apply spellsb_ok in G1. apply spellsb_ok in G2.
  destruct (letters f) as [|c r] eqn:Lf; [discriminate|].
  rewrite !andb_true_iff, !negb_true_iff in G3. destruct G3 as (((((G3 & G4) & G5) & G8) & G6) & G7).
  exists f, m, c, r.
  assert (Es : s = mkSyl (iCons1 s) (iCons2 s) (vowel s) (eCons s) (tone s) [] (endPos s)).
  { destruct s; cbn in *. subst. reflexivity. }
  split; [rewrite Es at 1; apply thai_frame; [exact H4|exact PF]|].
  split; [exact G1|].
  split; [intros ->; cbn in Lf; discriminate|].
  split; [apply initialTextB_ok; assumption|].
  split.
  { rewrite (spells_letters _ _ G2). destruct (letters m) as [|x [|y ms]]; [left; reflexivity| |discriminate].
    right. exists x. auto. }
  cbn [forallb] in F1. rewrite !andb_true_iff in F1. destruct F1 as (A1 & A2 & A3 & A4 & _).
  apply spellsb_ok in A1. apply spellsb_ok in A2. apply spellsb_ok in A3. apply spellsb_ok in A4.
  rewrite !existsb_app, !orb_false_iff in F2. destruct F2 as (N1 & N2 & N3 & N4).
  set (mid := match m with EmptyString => b | _ => c' end).
  assert (Sm : spells mid (letters mid)) by (unfold mid; destruct m; assumption).
  assert (Nm : existsb isToneMark (letters mid) = false) by (unfold mid; destruct m; assumption).
  exists (letters a ++ (c :: r) ++ letters mid ++ letters m ++ letters d)%list. split.
  { unfold spelled. rewrite Sp. fold mid. repeat (apply spells_app; [assumption|]). assumption. }
  intros ND. exists c, (classOf c), (markName (letters m)).
  assert (Kc : classOf c <> IC_INVALID).
  { intros X. rewrite X in G5. discriminate. }
  split; [|split; [exact (classOf_listed c Kc)|split]].
  - exists (letters a), (r ++ letters mid ++ letters m ++ letters d)%list. split; [reflexivity|].
    split; [apply isConsB_ok; exact G3|]. apply Forall_forall. intros x I X.
    apply isConsB_ok in X. rewrite <- not_true_iff_false in F3. apply F3. apply existsb_exists. eauto.
  - unfold writtenMark, toneMarks_. rewrite !filter_app, (noMarks _ N1), (noMarks _ G4), (noMarks _ Nm), (noMarks _ N4).
    rewrite app_nil_r. cbn [app]. destruct (letters m) as [|x [|y ms]]; [left; split; reflexivity| |discriminate].
    right. exists x. cbn [filter]. rewrite G6. split; [reflexivity|]. unfold markName. unfold isToneMark in G6.
    destruct (toneSign x); [reflexivity|discriminate].
  - apply readTone_fun; [exact Kc| |].
    + unfold markName. destruct (letters m) as [|x ms]; [discriminate|]. unfold toneSign.
      repeat match goal with |- context [if ?b then _ else _] => destruct b end; discriminate.
    + destruct (writtenDead (vowel s) (eCons s) && tone_eqb (tone s) SAMAN)%bool eqn:X.
      * exfalso. apply ND. apply andb_true_iff in X. destruct X as (X1 & X2). apply tone_eqb_eq in X2. auto.
      * apply tone_eqb_eq. exact G7.
Qed.
Lemma thai_total s : wellFormed s -> writes ThaiOutput s.
Proof.
  intros W. destruct (thai_read s W) as (i & m & c & r & E & _ & N & _ & _ & _). exists (spelled (vowel s) (eCons s) i m).
  split; [exact E|]. unfold spelled. destruct (spelling _ _) as [[[? ?] ?] ?]. apply app_ne_r, app_ne_l, N.
Qed.

Lemma C15_lemma s : wellFormed s -> Forall (fun f => writes f s) notations.
Proof.
  intros W. repeat apply Forall_cons; try apply Forall_nil;
    auto using raw_total, pho_total, rom_total, sdx_total, thai_total.
Qed.
Theorem C15_notations_total s : wellFormed s -> Forall (fun f => writes f s) notations.
Proof. exact (C15_lemma s). Qed.
Print Assumptions C15_notations_total.
Example C15_case : wellFormed (SylOf THA SEC_NONE V_A KOEY SAMAN 3) /\
  map (fun f => f (SylOf THA SEC_NONE V_A KOEY SAMAN 3)) notations
  = [Ok "T_ay0@3"; Ok "thahy0"; Ok "thai"; Ok "Tay"; Ok "ทัย"]%string.
Proof.
  split; [|vm_compute; reflexivity]. unfold wellFormed, validSec, validVowel, vowelCodes; cbn.
  repeat split; try discriminate; tauto.
Qed.

(** ** C18: the Thai respelling carries the right tone *)
Lemma C18_lemma s : wellFormed s -> ~ (tone s = SAMAN /\ writtenDead (vowel s) (eCons s) = true) ->
  exists t u, ThaiOutput s = Ok t /\ from_bytes t = Ok u /\
    ReadsTone u (writtenDead (vowel s) (eCons s)) (writtenShort (vowel s) (eCons s)) (tone s).
Proof.
  intros W ND. destruct (thai_read s W) as (i & m & c & r & E & _ & _ & _ & _ & u & S & R).
  exists (spelled (vowel s) (eCons s) i m), u. split; [exact E|]. split; [apply spells_letters; exact S|auto].
Qed.
Theorem C18_respelling_tone s : wellFormed s -> ~ (tone s = SAMAN /\ writtenDead (vowel s) (eCons s) = true) ->
  exists t u, ThaiOutput s = Ok t /\ from_bytes t = Ok u /\
    ReadsTone u (writtenDead (vowel s) (eCons s)) (writtenShort (vowel s) (eCons s)) (tone s).
Proof. exact (C18_lemma s). Qed.
Print Assumptions C18_respelling_tone.
(** The text is an initial of the right sound with at most one tone mark, and
    the vowel and the ending are spelled around them by the table [spelling]. *)
Lemma C18_lemma2 s : wellFormed s ->
  exists ini mark u m, ThaiOutput s = Ok (spelled (vowel s) (eCons s) ini mark) /\
    from_bytes ini = Ok u /\ InitialText (iCons1 s) (iCons2 s) u /\
    from_bytes mark = Ok m /\ (m = [] \/ exists x, m = [x] /\ isToneMark x = true).
Proof.
  intros W. destruct (thai_read s W) as (i & m & c & r & E & S & _ & I & M & _).
  destruct M as [M|(x & M & X)]; [exists i, m, (c :: r)%list, []|exists i, m, (c :: r)%list, [x]];
    (split; [exact E|]; split; [apply spells_letters; exact S|]; split; [exact I|]; split; [exact M|]; eauto).
Qed.
Theorem C18_respelling_sound s : wellFormed s ->
  exists ini mark u m, ThaiOutput s = Ok (spelled (vowel s) (eCons s) ini mark) /\
    from_bytes ini = Ok u /\ InitialText (iCons1 s) (iCons2 s) u /\
    from_bytes mark = Ok m /\ (m = [] \/ exists x, m = [x] /\ isToneMark x = true).
Proof. exact (C18_lemma2 s). Qed.
Print Assumptions C18_respelling_sound.
(** Mid tone on a dead syllable has no respelling: the text reads otherwise. *)
Lemma C18_lemma3 : exists s t u, wellFormed s /\ tone s = SAMAN /\ ThaiOutput s = Ok t /\ from_bytes t = Ok u /\
  forall t', ReadsTone u (writtenDead (vowel s) (eCons s)) (writtenShort (vowel s) (eCons s)) t' -> t' <> SAMAN.
Proof.
  exists (SylOf KA SEC_NONE V_AA KOK SAMAN 3), "กาก"%string, (letters "กาก").
  split; [unfold wellFormed, validSec, validVowel, vowelCodes; cbn; repeat split; try discriminate; tauto|].
  split; [reflexivity|]. split; [vm_compute; reflexivity|]. split; [vm_compute; reflexivity|].
  intros t' (c & k & w & (l & r & E & Hc & Hl) & (ls & I & Hk) & M & R) ->.
  assert (w = SAMAN).
  { destruct M as [(_ & M)|(x & M & _)]; [exact M|]. vm_compute in M. discriminate. }
  subst w. change (writtenDead _ _) with true in R. change (writtenShort _ _) with false in R.
  destruct R as [R|((_ & [X|X]) & _)]; [|discriminate|discriminate]. inversion R.
Qed.
Theorem C18_dead_mid_refuted : exists s t u, wellFormed s /\ tone s = SAMAN /\ ThaiOutput s = Ok t /\ from_bytes t = Ok u /\
  forall t', ReadsTone u (writtenDead (vowel s) (eCons s)) (writtenShort (vowel s) (eCons s)) t' -> t' <> SAMAN.
Proof. exact C18_lemma3. Qed.
Print Assumptions C18_dead_mid_refuted.
Example C18_case : wellFormed (SylOf MA SEC_NONE V_E KON CHATTAWA 3) /\
  ~ (CHATTAWA = SAMAN /\ writtenDead V_E KON = true) /\
  ThaiOutput (SylOf MA SEC_NONE V_E KON CHATTAWA 3) = Ok "เหฺม็น"%string.
Proof.
  split; [|split; [intros (X & _); discriminate|vm_compute; reflexivity]].
  unfold wellFormed, validSec, validVowel, vowelCodes; cbn; repeat split; try discriminate; tauto.
Qed.

(** ** C17: soundex merges exactly the intended distinctions *)
(** r and l count as one. *)
Definition sameInitial (a b : EInitConsSound) : Prop := a = b \/ (In a [RA; LA] /\ In b [RA; LA]).
(** The short and long vowels that differ in length only. *)
Definition lengthPairs : list (EVowel * EVowel) :=
  [ (V_A, V_AA); (V_I, V_II); (V_UE, V_UEE); (V_U, V_UU); (V_E, V_EE); (V_AE, V_AEE); (V_IA, V_IAA);
    (V_UEA, V_UEAA); (V_UA, V_UAA); (V_O, V_OO); (V_AU, V_AUU); (V_OE, V_OEE) ].
Definition sameQuality (a b : EVowel) : Prop := exists s l, In (s, l) lengthPairs /\ In a [s; l] /\ In b [s; l].

Lemma sdx_i_eq a b : a <> ICS_INVALID -> b <> ICS_INVALID ->
  (assocAt ics_eqb SoundexInitConsTbl_ a = assocAt ics_eqb SoundexInitConsTbl_ b <-> sameInitial a b).
Proof.
  intros A B. unfold sameInitial. cbn [In].
  destruct a; try congruence; destruct b; try congruence;
    (split; [intros H; first [left; reflexivity | discriminate H | right; tauto]
            |intros [H|(H1 & H2)]; first [discriminate H | reflexivity | exfalso; intuition discriminate]]).
Qed.
Lemma sdx_e_eq a b : assocAt ec_eqb SoundexEndConsTbl_ a = assocAt ec_eqb SoundexEndConsTbl_ b <-> a = b.
Proof. destruct a; destruct b; (split; [intros H; first [reflexivity|discriminate H]|intros H; first [reflexivity|discriminate H]]). Qed.
Definition qualityB (a b : EVowel) : bool :=
  existsb (fun p => existsb (Z.eqb a) [fst p; snd p] && existsb (Z.eqb b) [fst p; snd p]) lengthPairs.
Lemma qualityB_ok a b : qualityB a b = true <-> sameQuality a b.
Proof.
  unfold qualityB, sameQuality. rewrite existsb_exists. split.
  - intros ((s & l) & I & H). cbn [fst snd] in H. rewrite andb_true_iff, !existsb_exists in H.
    destruct H as ((x & Ix & Ex) & (y & Iy & Ey)). apply Z.eqb_eq in Ex, Ey. subst. eauto.
  - intros (s & l & I & Ia & Ib). exists (s, l). split; [exact I|]. rewrite andb_true_iff, !existsb_exists.
    split; [exists a|exists b]; (split; [assumption|apply Z.eqb_refl]).
Qed.
Definition resStrEqb (a b : Res string) : bool :=
  match a, b with Ok x, Ok y => String.eqb x y | _, _ => false end.
Lemma sdx_v_eq a b : validVowel a -> validVowel b ->
  (assocAt Z.eqb SoundexVowelTbl_ a = assocAt Z.eqb SoundexVowelTbl_ b <-> sameQuality a b).
Proof.
  intros A B. rewrite <- qualityB_ok.
  assert (S : forallb (fun a => forallb (fun b => Bool.eqb (qualityB a b)
     (resStrEqb (assocAt Z.eqb SoundexVowelTbl_ a) (assocAt Z.eqb SoundexVowelTbl_ b))) vowelCodes) vowelCodes = true)
    by (vm_compute; reflexivity).
  rewrite forallb_forall in S. specialize (S a A). rewrite forallb_forall in S. specialize (S b B).
  apply Bool.eqb_prop in S. rewrite S.
  destruct (sdx_v a A) as (x & -> & _). destruct (sdx_v b B) as (y & -> & _). cbn [resStrEqb].
  rewrite String.eqb_eq. split; congruence.
Qed.

(** Texts of one character each. *)
Definition one (m : Res string) : Prop := exists c, m = Ok (String c EmptyString).
Ltac fin1 := eexists; reflexivity.
Lemma sdx_i1 i : i <> ICS_INVALID -> one (assocAt ics_eqb SoundexInitConsTbl_ i).
Proof. destruct i; try congruence; intros _; fin1. Qed.
Lemma sdx_v1 v : validVowel v -> one (assocAt Z.eqb SoundexVowelTbl_ v).
Proof. intros H. allV; fin1. Qed.
Lemma sdx_e1 e : one (assocAt ec_eqb SoundexEndConsTbl_ e).
Proof. destruct e; fin1. Qed.

Lemma C17_lemma a b : wellFormed a -> wellFormed b ->
  (SoundexOutput a = SoundexOutput b <->
   sameInitial (iCons1 a) (iCons1 b) /\ sameQuality (vowel a) (vowel b) /\ eCons a = eCons b).
Proof.
  intros Wa Wb. pose proof Wa as (A1 & A2 & A3 & A4 & A5). pose proof Wb as (B1 & B2 & B3 & B4 & B5).
  rewrite <- (sdx_i_eq _ _ A2 B2), <- (sdx_v_eq _ _ A4 B4), <- sdx_e_eq.
  unfold SoundexOutput. rewrite !wf_blank, !wf_lit by assumption.
  destruct (sdx_i1 _ A2) as (a1 & ->), (sdx_i1 _ B2) as (b1 & ->).
  destruct (sdx_v1 _ A4) as (a2 & ->), (sdx_v1 _ B4) as (b2 & ->).
  destruct (sdx_e1 (eCons a)) as (a3 & ->), (sdx_e1 (eCons b)) as (b3 & ->). cbn [bind String.append].
  split; [|intros (X & Y & Z); congruence]. intros H. injection H as -> -> ->. auto.
Qed.
Theorem C17_soundex_exact a b : wellFormed a -> wellFormed b ->
  (SoundexOutput a = SoundexOutput b <->
   sameInitial (iCons1 a) (iCons1 b) /\ sameQuality (vowel a) (vowel b) /\ eCons a = eCons b).
Proof. exact (C17_lemma a b). Qed.
Print Assumptions C17_soundex_exact.
Ltac wf := unfold wellFormed, validSec, validVowel, vowelCodes; cbn; repeat split; try discriminate; tauto.
Example C17_case : wellFormed (SylOf RA SEC_NONE V_AA KOK THO 3) /\ wellFormed (SylOf LA SEC_NONE V_A KOK TRI 5) /\
  SoundexOutput (SylOf RA SEC_NONE V_AA KOK THO 3) = SoundexOutput (SylOf LA SEC_NONE V_A KOK TRI 5) /\
  SoundexOutput (SylOf RA SEC_NONE V_AA KOK THO 3) <> SoundexOutput (SylOf LA SEC_NONE V_A KOT TRI 5).
Proof. split; [wf|]. split; [wf|]. split; [reflexivity|discriminate]. Qed.

(** ** C16: the phonetic notation is unambiguous *)
(** A bare glottal initial with a second consonant sounds like that consonant alone. *)
Definition onsetPart (i : EInitConsSound) (c : ESecInitCons) : EInitConsSound * ESecInitCons :=
  if ics_eqb i ICS_A then
    if Z.eqb c SEC_RA then (RA, SEC_NONE) else if Z.eqb c SEC_LA then (LA, SEC_NONE)
    else if Z.eqb c SEC_WA then (WA, SEC_NONE) else (i, c)
  else (i, c).
Definition soundsAs (a b : Syl) : Prop :=
  onsetPart (iCons1 a) (iCons2 a) = onsetPart (iCons1 b) (iCons2 b) /\
  vowel a = vowel b /\ eCons a = eCons b /\ tone a = tone b.

Definition isVowelLetter (c : ascii) : bool := existsb (Ascii.eqb c) ["a"; "e"; "i"; "o"; "u"]%char.
Fixpoint noVowelLetter (s : string) : bool :=
  match s with EmptyString => true | String c s' => negb (isVowelLetter c) && noVowelLetter s' end.
Definition startsVowel (s : string) : bool := match s with String c _ => isVowelLetter c | _ => false end.
Lemma onset_split x y : forall x' y', noVowelLetter x = true -> noVowelLetter x' = true ->
  startsVowel y = true -> startsVowel y' = true -> (x ++ y)%string = (x' ++ y')%string -> x = x' /\ y = y'.
Proof.
  induction x as [|c x IH]; intros x' y' N N' V V' E.
  - destruct x' as [|c' x']; [auto|]. cbn [String.append] in E. subst y. cbn in V, N'.
    rewrite V in N'. discriminate.
  - destruct x' as [|c' x']; cbn [String.append] in E.
    + subst y'. cbn in V', N. rewrite V' in N. discriminate.
    + injection E as <- E. cbn in N, N'. apply andb_true_iff in N, N'.
      destruct (IH x' y') as (-> & ->); tauto || auto.
Qed.
Lemma snoc_split x c : forall x' c', (x ++ String c EmptyString)%string = (x' ++ String c' EmptyString)%string -> x = x' /\ c = c'.
Proof.
  induction x as [|a x IH]; intros x' c' E.
  - destruct x' as [|a' x']; cbn in E; [injection E as ->; auto|]. injection E as <- E. destruct x'; discriminate.
  - destruct x' as [|a' x']; cbn in E; [injection E as <- E; destruct x; discriminate|].
    injection E as <- E. destruct (IH _ _ E) as (-> & ->). auto.
Qed.
Definition phoOnset (i : EInitConsSound) (c : ESecInitCons) : Res string :=
  (a <- assocAt ics_eqb PhoneticInitConsTbl_ i ;; b <- assocAt Z.eqb PhoneticSecInitConsTbl_ c ;; Ok (a ++ b)%string)%res.
Definition phoRime (v : EVowel) (e : EEndConsClass) : Res string :=
  (a <- assocAt Z.eqb PhoneticVowelTbl_ v ;; b <- assocAt ec_eqb PhoneticEndConsTbl_ e ;; Ok (a ++ b)%string)%res.
Definition onsetEqb (x y : EInitConsSound * ESecInitCons) : bool := ics_eqb (fst x) (fst y) && Z.eqb (snd x) (snd y).
Definition onsetGood i c i' c' : bool :=
  Bool.eqb (resStrEqb (phoOnset i c) (phoOnset i' c')) (onsetEqb (onsetPart i c) (onsetPart i' c')) &&
  match phoOnset i c with Ok s => noVowelLetter s | _ => false end.
Definition rimeGood v e v' e' : bool :=
  Bool.eqb (resStrEqb (phoRime v e) (phoRime v' e')) (Z.eqb v v' && ec_eqb e e') &&
  match phoRime v e with Ok s => startsVowel s | _ => false end.
Definition sweep4 {A B} (P : A -> B -> A -> B -> bool) la lb : bool :=
  forallb (fun a => forallb (fun b => forallb (fun c => forallb (P a b c) lb) la) lb) la.
Lemma sweep4_in {A B} (P : A -> B -> A -> B -> bool) la lb a b c d :
  sweep4 P la lb = true -> In a la -> In b lb -> In c la -> In d lb -> P a b c d = true.
Proof.
  unfold sweep4. intros S Ia Ib Ic Id.
  rewrite forallb_forall in S. specialize (S a Ia). rewrite forallb_forall in S. specialize (S b Ib).
  rewrite forallb_forall in S. specialize (S c Ic). rewrite forallb_forall in S. exact (S d Id).
Qed.
Lemma onsets_ok : sweep4 onsetGood (tl allICS) allSec = true.
Proof. vm_cast_no_check (eq_refl true). Qed.
Lemma rimes_ok : sweep4 rimeGood vowelCodes allEC = true.
Proof. vm_cast_no_check (eq_refl true). Qed.
Lemma sound_in i : i <> ICS_INVALID -> In i (tl allICS).
Proof. destruct i; try congruence; cbn; tauto. Qed.
Lemma ec_in e : In e allEC.
Proof. destruct e; cbn; tauto. Qed.

Lemma sapp_assoc (a b c : string) : ((a ++ b) ++ c)%string = (a ++ (b ++ c))%string.
Proof. induction a as [|x a IH]; cbn [String.append]; [reflexivity|]. rewrite IH. reflexivity. Qed.
Lemma pho_shape s : wellFormed s -> exists o r t, phoOnset (iCons1 s) (iCons2 s) = Ok o /\
  phoRime (vowel s) (eCons s) = Ok r /\ assocAt tone_eqb PhoneticToneTbl_ (tone s) = Ok (String t EmptyString) /\
  noVowelLetter o = true /\ startsVowel r = true /\ PhoneticOutput s = Ok (o ++ (r ++ String t EmptyString))%string.
Proof.
  intros W. pose proof W as (A1 & A2 & A3 & A4 & A5).
  pose proof (sweep4_in _ _ _ _ _ _ _ onsets_ok (sound_in _ A2) A3 (sound_in _ A2) A3) as O.
  pose proof (sweep4_in _ _ _ _ _ _ _ rimes_ok A4 (ec_in (eCons s)) A4 (ec_in (eCons s))) as R.
  unfold onsetGood in O. unfold rimeGood in R. apply andb_true_iff in O, R. destruct O as (_ & O), R as (_ & R).
  unfold PhoneticOutput. rewrite wf_blank, wf_lit by exact W.
  unfold phoOnset, phoRime in *.
  destruct (pho_i _ A2) as (x1 & E1), (pho_s _ A3) as (x2 & E2), (pho_v _ A4) as (x3 & E3 & _), (pho_e (eCons s)) as (x4 & E4).
  assert (T : exists c, assocAt tone_eqb PhoneticToneTbl_ (tone s) = Ok (String c EmptyString)).
  { destruct (tone s); try congruence; eexists; reflexivity. }
  destruct T as (c & E5). rewrite E1, E2, E3, E4, E5 in *. cbn [bind] in *.
  exists (x1 ++ x2)%string, (x3 ++ x4)%string, c. repeat split; auto.
  f_equal. rewrite !sapp_assoc. reflexivity.
Qed.
Lemma pho_t_eq a b : a <> T_INVALID -> b <> T_INVALID ->
  (assocAt tone_eqb PhoneticToneTbl_ a = assocAt tone_eqb PhoneticToneTbl_ b <-> a = b).
Proof. destruct a; destruct b; intros A B; try congruence; (split; intros H; first [reflexivity|discriminate H]). Qed.
Lemma C16_lemma a b : wellFormed a -> wellFormed b ->
  (PhoneticOutput a = PhoneticOutput b <-> soundsAs a b).
Proof.
  intros Wa Wb. destruct (pho_shape a Wa) as (o & r & t & O & R & T & N & V & ->).
  destruct (pho_shape b Wb) as (o' & r' & t' & O' & R' & T' & N' & V' & ->).
  pose proof Wa as (A1 & A2 & A3 & A4 & A5). pose proof Wb as (B1 & B2 & B3 & B4 & B5).
  pose proof (sweep4_in _ _ _ _ _ _ _ onsets_ok (sound_in _ A2) A3 (sound_in _ B2) B3) as Og.
  pose proof (sweep4_in _ _ _ _ _ _ _ rimes_ok A4 (ec_in (eCons a)) B4 (ec_in (eCons b))) as Rg.
  unfold onsetGood in Og. unfold rimeGood in Rg. apply andb_true_iff in Og, Rg. destruct Og as (Og & _), Rg as (Rg & _).
  apply Bool.eqb_prop in Og, Rg. rewrite O, O' in Og. rewrite R, R' in Rg. cbn [resStrEqb] in Og, Rg.
  pose proof (pho_t_eq _ _ A5 B5) as Tg. rewrite T, T' in Tg.
  assert (OG : o = o' <-> onsetPart (iCons1 a) (iCons2 a) = onsetPart (iCons1 b) (iCons2 b)).
  { rewrite <- String.eqb_eq, Og. unfold onsetEqb. rewrite andb_true_iff, ics_eqb_eq, Z.eqb_eq.
    destruct (onsetPart _ _), (onsetPart _ _). cbn [fst snd]. split; [intros (-> & ->); reflexivity|intros X; injection X; auto]. }
  assert (RG : r = r' <-> vowel a = vowel b /\ eCons a = eCons b).
  { rewrite <- String.eqb_eq, Rg, andb_true_iff, Z.eqb_eq, ec_eqb_eq. tauto. }
  unfold soundsAs. rewrite <- OG, <- Tg.
  split.
  - intros E. injection E as E. apply onset_split in E; auto.
    + destruct E as (-> & E). apply snoc_split in E. destruct E as (E & ->). apply RG in E. tauto.
    + destruct r; [discriminate|exact V].
    + destruct r'; [discriminate|exact V'].
  - intros (-> & Ev & Ee & Et). assert (r = r') by (apply RG; auto). subst. congruence.
Qed.
Theorem C16_phonetic_unambiguous a b : wellFormed a -> wellFormed b ->
  (PhoneticOutput a = PhoneticOutput b <-> soundsAs a b).
Proof. exact (C16_lemma a b). Qed.
Print Assumptions C16_phonetic_unambiguous.
Example C16_case : wellFormed (SylOf ICS_A SEC_WA V_A KON TRI 3) /\ wellFormed (SylOf WA SEC_NONE V_A KON TRI 3) /\
  PhoneticOutput (SylOf ICS_A SEC_WA V_A KON TRI 3) = Ok "wahn3"%string /\
  PhoneticOutput (SylOf WA SEC_NONE V_A KON TRI 3) = Ok "wahn3"%string /\
  PhoneticOutput (SylOf WA SEC_NONE V_AA KON TRI 3) = Ok "waan3"%string.
Proof. split; [wf|]. split; [wf|]. repeat split. Qed.

(** ** C44: text encoding *)
Lemma C44_lemma bytes w : from_bytes bytes = Ok w -> to_bytes w = Ok bytes.
Proof. intros H. apply from_bytes_inv. exact H. Qed.
Theorem C44_lossless bytes w : from_bytes bytes = Ok w -> to_bytes w = Ok bytes.
Proof. exact (C44_lemma bytes w). Qed.
Print Assumptions C44_lossless.
Lemma C44_lemma2 ct bytes w dict brk l s v : ctype_ok ct -> dictOKo dict ->
  from_bytes bytes = Ok w -> pronounced ct w dict brk l -> In s l -> In v s -> literal v <> [] ->
  exists t, to_bytes (literal v) = Ok t /\ from_bytes t = Ok (literal v) /\
    outputLiteral (literal v) = Ok ("(" ++ t ++ ")")%string.
Proof.
  intros C D B P Hs Hv N. apply in_split in Hv. destruct Hv as (s1 & s2 & E).
  assert (O : occurs l (startPos s1) (endPos v) v) by (exists s1, s2; subst s; auto).
  pose proof (literal_whole ct w dict brk D C l _ _ v P O (proj1 (from_bytes_inv _ _ B)) N) as W.
  destruct (to_bytes_wf _ W) as (t & T1 & T2). exists t. split; [exact T1|]. split; [exact T2|].
  unfold outputLiteral. rewrite T1. reflexivity.
Qed.
Theorem C44_literals_print ct bytes w dict brk l s v : ctype_ok ct -> dictOKo dict ->
  from_bytes bytes = Ok w -> pronounced ct w dict brk l -> In s l -> In v s -> literal v <> [] ->
  exists t, to_bytes (literal v) = Ok t /\ from_bytes t = Ok (literal v) /\
    outputLiteral (literal v) = Ok ("(" ++ t ++ ")")%string.
Proof. exact (C44_lemma2 ct bytes w dict brk l s v). Qed.
Print Assumptions C44_literals_print.

(** C15, second part: every syllable of every parse of valid text can be
    written in every notation. *)
Lemma lit_writes v t : literal v <> [] -> to_bytes (literal v) = Ok t -> Forall (fun f => writes f v) notations.
Proof.
  intros N T. assert (L : isLiteral v = true) by (unfold isLiteral; destruct (literal v); congruence).
  assert (B : syl_eqb v Blank = false) by (unfold syl_eqb; rewrite L; reflexivity).
  assert (O : outputLiteral (literal v) = Ok ("(" ++ t ++ ")")%string) by (unfold outputLiteral; rewrite T; reflexivity).
  repeat apply Forall_cons; try apply Forall_nil; unfold writes, RawOutput, PhoneticOutput, RomanSylOutput, SoundexOutput, ThaiOutput;
    rewrite ?B, L, O; cbn [bind]; (eexists; split; [reflexivity|discriminate]).
Qed.
Lemma C15_lemma2 ct bytes w dict brk l s v : ctype_ok ct -> dictOKo dict ->
  from_bytes bytes = Ok w -> pronounced ct w dict brk l -> In s l -> In v s ->
  Forall (fun f => writes f v) notations.
Proof.
  intros C D B P Hs Hv. destruct (literal v) as [|x lv] eqn:E.
  - pose proof Hv as Hv'. apply in_split in Hv'. destruct Hv' as (s1 & s2 & E').
    assert (O : occurs l (startPos s1) (endPos v) v) by (exists s1, s2; subst s; auto).
    apply C15_lemma. exact (proj1 (proj2 (occurs_literal ct w dict brk D C l _ _ v P O) E)).
  - destruct (C44_lemma2 ct bytes w dict brk l s v) as (t & T & _); auto; [congruence|].
    apply (lit_writes v t); [congruence|exact T].
Qed.
Theorem C15_parse_printable ct bytes w dict brk l s v : ctype_ok ct -> dictOKo dict ->
  from_bytes bytes = Ok w -> pronounced ct w dict brk l -> In s l -> In v s ->
  Forall (fun f => writes f v) notations.
Proof. exact (C15_lemma2 ct bytes w dict brk l s v). Qed.
Print Assumptions C15_parse_printable.

(** ** C05: the raw notation round-trips *)
Definition intRange (z : Z) : Prop := -2147483648 <= z <= 2147483647.
Fixpoint noChar (d : ascii) (s : string) : Prop :=
  match s with EmptyString => True | String c s' => c <> d /\ noChar d s' end.
Lemma noChar_app d a b : noChar d (a ++ b) <-> noChar d a /\ noChar d b.
Proof. induction a as [|c a IH]; cbn [String.append noChar]; tauto. Qed.
Lemma digit_cases d : 0 <= d < 10 -> In d [0; 1; 2; 3; 4; 5; 6; 7; 8; 9].
Proof. intros H. cbn. lia. Qed.
Ltac digits H := apply digit_cases in H; alts H.
Lemma digitVal_char d : 0 <= d < 10 -> digitVal (digitChar d) = Some d.
Proof. intros H. digits H; reflexivity. Qed.
Lemma digit_mod n : 0 <= n mod 10 < 10.
Proof. apply Z.mod_pos_bound. lia. Qed.
Lemma dec_value fuel : forall n acc, 0 <= n < 10 ^ Z.of_nat fuel ->
  digitsVal 0 (decLoop fuel n acc) = digitsVal n acc.
Proof.
  induction fuel as [|f IH]; intros n acc H.
  - cbn in H. assert (n = 0) by lia. subst. reflexivity.
  - cbn [decLoop]. destruct (Z.ltb_spec n 10) as [L|L].
    + cbn [digitsVal]. rewrite digitVal_char by apply digit_mod. f_equal. rewrite Z.mod_small by lia. lia.
    + rewrite IH.
      * cbn [digitsVal]. rewrite digitVal_char by apply digit_mod. f_equal.
        pose proof (Z.div_mod n 10 ltac:(lia)). lia.
      * rewrite Nat2Z.inj_succ, Z.pow_succ_r in H by lia. split; [apply Z.div_pos; lia|].
        apply Z.div_lt_upper_bound; lia.
Qed.
Lemma dec_first fuel : forall n acc, exists d r, 0 <= d < 10 /\ decLoop (S fuel) n acc = String (digitChar d) r.
Proof.
  induction fuel as [|f IH]; intros n acc.
  - cbn [decLoop]. exists (n mod 10), acc. split; [apply digit_mod|]. destruct (n <? 10); reflexivity.
  - change (decLoop (S (S f)) n acc) with
      (if n <? 10 then String (digitChar (n mod 10)) acc else decLoop (S f) (n / 10) (String (digitChar (n mod 10)) acc)).
    destruct (n <? 10); [|apply IH]. exists (n mod 10), acc. split; [apply digit_mod|reflexivity].
Qed.
Lemma dec_nochar c fuel : (forall d, 0 <= d < 10 -> digitChar d <> c) -> forall n acc, noChar c acc -> noChar c (decLoop fuel n acc).
Proof.
  intros D. induction fuel as [|f IH]; intros n acc H; cbn [decLoop]; [exact H|].
  assert (noChar c (String (digitChar (n mod 10)) acc)) by (split; [apply D, digit_mod|exact H]).
  destruct (n <? 10); auto.
Qed.
Lemma to_string_stoi z : intRange z -> stoi (to_string z) = Ok z.
Proof.
  intros R. unfold to_string. destruct (Z.ltb_spec z 0) as [L|L].
  - cbn [String.append]. unfold stoi. cbn [skipSpaces]. change (isCSpace "-"%char) with false. cbn match.
    unfold stoiDigits. destruct (dec_first 9 (- z) EmptyString) as (d & r & Hd & E). change (S 9) with 10%nat in E.
    pose proof (dec_value 10 (- z) EmptyString) as V. rewrite E in *. rewrite digitVal_char by exact Hd.
    rewrite V by (unfold intRange in R; cbn; lia). cbn [digitsVal]. rewrite Z.opp_involutive.
    unfold inInt. unfold intRange in R. destruct (Z.leb_spec (-2147483648) z); [|lia].
    destruct (Z.leb_spec z 2147483647); [reflexivity|lia].
  - destruct (dec_first 9 z EmptyString) as (d & r & Hd & E). change (S 9) with 10%nat in E.
    pose proof (dec_value 10 z EmptyString) as V. rewrite E in *.
    assert (X : stoi (String (digitChar d) r) = stoiDigits false (String (digitChar d) r)).
    { digits Hd; reflexivity. }
    rewrite X. unfold stoiDigits. rewrite digitVal_char by exact Hd.
    rewrite V by (unfold intRange in R; cbn; lia). cbn [digitsVal].
    unfold inInt. unfold intRange in R. destruct (Z.leb_spec (-2147483648) z); [|lia].
    destruct (Z.leb_spec z 2147483647); [reflexivity|lia].
Qed.
Lemma to_string_first z : exists c r, to_string z = String c r.
Proof.
  unfold to_string. destruct (z <? 0); [cbn [String.append]; eauto|].
  destruct (dec_first 9 z EmptyString) as (d & r & _ & E). eauto.
Qed.
Lemma to_string_nochar c z : (forall d, 0 <= d < 10 -> digitChar d <> c) -> c <> "-"%char -> noChar c (to_string z).
Proof.
  intros D M. unfold to_string. destruct (z <? 0); [split; [congruence|]|]; apply dec_nochar; auto; exact I.
Qed.
Lemma substring_all s : substring 0 (String.length s) s = s.
Proof. induction s as [|c s IH]; [reflexivity|]. cbn [String.length substring]. rewrite IH. reflexivity. Qed.

Lemma raw_i1 i : i <> ICS_INVALID -> exists c, assocAt ics_eqb RawInitConsTbl_ i = Ok (String c EmptyString) /\
  InitConsCodeToSound c = Ok i /\ c <> ","%char.
Proof. destruct i; try congruence; intros _; (eexists; split; [reflexivity|]; split; [reflexivity|discriminate]). Qed.
Lemma raw_s1 i : validSec i -> exists c, assocAt Z.eqb RawSecInitConsTbl_ i = Ok (String c EmptyString) /\
  char_code c = i /\ c <> ","%char.
Proof. intros H. allS; (eexists; split; [reflexivity|]; split; [reflexivity|discriminate]). Qed.
Lemma raw_v1 i : validVowel i -> exists c, assocAt Z.eqb RawVowelTbl_ i = Ok (String c EmptyString) /\
  char_code c = i /\ c <> ","%char.
Proof. intros H. allV; (eexists; split; [reflexivity|]; split; [reflexivity|discriminate]). Qed.
Lemma raw_e1 i : exists c, assocAt ec_eqb RawEndConsTbl_ i = Ok (String c EmptyString) /\
  EndConsCodeToClass c = Ok i /\ c <> ","%char.
Proof. destruct i; (eexists; split; [reflexivity|]; split; [reflexivity|discriminate]). Qed.
Lemma raw_t1 i : i <> T_INVALID -> exists c, assocAt tone_eqb RawToneTbl_ i = Ok (String c EmptyString) /\
  ToneCodeToTone c = Ok i /\ c <> ","%char.
Proof. destruct i; try congruence; intros _; (eexists; split; [reflexivity|]; split; [reflexivity|discriminate]). Qed.

Lemma raw_round s pos : wellFormed s -> intRange (endPos s) ->
  exists t, RawOutput s = Ok t /\ SylOfDesc t pos = Ok s /\ noChar "," t /\ t <> EmptyString.
Proof.
  intros W R. pose proof W as (H1 & H2 & H3 & H4 & H5). unfold RawOutput. rewrite wf_blank, wf_lit by exact W.
  destruct (raw_i1 _ H2) as (c0 & -> & D0 & N0), (raw_s1 _ H3) as (c1 & -> & D1 & N1),
    (raw_v1 _ H4) as (c2 & -> & D2 & N2), (raw_e1 (eCons s)) as (c3 & -> & D3 & N3), (raw_t1 _ H5) as (c4 & -> & D4 & N4).
  cbn [bind String.append]. eexists. split; [reflexivity|]. split; [|split; [|discriminate]].
  - unfold SylOfDesc. cbn [strIdx bind]. rewrite D0, D3, D4, D1, D2. cbn [bind String.length].
    destruct (to_string_first (endPos s)) as (c & r & E). rewrite E at 1. cbn [String.length Nat.ltb Nat.leb].
    change (Ascii.eqb "@" "@") with true. cbn match.
    unfold strDrop. cbn [String.length Nat.sub substring]. rewrite Nat.sub_0_r, substring_all, to_string_stoi by exact R.
    cbn [bind]. destruct s; cbn in *. subst. reflexivity.
  - cbn [noChar]. repeat split; try assumption; try discriminate. apply to_string_nochar; [|discriminate].
    intros d Hd. digits Hd; discriminate.
Qed.
Lemma splitOn_none d a : noChar d a -> splitOn d a = [a].
Proof.
  induction a as [|c a IH]; [reflexivity|]. cbn [noChar splitOn]. intros (N & H).
  destruct (Ascii.eqb_spec c d); [contradiction|]. rewrite IH by exact H. reflexivity.
Qed.
Lemma splitOn_app d a r : noChar d a -> splitOn d (a ++ String d r) = a :: splitOn d r.
Proof.
  induction a as [|c a IH]; cbn [String.append noChar splitOn].
  - intros _. rewrite Ascii.eqb_refl. reflexivity.
  - intros (N & H). destruct (Ascii.eqb_spec c d); [contradiction|]. rewrite IH by exact H. reflexivity.
Qed.
Definition rawable (s : Syl) : Prop := wellFormed s /\ intRange (endPos s).
Lemma raw_rest l : Forall rawable l -> exists t, delimLoop RawOutput "," false l = Ok t /\
  (l = [] /\ t = EmptyString \/ exists t', t = String "," t' /\ SylStringOfDesc t' = Ok l).
Proof.
  induction l as [|x l IH]; intros F.
  - exists EmptyString. split; [reflexivity|]. left. auto.
  - inversion F as [|? ? (W & R) F']; subst. destruct (IH F') as (t & E & C). cbn [delimLoop].
    rewrite wf_blank by exact W. destruct (raw_round x (-1) W R) as (o & Eo & D & Nc & _). rewrite Eo, E. cbn [bind String.append].
    eexists. split; [reflexivity|]. right. eexists. split; [reflexivity|]. unfold SylStringOfDesc in *.
    destruct C as [(-> & ->)|(t' & -> & C)].
    + rewrite splitOn_none by (apply noChar_app; split; [exact Nc|exact I]).
      replace (o ++ "")%string with o by (clear; induction o as [|? ? H]; cbn; congruence).
      cbn [mapM]. rewrite D. reflexivity.
    + rewrite splitOn_app by exact Nc. cbn [mapM]. rewrite D, C. reflexivity.
Qed.
Lemma C05_lemma s pos : wellFormed s -> intRange (endPos s) ->
  exists t, RawOutput s = Ok t /\ SylOfDesc t pos = Ok s.
Proof. intros W R. destruct (raw_round s pos W R) as (t & A & B & _). eauto. Qed.
Theorem C05_raw_round_trip s pos : wellFormed s -> intRange (endPos s) ->
  exists t, RawOutput s = Ok t /\ SylOfDesc t pos = Ok s.
Proof. exact (C05_lemma s pos). Qed.
Print Assumptions C05_raw_round_trip.
Lemma C05_lemma2 l : l <> [] -> Forall (fun s => wellFormed s /\ intRange (endPos s)) l ->
  exists t, delimOutputStr RawOutput "," l = Ok t /\ SylStringOfDesc t = Ok l.
Proof.
  intros N F. destruct l as [|x l]; [congruence|]. inversion F as [|? ? (W & R) F']; subst.
  destruct (raw_rest l F') as (t & E & C). unfold delimOutputStr. cbn [delimLoop]. rewrite wf_blank by exact W.
  destruct (raw_round x (-1) W R) as (o & Eo & D & Nc & _). rewrite Eo, E. cbn [bind String.append].
  eexists. split; [reflexivity|]. unfold SylStringOfDesc in *.
  destruct C as [(-> & ->)|(t' & -> & C)].
  - rewrite splitOn_none by (apply noChar_app; split; [exact Nc|exact I]).
    replace (o ++ "")%string with o by (clear; induction o as [|? ? H]; cbn; congruence).
    cbn [mapM]. rewrite D. reflexivity.
  - rewrite splitOn_app by exact Nc. cbn [mapM]. rewrite D, C. reflexivity.
Qed.
Theorem C05_raw_list_round_trip l : l <> [] -> Forall (fun s => wellFormed s /\ intRange (endPos s)) l ->
  exists t, delimOutputStr RawOutput "," l = Ok t /\ SylStringOfDesc t = Ok l.
Proof. exact (C05_lemma2 l). Qed.
Print Assumptions C05_raw_list_round_trip.
Example C05_case : let l := [SylOf KA SEC_WA V_AA KONG EK 4; SylOf THA SEC_NONE V_A KOEY SAMAN (-702)] in
  l <> [] /\ Forall (fun s => wellFormed s /\ intRange (endPos s)) l /\
  delimOutputStr RawOutput "," l = Ok "kwAg1@4,T_ay0@-702"%string /\
  SylStringOfDesc "kwAg1@4,T_ay0@-702" = Ok l.
Proof.
  cbv zeta. split; [discriminate|]. split; [|split; vm_compute; reflexivity].
  repeat (apply Forall_cons; [split; [wf|unfold intRange; cbn; lia]|]). apply Forall_nil.
Qed.
(** Foreign text does not come back: its raw form is no syllable description. *)
Lemma C05_lemma3 : exists v t, literal v <> [] /\ RawOutput v = Ok t /\ SylOfDesc t (-1) = Throw.
Proof.
  exists (SylLiteral 3 [97; 98; 99]%N), "(abc)@3"%string. split; [discriminate|]. split; vm_compute; reflexivity.
Qed.
Theorem C05_literal_refuted : exists v t, literal v <> [] /\ RawOutput v = Ok t /\ SylOfDesc t (-1) = Throw.
Proof. exact C05_lemma3. Qed.
Print Assumptions C05_literal_refuted.
(** "ka" and a character outside the basic plane *)
Example C44_case : exists l, let w := letters "กา😀" in from_bytes "กา😀" = Ok w /\ w = [0xe01; 0xe32; 0xd83d; 0xde00]%N /\
  ctype_ok libthai_ct /\ dictOKo None /\ pronounced libthai_ct w None [] l /\
  map (map literal) l = [[[]; [0xd83d; 0xde00]%N]] /\
  map (map ThaiOutput) l = [[Ok "กา"; Ok "(😀)"]]%string.
Proof.
  eexists. cbv zeta. split; [vm_compute; reflexivity|]. split; [vm_compute; reflexivity|]. split; [exact libthai_ok|].
  split; [intros d X; discriminate X|]. split; [apply listing_pronounced; vm_compute; reflexivity|].
  split; vm_compute; reflexivity.
Qed.
