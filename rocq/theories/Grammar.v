(** Grammar.v - specification: how Thai spelling is read, as a grammar.

    The grammar is stated on the letters that remain of a word, without
    positions, and does not use the parser model.  [Reads lk t pre v r lk']
    says: at the front of the letters [t] one can read the syllable [v]
    (preceded by the syllable [pre] of the first letter, if there is one),
    and [r] is what remains to be read. *)
From Coq Require Import String List NArith ZArith Bool Arith.
From Verif Require Import Base ThUni ThCons Syl Utf Spec Prop_Syl.
Import ListNotations.
Local Open Scope nat_scope.

(** ** Letters *)
Definition consonant (c : N) : bool := ((0x0e01 <=? c) && (c <=? 0x0e2e) && negb (c =? 0x0e24) && negb (c =? 0x0e26))%N.
Definition leadVowel (c : N) : bool := ((0x0e40 <=? c) && (c <=? 0x0e44))%N.
(** A letter with which a syllable can start. *)
Definition startsSyl (c : N) : bool := consonant c || leadVowel c.
Definition isMark (c : N) : bool := ((0x0e48 <=? c) && (c <=? 0x0e4b))%N.
(** Letters of Thai text: consonants, vowels, tone marks, the vowel shortener
    and the silencer. *)
Definition thaiLetter (c : N) : bool :=
  (((0x0e01 <=? c) && (c <=? 0x0e39) || (0x0e40 <=? c) && (c <=? 0x0e45) ||
   (0x0e47 <=? c) && (c <=? 0x0e4c)) && negb (c =? 0x0e2f))%N.
Definition oneOf (s : string) (c : N) : Prop := In c (letters s).

Definition groupOf {K} (groups : list (K * string)) (dflt : K) (c : N) : K :=
  match find (fun p => memN c (letters (snd p))) groups with Some p => fst p | None => dflt end.
Definition soundOf (c : N) : EInitConsSound := groupOf soundGroups ICS_INVALID c.
Definition classOf (c : N) : EInitConsClass := groupOf classGroups IC_INVALID c.
Definition finalOf (c : N) : EEndConsClass := groupOf endGroups EC_NONE c.
(** A consonant that can close a syllable. *)
Definition canEnd (c : N) : Prop := consonant c = true /\ finalOf c <> EC_NONE.

(** ** Tones *)
Definition markOf (c : N) : ETone :=
  if (c =? 0x0e48)%N then EK else if (c =? 0x0e49)%N then THO else if (c =? 0x0e4a)%N then TRI else CHATTAWA.
(** Take the tone mark from the front of the letters, if one is there. *)
Definition mark (t : list N) : ETone * list N :=
  match t with
  | c :: r => if isMark c then (markOf c, r) else (SAMAN, t)
  | [] => (SAMAN, [])
  end.
(** The textbook tone, or the mark itself where the textbook has no rule. *)
Definition toned (k : EInitConsClass) (m : ETone) (dead short : bool) (t : ETone) : Prop :=
  Textbook k m dead short t \/ unspellable k m /\ t = m.
Definition shortVowels : list EVowel := [V_A; V_I; V_UE; V_U; V_E; V_AE; V_O; V_AU; V_OE; V_IA; V_UEA; V_UA].
Definition short (v : EVowel) : bool := existsb (Z.eqb v) shortVowels.
Definition dead (v : EVowel) (e : EEndConsClass) : bool :=
  match e with KOK | KOT | KOP => true | EC_NONE => short v | _ => false end.

(** A spoken syllable: sound, second sound, vowel, final sound, tone. *)
Record Said := say { saSound : EInitConsSound; saSecond : ESecInitCons;
  saVowel : EVowel; saFinal : EEndConsClass; saTone : ETone }.

(** ** Silenced letters *)
(** One silenced consonant. *)
Definition silent (t : list N) : list N :=
  match t with
  | c :: x :: r => if consonant c && (x =? UTH_THANTHAKHAT)%N then r else t
  | _ => t
  end.
(** A silenced consonant with I or U. *)
Definition silentIU (t : list N) : list N :=
  match t with
  | c :: x :: y :: r =>
      if consonant c && ((x =? UTH_SARA_I) || (x =? UTH_SARA_U))%N && (y =? UTH_THANTHAKHAT)%N then r else t
  | _ => t
  end.
(** Two silenced consonants. *)
Definition silent2 (t : list N) : list N :=
  match t with
  | c :: x :: y :: r => if consonant c && consonant x && (y =? UTH_THANTHAKHAT)%N then r else t
  | _ => t
  end.
(** After a final consonant: one silenced consonant, or one with I or U, or
    two. *)
Definition silentAny (t : list N) : list N :=
  let skips r := length r <? length t in
  if skips (silent t) then silent t else if skips (silentIU t) then silentIU t else silent2 t.

(** ** Final consonants *)
Definition endOrSyl (t : list N) : Prop :=
  match t with [] => True | c :: _ => startsSyl c = true end.
(** The final consonant and the silenced letters after it; [no] lists the
    letters that are not read as finals here. *)
Inductive Final (no : list N) : list N -> EEndConsClass -> list N -> Prop :=
| F_cons c t : canEnd c -> ~ In c no -> Final no (c :: t) (finalOf c) (silentAny t).

(** Vowels (and RU) that can follow a shared consonant directly. *)
Definition linkVowel (c : N) : Prop := oneOf "ฤะัาิีุู" c.
(** The consonant [c] before the letters [t] can also begin the next
    syllable. *)
Inductive Shared (c : N) : list N -> Prop :=
| Sh_vowel x t : linkVowel x ->
    ~ (t = [] /\ oneOf "ฒตธร" c /\ oneOf "ิุ" x) -> Shared c (x :: t)
| Sh_cons x y t : consonant x = true -> linkVowel y \/ consonant y = true -> Shared c (x :: y :: t).
(** A final that may be followed by silent RO RUA or silent I, U, or be
    shared with the next syllable (then it stays in the remaining letters). *)
Inductive FinalOrShared (no : list N) : list N -> EEndConsClass -> list N -> bool -> Prop :=
| FS_final t e r : Final no t e r -> FinalOrShared no t e r false
| FS_ro c r : canEnd c -> ~ In c no -> silentAny (UTH_RO_RUA :: r) = UTH_RO_RUA :: r ->
    oneOf "กคชตท" c -> endOrSyl r -> FinalOrShared no (c :: UTH_RO_RUA :: r) (finalOf c) r false
| FS_iu c v r : canEnd c -> ~ In c no -> oneOf "ฒตธร" c -> oneOf "ิุ" v -> endOrSyl r ->
    FinalOrShared no (c :: v :: r) (finalOf c) r false
| FS_shared c t : canEnd c -> ~ In c no -> silentAny t = t -> Shared c t ->
    FinalOrShared no (c :: t) (finalOf c) (c :: t) true.

(** ** Initial consonants *)
(** [oLead]: a first letter that is read as a short syllable "a" of its own;
    [oVowel]: a vowel given by RU. *)
Record Initial := mkInitial { oLead : option N; oSound : EInitConsSound; oClass : EInitConsClass;
  oSecond : ESecInitCons; oVowel : option EVowel }.
Definition noRo (t : list N) : Prop := match t with c :: _ => c <> UTH_RO_RUA | [] => True end.
Definition noLong (t : list N) : Prop :=
  match t with c :: _ => c <> UTH_LAKKHANGYAO /\ c <> UTH_SARA_AA | [] => True end.
Definition plainOf (c : N) (s2 : ESecInitCons) : Initial := mkInitial None (soundOf c) (classOf c) s2 None.

(** [lk]: the first consonant was also the final of the syllable before. *)
Inductive InitialAt (lk : bool) : list N -> Initial -> list N -> Prop :=
(* one consonant *)
| I_one c t : consonant c = true -> InitialAt lk (c :: t) (plainOf c SEC_NONE) t
(* false cluster: RO RUA is silent *)
| I_false c t : lk = false -> oneOf "จซศส" c -> noRo t ->
    InitialAt lk (c :: UTH_RO_RUA :: t) (plainOf c SEC_NONE) t
(* true clusters *)
| I_ra c t : oneOf "กตป" c \/ lk = false /\ oneOf "ขคดทบพฟ" c -> noRo t ->
    InitialAt lk (c :: UTH_RO_RUA :: t) (plainOf c SEC_RA) t
| I_la c t : lk = false -> oneOf "กขคบปผพฟ" c ->
    InitialAt lk (c :: UTH_LO_LING :: t) (plainOf c SEC_LA) t
| I_wa c t : lk = false -> oneOf "กขค" c ->
    InitialAt lk (c :: UTH_WO_WAEN :: t) (plainOf c SEC_WA) t
(* leading HO HIP: silent, gives its class *)
| I_ho d t : consonant d = true -> classOf d = LOWS -> (d = UTH_RO_RUA -> noRo t) ->
    InitialAt lk (UTH_HO_HIP :: d :: t) (mkInitial None (soundOf d) HIGH SEC_NONE None) t
(* first consonant read with a short "a"; it gives its class to a sonorant *)
| I_lead c d t : consonant c = true -> consonant d = true -> (d = UTH_RO_RUA -> noRo t) ->
    InitialAt lk (c :: d :: t)
      (mkInitial (Some c) (soundOf d) (match classOf d with LOWS => classOf c | k => k end) SEC_NONE None) t
(* consonant and RU *)
| I_ru_ri c t : oneOf "กตทป" c -> noLong t ->
    InitialAt lk (c :: UTH_RU :: t) (mkInitial None (soundOf c) (classOf c) SEC_RA (Some V_I)) t
| I_ru_si c t : oneOf "สศ" c -> noLong t ->
    InitialAt lk (c :: UTH_RU :: t) (mkInitial None (soundOf c) (classOf c) SEC_NONE (Some V_I)) t
| I_ru_sari c t : oneOf "สศ" c -> noLong t ->
    InitialAt lk (c :: UTH_RU :: t) (mkInitial (Some c) RA (classOf c) SEC_NONE (Some V_I)) t
| I_ru_wrue c t : oneOf "ว" c -> noLong t ->
    InitialAt lk (c :: UTH_RU :: t) (mkInitial None (soundOf c) (classOf c) SEC_RA (Some V_UE)) t
| I_ru_narue c t : oneOf "น" c -> noLong t ->
    InitialAt lk (c :: UTH_RU :: t) (mkInitial (Some c) RA LOWS SEC_NONE (Some V_UE)) t
| I_ru_khrue c x t : oneOf "คพ" c -> canEnd x ->
    InitialAt lk (c :: UTH_RU :: x :: t) (mkInitial None (soundOf c) (classOf c) SEC_RA (Some V_UE)) (x :: t)
| I_ru_any c v t : consonant c = true -> ~ oneOf "กตทปสศวนคพห" c -> noLong t -> v = V_I \/ v = V_UE ->
    InitialAt lk (c :: UTH_RU :: t) (mkInitial None (soundOf c) (classOf c) SEC_RA (Some v)) t
| I_ru_any_lead c v t : consonant c = true -> ~ oneOf "กตทปสศวนคพ" c -> noLong t -> v = V_I \/ v = V_UE ->
    InitialAt lk (c :: UTH_RU :: t) (mkInitial (Some c) RA LOWS SEC_NONE (Some v)) t.

(** ** Vowels *)
(** What follows the initial when no vowel sign precedes it: vowel, final,
    mark, remaining letters, whether the final is shared. *)
Inductive Rime (lk : bool) (o : Initial) : list N -> EVowel -> EEndConsClass -> ETone -> list N -> bool -> Prop :=
(* MAI HAN AKAT *)
| R_ua t m r : mark t = (m, UTH_WO_WAEN :: UTH_SARA_A :: r) ->
    Rime lk o (UTH_MAI_HAN_AKAT :: t) V_UA EC_NONE m (silent r) false
| R_uaa t m r : mark t = (m, UTH_WO_WAEN :: r) -> hd_error r <> Some UTH_SARA_A ->
    Rime lk o (UTH_MAI_HAN_AKAT :: t) V_UAA EC_NONE m (silent r) false
| R_an t e r b : FinalOrShared (letters "ว") t e r b ->
    Rime lk o (UTH_MAI_HAN_AKAT :: t) V_A e SAMAN r b
| R_an_marked t m t' e r : mark t = (m, t') -> m <> SAMAN -> Final (letters "ว") t' e r ->
    Rime lk o (UTH_MAI_HAN_AKAT :: t) V_A e m r false
(* vowels above and below, except long UE: open ... *)
| R_above_open v s t m t' : In (s, v) [(UTH_SARA_I, V_I); (UTH_SARA_II, V_II); (UTH_SARA_UE, V_UE);
      (UTH_SARA_U, V_U); (UTH_SARA_UU, V_UU)] -> mark t = (m, t') ->
    Rime lk o (s :: t) v EC_NONE m
      (if length (silent t') <? length t' then silent t' else silentIU t') false
(* ... and closed, possibly after a silenced consonant *)
| R_above_shared v s t t' e r b : In (s, v) [(UTH_SARA_I, V_I); (UTH_SARA_II, V_II);
      (UTH_SARA_U, V_U); (UTH_SARA_UU, V_UU)] -> mark t = (SAMAN, t') -> silentIU t' = t' ->
    FinalOrShared (if (s =? UTH_SARA_I)%N || (s =? UTH_SARA_II)%N then letters "ย" else []) (silent t') e r b ->
    Rime lk o (s :: t) v e SAMAN r b
| R_above_final v s t m t' e r : In (s, v) [(UTH_SARA_I, V_I); (UTH_SARA_II, V_II);
      (UTH_SARA_UE, V_UE); (UTH_SARA_U, V_U); (UTH_SARA_UU, V_UU)] -> mark t = (m, t') -> silentIU t' = t' ->
    Final (if (s =? UTH_SARA_I)%N || (s =? UTH_SARA_II)%N then letters "ย" else []) (silent t') e r ->
    Rime lk o (s :: t) v e m r false
(* long UE: with O ANG, at the end, before a leading vowel, or closed *)
| R_uee t m r : mark t = (m, UTH_O_ANG :: r) -> Rime lk o (UTH_SARA_UEE :: t) V_UEE EC_NONE m (silent r) false
| R_uee_bare t m t' : mark t = (m, t') -> match t' with [] => True | c :: _ => leadVowel c = true end ->
    Rime lk o (UTH_SARA_UEE :: t) V_UEE EC_NONE m t' false
| R_uee_final t m t' e r : mark t = (m, t') -> Final [] t' e r ->
    Rime lk o (UTH_SARA_UEE :: t) V_UEE e m r false
(* shortened AU *)
| R_au t e r : Final [] (silent t) e r ->
    Rime lk o (UTH_MAITAIKHU :: UTH_O_ANG :: t) V_AU e SAMAN r false
(* signs after the initial and the mark *)
| R_a t m r : mark t = (m, UTH_SARA_A :: r) -> Rime lk o t V_A EC_NONE m (silent r) false
| R_aa t m r : mark t = (m, UTH_SARA_AA :: r) -> Rime lk o t V_AA EC_NONE m (silent r) false
| R_aa_final t m r e r' b : mark t = (m, UTH_SARA_AA :: r) -> FinalOrShared [] (silent r) e r' b ->
    Rime lk o t V_AA e m r' b
| R_am t m r : mark t = (m, UTH_SARA_AM :: r) -> Rime lk o t V_A KOM m (silent r) false
| R_ua_final t m r e r' : mark t = (m, UTH_WO_WAEN :: r) -> Final [] r e r' ->
    Rime lk o t V_UAA e m r' false
| R_auu t m r : mark t = (m, UTH_O_ANG :: r) -> Rime lk o t V_AUU EC_NONE m (silent r) false
| R_auu_final t m r e r' : mark t = (m, UTH_O_ANG :: r) -> Final [] (silent r) e r' ->
    Rime lk o t V_AUU e m r' false
(* RO RUA read as -on, double RO RUA as -an or as "a" before a final *)
| R_on t m r : mark t = (m, UTH_RO_RUA :: r) -> oSound o <> RA ->
    Rime lk o t V_AUU KON m (silent r) false
| R_ran t m r r' : mark t = (m, UTH_RO_RUA :: r) ->
    (if ics_eqb (oSound o) RA then r else silent r) = UTH_RO_RUA :: r' ->
    Rime lk o t V_A KON m (silent r') false
| R_rac t m r r' e r'' b : mark t = (m, UTH_RO_RUA :: r) ->
    (if ics_eqb (oSound o) RA then r else silent r) = UTH_RO_RUA :: r' -> silent r' = r' ->
    FinalOrShared [] r' e r'' b -> Rime lk o t V_A e m r'' b
(* no vowel sign: short O before a final *)
| R_o t m t' e r : mark t = (m, t') -> oVowel o = None -> oSecond o <> SEC_WA -> lk = false ->
    Final (letters "ยวรอ") t' e r -> Rime lk o t V_O e m r false
(* the vowel of RU, before a consonant *)
| R_ru t m c t' v : mark t = (m, c :: t') -> oVowel o = Some v -> consonant c = true ->
    ~ oneOf "วรอ" c -> Rime lk o t v EC_NONE m (c :: t') false
| R_ru_final t m t' v e r b : mark t = (m, t') -> oVowel o = Some v ->
    FinalOrShared (letters "วรอ") t' e r b -> Rime lk o t v e m r b.

(** A led O ANG takes no plain E. *)
Definition notLedA (o : Initial) : Prop := oLead o = None \/ oSound o <> ICS_A.
(** What follows the initial when SARA E precedes it. *)
Inductive RimeE (o : Initial) : list N -> EVowel -> EEndConsClass -> ETone -> list N -> bool -> Prop :=
| E_end : notLedA o -> RimeE o [] V_EE EC_NONE SAMAN [] false
| E_end_marked c : isMark c = true -> RimeE o [c] V_EE EC_NONE (markOf c) [] false
| E_oe_final t m t' e r : mark t = (m, t') -> Final [] (silent t') e r ->
    RimeE o (UTH_SARA_I :: t) V_OEE e m r false
| E_ia t m r : mark t = (m, UTH_YO_YAK :: UTH_SARA_A :: r) ->
    RimeE o (UTH_SARA_II :: t) V_IA EC_NONE m (silent r) false
| E_iaa t m r : mark t = (m, UTH_YO_YAK :: r) -> hd_error r <> Some UTH_SARA_A ->
    RimeE o (UTH_SARA_II :: t) V_IAA EC_NONE m (silent r) false
| E_iaa_final t m r e r' b : mark t = (m, UTH_YO_YAK :: r) -> hd_error r <> Some UTH_SARA_A ->
    FinalOrShared [] (silent r) e r' b -> RimeE o (UTH_SARA_II :: t) V_IAA e m r' b
| E_uea t m r : mark t = (m, UTH_O_ANG :: UTH_SARA_A :: r) ->
    RimeE o (UTH_SARA_UEE :: t) V_UEA EC_NONE m (silent r) false
| E_ueaa t m r : mark t = (m, UTH_O_ANG :: r) -> hd_error r <> Some UTH_SARA_A ->
    RimeE o (UTH_SARA_UEE :: t) V_UEAA EC_NONE m (silent r) false
| E_ueaa_final t m r e r' : mark t = (m, UTH_O_ANG :: r) -> hd_error r <> Some UTH_SARA_A ->
    Final [] (silent r) e r' -> RimeE o (UTH_SARA_UEE :: t) V_UEAA e m r' false
| E_e_final t e r : Final [] t e r -> RimeE o (UTH_MAITAIKHU :: t) V_E e SAMAN r false
(* before O ANG: it carries the vowel, or begins the next syllable *)
| E_oe t m r : mark t = (m, UTH_O_ANG :: UTH_SARA_A :: r) -> RimeE o t V_OE EC_NONE m (silent r) false
| E_oee t m r : mark t = (m, UTH_O_ANG :: r) -> hd_error r <> Some UTH_SARA_A ->
    RimeE o t V_OEE EC_NONE m (silent r) false
| E_e t m r : mark t = (m, UTH_SARA_A :: r) -> notLedA o -> RimeE o t V_E EC_NONE m (silent r) false
| E_au t m r : mark t = (m, UTH_SARA_AA :: UTH_SARA_A :: r) -> RimeE o t V_AU EC_NONE m (silent r) false
| E_ao t m r : mark t = (m, UTH_SARA_AA :: r) -> hd_error r <> Some UTH_SARA_A ->
    RimeE o t V_A KOEW m (silent r) false
| E_oey t m r : mark t = (m, UTH_YO_YAK :: r) -> endOrSyl r -> RimeE o t V_OEE KOEY m (silent r) false
(* long E *)
| E_ee t m c r : mark t = (m, c :: r) -> notLedA o -> ~ oneOf "ะา" c -> (m = SAMAN -> ~ oneOf "ิีื็" c) ->
    ~ (c = UTH_YO_YAK /\ endOrSyl r) -> RimeE o t V_EE EC_NONE m (silent (c :: r)) false
| E_ee_final t m c r e r' b : mark t = (m, c :: r) -> notLedA o -> c <> UTH_O_ANG ->
    ~ (c = UTH_YO_YAK /\ endOrSyl r) -> FinalOrShared [] (silent (c :: r)) e r' b ->
    RimeE o t V_EE e m r' b.

(** What follows the initial when another vowel sign precedes it. *)
Inductive RimeL : N -> list N -> EVowel -> EEndConsClass -> ETone -> list N -> bool -> Prop :=
| L_ae t m r : mark t = (m, UTH_SARA_A :: r) -> RimeL UTH_SARA_AE t V_AE EC_NONE m (silent r) false
| L_ae_final t m r e r' : mark t = (m, UTH_MAITAIKHU :: r) -> Final [] r e r' ->
    RimeL UTH_SARA_AE t V_AE e m r' false
| L_aee t m t' : mark t = (m, t') -> hd_error t' <> Some UTH_SARA_A -> hd_error t' <> Some UTH_MAITAIKHU ->
    RimeL UTH_SARA_AE t V_AEE EC_NONE m (silent t') false
| L_aee_final t m t' e r : mark t = (m, t') -> Final [] (silent t') e r ->
    RimeL UTH_SARA_AE t V_AEE e m r false
| L_o t m r : mark t = (m, UTH_SARA_A :: r) ->
    RimeL UTH_SARA_O t V_O EC_NONE m (if length (silent r) <? length r then silent r else silentIU r) false
| L_oo t m t' : mark t = (m, t') -> hd_error t' <> Some UTH_SARA_A ->
    RimeL UTH_SARA_O t V_OO EC_NONE m (if length (silent t') <? length t' then silent t' else silentIU t') false
| L_oo_final t m t' e r b : mark t = (m, t') -> silentIU t' = t' -> FinalOrShared [] (silent t') e r b ->
    RimeL UTH_SARA_O t V_OO e m r b
| L_ai t m t' : mark t = (m, t') -> RimeL UTH_SARA_AI_MAIMALAI t V_A KOEY m (silent t') false
| L_aiy t m r : mark t = (m, UTH_YO_YAK :: r) -> endOrSyl r -> RimeL UTH_SARA_AI_MAIMALAI t V_A KOEY m r false
| L_aimuan t m t' : mark t = (m, t') -> RimeL UTH_SARA_AI_MAIMUAN t V_A KOEY m (silent t') false.

(** ** Readings *)
(** The syllables of a lone letter: short "a", or long "au". *)
Inductive SaysA (c : N) : Said -> Prop :=
| Sa_a t : toned (classOf c) SAMAN true true t -> SaysA c (say (soundOf c) SEC_NONE V_A EC_NONE t).
Inductive SaysAuu (c : N) : Said -> Prop :=
| SAu t : toned (classOf c) SAMAN false false t -> SaysAuu c (say (soundOf c) SEC_NONE V_AUU EC_NONE t).
(** The short syllables "ra", "ri", "rue". *)
Definition ra (v : EVowel) : Said := say RA SEC_NONE v EC_NONE TRI.

(** Readings with an implied vowel. *)
Inductive Implied : list N -> option Said -> Said -> list N -> Prop :=
(* -au-ra-: "จรลี"; and the beginnings "บริ", "จระ" *)
| M_aura c x t p : oneOf "กคจทธนบปภมวสหอ" c -> startsSyl x = true -> x <> UTH_RO_RUA -> SaysAuu c p ->
    Implied (c :: UTH_RO_RUA :: x :: t) (Some p) (ra V_A) (x :: t)
| M_bori x t p : SaysAuu UTH_BO_BAIMAI p ->
    Implied (UTH_BO_BAIMAI :: UTH_RO_RUA :: UTH_SARA_I :: x :: t) (Some p) (ra V_I) (x :: t)
| M_jora x t p : SaysAuu UTH_CHO_CHAN p ->
    Implied (UTH_CHO_CHAN :: UTH_RO_RUA :: UTH_SARA_A :: x :: t) (Some p) (ra V_A) (x :: t)
(* "บดี" *)
| M_bodi x t p : x = UTH_SARA_I \/ x = UTH_SARA_II -> SaysAuu UTH_BO_BAIMAI p ->
    Implied (UTH_BO_BAIMAI :: UTH_DO_DEK :: x :: t) None p (UTH_DO_DEK :: x :: t)
(* a consonant alone before the next syllable *)
| M_a c x t p : consonant c = true -> startsSyl x = true -> SaysA c p ->
    Implied (c :: x :: t) None p (x :: t)
(* consonant and RU as two syllables *)
| M_rue c x t p : consonant c = true -> ~ oneOf "กตทปสศวน" c -> noLong (x :: t) ->
    ~ (oneOf "คพ" c /\ canEnd x) -> SaysA c p ->
    Implied (c :: UTH_RU :: x :: t) (Some p) (ra V_UE) (x :: t).

(** RU and LU alone. *)
Definition ruSound (c : N) : EInitConsSound := if (c =? UTH_LU)%N then LA else RA.
Definition isRu (c : N) : Prop := c = UTH_RU \/ c = UTH_LU.
Inductive RimeRu : list N -> EVowel -> EEndConsClass -> list N -> bool -> Prop :=
| U_end : RimeRu [] V_UE EC_NONE [] false
| U_long x t : x = UTH_LAKKHANGYAO \/ x = UTH_SARA_AA -> RimeRu (x :: t) V_UEE EC_NONE t false
| U_open c t : consonant c = true -> ~ (finalOf c <> EC_NONE /\ endOrSyl t) -> RimeRu (c :: t) V_UE EC_NONE (c :: t) false
| U_closed c t e r b : endOrSyl t -> FinalOrShared [] (c :: t) e r b ->
    RimeRu (c :: t) (if memN c (letters "ณทษ") then V_I else V_UE) e r b.

(** The syllable of an initial and a rime, and its pre-syllable. *)
Inductive Sounds (o : Initial) (v : EVowel) (e : EEndConsClass) (m : ETone) : Said -> Prop :=
| S_tone t : toned (oClass o) m (dead v e) (short v) t -> Sounds o v e m (say (oSound o) (oSecond o) v e t).
Inductive Leads (o : Initial) : option Said -> Prop :=
| Le_none : oLead o = None -> Leads o None
| Le_some c p : oLead o = Some c -> SaysA c p -> Leads o (Some p).

Inductive Reads (lk : bool) : list N -> option Said -> Said -> list N -> bool -> Prop :=
| Rd_plain t o t1 v e m r b p x : InitialAt lk t o t1 -> Rime lk o t1 v e m r b ->
    Leads o p -> Sounds o v e m x -> Reads lk t p x r b
| Rd_e t o t1 v e m r b p x : InitialAt lk t o t1 -> RimeE o t1 v e m r b ->
    Leads o p -> Sounds o v e m x -> Reads lk (UTH_SARA_E :: t) p x r b
| Rd_lead l t o t1 v e m r b p x : InitialAt lk t o t1 -> RimeL l t1 v e m r b ->
    Leads o p -> Sounds o v e m x -> Reads lk (l :: t) p x r b
| Rd_implied t p x r : Implied t p x r -> Reads lk t p x r false
| Rd_ru c t v e r b tn : isRu c -> RimeRu t v e r b -> toned LOWS SAMAN (dead v e) (short v) tn ->
    Reads lk (c :: t) None (say (ruSound c) SEC_NONE v e tn) r b.

(** ** Pronunciations of a word *)
(** [D k strs]: the dictionary lists the ways [strs] to pronounce the word
    [k].  A listed word is read where the next letter starts a syllable. *)
Definition wordAt (D : list N -> list SylString -> Prop) (t k r : list N) (strs : list SylString) : Prop :=
  t = k ++ r /\ endOrSyl r /\ D k strs.
(** Where the letters [t] start in the word [w]; a pre-syllable ends at a
    marker made of the two ends of the reading. *)
Definition startOf (w t : list N) : Z := Z.of_nat (length w - length t).
Definition within (w t r : list N) : Z := (- (startOf w t * 100 + startOf w r))%Z.
Definition sylAt (x : Said) (e : Z) : Syl := SylOf (saSound x) (saSecond x) (saVowel x) (saFinal x) (saTone x) e.
(** Moves: where a syllable starts, and the syllable with its end. *)
Definition readMoves (w t : list N) (p : option Said) (x : Said) (r : list N) : list (Z * Syl) :=
  match p with
  | None => [(startOf w t, sylAt x (startOf w r))]
  | Some p => [(startOf w t, sylAt p (within w t r)); (within w t r, sylAt x (startOf w r))]
  end.
Fixpoint along (x : Z) (s : SylString) : list (Z * Syl) :=
  match s with [] => [] | v :: s => (x, v) :: along (endPos v) s end.
Definition wordMoves (w t : list N) (strs : list SylString) : list (Z * Syl) :=
  flat_map (fun s => along (startOf w t) (shiftEndPos (startOf w t) s)) strs.

Section Word.
Variable D : list N -> list SylString -> Prop.
Variable w : list N.
(** One step through the word: a listed word where there is one, otherwise a
    syllable. *)
Inductive Way : list N -> bool -> list (Z * Syl) -> list N -> bool -> Prop :=
| W_word t lk k r strs : wordAt D t k r strs -> Way t lk (wordMoves w t strs) r false
| W_read t lk p x r lk' : (forall k r strs, ~ wordAt D t k r strs) -> Reads lk t p x r lk' ->
    Way t lk (readMoves w t p x r) r lk'.
Inductive Reached : list N -> bool -> Prop :=
| Rc_start : Reached w false
| Rc_step t lk es r lk' : Reached t lk -> Way t lk es r lk' -> Reached r lk'.
Inductive Finishes : list N -> bool -> Prop :=
| Fn_end lk : Finishes [] lk
| Fn_step t lk es r lk' : Way t lk es r lk' -> Finishes r lk' -> Finishes t lk.
(** The moves that lie on some complete way through the word. *)
Definition Move (f : Z) (v : Syl) : Prop :=
  exists t lk es r lk', Reached t lk /\ Way t lk es r lk' /\ Finishes r lk' /\ In (f, v) es.
Fixpoint Walks (f : Z) (s : SylString) (e : Z) : Prop :=
  match s with [] => f = e | v :: s => Move f v /\ Walks (endPos v) s e end.
End Word.

(** Without a dictionary: the syllables of the readings that lie on a complete
    way, one after the other.  Two readings with a pre-syllable that begin and
    end at the same letters exchange their syllables. *)
Definition noWords (k : list N) (strs : list SylString) : Prop := False.
Definition Used (w t : list N) (p : option Said) (x : Said) (r : list N) : Prop :=
  exists lk lk', Reached noWords w t lk /\ Reads lk t p x r lk' /\ Finishes noWords w r lk'.
Inductive Says (w : list N) : list N -> SylString -> Prop :=
| Sy_end : Says w [] []
| Sy_one t x r s : Used w t None x r -> Says w r s -> Says w t (sylAt x (startOf w r) :: s)
| Sy_two t p x p' x' r s : Used w t (Some p) x' r -> Used w t (Some p') x r -> Says w r s ->
    Says w t (sylAt p (within w t r) :: sylAt x (startOf w r) :: s).
