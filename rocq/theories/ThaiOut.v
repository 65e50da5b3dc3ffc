(** ThaiOut.v - model of output/sylout-thai.cxx. *)
From Coq Require Import List NArith ZArith Bool String Ascii.
From Verif Require Import Base ThCons Syl Utf SylOut.
Import ListNotations.
Local Open Scope string_scope.

(** A UTF-8 string literal for one code point (u8"\u0e.." macros). *)
Definition u8 (c : N) : string := utf8Encode [c].

(* output/sylout-thai.cxx:18-24 *)
Definition IsDeadSyl (isShort : bool) (e : EEndConsClass) : bool :=
  IsDeadEndConsClass e || (isShort && ec_eqb EC_NONE e).

(* output/sylout-thai.cxx:26-50 *)
Definition YO_STR := Eval compute in u8 0x0e22.
Definition WO_STR := Eval compute in u8 0x0e27.
Definition AU_STR := Eval compute in u8 0x0e2d.
Definition PHINTHU_STR := Eval compute in u8 0x0e3a.
Definition SARA_A_STR := Eval compute in u8 0x0e30.
Definition MAI_HAN_AKAT_STR := Eval compute in u8 0x0e31.
Definition SARA_AA_STR := Eval compute in u8 0x0e32.
Definition SARA_I_STR := Eval compute in u8 0x0e34.
Definition SARA_II_STR := Eval compute in u8 0x0e35.
Definition SARA_UE_STR := Eval compute in u8 0x0e36.
Definition SARA_UEE_STR := Eval compute in u8 0x0e37.
Definition SARA_U_STR := Eval compute in u8 0x0e38.
Definition SARA_UU_STR := Eval compute in u8 0x0e39.
Definition SARA_E_STR := Eval compute in u8 0x0e40.
Definition SARA_AE_STR := Eval compute in u8 0x0e41.
Definition SARA_O_STR := Eval compute in u8 0x0e42.
Definition MAITAIKHU_STR := Eval compute in u8 0x0e47.
Definition TONE_EK_STR := Eval compute in u8 0x0e48.
Definition TONE_THO_STR := Eval compute in u8 0x0e49.
Definition TONE_TRI_STR := Eval compute in u8 0x0e4a.
Definition TONE_CHATTAWA_STR := Eval compute in u8 0x0e4b.

(* output/sylout-thai.cxx:57-66 *)
Definition ThaiMidConsSet_ : list EInitConsSound := [KA; JA; DA; TA; BA; PA; ICS_A].
Definition isMidCons (c : EInitConsSound) : bool := existsb (ics_eqb c) ThaiMidConsSet_.

(* output/sylout-thai.cxx:68-77 *)
Definition ThaiMidCons1Tbl_ : list (EInitConsSound * string) :=
  [ (KA, "ก"); (JA, "จ"); (DA, "ด"); (TA, "ต"); (BA, "บ"); (PA, "ป");
    (ICS_A, "อ") ].
(* output/sylout-thai.cxx:79-95 -- the high column of NGA, YA, NA, MA, RA, LA,
   WA is HO HIP + PHINTHU + letter *)
Definition ThaiHighLowInitCons1Tbl_ : list (EInitConsSound * (string * string)) :=
  [ (KHA, ("ข", "ค")); (NGA, ("หฺง", "ง")); (CHA, ("ฉ", "ช"));
    (YA, ("หฺย", "ย")); (THA, ("ถ", "ท")); (NA, ("หฺน", "น"));
    (PHA, ("ผ", "พ")); (FA, ("ฝ", "ฟ")); (MA, ("หฺม", "ม"));
    (RA, ("หฺร", "ร")); (LA, ("หฺล", "ล")); (WA, ("หฺว", "ว"));
    (SA, ("ส", "ซ")); (HA, ("ห", "ฮ")) ].
(* output/sylout-thai.cxx:103-109 *)
Definition ThaiSecIConsTbl_ : list (Z * string) :=
  [ (SEC_NONE, ""); (SEC_RA, PHINTHU_STR ++ "ร"); (SEC_LA, PHINTHU_STR ++ "ล");
    (SEC_WA, PHINTHU_STR ++ "ว") ].
(* output/sylout-thai.cxx:118-129 *)
Definition ThaiEndConsTbl_ : list (EEndConsClass * string) :=
  [ (EC_NONE, ""); (KOK, "ก"); (KOT, "ด"); (KOP, "บ"); (KONG, "ง");
    (KON, "น"); (KOM, "ม"); (KOEY, "ย"); (KOEW, "ว") ].
(* output/sylout-thai.cxx:137-144 *)
Definition ThaiToneTbl_ : list (ETone * string) :=
  [ (SAMAN, ""); (EK, TONE_EK_STR); (THO, TONE_THO_STR); (TRI, TONE_TRI_STR);
    (CHATTAWA, TONE_CHATTAWA_STR) ].

Definition midCons1 := assocAt ics_eqb ThaiMidCons1Tbl_.
Definition hiloCons1 := assocAt ics_eqb ThaiHighLowInitCons1Tbl_.
Definition secICons := assocAt Z.eqb ThaiSecIConsTbl_.
Definition endConsStr := assocAt ec_eqb ThaiEndConsTbl_.
Definition toneStr := assocAt tone_eqb ThaiToneTbl_.

(** Append the second initial consonant (lines 184-186, 224-226, 264-266). *)
Definition withSec (p : string * string) (iCons2 : ESecInitCons)
    : Res (string * string) :=
  (s <- secICons iCons2 ;; Ok (fst p ++ s, snd p))%res.

(* output/sylout-thai.cxx:151-187 *)
Definition ThaiLiveIConsTonePair (iCons1 : EInitConsSound)
    (iCons2 : ESecInitCons) (tone : ETone) : Res (string * string) :=
  (p <- (if isMidCons iCons1 then
           c <- midCons1 iCons1 ;; t <- toneStr tone ;; Ok (c, t)
         else
           hl <- hiloCons1 iCons1 ;;
           Ok (match tone with
               | SAMAN => (snd hl, "")
               | EK => (fst hl, TONE_EK_STR)
               | THO => (snd hl, TONE_EK_STR)
               | TRI => (snd hl, TONE_THO_STR)
               | CHATTAWA => (fst hl, "")
               | T_INVALID => ("", "")
               end)) ;;
   withSec p iCons2)%res.
(* output/sylout-thai.cxx:189-227 *)
Definition ThaiDeadShortIConsTonePair (iCons1 : EInitConsSound)
    (iCons2 : ESecInitCons) (tone : ETone) : Res (string * string) :=
  (p <- (if isMidCons iCons1 then
           c <- midCons1 iCons1 ;;
           if tone_eqb EK tone then Ok (c, "")
           else t <- toneStr tone ;; Ok (c, t)
         else
           hl <- hiloCons1 iCons1 ;;
           Ok (match tone with
               | SAMAN => (snd hl, "")
               | EK => (fst hl, "")
               | THO => (snd hl, TONE_EK_STR)
               | TRI => (snd hl, "")
               | CHATTAWA => (snd hl, TONE_CHATTAWA_STR)
               | T_INVALID => ("", "")
               end)) ;;
   withSec p iCons2)%res.
(* output/sylout-thai.cxx:229-267 *)
Definition ThaiDeadLongIConsTonePair (iCons1 : EInitConsSound)
    (iCons2 : ESecInitCons) (tone : ETone) : Res (string * string) :=
  (p <- (if isMidCons iCons1 then
           c <- midCons1 iCons1 ;;
           if tone_eqb EK tone then Ok (c, "")
           else t <- toneStr tone ;; Ok (c, t)
         else
           hl <- hiloCons1 iCons1 ;;
           Ok (match tone with
               | SAMAN => (snd hl, "")
               | EK => (fst hl, "")
               | THO => (snd hl, "")
               | TRI => (snd hl, TONE_THO_STR)
               | CHATTAWA => (snd hl, TONE_CHATTAWA_STR)
               | T_INVALID => ("", "")
               end)) ;;
   withSec p iCons2)%res.

(** The choice repeated in most vowel functions (e.g. lines 327-332). *)
Definition pairFor (isShort : bool) (iCons1 : EInitConsSound)
    (iCons2 : ESecInitCons) (eCons : EEndConsClass) (tone : ETone)
    : Res (string * string) :=
  if IsDeadSyl isShort eCons then
    if isShort then ThaiDeadShortIConsTonePair iCons1 iCons2 tone
    else ThaiDeadLongIConsTonePair iCons1 iCons2 tone
  else ThaiLiveIConsTonePair iCons1 iCons2 tone.

Definition isNone (e : EEndConsClass) : bool := ec_eqb EC_NONE e.
Definition isEmptyStr (s : string) : bool :=
  match s with EmptyString => true | _ => false end.

(* output/sylout-thai.cxx:274-295 *)
Definition ThaiSylA i1 i2 e t : Res string :=
  (if isNone e then
     p <- ThaiDeadShortIConsTonePair i1 i2 t ;;
     Ok (fst p ++ snd p ++ SARA_A_STR)
   else if ec_eqb KOEW e then
     p <- ThaiLiveIConsTonePair i1 i2 t ;;
     Ok (SARA_E_STR ++ fst p ++ snd p ++ SARA_AA_STR)
   else
     p <- (if IsDeadSyl true e then ThaiDeadShortIConsTonePair i1 i2 t
           else ThaiLiveIConsTonePair i1 i2 t) ;;
     es <- endConsStr e ;;
     Ok (fst p ++ MAI_HAN_AKAT_STR ++ snd p ++ es))%res.
(* output/sylout-thai.cxx:298-308 *)
Definition ThaiSylAA i1 i2 e t : Res string :=
  (p <- pairFor false i1 i2 e t ;;
   es <- endConsStr e ;;
   Ok (fst p ++ snd p ++ SARA_AA_STR ++ es))%res.
(* output/sylout-thai.cxx:319-325 *)
Definition belowAboveTbl : list (Z * string) :=
  [ (V_I, SARA_I_STR); (V_II, SARA_II_STR); (V_UE, SARA_UE_STR);
    (V_U, SARA_U_STR); (V_UU, SARA_UU_STR) ].
(* output/sylout-thai.cxx:311-335 *)
Definition ThaiSylBelowAbove i1 i2 (isShort : bool) (v : EVowel) e t : Res string :=
  (p <- pairFor isShort i1 i2 e t ;;
   vs <- assocAt Z.eqb belowAboveTbl v ;;
   es <- endConsStr e ;;
   Ok (fst p ++ vs ++ snd p ++ es))%res.
(* output/sylout-thai.cxx:338-349 *)
Definition ThaiSylUEE i1 i2 e t : Res string :=
  (p <- pairFor false i1 i2 e t ;;
   es <- (if isNone e then Ok AU_STR else endConsStr e) ;;
   Ok (fst p ++ SARA_UEE_STR ++ snd p ++ es))%res.
(* output/sylout-thai.cxx:358-361 *)
Definition leadShortTbl : list (Z * string) :=
  [ (V_E, SARA_E_STR); (V_AE, SARA_AE_STR) ].
(* output/sylout-thai.cxx:352-373 *)
Definition ThaiSylLeadShort i1 i2 (v : EVowel) e t : Res string :=
  (p <- pairFor true i1 i2 e t ;;
   let m := if negb (isNone e) && isEmptyStr (snd p) then MAITAIKHU_STR else snd p in
   vs <- assocAt Z.eqb leadShortTbl v ;;
   es <- (if isNone e then Ok SARA_A_STR else endConsStr e) ;;
   Ok (vs ++ fst p ++ m ++ es))%res.
(* output/sylout-thai.cxx:382-386 *)
Definition leadLongTbl : list (Z * string) :=
  [ (V_EE, SARA_E_STR); (V_AEE, SARA_AE_STR); (V_OO, SARA_O_STR) ].
(* output/sylout-thai.cxx:376-394 *)
Definition ThaiSylLeadLong i1 i2 (v : EVowel) e t : Res string :=
  (p <- pairFor false i1 i2 e t ;;
   vs <- assocAt Z.eqb leadLongTbl v ;;
   es <- endConsStr e ;;
   Ok (vs ++ fst p ++ snd p ++ es))%res.
(* output/sylout-thai.cxx:397-412 *)
Definition ThaiSylO i1 i2 e t : Res string :=
  (p <- pairFor true i1 i2 e t ;;
   if isNone e then Ok (SARA_O_STR ++ fst p ++ snd p ++ SARA_A_STR)
   else es <- endConsStr e ;; Ok (fst p ++ snd p ++ es))%res.
(* output/sylout-thai.cxx:415-434 *)
Definition ThaiSylIA i1 i2 (isShort0 : bool) e t : Res string :=
  (let isShort := if negb (isNone e) then false else isShort0 in
   p <- pairFor isShort i1 i2 e t ;;
   es <- (if isShort then Ok SARA_A_STR else endConsStr e) ;;
   Ok (SARA_E_STR ++ fst p ++ SARA_II_STR ++ snd p ++ YO_STR ++ es))%res.
(* output/sylout-thai.cxx:437-456 *)
Definition ThaiSylUEA i1 i2 (isShort0 : bool) e t : Res string :=
  (let isShort := if negb (isNone e) then false else isShort0 in
   p <- pairFor isShort i1 i2 e t ;;
   es <- (if isShort then Ok SARA_A_STR else endConsStr e) ;;
   Ok (SARA_E_STR ++ fst p ++ SARA_UEE_STR ++ snd p ++ AU_STR ++ es))%res.
(* output/sylout-thai.cxx:459-483 *)
Definition ThaiSylUA i1 i2 (isShort : bool) e t : Res string :=
  (p <- pairFor isShort i1 i2 e t ;;
   let m := if isShort && negb (isNone e) && isEmptyStr (snd p)
            then MAITAIKHU_STR else snd p in
   if isNone e then
     Ok (fst p ++ MAI_HAN_AKAT_STR ++ m ++ WO_STR ++ (if isShort then SARA_A_STR else ""))
   else
     es <- endConsStr e ;; Ok (fst p ++ m ++ WO_STR ++ es))%res.
(* output/sylout-thai.cxx:486-510 *)
Definition ThaiSylAU i1 i2 (isShort : bool) e t : Res string :=
  (p <- pairFor isShort i1 i2 e t ;;
   if isShort && isNone e then
     Ok (SARA_E_STR ++ fst p ++ snd p ++ SARA_AA_STR ++ SARA_A_STR)
   else
     let m := if isShort && isEmptyStr (snd p) then MAITAIKHU_STR else snd p in
     es <- endConsStr e ;; Ok (fst p ++ m ++ AU_STR ++ es))%res.
(* output/sylout-thai.cxx:513-542 *)
Definition ThaiSylOE i1 i2 (isShort0 : bool) e t : Res string :=
  (let isShort := if negb (isNone e) then false else isShort0 in
   p <- pairFor isShort i1 i2 e t ;;
   if isNone e then
     Ok (SARA_E_STR ++ fst p ++ snd p ++ AU_STR ++ (if isShort then SARA_A_STR else ""))
   else if ec_eqb KOEY e then
     Ok (SARA_E_STR ++ fst p ++ snd p ++ YO_STR)
   else
     es <- endConsStr e ;;
     Ok (SARA_E_STR ++ fst p ++ SARA_I_STR ++ snd p ++ es))%res.

(* output/sylout-thai.cxx:548-633 *)
Definition ThaiOutput (s : Syl) : Res string :=
  if isLiteral s then outputLiteral (literal s)
  else
    let i1 := iCons1 s in let i2 := iCons2 s in
    let e := eCons s in let t := tone s in let v := vowel s in
    if (v =? V_A)%Z then ThaiSylA i1 i2 e t
    else if (v =? V_AA)%Z then ThaiSylAA i1 i2 e t
    else if (v =? V_I)%Z || (v =? V_UE)%Z || (v =? V_U)%Z
      then ThaiSylBelowAbove i1 i2 true v e t
    else if (v =? V_II)%Z || (v =? V_UU)%Z
      then ThaiSylBelowAbove i1 i2 false v e t
    else if (v =? V_UEE)%Z then ThaiSylUEE i1 i2 e t
    else if (v =? V_E)%Z || (v =? V_AE)%Z then ThaiSylLeadShort i1 i2 v e t
    else if (v =? V_EE)%Z || (v =? V_AEE)%Z || (v =? V_OO)%Z
      then ThaiSylLeadLong i1 i2 v e t
    else if (v =? V_O)%Z then ThaiSylO i1 i2 e t
    else if (v =? V_IA)%Z then ThaiSylIA i1 i2 true e t
    else if (v =? V_IAA)%Z then ThaiSylIA i1 i2 false e t
    else if (v =? V_UEA)%Z then ThaiSylUEA i1 i2 true e t
    else if (v =? V_UEAA)%Z then ThaiSylUEA i1 i2 false e t
    else if (v =? V_UA)%Z then ThaiSylUA i1 i2 true e t
    else if (v =? V_UAA)%Z then ThaiSylUA i1 i2 false e t
    else if (v =? V_AU)%Z then ThaiSylAU i1 i2 true e t
    else if (v =? V_AUU)%Z then ThaiSylAU i1 i2 false e t
    else if (v =? V_OE)%Z then ThaiSylOE i1 i2 true e t
    else if (v =? V_OEE)%Z then ThaiSylOE i1 i2 false e t
    else Ok " ".
