(** Syl.v - model of sylstring/{sylcomp,syl,sylstring}.{h,inl,cxx}. *)
From Coq Require Import List NArith ZArith Bool String Ascii.
From Verif Require Import Base ThCons.
Import ListNotations.
Local Open Scope Z_scope.

(** [static_cast<int>(char)]: plain [char] is signed on the supported ABIs. *)
Definition char_code (c : ascii) : Z :=
  let n := Z.of_N (N_of_ascii c) in if n <? 128 then n else n - 256.

(* sylstring/sylcomp.h:22-27 -- enum class with underlying int; the
   static_cast from char in the Syl constructors does not validate, so the type
   is the integer itself. *)
Definition ESecInitCons := Z.
Definition SEC_NONE : ESecInitCons := 95.   (* '_' *)
Definition SEC_RA : ESecInitCons := 114.    (* 'r' *)
Definition SEC_LA : ESecInitCons := 108.    (* 'l' *)
Definition SEC_WA : ESecInitCons := 119.    (* 'w' *)

(* sylstring/sylcomp.h:29-55 *)
Definition EVowel := Z.
Definition V_INVALID : EVowel := 42.  (* '*' *)
Definition V_A : EVowel := 97.        (* 'a' *)
Definition V_AA : EVowel := 65.       (* 'A' *)
Definition V_I : EVowel := 105.       (* 'i' *)
Definition V_II : EVowel := 73.       (* 'I' *)
Definition V_UE : EVowel := 118.      (* 'v' *)
Definition V_UEE : EVowel := 86.      (* 'V' *)
Definition V_U : EVowel := 117.       (* 'u' *)
Definition V_UU : EVowel := 85.       (* 'U' *)
Definition V_E : EVowel := 101.       (* 'e' *)
Definition V_EE : EVowel := 69.       (* 'E' *)
Definition V_AE : EVowel := 120.      (* 'x' *)
Definition V_AEE : EVowel := 88.      (* 'X' *)
Definition V_IA : EVowel := 121.      (* 'y' *)
Definition V_IAA : EVowel := 89.      (* 'Y' *)
Definition V_UEA : EVowel := 122.     (* 'z' *)
Definition V_UEAA : EVowel := 90.     (* 'Z' *)
Definition V_UA : EVowel := 116.      (* 't' *)
Definition V_UAA : EVowel := 84.      (* 'T' *)
Definition V_O : EVowel := 111.       (* 'o' *)
Definition V_OO : EVowel := 79.       (* 'O' *)
Definition V_AU : EVowel := 99.       (* 'c' *)
Definition V_AUU : EVowel := 67.      (* 'C' *)
Definition V_OE : EVowel := 119.      (* 'w' *)
Definition V_OEE : EVowel := 87.      (* 'W' *)

(* sylstring/sylcomp.inl:7-11 -- islower in the C locale *)
Definition IsShortVowel (v : EVowel) : bool := (97 <=? v) && (v <=? 122).

(** [unordered_map::at] on an association list: missing key throws. *)
Fixpoint assocAt {K V} (eqb : K -> K -> bool) (t : list (K * V)) (k : K) : Res V :=
  match t with
  | [] => Throw
  | (k', v) :: t' => if eqb k k' then Ok v else assocAt eqb t' k
  end.

(* sylstring/sylcomp.cxx:12-36 *)
Definition InitConsCodeToSoundTbl_ : list (ascii * EInitConsSound) :=
  [ ("*", ICS_INVALID); ("k", KA); ("c", KHA); ("g", NGA); ("j", JA);
    ("J", CHA); ("y", YA); ("d", DA); ("t", TA); ("T", THA); ("n", NA);
    ("b", BA); ("p", PA); ("P", PHA); ("f", FA); ("m", MA); ("r", RA);
    ("l", LA); ("w", WA); ("s", SA); ("h", HA); ("?", ICS_A) ]%char.
(* sylstring/sylcomp.cxx:46-57 *)
Definition EndConsCodeToClassTbl_ : list (ascii * EEndConsClass) :=
  [ ("_", EC_NONE); ("k", KOK); ("t", KOT); ("p", KOP); ("g", KONG);
    ("n", KON); ("m", KOM); ("y", KOEY); ("w", KOEW) ]%char.
(* sylstring/sylcomp.cxx:66-74 *)
Definition ToneCodeToToneTbl_ : list (ascii * ETone) :=
  [ ("*", T_INVALID); ("0", SAMAN); ("1", EK); ("2", THO); ("3", TRI);
    ("4", CHATTAWA) ]%char.

(* sylstring/sylcomp.cxx:39-43 *)
Definition InitConsCodeToSound (c : ascii) : Res EInitConsSound :=
  assocAt Ascii.eqb InitConsCodeToSoundTbl_ c.
(* sylstring/sylcomp.cxx:60-64 *)
Definition EndConsCodeToClass (c : ascii) : Res EEndConsClass :=
  assocAt Ascii.eqb EndConsCodeToClassTbl_ c.
(* sylstring/sylcomp.cxx:76-80 *)
Definition ToneCodeToTone (c : ascii) : Res ETone :=
  assocAt Ascii.eqb ToneCodeToToneTbl_ c.

(* sylstring/syl.h:48-58 *)
Record Syl := mkSyl {
  iCons1 : EInitConsSound;
  iCons2 : ESecInitCons;
  vowel : EVowel;
  eCons : EEndConsClass;
  tone : ETone;
  literal : list N;
  endPos : Z
}.

(* sylstring/syl.inl:9-19 *)
Definition SylDefault (pos : Z) : Syl :=
  mkSyl ICS_INVALID SEC_NONE V_INVALID EC_NONE T_INVALID [] pos.
(* sylstring/syl.cxx:13 with the default argument of syl.h:17 *)
Definition Blank : Syl := SylDefault (-1).
(* sylstring/syl.inl:21-31 *)
Definition SylLiteral (pos : Z) (lit : list N) : Syl :=
  mkSyl ICS_INVALID SEC_NONE V_INVALID EC_NONE T_INVALID lit pos.
(* sylstring/syl.inl:45-56 *)
Definition SylOf (i1 : EInitConsSound) (i2 : ESecInitCons) (v : EVowel)
    (e : EEndConsClass) (t : ETone) (pos : Z) : Syl :=
  mkSyl i1 i2 v e t [] pos.
(* sylstring/syl.inl:119-123 *)
Definition setEndPos (s : Syl) (pos : Z) : Syl :=
  mkSyl (iCons1 s) (iCons2 s) (vowel s) (eCons s) (tone s) (literal s) pos.
(* sylstring/syl.inl:101-105 *)
Definition isLiteral (s : Syl) : bool :=
  match literal s with [] => false | _ => true end.

(** [std::stoi] (base 10): optional leading white space and sign, at least one
    digit, trailing garbage ignored, [out_of_range] outside 32-bit int. *)
Definition digitVal (c : ascii) : option Z :=
  let n := Z.of_N (N_of_ascii c) in
  if (48 <=? n) && (n <=? 57) then Some (n - 48) else None.
Fixpoint digitsVal (acc : Z) (s : string) : Z :=
  match s with
  | EmptyString => acc
  | String c s' =>
      match digitVal c with
      | Some d => digitsVal (acc * 10 + d) s'
      | None => acc
      end
  end.
Definition isCSpace (c : ascii) : bool :=
  let n := N_of_ascii c in (N.eqb n 32 || (N.leb 9 n && N.leb n 13))%bool.
Fixpoint skipSpaces (s : string) : string :=
  match s with
  | String c s' => if isCSpace c then skipSpaces s' else s
  | EmptyString => s
  end.
Definition inInt (z : Z) : bool := (-2147483648 <=? z) && (z <=? 2147483647).
Definition stoiDigits (neg : bool) (s : string) : Res Z :=
  match s with
  | String c _ =>
      match digitVal c with
      | Some _ =>
          let v := digitsVal 0 s in
          let v := if neg then - v else v in
          if inInt v then Ok v else Throw
      | None => Throw
      end
  | EmptyString => Throw
  end.
Definition stoi (s : string) : Res Z :=
  match skipSpaces s with
  | String "-" s' => stoiDigits true s'
  | String "+" s' => stoiDigits false s'
  | s' => stoiDigits false s'
  end.

(** [desc[i]] on a [const std::string]: the terminator at [i = size()],
    undefined beyond. *)
Fixpoint strIdx (s : string) (i : nat) : Res ascii :=
  match s, i with
  | String c _, O => Ok c
  | String _ s', S i' => strIdx s' i'
  | EmptyString, O => Ok Ascii.zero
  | EmptyString, S _ => UB
  end.

Definition strDrop (n : nat) (s : string) : string :=
  substring n (String.length s - n) s.

(* sylstring/syl.cxx:15-27 *)
Definition SylOfDesc (desc : string) (pos : Z) : Res Syl :=
  (c0 <- strIdx desc 0 ;;
   i1 <- InitConsCodeToSound c0 ;;
   c1 <- strIdx desc 1 ;;
   c2 <- strIdx desc 2 ;;
   c3 <- strIdx desc 3 ;;
   e <- EndConsCodeToClass c3 ;;
   c4 <- strIdx desc 4 ;;
   t <- ToneCodeToTone c4 ;;
   pos' <- (if (6 <? String.length desc)%nat then
              c5 <- strIdx desc 5 ;;
              if Ascii.eqb c5 "@" then stoi (strDrop 6 desc) else Ok pos
            else Ok pos) ;;
   Ok (mkSyl i1 (char_code c1) (char_code c2) e t [] pos'))%res.

(** Comparison of [std::u16string]. *)
Fixpoint u16eqb (a b : list N) : bool :=
  match a, b with
  | [], [] => true
  | x :: a', y :: b' => N.eqb x y && u16eqb a' b'
  | _, _ => false
  end.
Fixpoint u16ltb (a b : list N) : bool :=
  match a, b with
  | [], [] => false
  | [], _ :: _ => true
  | _ :: _, [] => false
  | x :: a', y :: b' =>
      if N.ltb x y then true else if N.ltb y x then false else u16ltb a' b'
  end.

(* sylstring/syl.cxx:29-48 *)
Definition syl_eqb (a b : Syl) : bool :=
  if isLiteral a then
    if isLiteral b then u16eqb (literal a) (literal b) else false
  else
    if isLiteral b then false
    else ics_eqb (iCons1 a) (iCons1 b) && (iCons2 a =? iCons2 b)
         && (vowel a =? vowel b) && ec_eqb (eCons a) (eCons b)
         && tone_eqb (tone a) (tone b).

(* sylstring/syl.cxx:50-75 *)
Definition syl_ltb (a b : Syl) : bool :=
  if isLiteral a then
    if isLiteral b then
      if u16ltb (literal a) (literal b) then true
      else if u16ltb (literal b) (literal a) then false
      else endPos a <? endPos b
    else true
  else
    if isLiteral b then false
    else
      if N.ltb (ics_code (iCons1 a)) (ics_code (iCons1 b)) then true else
      if N.ltb (ics_code (iCons1 b)) (ics_code (iCons1 a)) then false else
      if iCons2 a <? iCons2 b then true else
      if iCons2 b <? iCons2 a then false else
      if vowel a <? vowel b then true else
      if vowel b <? vowel a then false else
      if N.ltb (ec_code (eCons a)) (ec_code (eCons b)) then true else
      if N.ltb (ec_code (eCons b)) (ec_code (eCons a)) then false else
      if N.ltb (tone_code (tone a)) (tone_code (tone b)) then true else
      if N.ltb (tone_code (tone b)) (tone_code (tone a)) then false else
      endPos a <? endPos b.

(* sylstring/syl.cxx:77-102 *)
Definition syl_gtb (a b : Syl) : bool :=
  if isLiteral a then
    if isLiteral b then
      if u16ltb (literal b) (literal a) then true
      else if u16ltb (literal a) (literal b) then false
      else endPos b <? endPos a
    else false
  else
    if isLiteral b then true
    else
      if N.ltb (ics_code (iCons1 b)) (ics_code (iCons1 a)) then true else
      if N.ltb (ics_code (iCons1 a)) (ics_code (iCons1 b)) then false else
      if iCons2 b <? iCons2 a then true else
      if iCons2 a <? iCons2 b then false else
      if vowel b <? vowel a then true else
      if vowel a <? vowel b then false else
      if N.ltb (ec_code (eCons b)) (ec_code (eCons a)) then true else
      if N.ltb (ec_code (eCons a)) (ec_code (eCons b)) then false else
      if N.ltb (tone_code (tone b)) (tone_code (tone a)) then true else
      if N.ltb (tone_code (tone a)) (tone_code (tone b)) then false else
      endPos b <? endPos a.

(* sylstring/syl.inl:131-141 *)
Definition syl_leb (a b : Syl) : bool := negb (syl_gtb a b).
Definition syl_geb (a b : Syl) : bool := negb (syl_ltb a b).

(** A [SylString] is the list of its syllables (sylstring.h:49-50). *)
Definition SylString := list Syl.

(* sylstring/sylstring.cxx:13-22 -- [find]/[substr] loop: split at ',' *)
Fixpoint splitOn (d : ascii) (s : string) : list string :=
  match s with
  | EmptyString => [EmptyString]
  | String c s' =>
      if Ascii.eqb c d then EmptyString :: splitOn d s'
      else match splitOn d s' with
           | x :: xs => String c x :: xs
           | [] => [String c EmptyString]
           end
  end.
Definition SylStringOfDesc (desc : string) : Res SylString :=
  mapM (fun d => SylOfDesc d (-1)) (splitOn "," desc).

(* sylstring/sylstring.inl:83-87 *)
Definition str_endPos (s : SylString) : Z :=
  match s with [] => 0 | _ => endPos (last s Blank) end.

(* sylstring/sylstring.cxx:24-34 *)
Fixpoint str_eqb (a b : SylString) : bool :=
  match a, b with
  | x :: a', y :: b' => if negb (syl_eqb x y) then false else str_eqb a' b'
  | [], [] => true
  | _, _ => false
  end.
(* sylstring/sylstring.cxx:36-47 *)
Fixpoint str_ltb (a b : SylString) : bool :=
  match a, b with
  | x :: a', y :: b' =>
      if syl_ltb x y then true else if syl_gtb x y then false else str_ltb a' b'
  | _, [] => false
  | [], _ :: _ => true
  end.
(* sylstring/sylstring.cxx:49-60 *)
Fixpoint str_gtb (a b : SylString) : bool :=
  match a, b with
  | x :: a', y :: b' =>
      if syl_gtb x y then true else if syl_ltb x y then false else str_gtb a' b'
  | [], _ => false
  | _ :: _, [] => true
  end.
(* sylstring/sylstring.inl:95-105 *)
Definition str_leb (a b : SylString) : bool := negb (str_gtb a b).
Definition str_geb (a b : SylString) : bool := negb (str_ltb a b).

(* sylstring/sylstring.cxx:62-76 *)
Definition shiftPos (offset p : Z) : Z :=
  if p <? 0 then p - offset * 101 else p + offset.
Definition shiftEndPos (offset : Z) (s : SylString) : SylString :=
  map (fun x => setEndPos x (shiftPos offset (endPos x))) s.
