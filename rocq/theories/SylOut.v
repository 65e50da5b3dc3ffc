(** SylOut.v - model of the syllable notations
    output/{isyl-output,sylout-raw,sylout-phonetic,sylout-roman,sylout-soundex}.cxx *)
From Coq Require Import List NArith ZArith Bool String Ascii.
From Verif Require Import Base ThCons Syl Utf.
Import ListNotations.
Local Open Scope string_scope.

(* output/isyl-output.cxx:12-20 *)
Definition outputLiteral (lit : list N) : Res string :=
  (u8 <- to_bytes lit ;; Ok ("(" ++ u8 ++ ")"))%res.

(** [std::to_string(int)]: decimal, at most ten digits for a 32-bit int. *)
Definition digitChar (d : Z) : ascii := ascii_of_N (48 + Z.to_N d).
Fixpoint decLoop (fuel : nat) (n : Z) (acc : string) : string :=
  match fuel with
  | O => acc
  | S f =>
      let acc' := String (digitChar (n mod 10)) acc in
      if (n <? 10)%Z then acc' else decLoop f (n / 10)%Z acc'
  end.
Definition to_string (z : Z) : string :=
  if (z <? 0)%Z then "-" ++ decLoop 10 (- z) "" else decLoop 10 z "".

(* output/sylout-raw.cxx:16-39 *)
Definition RawInitConsTbl_ : list (EInitConsSound * string) :=
  [ (KA, "k"); (KHA, "c"); (NGA, "g"); (JA, "j"); (CHA, "J"); (YA, "y");
    (DA, "d"); (TA, "t"); (THA, "T"); (NA, "n"); (BA, "b"); (PA, "p");
    (PHA, "P"); (FA, "f"); (MA, "m"); (RA, "r"); (LA, "l"); (WA, "w");
    (SA, "s"); (HA, "h"); (ICS_A, "?") ].
(* output/sylout-raw.cxx:43-49 *)
Definition RawSecInitConsTbl_ : list (Z * string) :=
  [ (SEC_NONE, "_"); (SEC_RA, "r"); (SEC_LA, "l"); (SEC_WA, "w") ].
(* output/sylout-raw.cxx:53-79 *)
Definition RawVowelTbl_ : list (Z * string) :=
  [ (V_A, "a"); (V_AA, "A"); (V_I, "i"); (V_II, "I"); (V_UE, "v");
    (V_UEE, "V"); (V_U, "u"); (V_UU, "U"); (V_E, "e"); (V_EE, "E");
    (V_AE, "x"); (V_AEE, "X"); (V_IA, "y"); (V_IAA, "Y"); (V_UEA, "z");
    (V_UEAA, "Z"); (V_UA, "t"); (V_UAA, "T"); (V_O, "o"); (V_OO, "O");
    (V_AU, "c"); (V_AUU, "C"); (V_OE, "w"); (V_OEE, "W") ].
(* output/sylout-raw.cxx:83-94 *)
Definition RawEndConsTbl_ : list (EEndConsClass * string) :=
  [ (EC_NONE, "_"); (KOK, "k"); (KOT, "t"); (KOP, "p"); (KONG, "g");
    (KON, "n"); (KOM, "m"); (KOEY, "y"); (KOEW, "w") ].
(* output/sylout-raw.cxx:98-105 *)
Definition RawToneTbl_ : list (ETone * string) :=
  [ (SAMAN, "0"); (EK, "1"); (THO, "2"); (TRI, "3"); (CHATTAWA, "4") ].

(* output/sylout-raw.cxx:108-123 *)
Definition RawOutput (s : Syl) : Res string :=
  if syl_eqb s Blank then Ok " "
  else if isLiteral s then
    (l <- outputLiteral (literal s) ;; Ok (l ++ "@" ++ to_string (endPos s)))%res
  else
    (a <- assocAt ics_eqb RawInitConsTbl_ (iCons1 s) ;;
     b <- assocAt Z.eqb RawSecInitConsTbl_ (iCons2 s) ;;
     c <- assocAt Z.eqb RawVowelTbl_ (vowel s) ;;
     d <- assocAt ec_eqb RawEndConsTbl_ (eCons s) ;;
     e <- assocAt tone_eqb RawToneTbl_ (tone s) ;;
     Ok (a ++ b ++ c ++ d ++ e ++ "@" ++ to_string (endPos s)))%res.

(* output/sylout-phonetic.cxx:16-39 *)
Definition PhoneticInitConsTbl_ : list (EInitConsSound * string) :=
  [ (KA, "k"); (KHA, "kh"); (NGA, "ng"); (JA, "j"); (CHA, "ch"); (YA, "y");
    (DA, "d"); (TA, "t"); (THA, "th"); (NA, "n"); (BA, "b"); (PA, "p");
    (PHA, "ph"); (FA, "f"); (MA, "m"); (RA, "r"); (LA, "l"); (WA, "w");
    (SA, "s"); (HA, "h"); (ICS_A, "") ].
(* output/sylout-phonetic.cxx:43-49 *)
Definition PhoneticSecInitConsTbl_ : list (Z * string) :=
  [ (SEC_NONE, ""); (SEC_RA, "r"); (SEC_LA, "l"); (SEC_WA, "w") ].
(* output/sylout-phonetic.cxx:53-79 *)
Definition PhoneticVowelTbl_ : list (Z * string) :=
  [ (V_A, "ah"); (V_AA, "aa"); (V_I, "ih"); (V_II, "iy"); (V_UE, "ueh");
    (V_UEE, "uee"); (V_U, "uh"); (V_UU, "uw"); (V_E, "eh"); (V_EE, "ey");
    (V_AE, "aeh"); (V_AEE, "aee"); (V_IA, "iah"); (V_IAA, "iaa");
    (V_UEA, "ueah"); (V_UEAA, "ueaa"); (V_UA, "uah"); (V_UAA, "uaa");
    (V_O, "oh"); (V_OO, "ow"); (V_AU, "aoh"); (V_AUU, "aow"); (V_OE, "oeh");
    (V_OEE, "oee") ].
(* output/sylout-phonetic.cxx:83-94 *)
Definition PhoneticEndConsTbl_ : list (EEndConsClass * string) :=
  [ (EC_NONE, ""); (KOK, "k"); (KOT, "t"); (KOP, "p"); (KONG, "ng");
    (KON, "n"); (KOM, "m"); (KOEY, "y"); (KOEW, "w") ].
(* output/sylout-phonetic.cxx:102-109 *)
Definition PhoneticToneTbl_ : list (ETone * string) :=
  [ (SAMAN, "0"); (EK, "1"); (THO, "2"); (TRI, "3"); (CHATTAWA, "4") ].

(* output/sylout-phonetic.cxx:112-126 *)
Definition PhoneticOutput (s : Syl) : Res string :=
  if syl_eqb s Blank then Ok " "
  else if isLiteral s then outputLiteral (literal s)
  else
    (a <- assocAt ics_eqb PhoneticInitConsTbl_ (iCons1 s) ;;
     b <- assocAt Z.eqb PhoneticSecInitConsTbl_ (iCons2 s) ;;
     c <- assocAt Z.eqb PhoneticVowelTbl_ (vowel s) ;;
     d <- assocAt ec_eqb PhoneticEndConsTbl_ (eCons s) ;;
     e <- assocAt tone_eqb PhoneticToneTbl_ (tone s) ;;
     Ok (a ++ b ++ c ++ d ++ e))%res.

(* output/sylout-roman.cxx:16-39 *)
Definition RomanInitConsTbl_ : list (EInitConsSound * string) :=
  [ (KA, "k"); (KHA, "kh"); (NGA, "ng"); (JA, "ch"); (CHA, "ch"); (YA, "y");
    (DA, "d"); (TA, "t"); (THA, "th"); (NA, "n"); (BA, "b"); (PA, "p");
    (PHA, "ph"); (FA, "f"); (MA, "m"); (RA, "r"); (LA, "l"); (WA, "w");
    (SA, "s"); (HA, "h"); (ICS_A, "") ].
(* output/sylout-roman.cxx:43-49 *)
Definition RomanSecInitConsTbl_ : list (Z * string) :=
  [ (SEC_NONE, ""); (SEC_RA, "r"); (SEC_LA, "l"); (SEC_WA, "w") ].
(* output/sylout-roman.cxx:53-79 *)
Definition RomanVowelTbl_ : list (Z * string) :=
  [ (V_A, "a"); (V_AA, "a"); (V_I, "i"); (V_II, "i"); (V_UE, "ue");
    (V_UEE, "ue"); (V_U, "u"); (V_UU, "u"); (V_E, "e"); (V_EE, "e");
    (V_AE, "ae"); (V_AEE, "ae"); (V_IA, "ia"); (V_IAA, "ia"); (V_UEA, "uea");
    (V_UEAA, "uea"); (V_UA, "ua"); (V_UAA, "ua"); (V_O, "o"); (V_OO, "o");
    (V_AU, "o"); (V_AUU, "o"); (V_OE, "oe"); (V_OEE, "oe") ].
(* output/sylout-roman.cxx:83-94 *)
Definition RomanEndConsTbl_ : list (EEndConsClass * string) :=
  [ (EC_NONE, ""); (KOK, "k"); (KOT, "t"); (KOP, "p"); (KONG, "ng");
    (KON, "n"); (KOM, "m"); (KOEY, "i"); (KOEW, "o") ].

(* output/sylout-roman.cxx:97-110 *)
Definition RomanSylOutput (s : Syl) : Res string :=
  if syl_eqb s Blank then Ok " "
  else if isLiteral s then outputLiteral (literal s)
  else
    (a <- assocAt ics_eqb RomanInitConsTbl_ (iCons1 s) ;;
     b <- assocAt Z.eqb RomanSecInitConsTbl_ (iCons2 s) ;;
     c <- assocAt Z.eqb RomanVowelTbl_ (vowel s) ;;
     d <- assocAt ec_eqb RomanEndConsTbl_ (eCons s) ;;
     Ok (a ++ b ++ c ++ d))%res.

(* output/sylout-soundex.cxx:16-39 *)
Definition SoundexInitConsTbl_ : list (EInitConsSound * string) :=
  [ (KA, "k"); (KHA, "c"); (NGA, "g"); (JA, "j"); (CHA, "J"); (YA, "y");
    (DA, "d"); (TA, "t"); (THA, "T"); (NA, "n"); (BA, "b"); (PA, "p");
    (PHA, "P"); (FA, "f"); (MA, "m"); (RA, "l"); (LA, "l"); (WA, "w");
    (SA, "s"); (HA, "h"); (ICS_A, "?") ].
(* output/sylout-soundex.cxx:43-69 *)
Definition SoundexVowelTbl_ : list (Z * string) :=
  [ (V_A, "a"); (V_AA, "a"); (V_I, "i"); (V_II, "i"); (V_UE, "v");
    (V_UEE, "v"); (V_U, "u"); (V_UU, "u"); (V_E, "e"); (V_EE, "e");
    (V_AE, "x"); (V_AEE, "x"); (V_IA, "y"); (V_IAA, "y"); (V_UEA, "z");
    (V_UEAA, "z"); (V_UA, "t"); (V_UAA, "t"); (V_O, "o"); (V_OO, "o");
    (V_AU, "c"); (V_AUU, "c"); (V_OE, "w"); (V_OEE, "w") ].
(* output/sylout-soundex.cxx:73-84 *)
Definition SoundexEndConsTbl_ : list (EEndConsClass * string) :=
  [ (EC_NONE, "_"); (KOK, "k"); (KOT, "t"); (KOP, "p"); (KONG, "g");
    (KON, "n"); (KOM, "m"); (KOEY, "y"); (KOEW, "w") ].

(* output/sylout-soundex.cxx:87-99 *)
Definition SoundexOutput (s : Syl) : Res string :=
  if syl_eqb s Blank then Ok " "
  else if isLiteral s then outputLiteral (literal s)
  else
    (a <- assocAt ics_eqb SoundexInitConsTbl_ (iCons1 s) ;;
     b <- assocAt Z.eqb SoundexVowelTbl_ (vowel s) ;;
     c <- assocAt ec_eqb SoundexEndConsTbl_ (eCons s) ;;
     Ok (a ++ b ++ c))%res.
