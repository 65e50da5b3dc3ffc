(** ParserDebug.v - the parser as built with [--enable-debug].

    configure.ac:31-37 defines NDEBUG unless debugging is asked for; with
    [--enable-debug] the [assert]s are checked and a failing one ends the
    process.  This file is Parser.v with the assertions of parser/parser.cxx and
    thortho/thcons.cxx put in; the parts without assertions are shared with
    Parser.v.  The comments on the rules are those of Parser.v. *)
From Coq Require Import String List NArith ZArith Bool Arith Ascii.
From Verif Require Import Base ThUni ThCons Syl Lattice Dag PronDag Dict Utf Parser.
Import ListNotations.

(** The place of an assertion: file and line. *)
Inductive Site := parser_cxx (line : nat) | thcons_cxx (line : nat) | sylout_thai_cxx (line : nat).
(** Outcome with assertions: as without, or a failed assertion ([abort]). *)
Inductive Dbg (A : Type) : Type :=
| Ran (r : Res A)
| Abort (at_ : Site).
Arguments Ran {A} r.
Arguments Abort {A} at_.
Coercion Ran : Res >-> Dbg.
Definition dbind {A B : Type} (m : Dbg A) (k : A -> Dbg B) : Dbg B :=
  match m with
  | Ran (Ok a) => k a
  | Ran Throw => Ran Throw
  | Ran UB => Ran UB
  | Ran NoFuel => Ran NoFuel
  | Abort l => Abort l
  end.
Declare Scope dbg_scope.
Delimit Scope dbg_scope with dbg.
Notation "x <- m ;; k" := (dbind m (fun x => k))
  (at level 61, m at next level, right associativity) : dbg_scope.
Notation "' p <- m ;; k" := (dbind m (fun x => match x with p => k end))
  (at level 61, p pattern, m at next level, right associativity) : dbg_scope.
(** [assert (b);] *)
Notation "'assertThat' l b ;; k" := (if b then k else Abort l)
  (at level 61, l at level 9, b at level 9, k at level 61, right associativity) : dbg_scope.
Fixpoint mapMD {A B} (f : A -> Dbg B) (l : list A) : Dbg (list B) :=
  match l with
  | [] => Ok []
  | x :: xs =>
      (y <- f x ;; ys <- mapMD f xs ;; Ok (y :: ys))%dbg
  end.

Section Debug.
Variable ct : CType.
Notation isCons := (th_wcisthcons ct).
Notation isTone := (th_wcisthtone ct).
Notation isLdv := (th_wcisldvowel ct).

Local Open Scope dbg_scope.
Local Open Scope nat_scope.
Local Notation "a =n b" := (N.eqb a b) (at level 70).

(* parser/parser.cxx:23-35 *)
Definition ThCharToToneD (c : N) : Dbg ETone :=
  assertThat (parser_cxx 33) (isTone c) ;; ThCharToTone c.
(* parser/parser.cxx:37-51 *)
Definition ThCharToAboveBelowVowelD (c : N) : Dbg EVowel :=
  assertThat (parser_cxx 49) (th_wcisupvowel ct c || th_wcisblvowel ct c) ;;
  ThCharToAboveBelowVowel c.
(** [UTH_KO_KAI <= c && c <= UTH_HO_NOKHUK]. *)
Definition inTable (c : N) : bool := (UTH_KO_KAI <=? c)%N && (c <=? UTH_HO_NOKHUK)%N.
(* thortho/thcons.cxx:33-38 *)
Definition InitConsClassD (c : N) : Dbg EInitConsClass :=
  assertThat (thcons_cxx 36) (inTable c) ;; InitConsClass c.
(* thortho/thcons.cxx:61-66 *)
Definition InitConsSoundD (c : N) : Dbg EInitConsSound :=
  assertThat (thcons_cxx 64) (inTable c) ;; InitConsSound c.
(* thortho/thcons.cxx:89-94 *)
Definition EndConsClassD (c : N) : Dbg EEndConsClass :=
  assertThat (thcons_cxx 92) (inTable c) ;; EndConsClass c.

(* parser/parser.cxx:555-775: consonant + RU *)
Definition ruPartD (w : list N) (pos stop : nat) (c0 : N)
    (s0 : EInitConsSound) (k0 : EInitConsClass) : Dbg (list PartialSyl) :=
  go <- (if stop <=? pos + 2 then Ok true
         else c <- at16 w (pos + 2) ;;
              Ok (negb (UTH_LAKKHANGYAO =n c) && negb (UTH_SARA_AA =n c))) ;;
  if negb go then Ok []
  else if memN c0 [UTH_KO_KAI; UTH_TO_TAO; UTH_THO_THAHAN; UTH_PO_PLA] then
    Ok [partial (pos + 2) None s0 k0 SEC_RA V_I]
  else if memN c0 [UTH_SO_SUA; UTH_SO_SALA] then
    Ok [partial (pos + 2) None s0 k0 SEC_NONE V_I;
        partial (pos + 2) (Some (preA s0 k0)) RA k0 SEC_NONE V_I]
  else if memN c0 [UTH_WO_WAEN] then
    Ok [partial (pos + 2) None s0 k0 SEC_RA V_UE]
  else if memN c0 [UTH_NO_NU] then
    Ok [partial (pos + 2) (Some (preA s0 k0)) RA LOWS SEC_NONE V_UE]
  else if memN c0 [UTH_KHO_KHWAI; UTH_PHO_PHAN] then
    ec <- (if pos + 2 <? stop then
             c <- at16 w (pos + 2) ;;
             if isCons c then e <- EndConsClassD c ;; Ok (negb (ec_eqb EC_NONE e))
             else Ok false
           else Ok false) ;;
    Ok (if (ec : bool)
        then [partial (pos + 2) None s0 k0 SEC_RA V_UE]
        else [completePartial (pos + 2) (Some (preA s0 k0)) RA LOWS V_UE])
  else
    let ho := UTH_HO_HIP =n c0 in
    Ok ((if ho then [] else [partial (pos + 2) None s0 k0 SEC_RA V_I])
        ++ [partial (pos + 2) (Some (preA s0 k0)) RA LOWS SEC_NONE V_I]
        ++ (if ho then [] else [partial (pos + 2) None s0 k0 SEC_RA V_UE])
        ++ [partial (pos + 2) (Some (preA s0 k0)) RA LOWS SEC_NONE V_UE;
            completePartial (pos + 2) (Some (preA s0 k0)) RA LOWS V_UE]).

(** parser/parser.cxx:304-777: the part that looks at the second letter. *)
Definition secondPartD (w : list N) (pos stop : nat) (linked : bool) (c0 : N)
    (s0 : EInitConsSound) (k0 : EInitConsClass) : Dbg (list PartialSyl) :=
  if pos + 1 <? stop then
    c1 <- at16 w (pos + 1) ;;
    if isCons c1 then
      s1 <- InitConsSoundD c1 ;;
      k1 <- InitConsClassD c1 ;;
      l1 <- clusters ct w pos stop linked c0 c1 s0 k0 ;;
      l2 <- hoNam w pos stop c0 c1 s1 k1 ;;
      l3 <- aKung w pos stop c1 s0 k0 s1 k1 ;;
      l4 <- badi w pos stop c0 c1 s0 k0 ;;
      Ok (l1 ++ l2 ++ l3 ++ l4)
    else if UTH_RU =n c1 then ruPartD w pos stop c0 s0 k0
    else Ok []
  else Ok [].

(* parser/parser.cxx:289-801 *)
Definition MatchInitConsD (w : list N) (pos stop : nat) (linked : bool)
    : Dbg (list PartialSyl) :=
  assertThat (parser_cxx 292) (stop <=? List.length w) ;;
  assertThat (parser_cxx 293) (pos <? stop) ;;
  c0 <- at16 w pos ;;
  if negb (isCons c0) then Ok []
  else
    s0 <- InitConsSoundD c0 ;;
    k0 <- InitConsClassD c0 ;;
    l <- secondPartD w pos stop linked c0 s0 k0 ;;
    l' <- paliPart ct w pos stop s0 k0 ;;
    Ok (l ++ [partial (pos + 1) None s0 k0 SEC_NONE V_INVALID] ++ l').

(* parser/parser.cxx:805-819 *)
Definition MatchKaranSimpleD (w : list N) (pos stop : nat) : Dbg nat :=
  assertThat (parser_cxx 808) (stop <=? List.length w) ;;
  assertThat (parser_cxx 809) (pos <=? stop) ;;
  if pos + 1 <? stop then
    c1 <- at16 w (pos + 1) ;;
    if UTH_THANTHAKHAT =n c1 then
      c0 <- at16 w pos ;;
      Ok (if isCons c0 then pos + 2 else pos)
    else Ok pos
  else Ok pos.

(* parser/parser.cxx:824-841 *)
Definition MatchKaranIUD (w : list N) (pos stop : nat) : Dbg nat :=
  assertThat (parser_cxx 827) (stop <=? List.length w) ;;
  assertThat (parser_cxx 828) (pos <=? stop) ;;
  if pos + 2 <? stop then
    c2 <- at16 w (pos + 2) ;;
    if UTH_THANTHAKHAT =n c2 then
      c0 <- at16 w pos ;;
      if isCons c0 then
        c1 <- at16 w (pos + 1) ;;
        Ok (if (UTH_SARA_I =n c1) || (UTH_SARA_U =n c1) then pos + 3 else pos)
      else Ok pos
    else Ok pos
  else Ok pos.

(* parser/parser.cxx:848-870 *)
Definition MatchKaranComplexD (w : list N) (pos stop : nat) : Dbg nat :=
  assertThat (parser_cxx 851) (stop <=? List.length w) ;;
  assertThat (parser_cxx 852) (pos <=? stop) ;;
  p <- MatchKaranSimpleD w pos stop ;;
  if negb (p =? pos) then Ok p
  else if pos + 2 <? stop then
    c2 <- at16 w (pos + 2) ;;
    if UTH_THANTHAKHAT =n c2 then
      c0 <- at16 w pos ;;
      if isCons c0 then
        c1 <- at16 w (pos + 1) ;;
        Ok (if isCons c1 || (UTH_SARA_I =n c1) || (UTH_SARA_U =n c1)
            then pos + 3 else pos)
      else Ok pos
    else Ok pos
  else Ok pos.

(** The end-consonant test shared by lines 892-893 and 947-949: the class of
    the letter when it can end a syllable. *)
Definition endConsAtD (w : list N) (i : nat) (excl : list N)
    : Dbg (option (N * EEndConsClass)) :=
  c <- at16 w i ;;
  if isCons c then
    e <- EndConsClassD c ;;
    Ok (if negb (ec_eqb EC_NONE e) && negb (memN c excl) then Some (c, e) else None)
  else Ok None.

(* parser/parser.cxx:883-906.  The caller does not use the result or the
   partial syllable afterwards. *)
Definition EatEndConsSimpleD (w : list N) (stop : nat) (p : PartialSyl)
    (excl : list N) : Dbg (list Emission) :=
  assertThat (parser_cxx 888) (stop <=? List.length w) ;;
  assertThat (parser_cxx 889) (pPos p <=? stop) ;;
  r <- endConsAtD w (pPos p) excl ;;
  match r with
  | None => Ok []
  | Some (_, e) =>
      k <- MatchKaranComplexD w (pPos p + 1) stop ;;
      Ok [mkEm k (setEnd p e) false]
  end.

(* parser/parser.cxx:910-1006 *)
Definition EatEndConsComplexD (w : list N) (stop : nat) (p : PartialSyl)
    (excl : list N) : Dbg (list Emission) :=
  assertThat (parser_cxx 915) (stop <=? List.length w) ;;
  assertThat (parser_cxx 916) (pPos p <=? stop) ;;
  r <- endConsAtD w (pPos p) excl ;;
  match r with
  | None => Ok []
  | Some (e0, e) =>
      let p := setEnd p e in
      k <- MatchKaranComplexD w (pPos p + 1) stop ;;
      if pPos p + 1 <? k then Ok [mkEm k p false]
      else
        l <- linkPart ct w stop p e0 ;;
        Ok (mkEm k p false :: l)
  end.

(** [p.pos = MatchKaranSimple (u16word, p.pos, stopPos);
    AddState (pool, p.pos, state, p);]: the emission together with the new
    [p]. *)
Definition karanEmitD (w : list N) (stop : nat) (p : PartialSyl)
    : Dbg (Emission * PartialSyl) :=
  k <- MatchKaranSimpleD w (pPos p) stop ;;
  let p := setPos p k in
  Ok (mkEm k p false, p).

(** [if (p.pos < stopPos) EatEndCons... (..., p, ...)]. *)
Definition ifRoomD (stop : nat) (p : PartialSyl) (m : Dbg (list Emission))
    : Dbg (list Emission) :=
  if pPos p <? stop then m else Ok [].

(** [c = u16word.at (p.pos); if (th_wcisthtone (c)) { p.tone = ...; ++p.pos; }] *)
Definition readToneD (w : list N) (p : PartialSyl) : Dbg PartialSyl :=
  c <- at16 w (pPos p) ;;
  if isTone c then
    t <- ThCharToToneD c ;;
    Ok (setPos (setTone p t) (pPos p + 1))
  else Ok p.

(* parser/parser.cxx:1029-1066: MAI HAN AKAT *)
Definition thMaiHanAkatD (w : list N) (stop : nat) (p : PartialSyl)
    : Dbg (list Emission) :=
  let p := bump p in
  if stop <=? pPos p then Ok []
  else
    p <- readToneD w p ;;
    if stop <=? pPos p then Ok []
    else
      c <- at16 w (pPos p) ;;
      if UTH_WO_WAEN =n c then
        let p := bump p in
        b <- nextIs w stop p UTH_SARA_A ;;
        let p := if (b : bool) then setVowel (bump p) V_UA else setVowel p V_UAA in
        '(e, _) <- karanEmitD w stop (setEnd p EC_NONE) ;;
        Ok [e]
      else
        let p := setVowel p V_A in
        if tone_eqb SAMAN (pTone p) then EatEndConsComplexD w stop p []
        else EatEndConsSimpleD w stop p [].

(* parser/parser.cxx:1101-1131: end consonant after an above/below vowel *)
Definition thUpDownEndD (w : list N) (stop : nat) (p : PartialSyl)
    : Dbg (list Emission) :=
  if pPos p <? stop then
    c <- at16 w (pPos p) ;;
    if isLdv c then Ok []
    else if Z.eqb V_UEE (pVowel p) then
      if UTH_O_ANG =n c then
        '(e, _) <- karanEmitD w stop (bump (setEnd p EC_NONE)) ;;
        Ok [e]
      else EatEndConsSimpleD w stop p []
    else
      let excl := if Z.eqb V_I (pVowel p) || Z.eqb V_II (pVowel p)
                  then [UTH_YO_YAK] else [] in
      if Z.eqb V_UE (pVowel p) || negb (tone_eqb SAMAN (pTone p))
      then EatEndConsSimpleD w stop p excl
      else EatEndConsComplexD w stop p excl
  else Ok [].

(* parser/parser.cxx:1067-1131: vowel above or below *)
Definition thUpDownD (w : list N) (stop : nat) (p : PartialSyl) (c : N)
    : Dbg (list Emission) :=
  v <- ThCharToAboveBelowVowelD c ;;
  let p := bump (setVowel p v) in
  p <- (if pPos p <? stop then readToneD w p else Ok p) ;;
  open <- (if stop <=? pPos p then Ok true
           else c <- at16 w (pPos p) ;;
                Ok (isLdv c || negb (Z.eqb V_UEE (pVowel p)))) ;;
  if (open : bool) then
    let p := setEnd p EC_NONE in
    k <- MatchKaranSimpleD w (pPos p) stop ;;
    k' <- (if k =? pPos p then MatchKaranIUD w (pPos p) stop else Ok (pPos p)) ;;
    if negb (k' =? pPos p) then Ok [mkEm k' p false]
    else
      let p := setPos p k in
      l <- thUpDownEndD w stop p ;;
      Ok (mkEm k p false :: l)
  else thUpDownEndD w stop p.

(* parser/parser.cxx:1132-1146 *)
Definition thMaitaikhuD (w : list N) (stop : nat) (p : PartialSyl)
    : Dbg (list Emission) :=
  let p := bump p in
  b <- nextIs w stop p UTH_O_ANG ;;
  if (b : bool) then
    let p := bump p in
    if stop <=? pPos p then Ok []
    else
      k <- MatchKaranSimpleD w (pPos p) stop ;;
      let p := setPos (setVowel p V_AU) k in
      ifRoomD stop p (EatEndConsSimpleD w stop p [])
  else Ok [].

(* parser/parser.cxx:1212-1240 *)
Definition thRoRuaD (w : list N) (stop : nat) (p : PartialSyl)
    : Dbg (list Emission) :=
  let p := bump p in
  '(a, p) <- (if negb (ics_eqb RA (iConsSound p)) then
                '(e, p) <- karanEmitD w stop (setEnd (setVowel p V_AUU) KON) ;;
                Ok ([e], p)
              else Ok ([], p)) ;;
  b <- nextIs w stop p UTH_RO_RUA ;;
  if (b : bool) then
    let p := setEnd (setVowel (bump p) V_A) KON in
    k <- MatchKaranSimpleD w (pPos p) stop ;;
    l <- (if (k =? pPos p) && (pPos p <? stop) then EatEndConsComplexD w stop p []
          else Ok []) ;;
    Ok (a ++ mkEm k p false :: l)
  else Ok a.

(* parser/parser.cxx:1242-1264 *)
Definition thDefaultD (w : list N) (stop : nat) (linked : bool) (p : PartialSyl)
    (c : N) : Dbg (list Emission) :=
  if isCons c then
    if Z.eqb V_INVALID (pVowel p) then
      e <- EndConsClassD c ;;
      if negb (ec_eqb EC_NONE e) && negb (Z.eqb SEC_WA (pCons2 p)) && negb linked
      then EatEndConsSimpleD w stop (setVowel p V_O) [UTH_YO_YAK; UTH_WO_WAEN]
      else Ok []
    else
      let p := setEnd p EC_NONE in
      l <- EatEndConsComplexD w stop p [UTH_WO_WAEN] ;;
      Ok (mkEm (pPos p) p false :: l)
  else Ok [].

(* parser/parser.cxx:1147-1266: optional tone mark, then the vowel *)
Definition thOtherD (w : list N) (stop : nat) (linked : bool) (p : PartialSyl)
    : Dbg (list Emission) :=
  p <- readToneD w p ;;
  if stop <=? pPos p then Ok []
  else
    c <- at16 w (pPos p) ;;
    if c =n UTH_SARA_A then
      '(e, _) <- karanEmitD w stop (setEnd (setVowel (bump p) V_A) EC_NONE) ;;
      Ok [e]
    else if c =n UTH_SARA_AA then
      '(e, p) <- karanEmitD w stop (setEnd (setVowel (bump p) V_AA) EC_NONE) ;;
      l <- ifRoomD stop p (EatEndConsComplexD w stop p []) ;;
      Ok (e :: l)
    else if c =n UTH_SARA_AM then
      '(e, _) <- karanEmitD w stop (setEnd (setVowel (bump p) V_A) KOM) ;;
      Ok [e]
    else if c =n UTH_WO_WAEN then
      let p := setVowel (bump p) V_UAA in
      ifRoomD stop p (EatEndConsSimpleD w stop p [])
    else if c =n UTH_O_ANG then
      '(e, p) <- karanEmitD w stop (setEnd (setVowel (bump p) V_AUU) EC_NONE) ;;
      l <- ifRoomD stop p (EatEndConsSimpleD w stop p []) ;;
      Ok (e :: l)
    else if c =n UTH_RO_RUA then thRoRuaD w stop p
    else thDefaultD w stop linked p c.

(** parser/parser.cxx:1019-1268: one partial syllable of [ParseThCons]. *)
Definition thPartialD (w : list N) (stop : nat) (linked : bool) (p : PartialSyl)
    : Dbg (list Emission) :=
  if stop <=? pPos p then Ok []
  else if isComplete p then Ok [mkEm (pPos p) p false]
  else
    c <- at16 w (pPos p) ;;
    let p := setTone p SAMAN in
    if UTH_MAI_HAN_AKAT =n c then thMaiHanAkatD w stop p
    else if th_wcisupvowel ct c || th_wcisblvowel ct c then thUpDownD w stop p c
    else if UTH_MAITAIKHU =n c then thMaitaikhuD w stop p
    else thOtherD w stop linked p.

(** Run [f] over the partial syllables in order, collecting the emissions. *)
Definition forPartialsD (f : PartialSyl -> Dbg (list Emission))
    (l : list PartialSyl) : Dbg (list Emission) :=
  r <- mapMD f l ;; Ok (List.concat r).

(* parser/parser.cxx:1009-1269 *)
Definition ParseThConsD (w : list N) (pos stop : nat) (linked : bool)
    : Dbg (list Emission) :=
  assertThat (parser_cxx 1012) (stop <=? List.length w) ;;
  assertThat (parser_cxx 1013) (pos <? stop) ;;
  l <- MatchInitConsD w pos stop linked ;;
  forPartialsD (thPartialD w stop linked) l.

(* parser/parser.cxx:1304-1322 *)
Definition eSaraID (w : list N) (stop : nat) (p : PartialSyl) : Dbg (list Emission) :=
  let p := setVowel (bump p) V_OEE in
  if stop <=? pPos p then Ok []
  else
    p <- readToneD w p ;;
    k <- MatchKaranSimpleD w (pPos p) stop ;;
    let p := setPos p k in
    ifRoomD stop p (EatEndConsSimpleD w stop p []).

(** parser/parser.cxx:1323-1352 and 1353-1382 share their shape: a second vowel sign, an
    optional tone mark, a required letter, an optional SARA A choosing between
    the short and the long vowel; [eat] is the end-consonant matcher used after
    the long vowel. *)
Definition eTripleD (w : list N) (stop : nat) (p : PartialSyl) (need : N)
    (short long : EVowel) (eat : PartialSyl -> Dbg (list Emission))
    : Dbg (list Emission) :=
  let p := bump p in
  if stop <=? pPos p then Ok []
  else
    p <- readToneD w p ;;
    b <- nextIs w stop p need ;;
    if negb b then Ok []
    else
      let p := bump p in
      sa <- nextIs w stop p UTH_SARA_A ;;
      let p := if (sa : bool) then setVowel (bump p) short else setVowel p long in
      '(e, p) <- karanEmitD w stop (setEnd p EC_NONE) ;;
      l <- (if Z.eqb long (pVowel p) then ifRoomD stop p (eat p) else Ok []) ;;
      Ok (e :: l).

(* parser/parser.cxx:1383-1391 *)
Definition eMaitaikhuD (w : list N) (stop : nat) (p : PartialSyl)
    : Dbg (list Emission) :=
  let p := bump p in
  ifRoomD stop p (EatEndConsSimpleD w stop (setVowel p V_E) []).

(* parser/parser.cxx:1406-1430 *)
Definition eOAngD (w : list N) (stop : nat) (p : PartialSyl) : Dbg (list Emission) :=
  '(a, p) <- (if notPreA p then
                let p := setEnd (setVowel p V_EE) EC_NONE in
                k <- MatchKaranSimpleD w (pPos p) stop ;;
                Ok ([mkEm k p false], p)
              else Ok ([], p)) ;;
  let p := bump p in
  sa <- nextIs w stop p UTH_SARA_A ;;
  let p := if (sa : bool) then setVowel (bump p) V_OE else setVowel p V_OEE in
  '(e, _) <- karanEmitD w stop (setEnd p EC_NONE) ;;
  Ok (a ++ [e]).

(* parser/parser.cxx:1431-1441 *)
Definition eSaraAD (w : list N) (stop : nat) (p : PartialSyl) : Dbg (list Emission) :=
  if notPreA p then
    '(e, _) <- karanEmitD w stop (setEnd (setVowel (bump p) V_E) EC_NONE) ;;
    Ok [e]
  else Ok [].

(* parser/parser.cxx:1442-1457 *)
Definition eSaraAAD (w : list N) (stop : nat) (p : PartialSyl) : Dbg (list Emission) :=
  let p := bump p in
  sa <- nextIs w stop p UTH_SARA_A ;;
  let p := if (sa : bool) then setEnd (setVowel (bump p) V_AU) EC_NONE
           else setEnd (setVowel p V_A) KOEW in
  '(e, _) <- karanEmitD w stop p ;;
  Ok [e].

(* parser/parser.cxx:1471-1484 *)
Definition eDefaultD (w : list N) (stop : nat) (p : PartialSyl) : Dbg (list Emission) :=
  if notPreA p then
    '(e, p) <- karanEmitD w stop (setEnd (setVowel p V_EE) EC_NONE) ;;
    l <- ifRoomD stop p (EatEndConsComplexD w stop p []) ;;
    Ok (e :: l)
  else Ok [].

(* parser/parser.cxx:1458-1470, falling through to the default *)
Definition eYoYakD (w : list N) (stop : nat) (p : PartialSyl) : Dbg (list Emission) :=
  b <- stopOrSylStart ct w (pPos p + 1) stop ;;
  if (b : bool) then
    '(e, _) <- karanEmitD w stop (setEnd (setVowel (bump p) V_OEE) KOEY) ;;
    Ok [e]
  else eDefaultD w stop p.

(* parser/parser.cxx:1392-1485 *)
Definition eOtherD (w : list N) (stop : nat) (p : PartialSyl) (c : N)
    : Dbg (list Emission) :=
  p <- readToneD w p ;;
  if isTone c && (stop <=? pPos p) then
    Ok [mkEm (pPos p) (setEnd (setVowel p V_EE) EC_NONE) false]
  else
    c <- at16 w (pPos p) ;;
    if c =n UTH_O_ANG then eOAngD w stop p
    else if c =n UTH_SARA_A then eSaraAD w stop p
    else if c =n UTH_SARA_AA then eSaraAAD w stop p
    else if c =n UTH_YO_YAK then eYoYakD w stop p
    else eDefaultD w stop p.

(** parser/parser.cxx:1287-1487: one partial syllable of [ParseSaraE]. *)
Definition ePartialD (w : list N) (stop : nat) (p : PartialSyl) : Dbg (list Emission) :=
  if isComplete p then Ok []
  else
    let p := setTone p SAMAN in
    if stop <=? pPos p then
      Ok (if notPreA p then [mkEm (pPos p) (setEnd (setVowel p V_EE) EC_NONE) false]
          else [])
    else
      c <- at16 w (pPos p) ;;
      if c =n UTH_SARA_I then eSaraID w stop p
      else if c =n UTH_SARA_II then
        eTripleD w stop p UTH_YO_YAK V_IA V_IAA
                (fun p => EatEndConsComplexD w stop p [])
      else if c =n UTH_SARA_UEE then
        eTripleD w stop p UTH_O_ANG V_UEA V_UEAA
                (fun p => EatEndConsSimpleD w stop p [])
      else if c =n UTH_MAITAIKHU then eMaitaikhuD w stop p
      else eOtherD w stop p c.

(* parser/parser.cxx:1272-1488 *)
Definition ParseSaraED (w : list N) (pos stop : nat) (linked : bool)
    : Dbg (list Emission) :=
  assertThat (parser_cxx 1275) (stop <=? List.length w) ;;
  assertThat (parser_cxx 1276) (pos <? stop) ;;
  c <- at16 w pos ;; assertThat (parser_cxx 1277) (UTH_SARA_E =n c) ;;
  if stop <=? pos + 1 then Ok []
  else
    l <- MatchInitConsD w (pos + 1) stop linked ;;
    forPartialsD (ePartialD w stop) l.

(* parser/parser.cxx:1526-1563 *)
Definition lvAeD (w : list N) (stop : nat) (p : PartialSyl) : Dbg (list Emission) :=
  sa <- nextIs w stop p UTH_SARA_A ;;
  mk <- nextIs w stop p UTH_MAITAIKHU ;;
  let p := if (sa : bool) then setVowel (bump p) V_AE
           else if (mk : bool) then setVowel (bump p) V_AE
           else setVowel p V_AEE in
  '(a, p) <- (if mk then Ok ([], p)
              else '(e, p) <- karanEmitD w stop (setEnd p EC_NONE) ;; Ok ([e], p)) ;;
  l <- (if Z.eqb V_AEE (pVowel p) || mk
        then ifRoomD stop p (EatEndConsSimpleD w stop p []) else Ok []) ;;
  Ok (a ++ l).

(* parser/parser.cxx:1564-1588 *)
Definition lvOD (w : list N) (stop : nat) (p : PartialSyl) : Dbg (list Emission) :=
  sa <- nextIs w stop p UTH_SARA_A ;;
  let p := if (sa : bool) then setVowel (bump p) V_O else setVowel p V_OO in
  let p := setEnd p EC_NONE in
  k <- MatchKaranSimpleD w (pPos p) stop ;;
  k' <- (if k =? pPos p then MatchKaranIUD w (pPos p) stop else Ok (pPos p)) ;;
  if negb (k' =? pPos p) then Ok [mkEm k' p false]
  else
    let p := setPos p k in
    l <- (if Z.eqb V_OO (pVowel p)
          then ifRoomD stop p (EatEndConsComplexD w stop p []) else Ok []) ;;
    Ok (mkEm k p false :: l).

(* parser/parser.cxx:1589-1601 *)
Definition lvMaimalaiD (w : list N) (stop : nat) (p : PartialSyl)
    : Dbg (list Emission) :=
  let p := setEnd (setVowel p V_A) KOEY in
  b <- nextIs w stop p UTH_YO_YAK ;;
  y <- (if (b : bool) then
          if pPos p + 1 =? stop then Ok true
          else c <- at16 w (pPos p + 1) ;; Ok (IsSylStart ct c)
        else Ok false) ;;
  '(e, _) <- karanEmitD w stop p ;;
  Ok ((if (y : bool) then [mkEm (pPos p + 1) p false] else []) ++ [e]).

(* parser/parser.cxx:1602-1607 *)
Definition lvMaimuanD (w : list N) (stop : nat) (p : PartialSyl)
    : Dbg (list Emission) :=
  '(e, _) <- karanEmitD w stop (setEnd (setVowel p V_A) KOEY) ;;
  Ok [e].

(** parser/parser.cxx:1507-1609: one partial syllable of [ParseOtherLV]. *)
Definition lvPartialD (w : list N) (stop : nat) (ldv : N) (p : PartialSyl)
    : Dbg (list Emission) :=
  if isComplete p then Ok []
  else
    let p := setTone p SAMAN in
    p <- (if pPos p <? stop then readToneD w p else Ok p) ;;
    if ldv =n UTH_SARA_AE then lvAeD w stop p
    else if ldv =n UTH_SARA_O then lvOD w stop p
    else if ldv =n UTH_SARA_AI_MAIMALAI then lvMaimalaiD w stop p
    else if ldv =n UTH_SARA_AI_MAIMUAN then lvMaimuanD w stop p
    else Ok [].

(* parser/parser.cxx:1492-1610.  Unlike [ParseSaraE] there is no test that a
   character follows the vowel before the stop position. *)
Definition ParseOtherLVD (w : list N) (pos stop : nat) (linked : bool)
    : Dbg (list Emission) :=
  assertThat (parser_cxx 1496) (stop <=? List.length w) ;;
  assertThat (parser_cxx 1497) (pos <? stop) ;;
  c <- at16 w pos ;; assertThat (parser_cxx 1498) (isLdv c) ;;
  c <- at16 w pos ;; assertThat (parser_cxx 1499) (negb (UTH_SARA_E =n c)) ;;
  ldv <- at16 w pos ;;
  l <- MatchInitConsD w (pos + 1) stop linked ;;
  forPartialsD (lvPartialD w stop ldv) l.

(* parser/parser.cxx:1613-1674 *)
Definition ParseRuLuD (w : list N) (pos stop : nat) : Dbg (list Emission) :=
  assertThat (parser_cxx 1616) (stop <=? List.length w) ;;
  assertThat (parser_cxx 1617) (pos <? stop) ;;
  c <- at16 w pos ;; assertThat (parser_cxx 1618) ((UTH_RU =n c) || (UTH_LU =n c)) ;;
  c0 <- at16 w pos ;;
  let p := setTone (partial (pos + 1) None (if UTH_LU =n c0 then LA else RA) LOWS
                            SEC_NONE V_INVALID) SAMAN in
  if stop <=? pos + 1 then
    Ok [mkEm (pos + 1) (setEnd (setVowel p V_UE) EC_NONE) false]
  else
    c1 <- at16 w (pos + 1) ;;
    if (UTH_LAKKHANGYAO =n c1) || (UTH_SARA_AA =n c1) then
      Ok [mkEm (pos + 2) (setEnd (setVowel p V_UEE) EC_NONE) false]
    else if isCons c1 then
      e <- EndConsClassD c1 ;;
      solo <- (if ec_eqb EC_NONE e then Ok true
               else if pos + 2 <? stop then
                 c2 <- at16 w (pos + 2) ;; Ok (negb (IsSylStart ct c2))
               else Ok false) ;;
      if (solo : bool) then
        Ok [mkEm (pos + 1) (setEnd (setVowel p V_UE) EC_NONE) false]
      else if memN c1 [UTH_NO_NEN; UTH_THO_THAHAN; UTH_SO_RUSI] then
        EatEndConsComplexD w stop (setVowel p V_I) []
      else EatEndConsComplexD w stop (setVowel p V_UE) []
    else Ok [].

(* parser/parser.cxx:1695-1725 *)
Definition FindExceptionsD (w : list N) (s : ParseState) (d : Dict)
    : Dbg (list ParseState) :=
  assertThat (parser_cxx 1699) (sStop s <=? List.length w) ;;
  assertThat (parser_cxx 1700) (sPos s <? sStop s) ;;
  r <- mapM (exceptionAt ct w s d)
            (allMatches (S (List.length w)) d (MatchNew w (sPos s))) ;;
  Ok (keepSome r).

(** parser/parser.cxx:1761-1788: the edges; the position moves on at least
    once per round. *)
Fixpoint abbrEdgesD (fuel : nat) (w : list N) (pos abbrEnd : nat) (d : PronunDAG)
    : Dbg PronunDAG :=
  if abbrEnd <=? pos then Ok d
  else
    match fuel with
    | O => NoFuel
    | S fuel' =>
        c <- at16 w pos ;;
        if isCons c then
          skip <- (if pos + 1 <? abbrEnd then
                     c' <- at16 w (pos + 1) ;; Ok (negb (isCons c'))
                   else Ok false) ;;
          let sylEnd := if (skip : bool) then pos + 2 else pos + 1 in
          s0 <- InitConsSoundD c ;;
          k0 <- InitConsClassD c ;;
          abbrEdgesD fuel' w sylEnd abbrEnd
            (fst (pAddEdge d (Z.of_nat pos) (Z.of_nat sylEnd)
                    (SylOf s0 SEC_NONE V_AUU EC_NONE
                           (if ic_eqb HIGH k0 then CHATTAWA else SAMAN)
                           (Z.of_nat sylEnd))))
        else
          abbrEdgesD fuel' w (pos + 1) abbrEnd
            (fst (pAddEdge d (Z.of_nat pos) (Z.of_nat (pos + 1))
                    (SylLiteral (Z.of_nat (pos + 1)) [c])))
    end.

(* parser/parser.cxx:1727-1792.  [None]: no abbreviation. *)
Definition FindAbbrD (w : list N) (s : ParseState) : Dbg (option ParseState) :=
  assertThat (parser_cxx 1730) (sStop s <=? List.length w) ;;
  assertThat (parser_cxx 1731) (sPos s <? sStop s) ;;
  atStart <- (match sPos s with
              | O => Ok true
              | S i => c <- at16 w i ;; Ok ((c =n 32%N) || (c =n 46%N))
              end) ;;
  if negb atStart then Ok None
  else
    r <- abbrScan ct (sStop s - sPos s) w (sPos s) 0 0%N ;;
    match r with
    | None => Ok None
    | Some (abbrEnd, nCons, c) =>
        if (1 <? nCons) && negb (c =n 46%N) then Ok None
        else
          d <- abbrEdgesD (abbrEnd - sPos s) w (sPos s) abbrEnd (sDag s) ;;
          Ok (Some (mkState abbrEnd (sStop s) d false))
    end.

(* parser/parser.cxx:1825-1843 *)
Definition NextWordStopD (w : list N) (start : nat) (brk : list nat) : Dbg nat :=
  c <- at16 w start ;; assertThat (parser_cxx 1828) (IsThaiTokenChar ct c) ;;
  wordStopF ct (nextBrk (List.length w) start brk - start) w start.

(** Skip the characters that are not Thai, as one literal, and find the next
    stop position: parser/parser.cxx:1852-1866 and 1873-1887. *)
Definition skipGapD (w : list N) (brk : list nat) (s : ParseState) : Dbg ParseState :=
  let b := SkipNonThai ct w (sPos s) in
  let s := if sPos s <? b then
             mkState b (sStop s)
               (fst (pAddEdge (sDag s) (Z.of_nat (sPos s)) (Z.of_nat b)
                       (SylLiteral (Z.of_nat b)
                          (firstn (b - sPos s) (skipn (sPos s) w)))))
               (sLinked s)
           else s in
  stop <- (if sPos s <? List.length w then NextWordStopD w (sPos s) brk
           else Ok (sPos s)) ;;
  Ok (mkState (sPos s) stop (sDag s) (sLinked s)).

(** parser/parser.cxx:1897-1919: the rules by first character. *)
Definition ruleStatesD (w : list N) (s : ParseState) : Dbg (list ParseState) :=
  let run (m : Dbg (list Emission)) :=
    (l <- m ;; Ok (map (applyEmission s) l)) in
  c <- at16 w (sPos s) ;;
  if isCons c then run (ParseThConsD w (sPos s) (sStop s) (sLinked s))
  else if UTH_SARA_E =n c then run (ParseSaraED w (sPos s) (sStop s) (sLinked s))
  else if isLdv c then run (ParseOtherLVD w (sPos s) (sStop s) (sLinked s))
  else if (UTH_RU =n c) || (UTH_LU =n c) then run (ParseRuLuD w (sPos s) (sStop s))
  else if 46%N =n c then
    d <- stretch (sDag s) (sPos s) ;;
    Ok [mkState (sPos s + 1) (sStop s) d (sLinked s)]
  else Ok [].

(** parser/parser.cxx:1870-1920: one popped state that has not reached the end
    of the word, as the list of the states it adds to the pool. *)
Definition stepStatesD (w : list N) (dict : option Dict) (brk : list nat)
    (s : ParseState) : Dbg (list ParseState) :=
  if sStop s <=? sPos s then s' <- skipGapD w brk s ;; Ok [s']
  else
    ex <- (match dict with
           | Some d => FindExceptionsD w s d
           | None => Ok []
           end) ;;
    match ex with
    | _ :: _ => Ok ex
    | [] =>
        a <- FindAbbrD w s ;;
        match a with
        | Some s' => Ok [s']
        | None => ruleStatesD w s
        end
    end.

(** parser/parser.cxx:1869-1922: the main loop. *)
Fixpoint parseLoopD (fuel : nat) (w : list N) (dict : option Dict) (brk : list nat)
    (pool : StatePool) (acc : PronunDAG) : Dbg PronunDAG :=
  match pool with
  | [] => Ok acc
  | s :: pool' =>
      match fuel with
      | O => NoFuel
      | S fuel' =>
          if List.length w <=? sPos s then
            parseLoopD fuel' w dict brk pool' (unionDAG syl_eqb acc (sDag s))
          else
            l <- stepStatesD w dict brk s ;;
            parseLoopD fuel' w dict brk (fold_left poolAdd l pool') acc
      end
  end.

(* parser/parser.cxx:1845-1923 *)
Definition ParseU16FD (fuel : nat) (w : list N) (dict : option Dict) (brk : list nat)
    : Dbg PronunDAG :=
  s <- skipGapD w brk (mkState 0 0 dagEmpty false) ;;
  parseLoopD fuel w dict brk (poolAdd [] s) dagEmpty.

(** parser/parser.cxx:1975-1986; [brks] is the word breaker (the constant empty
    list when breaking is off, lines 1961-1962). *)
Definition parseWordFD (fuel : nat) (dict : option Dict) (brks : list N -> list nat)
    (word : string) : Dbg PronunDAG :=
  w <- from_bytes word ;;
  ParseU16FD fuel w dict (brks w).
End Debug.
