(** Parser.v - model of parser/parser.{h,cxx}.

    Text positions are [nat]; graph nodes are [Z].  A word is the list of its
    UTF-16 units.  The libthai predicates come from the record [ct]; word
    breaks are a list of positions (the result of libthai's word breaker).
    The [assert]s are compiled out and not modelled.

    The matching functions of the parser only use the graph of their state to
    hand it to [AddState].  They are therefore modelled as returning the list
    of their calls to [AddState] ("emissions"), in order; [applyEmission]
    performs such a call.  [AddState] never fails, so splitting the calls from
    the matching changes no outcome. *)
From Coq Require Import String List NArith ZArith Bool Arith Ascii.
From Verif Require Import Base ThUni ThCons Syl Lattice Dag PronDag Dict Utf.
Import ListNotations.

(** [u16word.at (i)]. *)
Definition at16 (w : list N) (i : nat) : Res N :=
  match nth_error w i with Some c => Ok c | None => Throw end.

(* parser/parser.cxx:23-35 *)
Definition ThCharToToneTbl_ : list (N * ETone) :=
  [ (UTH_MAI_EK, EK); (UTH_MAI_THO, THO); (UTH_MAI_TRI, TRI);
    (UTH_MAI_CHATTAWA, CHATTAWA) ].
Definition ThCharToTone (c : N) : Res ETone := assocAt N.eqb ThCharToToneTbl_ c.

(* parser/parser.cxx:37-51 *)
Definition ThCharToAboveBelowVowelTbl_ : list (N * EVowel) :=
  [ (UTH_SARA_I, V_I); (UTH_SARA_II, V_II); (UTH_SARA_UE, V_UE);
    (UTH_SARA_UEE, V_UEE); (UTH_SARA_U, V_U); (UTH_SARA_UU, V_UU) ].
Definition ThCharToAboveBelowVowel (c : N) : Res EVowel :=
  assocAt N.eqb ThCharToAboveBelowVowelTbl_ c.

(* parser/parser.cxx:58-62 *)
Record ParseState := mkState {
  sPos : nat;
  sStop : nat;
  sDag : PronunDAG;
  sLinked : bool
}.

(* parser/parser.cxx:115-122: [list<ParseState>] *)
Definition StatePool := list ParseState.

(* parser/parser.cxx:124-138 *)
Fixpoint poolAdd (pool : StatePool) (st : ParseState) : StatePool :=
  match pool with
  | [] => [st]
  | it :: pool' =>
      if (sPos it =? sPos st) && Bool.eqb (sLinked it) (sLinked st)
      then mkState (sPos it) (sStop it) (unionDAG syl_eqb (sDag it) (sDag st))
                   (sLinked it) :: pool'
      else if sPos st <=? sPos it then st :: pool
      else it :: poolAdd pool' st
  end.

(* parser/parser.cxx:157-171.  [preSyl] is [Some] exactly when [hasPreSyl]:
   the default pre-syllable of the other case is never read. *)
Record PartialSyl := mkPartial {
  pPos : nat;
  preSyl : option Syl;
  iConsSound : EInitConsSound;
  iConsClass : EInitConsClass;
  pCons2 : ESecInitCons;
  pVowel : EVowel;
  eConsClass : EEndConsClass;
  pTone : ETone;
  isComplete : bool
}.
(** The constructors with the defaulted arguments of parser.cxx:173-193. *)
Definition partial (pos : nat) (pre : option Syl) (snd : EInitConsSound)
    (cls : EInitConsClass) (c2 : ESecInitCons) (v : EVowel) : PartialSyl :=
  mkPartial pos pre snd cls c2 v EC_NONE T_INVALID false.
Definition completePartial (pos : nat) (pre : option Syl) (snd : EInitConsSound)
    (cls : EInitConsClass) (v : EVowel) : PartialSyl :=
  mkPartial pos pre snd cls SEC_NONE v EC_NONE SAMAN true.

(** Assignments to fields of a [PartialSyl]. *)
Definition setPos (p : PartialSyl) (n : nat) : PartialSyl :=
  mkPartial n (preSyl p) (iConsSound p) (iConsClass p) (pCons2 p) (pVowel p)
            (eConsClass p) (pTone p) (isComplete p).
Definition setVowel (p : PartialSyl) (v : EVowel) : PartialSyl :=
  mkPartial (pPos p) (preSyl p) (iConsSound p) (iConsClass p) (pCons2 p) v
            (eConsClass p) (pTone p) (isComplete p).
Definition setEnd (p : PartialSyl) (e : EEndConsClass) : PartialSyl :=
  mkPartial (pPos p) (preSyl p) (iConsSound p) (iConsClass p) (pCons2 p)
            (pVowel p) e (pTone p) (isComplete p).
Definition setTone (p : PartialSyl) (t : ETone) : PartialSyl :=
  mkPartial (pPos p) (preSyl p) (iConsSound p) (iConsClass p) (pCons2 p)
            (pVowel p) (eConsClass p) t (isComplete p).
Definition hasPreSyl (p : PartialSyl) : bool :=
  match preSyl p with Some _ => true | None => false end.

(** One call [AddState (pool, emPos, state, emSyl, emLinked)]. *)
Record Emission := mkEm { emPos : nat; emSyl : PartialSyl; emLinked : bool }.

(** The syllable [AddSyl] builds for a partial syllable ending at [pos]
    (parser.cxx:253-265). *)
Definition mainSyl (p : PartialSyl) (pos : Z) : Syl :=
  let isDeadSyl := if ec_eqb EC_NONE (eConsClass p) then IsShortVowel (pVowel p)
                   else IsDeadEndConsClass (eConsClass p) in
  SylOf (iConsSound p) (pCons2 p) (pVowel p) (eConsClass p)
        (ToneFromWritten (iConsClass p) (pTone p) isDeadSyl
                         (IsShortVowel (pVowel p))) pos.

(* parser/parser.cxx:240-268 *)
Definition AddSyl (prev : ParseState) (p : PartialSyl) (pos : nat) : PronunDAG :=
  let curPos := Z.of_nat (sPos prev) in
  let pos := Z.of_nat pos in
  match preSyl p with
  | Some pre =>
      let nextPos := (- (curPos * 100 + pos))%Z in
      let dag := fst (pAddEdge (sDag prev) curPos nextPos (setEndPos pre nextPos)) in
      fst (pAddEdge dag nextPos pos (mainSyl p pos))
  | None => fst (pAddEdge (sDag prev) curPos pos (mainSyl p pos))
  end.

(* parser/parser.cxx:274-280: the state that [AddState] adds *)
Definition applyEmission (prev : ParseState) (e : Emission) : ParseState :=
  mkState (emPos e) (sStop prev) (AddSyl prev (emSyl e) (emPos e)) (emLinked e).

Section Parser.
Variable ct : CType.
Notation isCons := (th_wcisthcons ct).
Notation isTone := (th_wcisthtone ct).
Notation isLdv := (th_wcisldvowel ct).

Local Open Scope res_scope.
Local Open Scope nat_scope.
Local Notation "a =n b" := (N.eqb a b) (at level 70).

(* parser/parser.cxx:282-286 *)
Definition IsSylStart (c : N) : bool := isCons c || isLdv c.

(** [i >= stopPos || UTH_RO_RUA != u16word.at (i)]. *)
Definition notRoAt (w : list N) (i stop : nat) : Res bool :=
  if stop <=? i then Ok true
  else c <- at16 w i ;; Ok (negb (c =n UTH_RO_RUA)).

(* parser/parser.cxx:314-360: clusters whose second letter is RO RUA *)
Definition clusterRo (w : list N) (pos stop : nat) (linked : bool) (c0 : N)
    (s0 : EInitConsSound) (k0 : EInitConsClass) : Res (list PartialSyl) :=
  if memN c0 [UTH_CHO_CHAN; UTH_SO_SO; UTH_SO_SALA; UTH_SO_SUA] then
    if linked then Ok []
    else b <- notRoAt w (pos + 2) stop ;;
         Ok (if b then [partial (pos + 2) None s0 k0 SEC_NONE V_INVALID] else [])
  else if memN c0 [UTH_KHO_KHAI; UTH_KHO_KHWAI; UTH_DO_DEK; UTH_THO_THAHAN;
                   UTH_BO_BAIMAI; UTH_PHO_PHAN; UTH_FO_FAN] && linked then Ok []
  else if memN c0 [UTH_KHO_KHAI; UTH_KHO_KHWAI; UTH_DO_DEK; UTH_THO_THAHAN;
                   UTH_BO_BAIMAI; UTH_PHO_PHAN; UTH_FO_FAN;
                   UTH_KO_KAI; UTH_TO_TAO; UTH_PO_PLA] then
    b <- notRoAt w (pos + 2) stop ;;
    Ok (if b then [partial (pos + 2) None s0 k0 SEC_RA V_INVALID] else [])
  else Ok [].

(* parser/parser.cxx:363-378 *)
Definition auraCons : list N :=
  [ UTH_KO_KAI; UTH_KHO_KHWAI; UTH_CHO_CHAN; UTH_THO_THAHAN; UTH_THO_THONG;
    UTH_NO_NU; UTH_BO_BAIMAI; UTH_PO_PLA; UTH_PHO_SAMPHAO; UTH_MO_MA;
    UTH_WO_WAEN; UTH_SO_SUA; UTH_HO_HIP; UTH_O_ANG ].

(** The pre-syllables [Syl (sound, NONE, AUU, NONE, tone)] of lines 389-395 and
    [Syl (sound, NONE, A, NONE, tone)] of lines 524-528, with the default end
    position -1 of syl.h:27. *)
Definition preAuu (s0 : EInitConsSound) (k0 : EInitConsClass) : Syl :=
  SylOf s0 SEC_NONE V_AUU EC_NONE (ToneFromWritten k0 SAMAN false false) (-1).
Definition preA (s0 : EInitConsSound) (k0 : EInitConsClass) : Syl :=
  SylOf s0 SEC_NONE V_A EC_NONE (ToneFromWritten k0 SAMAN true true) (-1).

(* parser/parser.cxx:380-453: -au + ra *)
Definition auraPart (w : list N) (pos stop : nat) (c0 : N)
    (s0 : EInitConsSound) (k0 : EInitConsClass) : Res (list PartialSyl) :=
  if pos + 2 <? stop then
    n <- at16 w (pos + 2) ;;
    if n =n UTH_RO_RUA then Ok []
    else if IsSylStart n then
      Ok (if memN c0 auraCons
          then [completePartial (pos + 2) (Some (preAuu s0 k0)) RA LOWS V_A]
          else [])
    else if (UTH_SARA_I =n n) && (UTH_BO_BAIMAI =n c0) then
      Ok [completePartial (pos + 3) (Some (preAuu s0 k0)) RA LOWS V_I]
    else if (UTH_SARA_A =n n) && (UTH_CHO_CHAN =n c0) then
      Ok [completePartial (pos + 3) (Some (preAuu s0 k0)) RA LOWS V_A]
    else Ok []
  else Ok [].

(* parser/parser.cxx:455-476 *)
Definition clusterLo (pos : nat) (linked : bool) (c0 : N)
    (s0 : EInitConsSound) (k0 : EInitConsClass) : list PartialSyl :=
  if memN c0 [UTH_KO_KAI; UTH_KHO_KHAI; UTH_KHO_KHWAI; UTH_BO_BAIMAI;
              UTH_PO_PLA; UTH_PHO_PHUNG; UTH_PHO_PHAN; UTH_FO_FAN] && negb linked
  then [partial (pos + 2) None s0 k0 SEC_LA V_INVALID] else [].

(* parser/parser.cxx:477-493 *)
Definition clusterWo (pos : nat) (linked : bool) (c0 : N)
    (s0 : EInitConsSound) (k0 : EInitConsClass) : list PartialSyl :=
  if memN c0 [UTH_KO_KAI; UTH_KHO_KHAI; UTH_KHO_KHWAI] && negb linked
  then [partial (pos + 2) None s0 k0 SEC_WA V_INVALID] else [].

(* parser/parser.cxx:313-494: the [switch (secChar)] *)
Definition clusters (w : list N) (pos stop : nat) (linked : bool) (c0 c1 : N)
    (s0 : EInitConsSound) (k0 : EInitConsClass) : Res (list PartialSyl) :=
  if c1 =n UTH_RO_RUA then
    a <- clusterRo w pos stop linked c0 s0 k0 ;;
    b <- auraPart w pos stop c0 s0 k0 ;;
    Ok (a ++ b)
  else if c1 =n UTH_LO_LING then Ok (clusterLo pos linked c0 s0 k0)
  else if c1 =n UTH_WO_WAEN then Ok (clusterWo pos linked c0 s0 k0)
  else Ok [].

(** [pos + 2 >= stopPos || UTH_RO_RUA != secChar ||
    UTH_RO_RUA != u16word.at (pos + 2)]. *)
Definition notRoHan (w : list N) (pos stop : nat) (c1 : N) : Res bool :=
  if c1 =n UTH_RO_RUA then notRoAt w (pos + 2) stop else Ok true.

(* parser/parser.cxx:496-511 *)
Definition hoNam (w : list N) (pos stop : nat) (c0 c1 : N)
    (s1 : EInitConsSound) (k1 : EInitConsClass) : Res (list PartialSyl) :=
  if (UTH_HO_HIP =n c0) && ic_eqb LOWS k1 then
    b <- notRoHan w pos stop c1 ;;
    Ok (if b then [partial (pos + 2) None s1 HIGH SEC_NONE V_INVALID] else [])
  else Ok [].

(* parser/parser.cxx:513-533 *)
Definition aKung (w : list N) (pos stop : nat) (c1 : N)
    (s0 : EInitConsSound) (k0 : EInitConsClass)
    (s1 : EInitConsSound) (k1 : EInitConsClass) : Res (list PartialSyl) :=
  b <- notRoHan w pos stop c1 ;;
  Ok (if b then [partial (pos + 2) (Some (preA s0 k0)) s1
                         (if ic_eqb LOWS k1 then k0 else k1) SEC_NONE V_INVALID]
      else []).

(* parser/parser.cxx:535-554 *)
Definition badi (w : list N) (pos stop : nat) (c0 c1 : N)
    (s0 : EInitConsSound) (k0 : EInitConsClass) : Res (list PartialSyl) :=
  if (UTH_BO_BAIMAI =n c0) && (UTH_DO_DEK =n c1) && (pos + 2 <? stop) then
    n <- at16 w (pos + 2) ;;
    Ok (if (UTH_SARA_I =n n) || (UTH_SARA_II =n n)
        then [completePartial (pos + 1) None s0 k0 V_AUU] else [])
  else Ok [].

(* parser/parser.cxx:555-775: consonant + RU *)
Definition ruPart (w : list N) (pos stop : nat) (c0 : N)
    (s0 : EInitConsSound) (k0 : EInitConsClass) : Res (list PartialSyl) :=
  go <- (if stop <=? pos + 2 then Ok true
         else c <- at16 w (pos + 2) ;;
              Ok (negb (UTH_LAKKHANGYAO =n c) && negb (UTH_SARA_AA =n c))) ;;
  if negb go then Ok []
  else if memN c0 [UTH_KO_KAI; UTH_TO_TAO; UTH_THO_THAHAN; UTH_PO_PLA] then
    Ok [partial (pos + 2) None s0 k0 SEC_RA V_I]
  else if memN c0 [UTH_SO_SUA; UTH_SO_SALA] then
    Ok [partial (pos + 2) None s0 k0 SEC_NONE V_I;
        partial (pos + 2) (Some (preA s0 k0)) RA k0 SEC_NONE V_I]
  else if memN c0 [UTH_WO_WAEN] then
    Ok [partial (pos + 2) None s0 k0 SEC_RA V_UE]
  else if memN c0 [UTH_NO_NU] then
    Ok [partial (pos + 2) (Some (preA s0 k0)) RA LOWS SEC_NONE V_UE]
  else if memN c0 [UTH_KHO_KHWAI; UTH_PHO_PHAN] then
    ec <- (if pos + 2 <? stop then
             c <- at16 w (pos + 2) ;;
             if isCons c then e <- EndConsClass c ;; Ok (negb (ec_eqb EC_NONE e))
             else Ok false
           else Ok false) ;;
    Ok (if (ec : bool)
        then [partial (pos + 2) None s0 k0 SEC_RA V_UE]
        else [completePartial (pos + 2) (Some (preA s0 k0)) RA LOWS V_UE])
  else
    let ho := UTH_HO_HIP =n c0 in
    Ok ((if ho then [] else [partial (pos + 2) None s0 k0 SEC_RA V_I])
        ++ [partial (pos + 2) (Some (preA s0 k0)) RA LOWS SEC_NONE V_I]
        ++ (if ho then [] else [partial (pos + 2) None s0 k0 SEC_RA V_UE])
        ++ [partial (pos + 2) (Some (preA s0 k0)) RA LOWS SEC_NONE V_UE;
            completePartial (pos + 2) (Some (preA s0 k0)) RA LOWS V_UE]).

(** parser/parser.cxx:304-777: the part that looks at the second letter. *)
Definition secondPart (w : list N) (pos stop : nat) (linked : bool) (c0 : N)
    (s0 : EInitConsSound) (k0 : EInitConsClass) : Res (list PartialSyl) :=
  if pos + 1 <? stop then
    c1 <- at16 w (pos + 1) ;;
    if isCons c1 then
      s1 <- InitConsSound c1 ;;
      k1 <- InitConsClass c1 ;;
      l1 <- clusters w pos stop linked c0 c1 s0 k0 ;;
      l2 <- hoNam w pos stop c0 c1 s1 k1 ;;
      l3 <- aKung w pos stop c1 s0 k0 s1 k1 ;;
      l4 <- badi w pos stop c0 c1 s0 k0 ;;
      Ok (l1 ++ l2 ++ l3 ++ l4)
    else if UTH_RU =n c1 then ruPart w pos stop c0 s0 k0
    else Ok []
  else Ok [].

(* parser/parser.cxx:784-798 *)
Definition paliPart (w : list N) (pos stop : nat)
    (s0 : EInitConsSound) (k0 : EInitConsClass) : Res (list PartialSyl) :=
  if pos + 1 <? stop then
    c <- at16 w (pos + 1) ;;
    Ok (if IsSylStart c then [completePartial (pos + 1) None s0 k0 V_A] else [])
  else Ok [].

(* parser/parser.cxx:289-801 *)
Definition MatchInitCons (w : list N) (pos stop : nat) (linked : bool)
    : Res (list PartialSyl) :=
  c0 <- at16 w pos ;;
  if negb (isCons c0) then Ok []
  else
    s0 <- InitConsSound c0 ;;
    k0 <- InitConsClass c0 ;;
    l <- secondPart w pos stop linked c0 s0 k0 ;;
    l' <- paliPart w pos stop s0 k0 ;;
    Ok (l ++ [partial (pos + 1) None s0 k0 SEC_NONE V_INVALID] ++ l').

(* parser/parser.cxx:805-819 *)
Definition MatchKaranSimple (w : list N) (pos stop : nat) : Res nat :=
  if pos + 1 <? stop then
    c1 <- at16 w (pos + 1) ;;
    if UTH_THANTHAKHAT =n c1 then
      c0 <- at16 w pos ;;
      Ok (if isCons c0 then pos + 2 else pos)
    else Ok pos
  else Ok pos.

(* parser/parser.cxx:824-841 *)
Definition MatchKaranIU (w : list N) (pos stop : nat) : Res nat :=
  if pos + 2 <? stop then
    c2 <- at16 w (pos + 2) ;;
    if UTH_THANTHAKHAT =n c2 then
      c0 <- at16 w pos ;;
      if isCons c0 then
        c1 <- at16 w (pos + 1) ;;
        Ok (if (UTH_SARA_I =n c1) || (UTH_SARA_U =n c1) then pos + 3 else pos)
      else Ok pos
    else Ok pos
  else Ok pos.

(* parser/parser.cxx:848-870 *)
Definition MatchKaranComplex (w : list N) (pos stop : nat) : Res nat :=
  p <- MatchKaranSimple w pos stop ;;
  if negb (p =? pos) then Ok p
  else if pos + 2 <? stop then
    c2 <- at16 w (pos + 2) ;;
    if UTH_THANTHAKHAT =n c2 then
      c0 <- at16 w pos ;;
      if isCons c0 then
        c1 <- at16 w (pos + 1) ;;
        Ok (if isCons c1 || (UTH_SARA_I =n c1) || (UTH_SARA_U =n c1)
            then pos + 3 else pos)
      else Ok pos
    else Ok pos
  else Ok pos.

(** The end-consonant test shared by lines 892-893 and 947-949: the class of
    the letter when it can end a syllable. *)
Definition endConsAt (w : list N) (i : nat) (excl : list N)
    : Res (option (N * EEndConsClass)) :=
  c <- at16 w i ;;
  if isCons c then
    e <- EndConsClass c ;;
    Ok (if negb (ec_eqb EC_NONE e) && negb (memN c excl) then Some (c, e) else None)
  else Ok None.

(* parser/parser.cxx:883-906.  The caller does not use the result or the
   partial syllable afterwards. *)
Definition EatEndConsSimple (w : list N) (stop : nat) (p : PartialSyl)
    (excl : list N) : Res (list Emission) :=
  r <- endConsAt w (pPos p) excl ;;
  match r with
  | None => Ok []
  | Some (_, e) =>
      k <- MatchKaranComplex w (pPos p + 1) stop ;;
      Ok [mkEm k (setEnd p e) false]
  end.

(* parser/parser.cxx:918-927 *)
Definition afterClusterVowels : list N :=
  [ UTH_RU; UTH_SARA_A; UTH_MAI_HAN_AKAT; UTH_SARA_AA; UTH_SARA_I; UTH_SARA_II;
    UTH_SARA_U; UTH_SARA_UU ].
(* parser/parser.cxx:930-936 *)
Definition eConsWithRo : list N :=
  [ UTH_KO_KAI; UTH_KHO_KHWAI; UTH_CHO_CHANG; UTH_TO_TAO; UTH_THO_THAHAN ].
(* parser/parser.cxx:939-944 *)
Definition eConsWithIU : list N :=
  [ UTH_THO_PHUTHAO; UTH_TO_TAO; UTH_THO_THONG; UTH_RO_RUA ].

(** [i >= stopPos || IsSylStart (u16word.at (i))]. *)
Definition stopOrSylStart (w : list N) (i stop : nat) : Res bool :=
  if stop <=? i then Ok true else c <- at16 w i ;; Ok (IsSylStart c).

(** parser/parser.cxx:992-999: pass the ending consonant to the next
    syllable. *)
Definition linkIf (p : PartialSyl) (nextChar : N) : list Emission :=
  if memN nextChar afterClusterVowels || isCons nextChar
  then [mkEm (pPos p) p true] else [].

(* parser/parser.cxx:959-1001; [p] already has its end class set *)
Definition linkPart (w : list N) (stop : nat) (p : PartialSyl) (e0 : N)
    : Res (list Emission) :=
  let i := pPos p + 1 in
  if i <? stop then
    c1 <- at16 w i ;;
    if isCons c1 then
      a <- (if (UTH_RO_RUA =n c1) && memN e0 eConsWithRo then
              b <- stopOrSylStart w (i + 1) stop ;;
              Ok (if (b : bool) then [mkEm (i + 1) p false] else [])
            else Ok []) ;;
      if i + 1 =? stop then Ok a
      else
        n <- at16 w (i + 1) ;;
        Ok (a ++ linkIf p n)
    else if (UTH_SARA_I =n c1) || (UTH_SARA_U =n c1) then
      b <- (if memN e0 eConsWithIU then stopOrSylStart w (i + 1) stop
            else Ok false) ;;
      if (b : bool) then
        if i + 1 =? stop then Ok [mkEm (i + 1) p false]
        else Ok (mkEm (i + 1) p false :: linkIf p c1)
      else Ok (linkIf p c1)
    else Ok (linkIf p c1)
  else Ok [].
(* parser/parser.cxx:910-1006 *)
Definition EatEndConsComplex (w : list N) (stop : nat) (p : PartialSyl)
    (excl : list N) : Res (list Emission) :=
  r <- endConsAt w (pPos p) excl ;;
  match r with
  | None => Ok []
  | Some (e0, e) =>
      let p := setEnd p e in
      k <- MatchKaranComplex w (pPos p + 1) stop ;;
      if pPos p + 1 <? k then Ok [mkEm k p false]
      else
        l <- linkPart w stop p e0 ;;
        Ok (mkEm k p false :: l)
  end.

(** [p.pos = MatchKaranSimple (u16word, p.pos, stopPos);
    AddState (pool, p.pos, state, p);]: the emission together with the new
    [p]. *)
Definition karanEmit (w : list N) (stop : nat) (p : PartialSyl)
    : Res (Emission * PartialSyl) :=
  k <- MatchKaranSimple w (pPos p) stop ;;
  let p := setPos p k in
  Ok (mkEm k p false, p).

(** [if (p.pos < stopPos) EatEndCons... (..., p, ...)]. *)
Definition ifRoom (stop : nat) (p : PartialSyl) (m : Res (list Emission))
    : Res (list Emission) :=
  if pPos p <? stop then m else Ok [].

(** [c = u16word.at (p.pos); if (th_wcisthtone (c)) { p.tone = ...; ++p.pos; }] *)
Definition readTone (w : list N) (p : PartialSyl) : Res PartialSyl :=
  c <- at16 w (pPos p) ;;
  if isTone c then
    t <- ThCharToTone c ;;
    Ok (setPos (setTone p t) (pPos p + 1))
  else Ok p.

(** [p.pos < stopPos && ch == u16word.at (p.pos)]. *)
Definition nextIs (w : list N) (stop : nat) (p : PartialSyl) (ch : N) : Res bool :=
  if pPos p <? stop then c <- at16 w (pPos p) ;; Ok (c =n ch) else Ok false.

Definition bump (p : PartialSyl) : PartialSyl := setPos p (pPos p + 1).

(* parser/parser.cxx:1029-1066: MAI HAN AKAT *)
Definition thMaiHanAkat (w : list N) (stop : nat) (p : PartialSyl)
    : Res (list Emission) :=
  let p := bump p in
  if stop <=? pPos p then Ok []
  else
    p <- readTone w p ;;
    if stop <=? pPos p then Ok []
    else
      c <- at16 w (pPos p) ;;
      if UTH_WO_WAEN =n c then
        let p := bump p in
        b <- nextIs w stop p UTH_SARA_A ;;
        let p := if (b : bool) then setVowel (bump p) V_UA else setVowel p V_UAA in
        '(e, _) <- karanEmit w stop (setEnd p EC_NONE) ;;
        Ok [e]
      else
        let p := setVowel p V_A in
        if tone_eqb SAMAN (pTone p) then EatEndConsComplex w stop p []
        else EatEndConsSimple w stop p [].

(* parser/parser.cxx:1101-1131: end consonant after an above/below vowel *)
Definition thUpDownEnd (w : list N) (stop : nat) (p : PartialSyl)
    : Res (list Emission) :=
  if pPos p <? stop then
    c <- at16 w (pPos p) ;;
    if isLdv c then Ok []
    else if Z.eqb V_UEE (pVowel p) then
      if UTH_O_ANG =n c then
        '(e, _) <- karanEmit w stop (bump (setEnd p EC_NONE)) ;;
        Ok [e]
      else EatEndConsSimple w stop p []
    else
      let excl := if Z.eqb V_I (pVowel p) || Z.eqb V_II (pVowel p)
                  then [UTH_YO_YAK] else [] in
      if Z.eqb V_UE (pVowel p) || negb (tone_eqb SAMAN (pTone p))
      then EatEndConsSimple w stop p excl
      else EatEndConsComplex w stop p excl
  else Ok [].

(* parser/parser.cxx:1067-1131: vowel above or below *)
Definition thUpDown (w : list N) (stop : nat) (p : PartialSyl) (c : N)
    : Res (list Emission) :=
  v <- ThCharToAboveBelowVowel c ;;
  let p := bump (setVowel p v) in
  p <- (if pPos p <? stop then readTone w p else Ok p) ;;
  open <- (if stop <=? pPos p then Ok true
           else c <- at16 w (pPos p) ;;
                Ok (isLdv c || negb (Z.eqb V_UEE (pVowel p)))) ;;
  if (open : bool) then
    let p := setEnd p EC_NONE in
    k <- MatchKaranSimple w (pPos p) stop ;;
    k' <- (if k =? pPos p then MatchKaranIU w (pPos p) stop else Ok (pPos p)) ;;
    if negb (k' =? pPos p) then Ok [mkEm k' p false]
    else
      let p := setPos p k in
      l <- thUpDownEnd w stop p ;;
      Ok (mkEm k p false :: l)
  else thUpDownEnd w stop p.

(* parser/parser.cxx:1132-1146 *)
Definition thMaitaikhu (w : list N) (stop : nat) (p : PartialSyl)
    : Res (list Emission) :=
  let p := bump p in
  b <- nextIs w stop p UTH_O_ANG ;;
  if (b : bool) then
    let p := bump p in
    if stop <=? pPos p then Ok []
    else
      k <- MatchKaranSimple w (pPos p) stop ;;
      let p := setPos (setVowel p V_AU) k in
      ifRoom stop p (EatEndConsSimple w stop p [])
  else Ok [].

(* parser/parser.cxx:1212-1240 *)
Definition thRoRua (w : list N) (stop : nat) (p : PartialSyl)
    : Res (list Emission) :=
  let p := bump p in
  '(a, p) <- (if negb (ics_eqb RA (iConsSound p)) then
                '(e, p) <- karanEmit w stop (setEnd (setVowel p V_AUU) KON) ;;
                Ok ([e], p)
              else Ok ([], p)) ;;
  b <- nextIs w stop p UTH_RO_RUA ;;
  if (b : bool) then
    let p := setEnd (setVowel (bump p) V_A) KON in
    k <- MatchKaranSimple w (pPos p) stop ;;
    l <- (if (k =? pPos p) && (pPos p <? stop) then EatEndConsComplex w stop p []
          else Ok []) ;;
    Ok (a ++ mkEm k p false :: l)
  else Ok a.

(* parser/parser.cxx:1242-1264 *)
Definition thDefault (w : list N) (stop : nat) (linked : bool) (p : PartialSyl)
    (c : N) : Res (list Emission) :=
  if isCons c then
    if Z.eqb V_INVALID (pVowel p) then
      e <- EndConsClass c ;;
      if negb (ec_eqb EC_NONE e) && negb (Z.eqb SEC_WA (pCons2 p)) && negb linked
      then EatEndConsSimple w stop (setVowel p V_O) [UTH_YO_YAK; UTH_WO_WAEN]
      else Ok []
    else
      let p := setEnd p EC_NONE in
      l <- EatEndConsComplex w stop p [UTH_WO_WAEN] ;;
      Ok (mkEm (pPos p) p false :: l)
  else Ok [].

(* parser/parser.cxx:1147-1266: optional tone mark, then the vowel *)
Definition thOther (w : list N) (stop : nat) (linked : bool) (p : PartialSyl)
    : Res (list Emission) :=
  p <- readTone w p ;;
  if stop <=? pPos p then Ok []
  else
    c <- at16 w (pPos p) ;;
    if c =n UTH_SARA_A then
      '(e, _) <- karanEmit w stop (setEnd (setVowel (bump p) V_A) EC_NONE) ;;
      Ok [e]
    else if c =n UTH_SARA_AA then
      '(e, p) <- karanEmit w stop (setEnd (setVowel (bump p) V_AA) EC_NONE) ;;
      l <- ifRoom stop p (EatEndConsComplex w stop p []) ;;
      Ok (e :: l)
    else if c =n UTH_SARA_AM then
      '(e, _) <- karanEmit w stop (setEnd (setVowel (bump p) V_A) KOM) ;;
      Ok [e]
    else if c =n UTH_WO_WAEN then
      let p := setVowel (bump p) V_UAA in
      ifRoom stop p (EatEndConsSimple w stop p [])
    else if c =n UTH_O_ANG then
      '(e, p) <- karanEmit w stop (setEnd (setVowel (bump p) V_AUU) EC_NONE) ;;
      l <- ifRoom stop p (EatEndConsSimple w stop p []) ;;
      Ok (e :: l)
    else if c =n UTH_RO_RUA then thRoRua w stop p
    else thDefault w stop linked p c.

(** parser/parser.cxx:1019-1268: one partial syllable of [ParseThCons]. *)
Definition thPartial (w : list N) (stop : nat) (linked : bool) (p : PartialSyl)
    : Res (list Emission) :=
  if stop <=? pPos p then Ok []
  else if isComplete p then Ok [mkEm (pPos p) p false]
  else
    c <- at16 w (pPos p) ;;
    let p := setTone p SAMAN in
    if UTH_MAI_HAN_AKAT =n c then thMaiHanAkat w stop p
    else if th_wcisupvowel ct c || th_wcisblvowel ct c then thUpDown w stop p c
    else if UTH_MAITAIKHU =n c then thMaitaikhu w stop p
    else thOther w stop linked p.

(** Run [f] over the partial syllables in order, collecting the emissions. *)
Definition forPartials (f : PartialSyl -> Res (list Emission))
    (l : list PartialSyl) : Res (list Emission) :=
  r <- mapM f l ;; Ok (List.concat r).

(* parser/parser.cxx:1009-1269 *)
Definition ParseThCons (w : list N) (pos stop : nat) (linked : bool)
    : Res (list Emission) :=
  l <- MatchInitCons w pos stop linked ;;
  forPartials (thPartial w stop linked) l.

(** [!p.hasPreSyl || EInitConsSound::A != p.iConsSound]. *)
Definition notPreA (p : PartialSyl) : bool :=
  negb (hasPreSyl p) || negb (ics_eqb ICS_A (iConsSound p)).

(* parser/parser.cxx:1304-1322 *)
Definition eSaraI (w : list N) (stop : nat) (p : PartialSyl) : Res (list Emission) :=
  let p := setVowel (bump p) V_OEE in
  if stop <=? pPos p then Ok []
  else
    p <- readTone w p ;;
    k <- MatchKaranSimple w (pPos p) stop ;;
    let p := setPos p k in
    ifRoom stop p (EatEndConsSimple w stop p []).

(** parser/parser.cxx:1323-1352 and 1353-1382 share their shape: a second vowel sign, an
    optional tone mark, a required letter, an optional SARA A choosing between
    the short and the long vowel; [eat] is the end-consonant matcher used after
    the long vowel. *)
Definition eTriple (w : list N) (stop : nat) (p : PartialSyl) (need : N)
    (short long : EVowel) (eat : PartialSyl -> Res (list Emission))
    : Res (list Emission) :=
  let p := bump p in
  if stop <=? pPos p then Ok []
  else
    p <- readTone w p ;;
    b <- nextIs w stop p need ;;
    if negb b then Ok []
    else
      let p := bump p in
      sa <- nextIs w stop p UTH_SARA_A ;;
      let p := if (sa : bool) then setVowel (bump p) short else setVowel p long in
      '(e, p) <- karanEmit w stop (setEnd p EC_NONE) ;;
      l <- (if Z.eqb long (pVowel p) then ifRoom stop p (eat p) else Ok []) ;;
      Ok (e :: l).

(* parser/parser.cxx:1383-1391 *)
Definition eMaitaikhu (w : list N) (stop : nat) (p : PartialSyl)
    : Res (list Emission) :=
  let p := bump p in
  ifRoom stop p (EatEndConsSimple w stop (setVowel p V_E) []).

(* parser/parser.cxx:1406-1430 *)
Definition eOAng (w : list N) (stop : nat) (p : PartialSyl) : Res (list Emission) :=
  '(a, p) <- (if notPreA p then
                let p := setEnd (setVowel p V_EE) EC_NONE in
                k <- MatchKaranSimple w (pPos p) stop ;;
                Ok ([mkEm k p false], p)
              else Ok ([], p)) ;;
  let p := bump p in
  sa <- nextIs w stop p UTH_SARA_A ;;
  let p := if (sa : bool) then setVowel (bump p) V_OE else setVowel p V_OEE in
  '(e, _) <- karanEmit w stop (setEnd p EC_NONE) ;;
  Ok (a ++ [e]).

(* parser/parser.cxx:1431-1441 *)
Definition eSaraA (w : list N) (stop : nat) (p : PartialSyl) : Res (list Emission) :=
  if notPreA p then
    '(e, _) <- karanEmit w stop (setEnd (setVowel (bump p) V_E) EC_NONE) ;;
    Ok [e]
  else Ok [].

(* parser/parser.cxx:1442-1457 *)
Definition eSaraAA (w : list N) (stop : nat) (p : PartialSyl) : Res (list Emission) :=
  let p := bump p in
  sa <- nextIs w stop p UTH_SARA_A ;;
  let p := if (sa : bool) then setEnd (setVowel (bump p) V_AU) EC_NONE
           else setEnd (setVowel p V_A) KOEW in
  '(e, _) <- karanEmit w stop p ;;
  Ok [e].

(* parser/parser.cxx:1471-1484 *)
Definition eDefault (w : list N) (stop : nat) (p : PartialSyl) : Res (list Emission) :=
  if notPreA p then
    '(e, p) <- karanEmit w stop (setEnd (setVowel p V_EE) EC_NONE) ;;
    l <- ifRoom stop p (EatEndConsComplex w stop p []) ;;
    Ok (e :: l)
  else Ok [].

(* parser/parser.cxx:1458-1470, falling through to the default *)
Definition eYoYak (w : list N) (stop : nat) (p : PartialSyl) : Res (list Emission) :=
  b <- stopOrSylStart w (pPos p + 1) stop ;;
  if (b : bool) then
    '(e, _) <- karanEmit w stop (setEnd (setVowel (bump p) V_OEE) KOEY) ;;
    Ok [e]
  else eDefault w stop p.

(* parser/parser.cxx:1392-1485 *)
Definition eOther (w : list N) (stop : nat) (p : PartialSyl) (c : N)
    : Res (list Emission) :=
  p <- readTone w p ;;
  if isTone c && (stop <=? pPos p) then
    Ok [mkEm (pPos p) (setEnd (setVowel p V_EE) EC_NONE) false]
  else
    c <- at16 w (pPos p) ;;
    if c =n UTH_O_ANG then eOAng w stop p
    else if c =n UTH_SARA_A then eSaraA w stop p
    else if c =n UTH_SARA_AA then eSaraAA w stop p
    else if c =n UTH_YO_YAK then eYoYak w stop p
    else eDefault w stop p.

(** parser/parser.cxx:1287-1487: one partial syllable of [ParseSaraE]. *)
Definition ePartial (w : list N) (stop : nat) (p : PartialSyl) : Res (list Emission) :=
  if isComplete p then Ok []
  else
    let p := setTone p SAMAN in
    if stop <=? pPos p then
      Ok (if notPreA p then [mkEm (pPos p) (setEnd (setVowel p V_EE) EC_NONE) false]
          else [])
    else
      c <- at16 w (pPos p) ;;
      if c =n UTH_SARA_I then eSaraI w stop p
      else if c =n UTH_SARA_II then
        eTriple w stop p UTH_YO_YAK V_IA V_IAA
                (fun p => EatEndConsComplex w stop p [])
      else if c =n UTH_SARA_UEE then
        eTriple w stop p UTH_O_ANG V_UEA V_UEAA
                (fun p => EatEndConsSimple w stop p [])
      else if c =n UTH_MAITAIKHU then eMaitaikhu w stop p
      else eOther w stop p c.

(* parser/parser.cxx:1272-1488 *)
Definition ParseSaraE (w : list N) (pos stop : nat) (linked : bool)
    : Res (list Emission) :=
  if stop <=? pos + 1 then Ok []
  else
    l <- MatchInitCons w (pos + 1) stop linked ;;
    forPartials (ePartial w stop) l.

(* parser/parser.cxx:1526-1563 *)
Definition lvAe (w : list N) (stop : nat) (p : PartialSyl) : Res (list Emission) :=
  sa <- nextIs w stop p UTH_SARA_A ;;
  mk <- nextIs w stop p UTH_MAITAIKHU ;;
  let p := if (sa : bool) then setVowel (bump p) V_AE
           else if (mk : bool) then setVowel (bump p) V_AE
           else setVowel p V_AEE in
  '(a, p) <- (if mk then Ok ([], p)
              else '(e, p) <- karanEmit w stop (setEnd p EC_NONE) ;; Ok ([e], p)) ;;
  l <- (if Z.eqb V_AEE (pVowel p) || mk
        then ifRoom stop p (EatEndConsSimple w stop p []) else Ok []) ;;
  Ok (a ++ l).

(* parser/parser.cxx:1564-1588 *)
Definition lvO (w : list N) (stop : nat) (p : PartialSyl) : Res (list Emission) :=
  sa <- nextIs w stop p UTH_SARA_A ;;
  let p := if (sa : bool) then setVowel (bump p) V_O else setVowel p V_OO in
  let p := setEnd p EC_NONE in
  k <- MatchKaranSimple w (pPos p) stop ;;
  k' <- (if k =? pPos p then MatchKaranIU w (pPos p) stop else Ok (pPos p)) ;;
  if negb (k' =? pPos p) then Ok [mkEm k' p false]
  else
    let p := setPos p k in
    l <- (if Z.eqb V_OO (pVowel p)
          then ifRoom stop p (EatEndConsComplex w stop p []) else Ok []) ;;
    Ok (mkEm k p false :: l).

(* parser/parser.cxx:1589-1601 *)
Definition lvMaimalai (w : list N) (stop : nat) (p : PartialSyl)
    : Res (list Emission) :=
  let p := setEnd (setVowel p V_A) KOEY in
  b <- nextIs w stop p UTH_YO_YAK ;;
  y <- (if (b : bool) then
          if pPos p + 1 =? stop then Ok true
          else c <- at16 w (pPos p + 1) ;; Ok (IsSylStart c)
        else Ok false) ;;
  '(e, _) <- karanEmit w stop p ;;
  Ok ((if (y : bool) then [mkEm (pPos p + 1) p false] else []) ++ [e]).

(* parser/parser.cxx:1602-1607 *)
Definition lvMaimuan (w : list N) (stop : nat) (p : PartialSyl)
    : Res (list Emission) :=
  '(e, _) <- karanEmit w stop (setEnd (setVowel p V_A) KOEY) ;;
  Ok [e].

(** parser/parser.cxx:1507-1609: one partial syllable of [ParseOtherLV]. *)
Definition lvPartial (w : list N) (stop : nat) (ldv : N) (p : PartialSyl)
    : Res (list Emission) :=
  if isComplete p then Ok []
  else
    let p := setTone p SAMAN in
    p <- (if pPos p <? stop then readTone w p else Ok p) ;;
    if ldv =n UTH_SARA_AE then lvAe w stop p
    else if ldv =n UTH_SARA_O then lvO w stop p
    else if ldv =n UTH_SARA_AI_MAIMALAI then lvMaimalai w stop p
    else if ldv =n UTH_SARA_AI_MAIMUAN then lvMaimuan w stop p
    else Ok [].

(* parser/parser.cxx:1492-1610.  Unlike [ParseSaraE] there is no test that a
   character follows the vowel before the stop position. *)
Definition ParseOtherLV (w : list N) (pos stop : nat) (linked : bool)
    : Res (list Emission) :=
  ldv <- at16 w pos ;;
  l <- MatchInitCons w (pos + 1) stop linked ;;
  forPartials (lvPartial w stop ldv) l.

(* parser/parser.cxx:1613-1674 *)
Definition ParseRuLu (w : list N) (pos stop : nat) : Res (list Emission) :=
  c0 <- at16 w pos ;;
  let p := setTone (partial (pos + 1) None (if UTH_LU =n c0 then LA else RA) LOWS
                            SEC_NONE V_INVALID) SAMAN in
  if stop <=? pos + 1 then
    Ok [mkEm (pos + 1) (setEnd (setVowel p V_UE) EC_NONE) false]
  else
    c1 <- at16 w (pos + 1) ;;
    if (UTH_LAKKHANGYAO =n c1) || (UTH_SARA_AA =n c1) then
      Ok [mkEm (pos + 2) (setEnd (setVowel p V_UEE) EC_NONE) false]
    else if isCons c1 then
      e <- EndConsClass c1 ;;
      solo <- (if ec_eqb EC_NONE e then Ok true
               else if pos + 2 <? stop then
                 c2 <- at16 w (pos + 2) ;; Ok (negb (IsSylStart c2))
               else Ok false) ;;
      if (solo : bool) then
        Ok [mkEm (pos + 1) (setEnd (setVowel p V_UE) EC_NONE) false]
      else if memN c1 [UTH_NO_NEN; UTH_THO_THAHAN; UTH_SO_RUSI] then
        EatEndConsComplex w stop (setVowel p V_I) []
      else EatEndConsComplex w stop (setVowel p V_UE) []
    else Ok [].

(* parser/parser.cxx:1676-1693 *)
Definition MakeSylStrings (desc : string) : Res (list SylString) :=
  mapM SylStringOfDesc (splitOn ";" desc).

(** parser/parser.cxx:1706-1721: one match; [None] when it is skipped. *)
Definition exceptionAt (w : list N) (s : ParseState) (d : Dict) (m : Match)
    : Res (option ParseState) :=
  if sStop s <? mCurPos m then Ok None
  else
    ok <- stopOrSylStart w (mCurPos m) (sStop s) ;;
    if negb ok then Ok None
    else
      data <- matchGetData d m ;;
      strs <- MakeSylStrings data ;;
      let dag := fold_left (fun g x =>
                              addSylString g (Z.of_nat (sPos s))
                                           (shiftEndPos (Z.of_nat (sPos s)) x))
                           strs (sDag s) in
      Ok (Some (mkState (mCurPos m) (sStop s) dag false)).

(* parser/parser.cxx:1695-1725: the states added (their number is the return
   value) *)
Fixpoint keepSome {A} (l : list (option A)) : list A :=
  match l with
  | [] => []
  | Some x :: l' => x :: keepSome l'
  | None :: l' => keepSome l'
  end.
Definition FindExceptions (w : list N) (s : ParseState) (d : Dict)
    : Res (list ParseState) :=
  r <- mapM (exceptionAt w s d)
            (allMatches (S (List.length w)) d (MatchNew w (sPos s))) ;;
  Ok (keepSome r).

(** parser/parser.cxx:1744-1757: the scanning loop; [k] characters are left
    before the stop position.  Result: end, number of consonants, last
    character read; [None] for [return false]. *)
Fixpoint abbrScan (k : nat) (w : list N) (i nCons : nat) (c : N)
    : Res (option (nat * nat * N)) :=
  match k with
  | O => Ok (Some (i, nCons, c))
  | S k' =>
      c <- at16 w i ;;
      if isCons c then
        if 4 <? S nCons then Ok None else abbrScan k' w (S i) (S nCons) c
      else if 46%N =n c then
        if 4 <? nCons then Ok None else Ok (Some (S i, nCons, c))
      else Ok None
  end.

(** parser/parser.cxx:1761-1788: the edges; the position moves on at least
    once per round. *)
Fixpoint abbrEdges (fuel : nat) (w : list N) (pos abbrEnd : nat) (d : PronunDAG)
    : Res PronunDAG :=
  if abbrEnd <=? pos then Ok d
  else
    match fuel with
    | O => NoFuel
    | S fuel' =>
        c <- at16 w pos ;;
        if isCons c then
          skip <- (if pos + 1 <? abbrEnd then
                     c' <- at16 w (pos + 1) ;; Ok (negb (isCons c'))
                   else Ok false) ;;
          let sylEnd := if (skip : bool) then pos + 2 else pos + 1 in
          s0 <- InitConsSound c ;;
          k0 <- InitConsClass c ;;
          abbrEdges fuel' w sylEnd abbrEnd
            (fst (pAddEdge d (Z.of_nat pos) (Z.of_nat sylEnd)
                    (SylOf s0 SEC_NONE V_AUU EC_NONE
                           (if ic_eqb HIGH k0 then CHATTAWA else SAMAN)
                           (Z.of_nat sylEnd))))
        else
          abbrEdges fuel' w (pos + 1) abbrEnd
            (fst (pAddEdge d (Z.of_nat pos) (Z.of_nat (pos + 1))
                    (SylLiteral (Z.of_nat (pos + 1)) [c])))
    end.

(* parser/parser.cxx:1727-1792.  [None]: no abbreviation. *)
Definition FindAbbr (w : list N) (s : ParseState) : Res (option ParseState) :=
  atStart <- (match sPos s with
              | O => Ok true
              | S i => c <- at16 w i ;; Ok ((c =n 32%N) || (c =n 46%N))
              end) ;;
  if negb atStart then Ok None
  else
    r <- abbrScan (sStop s - sPos s) w (sPos s) 0 0%N ;;
    match r with
    | None => Ok None
    | Some (abbrEnd, nCons, c) =>
        if (1 <? nCons) && negb (c =n 46%N) then Ok None
        else
          d <- abbrEdges (abbrEnd - sPos s) w (sPos s) abbrEnd (sDag s) ;;
          Ok (Some (mkState abbrEnd (sStop s) d false))
    end.

(* parser/parser.cxx:1794-1799 *)
Definition IsWordChar (c : N) : bool :=
  isCons c || th_wcisthvowel ct c || isTone c
  || (UTH_MAITAIKHU =n c) || (UTH_THANTHAKHAT =n c).
(* parser/parser.cxx:1801-1805 *)
Definition IsThaiTokenChar (c : N) : bool := (46%N =n c) || IsWordChar c.

(* parser/parser.cxx:1816-1823; [SkipNonWord] (1807-1814) is never called *)
Fixpoint skipNonThaiF (k : nat) (w : list N) (start : nat) : nat :=
  match k with
  | O => start
  | S k' =>
      match nth_error w start with
      | Some c => if IsThaiTokenChar c then start else skipNonThaiF k' w (S start)
      | None => start
      end
  end.
Definition SkipNonThai (w : list N) (start : nat) : nat :=
  skipNonThaiF (List.length w - start) w start.

(** parser/parser.cxx:1830-1836. *)
Fixpoint nextBrk (dflt start : nat) (brk : list nat) : nat :=
  match brk with
  | [] => dflt
  | b :: brk' => if start <? b then b else nextBrk dflt start brk'
  end.
(** parser/parser.cxx:1838-1840; [k] characters are left before the break. *)
Fixpoint wordStopF (k : nat) (w : list N) (start : nat) : Res nat :=
  match k with
  | O => Ok start
  | S k' =>
      c <- at16 w start ;;
      if IsThaiTokenChar c then wordStopF k' w (S start) else Ok start
  end.
(* parser/parser.cxx:1825-1843 *)
Definition NextWordStop (w : list N) (start : nat) (brk : list nat) : Res nat :=
  wordStopF (nextBrk (List.length w) start brk - start) w start.

(** parser/parser.cxx:1909-1915: move every edge into [pos] to [pos + 1]. *)
Fixpoint stretchF (fuel : nat) (d : PronunDAG) (pos : nat) : Res PronunDAG :=
  match inEdges d (Z.of_nat pos) with
  | [] => Ok d
  | i :: _ =>
      match fuel with
      | O => NoFuel
      | S fuel' =>
          let to := Z.of_nat (pos + 1) in
          let d1 := fst (pAddEdge d (target i) to (setEndPos (edgeVal i) to)) in
          let d2 := fst (removeEdge syl_eqb d1 (target i) (Z.of_nat pos) (edgeVal i)) in
          stretchF fuel' d2 pos
      end
  end.
Definition stretch (d : PronunDAG) (pos : nat) : Res PronunDAG :=
  stretchF (S (List.length (mTo d))) d pos.

(** Skip the characters that are not Thai, as one literal, and find the next
    stop position: parser/parser.cxx:1852-1866 and 1873-1887. *)
Definition skipGap (w : list N) (brk : list nat) (s : ParseState) : Res ParseState :=
  let b := SkipNonThai w (sPos s) in
  let s := if sPos s <? b then
             mkState b (sStop s)
               (fst (pAddEdge (sDag s) (Z.of_nat (sPos s)) (Z.of_nat b)
                       (SylLiteral (Z.of_nat b)
                          (firstn (b - sPos s) (skipn (sPos s) w)))))
               (sLinked s)
           else s in
  stop <- (if sPos s <? List.length w then NextWordStop w (sPos s) brk
           else Ok (sPos s)) ;;
  Ok (mkState (sPos s) stop (sDag s) (sLinked s)).

(** parser/parser.cxx:1897-1919: the rules by first character. *)
Definition ruleStates (w : list N) (s : ParseState) : Res (list ParseState) :=
  let run (m : Res (list Emission)) :=
    (l <- m ;; Ok (map (applyEmission s) l)) in
  c <- at16 w (sPos s) ;;
  if isCons c then run (ParseThCons w (sPos s) (sStop s) (sLinked s))
  else if UTH_SARA_E =n c then run (ParseSaraE w (sPos s) (sStop s) (sLinked s))
  else if isLdv c then run (ParseOtherLV w (sPos s) (sStop s) (sLinked s))
  else if (UTH_RU =n c) || (UTH_LU =n c) then run (ParseRuLu w (sPos s) (sStop s))
  else if 46%N =n c then
    d <- stretch (sDag s) (sPos s) ;;
    Ok [mkState (sPos s + 1) (sStop s) d (sLinked s)]
  else Ok [].

(** parser/parser.cxx:1870-1920: one popped state that has not reached the end
    of the word, as the list of the states it adds to the pool. *)
Definition stepStates (w : list N) (dict : option Dict) (brk : list nat)
    (s : ParseState) : Res (list ParseState) :=
  if sStop s <=? sPos s then s' <- skipGap w brk s ;; Ok [s']
  else
    ex <- (match dict with
           | Some d => FindExceptions w s d
           | None => Ok []
           end) ;;
    match ex with
    | _ :: _ => Ok ex
    | [] =>
        a <- FindAbbr w s ;;
        match a with
        | Some s' => Ok [s']
        | None => ruleStates w s
        end
    end.

(** parser/parser.cxx:1869-1922: the main loop. *)
Fixpoint parseLoop (fuel : nat) (w : list N) (dict : option Dict) (brk : list nat)
    (pool : StatePool) (acc : PronunDAG) : Res PronunDAG :=
  match pool with
  | [] => Ok acc
  | s :: pool' =>
      match fuel with
      | O => NoFuel
      | S fuel' =>
          if List.length w <=? sPos s then
            parseLoop fuel' w dict brk pool' (unionDAG syl_eqb acc (sDag s))
          else
            l <- stepStates w dict brk s ;;
            parseLoop fuel' w dict brk (fold_left poolAdd l pool') acc
      end
  end.

(* parser/parser.cxx:1845-1923 *)
Definition ParseU16F (fuel : nat) (w : list N) (dict : option Dict) (brk : list nat)
    : Res PronunDAG :=
  s <- skipGap w brk (mkState 0 0 dagEmpty false) ;;
  parseLoop fuel w dict brk (poolAdd [] s) dagEmpty.

(** parser/parser.cxx:1975-1986; [brks] is the word breaker (the constant empty
    list when breaking is off, lines 1961-1962). *)
Definition parseWordF (fuel : nat) (dict : option Dict) (brks : list N -> list nat)
    (word : string) : Res PronunDAG :=
  w <- from_bytes word ;;
  ParseU16F fuel w dict (brks w).
End Parser.
