(** ThCons.v - model of thortho/thcons.{h,cxx,inl}. *)
From Coq Require Import List NArith Bool.
From Verif Require Import Base ThUni.
Import ListNotations.

(* thortho/thcons.h:8-14 *)
Inductive EInitConsClass := IC_INVALID | HIGH | MID | LOWP | LOWS.

(* thortho/thcons.h:16-39 *)
Inductive EInitConsSound :=
| ICS_INVALID | KA | KHA | NGA | JA | CHA | YA | DA | TA | THA | NA | BA | PA
| PHA | FA | MA | RA | LA | WA | SA | HA | ICS_A.

(* thortho/thcons.h:41-51 *)
Inductive EEndConsClass :=
| EC_NONE | KOK | KOT | KOP | KONG | KON | KOM | KOEY | KOEW.

(* thortho/thcons.h:53-60 *)
Inductive ETone := T_INVALID | SAMAN | EK | THO | TRI | CHATTAWA.

(** Underlying integers of the enumerations (declaration order), used by the
    relational operators on enum values. *)
Definition ics_code (s : EInitConsSound) : N :=
  match s with
  | ICS_INVALID => 0 | KA => 1 | KHA => 2 | NGA => 3 | JA => 4 | CHA => 5
  | YA => 6 | DA => 7 | TA => 8 | THA => 9 | NA => 10 | BA => 11 | PA => 12
  | PHA => 13 | FA => 14 | MA => 15 | RA => 16 | LA => 17 | WA => 18
  | SA => 19 | HA => 20 | ICS_A => 21
  end%N.
Definition ec_code (e : EEndConsClass) : N :=
  match e with
  | EC_NONE => 0 | KOK => 1 | KOT => 2 | KOP => 3 | KONG => 4 | KON => 5
  | KOM => 6 | KOEY => 7 | KOEW => 8
  end%N.
Definition tone_code (t : ETone) : N :=
  match t with
  | T_INVALID => 0 | SAMAN => 1 | EK => 2 | THO => 3 | TRI => 4 | CHATTAWA => 5
  end%N.
Definition ic_code (k : EInitConsClass) : N :=
  match k with IC_INVALID => 0 | HIGH => 1 | MID => 2 | LOWP => 3 | LOWS => 4 end%N.

Definition ics_eqb (a b : EInitConsSound) := N.eqb (ics_code a) (ics_code b).
Definition ec_eqb (a b : EEndConsClass) := N.eqb (ec_code a) (ec_code b).
Definition tone_eqb (a b : ETone) := N.eqb (tone_code a) (tone_code b).
Definition ic_eqb (a b : EInitConsClass) := N.eqb (ic_code a) (ic_code b).

(* thortho/thcons.cxx:14-29 *)
Definition InitConsClassTbl_ : list EInitConsClass :=
  [ MID; HIGH; HIGH; LOWP; LOWP; LOWP; LOWS;
    MID; HIGH; LOWP; LOWP; LOWP; LOWS;
    MID; MID; HIGH; LOWP; LOWP; LOWS;
    MID; MID; HIGH; LOWP; LOWP; LOWS;
    MID; MID; HIGH; HIGH; LOWP; LOWP; LOWP; LOWS;
    LOWS; LOWS; LOWS; LOWS; LOWS; LOWS;
    HIGH; HIGH; HIGH; HIGH; LOWS; MID; LOWP ].

(* thortho/thcons.cxx:42-57 *)
Definition InitConsSoundTbl_ : list EInitConsSound :=
  [ KA; KHA; KHA; KHA; KHA; KHA; NGA;
    JA; CHA; CHA; SA; CHA; YA;
    DA; TA; THA; THA; THA; NA;
    DA; TA; THA; THA; THA; NA;
    BA; PA; PHA; FA; PHA; FA; PHA; MA;
    YA; RA; ICS_INVALID; LA; ICS_INVALID; WA;
    SA; SA; SA; HA; LA; ICS_A; HA ].

(* thortho/thcons.cxx:70-85 *)
Definition EndConsClassTbl_ : list EEndConsClass :=
  [ KOK; KOK; KOK; KOK; KOK; KOK; KONG;
    KOT; KOT; KOT; KOT; KOT; KON;
    KOT; KOT; KOT; KOT; KOT; KON;
    KOT; KOT; KOT; KOT; KOT; KON;
    KOP; KOP; KOP; KOP; KOP; KOP; KOP; KOM;
    KOEY; KON; EC_NONE; KON; EC_NONE; KOEW;
    KOT; KOT; KOT; EC_NONE; KON; EC_NONE; EC_NONE ].

(** [tbl[c - UTH_KO_KAI]] with [c] a [char16_t] promoted to [int]: an index
    outside the 46 entries is an out-of-bounds read (the [assert] guarding it
    is compiled out). *)
Definition tblAt {A} (tbl : list A) (c : N) : Res A :=
  if (c <? UTH_KO_KAI)%N then UB
  else match nth_error tbl (N.to_nat (c - UTH_KO_KAI)) with
       | Some x => Ok x
       | None => UB
       end.

(* thortho/thcons.cxx:33-38 *)
Definition InitConsClass (c : N) : Res EInitConsClass := tblAt InitConsClassTbl_ c.
(* thortho/thcons.cxx:61-66 *)
Definition InitConsSound (c : N) : Res EInitConsSound := tblAt InitConsSoundTbl_ c.
(* thortho/thcons.cxx:89-94 *)
Definition EndConsClass (c : N) : Res EEndConsClass := tblAt EndConsClassTbl_ c.

(* thortho/thcons.inl:5-11 *)
Definition IsDeadEndConsClass (c : EEndConsClass) : bool :=
  ec_eqb KOK c || ec_eqb KOT c || ec_eqb KOP c.

(* thortho/thcons.cxx:96-132 *)
Definition ToneFromWritten (iConsClass : EInitConsClass) (writtenTone : ETone)
    (isDeadEnd isShortVowel : bool) : ETone :=
  match iConsClass with
  | MID =>
      if tone_eqb SAMAN writtenTone && isDeadEnd then EK else writtenTone
  | HIGH =>
      if tone_eqb SAMAN writtenTone
      then (if isDeadEnd then EK else CHATTAWA)
      else writtenTone
  | LOWP | LOWS =>
      match writtenTone with
      | SAMAN =>
          if isDeadEnd then (if isShortVowel then TRI else THO)
          else writtenTone
      | EK => THO
      | THO => TRI
      | _ => writtenTone
      end
  | IC_INVALID => writtenTone
  end.
