(** CliDebug.v - the program as built with [--enable-debug] (configure.ac:31-37):
    output/sylout-thai.cxx with its assertions, and thpronun/thpronun.cxx on the
    parser of ParserDebug.v.  The parts without assertions are those of Cli.v. *)
From Coq Require Import List NArith ZArith Bool String Ascii.
From Verif Require Import Base ThUni ThCons Syl Utf Lattice Dag PronDag SylOut ThaiOut Output Dict GenDict Parser ParserDebug Cli.
Import ListNotations.
Local Open Scope string_scope.

(* output/sylout-thai.cxx:311-335 *)
Definition ThaiSylBelowAboveD i1 i2 (isShort : bool) (v : EVowel) e t : Dbg string :=
  (assertThat (sylout_thai_cxx 315) ((V_I =? v)%Z || (V_II =? v)%Z || (V_UE =? v)%Z || (V_U =? v)%Z || (V_UU =? v)%Z) ;;
   ThaiSylBelowAbove i1 i2 isShort v e t)%dbg.
(* output/sylout-thai.cxx:352-373 *)
Definition ThaiSylLeadShortD i1 i2 (v : EVowel) e t : Dbg string :=
  (assertThat (sylout_thai_cxx 356) ((V_E =? v)%Z || (V_AE =? v)%Z) ;; ThaiSylLeadShort i1 i2 v e t)%dbg.
(* output/sylout-thai.cxx:376-394 *)
Definition ThaiSylLeadLongD i1 i2 (v : EVowel) e t : Dbg string :=
  (assertThat (sylout_thai_cxx 380) ((V_EE =? v)%Z || (V_AEE =? v)%Z || (V_OO =? v)%Z) ;; ThaiSylLeadLong i1 i2 v e t)%dbg.
(* output/sylout-thai.cxx:548-633 *)
Definition ThaiOutputD (s : Syl) : Dbg string :=
  if isLiteral s then outputLiteral (literal s)
  else
    let i1 := iCons1 s in let i2 := iCons2 s in
    let e := eCons s in let t := tone s in let v := vowel s in
    if (v =? V_A)%Z then ThaiSylA i1 i2 e t
    else if (v =? V_AA)%Z then ThaiSylAA i1 i2 e t
    else if (v =? V_I)%Z || (v =? V_UE)%Z || (v =? V_U)%Z
      then ThaiSylBelowAboveD i1 i2 true v e t
    else if (v =? V_II)%Z || (v =? V_UU)%Z
      then ThaiSylBelowAboveD i1 i2 false v e t
    else if (v =? V_UEE)%Z then ThaiSylUEE i1 i2 e t
    else if (v =? V_E)%Z || (v =? V_AE)%Z then ThaiSylLeadShortD i1 i2 v e t
    else if (v =? V_EE)%Z || (v =? V_AEE)%Z || (v =? V_OO)%Z
      then ThaiSylLeadLongD i1 i2 v e t
    else if (v =? V_O)%Z then ThaiSylO i1 i2 e t
    else if (v =? V_IA)%Z then ThaiSylIA i1 i2 true e t
    else if (v =? V_IAA)%Z then ThaiSylIA i1 i2 false e t
    else if (v =? V_UEA)%Z then ThaiSylUEA i1 i2 true e t
    else if (v =? V_UEAA)%Z then ThaiSylUEA i1 i2 false e t
    else if (v =? V_UA)%Z then ThaiSylUA i1 i2 true e t
    else if (v =? V_UAA)%Z then ThaiSylUA i1 i2 false e t
    else if (v =? V_AU)%Z then ThaiSylAU i1 i2 true e t
    else if (v =? V_AUU)%Z then ThaiSylAU i1 i2 false e t
    else if (v =? V_OE)%Z then ThaiSylOE i1 i2 true e t
    else if (v =? V_OEE)%Z then ThaiSylOE i1 i2 false e t
    else Ok " ".

(** A run of this program: as [Run] of Cli.v, or ended by a failed assertion.
    The message of the failed assertion, which the C library writes to the
    standard error, is no part of [dErr].  Every write of the program ends with
    [endl], so nothing is left in a buffer at the end. *)
Record RunD (A : Type) : Type := mkRunD { dOut : string; dErr : string; dRes : Dbg A }.
Arguments mkRunD {A}. Arguments dOut {A}. Arguments dErr {A}. Arguments dRes {A}.
Definition ordinary {A} (r : Run A) : RunD A := mkRunD (rOut r) (rErr r) (Ran (rRes r)).
Definition liftD {A} (m : Dbg A) : RunD A := mkRunD "" "" m.
Definition rbindD {A B} (m : RunD A) (k : A -> RunD B) : RunD B :=
  match dRes m with
  | Ran (Ok a) => let r := k a in mkRunD (dOut m ++ dOut r) (dErr m ++ dErr r) (dRes r)
  | Ran Throw => mkRunD (dOut m) (dErr m) (Ran Throw)
  | Ran UB => mkRunD (dOut m) (dErr m) (Ran UB)
  | Ran NoFuel => mkRunD (dOut m) (dErr m) (Ran NoFuel)
  | Abort l => mkRunD (dOut m) (dErr m) (Abort l)
  end.
Declare Scope rund_scope.
Notation "x <- m ;; k" := (rbindD m (fun x => k)) (at level 61, m at next level, right associativity) : rund_scope.
Notation "m ;;; k" := (rbindD m (fun _ => k)) (at level 61, right associativity) : rund_scope.
Delimit Scope rund_scope with rund.
Local Open Scope rund_scope.

Section Main.
Variable ct : CType.
Variable breaker : list N -> list nat.
Variable VERSION EXCEPT_DICT_PATH : string.
Variable files : string -> PathContent.
Variable stdin : string.
Variable fuel : nat.

(* parser/parser.cxx:1976-1986, 1958-1974 *)
Definition parseWordD (p : ParserObj) (word : string) : Dbg PronunDAG :=
  parseWordFD ct fuel (pDict p) (if pBreaks p then breaker else fun _ => []) word.
(** thpronun/thpronun.cxx:22-31.  The output classes are those of Cli.v: the
    assertions of the Thai notation never fail ([C93_respelling]), the other
    notations and the classes themselves have none. *)
Definition DoParseD (p : ParserObj) (outs : list Out) (word : string) : RunD unit :=
  ordinary (out (word ++ ":" ++ nl)) ;;;
  d <- liftD (parseWordD p word) ;;
  ordinary (printAll outs d).
Fixpoint doAllD (p : ParserObj) (outs : list Out) (words : list string) : RunD unit :=
  match words with
  | [] => ordinary (done tt)
  | w :: words' => DoParseD p outs w ;;; doAllD p outs words'
  end.
(** thpronun.cxx:292-297. *)
Fixpoint parseArgsD (p : ParserObj) (outs : list Out) (args : list string) : RunD unit :=
  match args with
  | [] => ordinary (done tt)
  | a :: args' =>
      c0 <- ordinary (lift (charAt a 0)) ;;
      (if is "-" c0 then ordinary (done tt) else DoParseD p outs a) ;;;
      parseArgsD p outs args'
  end.
(* thpronun/thpronun.cxx:186-301 *)
Definition mainD (argv : list string) : RunD Z :=
  let argv0 := nth 0 argv "" in
  let argv1 := nth 1 argv "" in
  let args := tl argv in
  r <- ordinary (firstPass VERSION argv0 argv1 (mkOpts 0 None true false false) args) ;;
  match r with
  | Return n => ordinary (done n)
  | Go o =>
      outs <- ordinary (secondPass (oJson o) (oGroup o) args) ;;
      let outs := match outs with
                  | [] => [MakeThaiOutput (oJson o) (oGroup o); MakeRomanOutput (oJson o) (oGroup o);
                           MakePhoneticOutput (oJson o) (oGroup o)]
                  | _ => outs
                  end in
      l <- ordinary (LoadExceptDict EXCEPT_DICT_PATH files (mkParser None (oBreak o)) (oDict o)) ;;
      ordinary (if snd l then done tt
             else err ("Warning: Working without exception dictionary" ++ nl)) ;;;
      (if Z.eqb 1 (Z.of_nat (List.length argv) - Z.of_nat (oCnt o)) then
         doAllD (fst l) outs (getlines "" stdin)
       else parseArgsD (fst l) outs args) ;;;
      ordinary (done 0%Z)
  end.
End Main.
