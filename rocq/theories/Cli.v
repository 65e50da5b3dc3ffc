(** Cli.v - model of the command line program, thpronun/thpronun.cxx. *)
From Coq Require Import List NArith ZArith Bool String Ascii.
From Verif Require Import Base ThUni ThCons Syl Utf Lattice Dag PronDag SylOut ThaiOut Output Dict GenDict Parser.
Import ListNotations.
Local Open Scope string_scope.

(** What a run has done so far: the bytes sent to [cout] and to [cerr], and how
    it ended or that it goes on ([Throw] is an exception leaving [main]).  The
    streams never fail and [endl] writes a newline. *)
Record Run (A : Type) : Type := mkRun { rOut : string; rErr : string; rRes : Res A }.
Arguments mkRun {A}. Arguments rOut {A}. Arguments rErr {A}. Arguments rRes {A}.
Definition done {A} (a : A) : Run A := mkRun "" "" (Ok a).
Definition lift {A} (m : Res A) : Run A := mkRun "" "" m.
Definition out (s : string) : Run unit := mkRun s "" (Ok tt).
Definition err (s : string) : Run unit := mkRun "" s (Ok tt).
Definition rbind {A B} (m : Run A) (k : A -> Run B) : Run B :=
  match rRes m with
  | Ok a => let r := k a in mkRun (rOut m ++ rOut r) (rErr m ++ rErr r) (rRes r)
  | Throw => mkRun (rOut m) (rErr m) Throw
  | UB => mkRun (rOut m) (rErr m) UB
  | NoFuel => mkRun (rOut m) (rErr m) NoFuel
  end.
Declare Scope run_scope.
Notation "x <- m ;; k" := (rbind m (fun x => k)) (at level 61, m at next level, right associativity) : run_scope.
Notation "m ;;; k" := (rbind m (fun _ => k)) (at level 61, right associativity) : run_scope.
Delimit Scope run_scope with run.
Local Open Scope run_scope.

(** The output classes used by the program (output/output-*.h), with the
    syllable notation each one holds. *)
Inductive Out :=
| OutDelim (f : Syl -> Res string) (delim : ascii)
| OutRoman
| OutJson (f : Syl -> Res string)
| OutGroupedJson (f : Syl -> Res string).
(** The virtual call [IOutput::output (const PronunDAG&)]; [RomanOutput] is
    constructed without capitals (output/output-roman.h:17). *)
Definition outputDAG (o : Out) (d : PronunDAG) : Res string :=
  match o with
  | OutDelim f c => delimOutputDAG f c d
  | OutRoman => romanOutputDAG false d
  | OutJson f => jsonOutputDAG f d
  | OutGroupedJson f => gjsonOutputDAG f d
  end.

(* thpronun/thpronun.cxx:87-101 *)
Definition MakeThaiOutput (isJson isGroup : bool) : Out :=
  if isJson then if isGroup then OutGroupedJson ThaiOutput else OutJson ThaiOutput
  else OutDelim ThaiOutput "-".
(* thpronun/thpronun.cxx:103-117 *)
Definition MakeRomanOutput (isJson isGroup : bool) : Out :=
  if isJson then if isGroup then OutGroupedJson RomanSylOutput else OutJson RomanSylOutput
  else OutRoman.
(* thpronun/thpronun.cxx:119-133 *)
Definition MakePhoneticOutput (isJson isGroup : bool) : Out :=
  if isJson then if isGroup then OutGroupedJson PhoneticOutput else OutJson PhoneticOutput
  else OutDelim PhoneticOutput " ".
(* thpronun/thpronun.cxx:135-149 *)
Definition MakeRawOutput (isJson isGroup : bool) : Out :=
  if isJson then if isGroup then OutGroupedJson RawOutput else OutJson RawOutput
  else OutDelim RawOutput ",".
(* thpronun/thpronun.cxx:151-165 *)
Definition MakeSoundexOutput (isJson isGroup : bool) : Out :=
  if isJson then if isGroup then OutGroupedJson SoundexOutput else OutJson SoundexOutput
  else OutDelim SoundexOutput "-".

(** [getline] of [cin] until it fails (thpronun.cxx:286-290): a last line
    without newline counts when it has characters. *)
Fixpoint getlines (cur : string) (s : string) : list string :=
  match s with
  | EmptyString => match cur with EmptyString => [] | _ => [cur] end
  | String c s' =>
      if (c =? ascii_of_nat 10)%char then cur :: getlines "" s'
      else getlines (cur ++ String c "") s'
  end.

(** What the program finds around it: libthai, the files, standard input. *)
Section Main.
Variable ct : CType.
Variable breaker : list N -> list nat.        (* th_brk_wc_find_breaks *)
Variable VERSION EXCEPT_DICT_PATH : string.   (* configure.ac, thpronun.cxx:17-18 *)
Variable files : string -> PathContent.
Variable stdin : string.
Variable fuel : nat.                          (* for the parser loop *)

(** The object of class [Parser] (parser/parser.h:28-30): [pBreaks] says that a
    word breaker was made; [th_brk_new] is taken to succeed. *)
Record ParserObj := mkParser { pDict : option Dict; pBreaks : bool }.
(* parser/parser.cxx:1976-1986, 1958-1974 *)
Definition parseWord (p : ParserObj) (word : string) : Res PronunDAG :=
  parseWordF ct fuel (pDict p) (if pBreaks p then breaker else fun _ => []) word.

(** The loop at thpronun.cxx:28-30. *)
Fixpoint printAll (outs : list Out) (d : PronunDAG) : Run unit :=
  match outs with
  | [] => done tt
  | o :: outs' => s <- lift (outputDAG o d) ;; out (s ++ nl) ;;; printAll outs' d
  end.
(* thpronun/thpronun.cxx:22-31 *)
Definition DoParse (p : ParserObj) (outs : list Out) (word : string) : Run unit :=
  out (word ++ ":" ++ nl) ;;;
  d <- lift (parseWord p word) ;;
  printAll outs d.
Fixpoint doAll (p : ParserObj) (outs : list Out) (words : list string) : Run unit :=
  match words with
  | [] => done tt
  | w :: words' => DoParse p outs w ;;; doAll p outs words'
  end.

Definition line (s : string) : string := s ++ nl.
(* thpronun/thpronun.cxx:33-50 *)
Definition Version (progName : string) : string :=
  line (progName ++ " " ++ VERSION) ++ nl
  ++ line "Copyright (C) 2018 Theppitak Karoonboonyanan <theppitak@gmail.com>"
  ++ line "License GPLv3+: GNU GPL version 3 or later <http://gnu.org/licenses/gpl.html>."
  ++ line "This is free software: you are free to change and redistribute it."
  ++ line "There is NO WARRANTY, to the extent permitted by law." ++ nl
  ++ line "Written by Theppitak Karoonboonyanan, under the sponsorship"
  ++ line "of Metamedia Technology Co., Ltd.".
(* thpronun/thpronun.cxx:52-85 *)
Definition Usage (progName : string) : string :=
  line ("Usage: " ++ progName ++ " [OPTION] [WORD...]") ++ nl
  ++ line "Thai word pronunciation program." ++ nl
  ++ line "It reads Thai words from command-line arguments, or from standard input"
  ++ line "if no argument is given, and generates all possible pronunciations"
  ++ line "of the words." ++ nl
  ++ line "Options:" ++ nl
  ++ line "General:"
  ++ line "  -V, --version  Displays program version info"
  ++ line "  -h, --help     Displays help"
  ++ line "  -d<DICTPATH>   Use exception dict from <DICTPATH>"
  ++ line "  -n             Turns off word segmentation" ++ nl
  ++ line "Output structures:"
  ++ line "  -j             Turns on JSON output"
  ++ line "  -g             Turns on grouping in JSON output (implies '-j')" ++ nl
  ++ line "Output notations:"
  ++ line "  -r             Outputs Romanization"
  ++ line "  -t             Outputs Thai pronunciation"
  ++ line "  -p             Outputs Phonetic form"
  ++ line "  -w             Outputs Raw pronunciation code"
  ++ line "  -s             Outputs Soundex code" ++ nl.

(** Arguments are C strings: no NUL inside, one after the end; reading past it
    is undefined. *)
Definition charAt (s : string) (i : nat) : Res ascii :=
  match get i s with
  | Some c => Ok c
  | None => if Nat.eqb i (String.length s) then Ok Ascii.zero else UB
  end.
(** [s + i] as a string. *)
Fixpoint fromChar (s : string) (i : nat) {struct i} : Res string :=
  match i, s with
  | O, _ => Ok s
  | S i', String _ s' => fromChar s' i'
  | S _, EmptyString => UB
  end.

(** The variables set by the first pass. *)
Record Opts := mkOpts { oCnt : nat; oDict : option string; oBreak : bool; oJson : bool; oGroup : bool }.
Definition counted (o : Opts) : Opts := mkOpts (S (oCnt o)) (oDict o) (oBreak o) (oJson o) (oGroup o).
(** How the first pass goes on: with the next argument, or [return n]. *)
Inductive Pass := Go (o : Opts) | Return (n : Z).

Definition is (a b : ascii) : bool := (a =? b)%char.
(** thpronun.cxx:198-248: one argument; [argv0] is [argv[0]], [argv1] is
    [argv[1]]. *)
Definition firstPassArg (argv0 argv1 : string) (o : Opts) (a : string) : Run Pass :=
  c0 <- lift (charAt a 0) ;;
  if is "-" c0 then
    c1 <- lift (charAt a 1) ;;
    if is "-" c1 then
      t <- lift (fromChar a 2) ;;
      if (t =? "version")%string then out (Version argv0) ;;; done (Return 1)
      else
        t1 <- lift (fromChar argv1 2) ;;
        if (t1 =? "help")%string then out (Usage argv0) ;;; done (Return 1)
        else err ("Unknown option '" ++ a ++ "'" ++ nl) ;;; done (Return 1)
    else if is "V" c1 then out (Version argv0) ;;; done (Return 1)
    else if is "h" c1 then out (Usage argv0) ;;; done (Return 1)
    else if is "d" c1 then
      c2 <- lift (charAt a 2) ;;
      if is Ascii.zero c2 then
        err ("Missing <dict-path> argument for -d" ++ nl) ;;; done (Return 1)
      else
        path <- lift (fromChar a 2) ;;
        done (Go (counted (mkOpts (oCnt o) (Some path) (oBreak o) (oJson o) (oGroup o))))
    else if is "n" c1 then
      done (Go (counted (mkOpts (oCnt o) (oDict o) false (oJson o) (oGroup o))))
    else if is "j" c1 then
      done (Go (counted (mkOpts (oCnt o) (oDict o) (oBreak o) true (oGroup o))))
    else if is "g" c1 then
      done (Go (counted (mkOpts (oCnt o) (oDict o) (oBreak o) true true)))
    else if is "r" c1 || is "s" c1 || is "t" c1 || is "p" c1 || is "w" c1 then
      done (Go (counted o))
    else
      err ("Unknown option '-" ++ String c1 "'" ++ nl) ;;;
      out (Usage argv0) ;;; done (Return 1)
  else done (Go o).
Fixpoint firstPass (argv0 argv1 : string) (o : Opts) (args : list string) : Run Pass :=
  match args with
  | [] => done (Go o)
  | a :: args' =>
      p <- firstPassArg argv0 argv1 o a ;;
      match p with Go o' => firstPass argv0 argv1 o' args' | Return n => done (Return n) end
  end.

(** thpronun.cxx:250-273: the second pass. *)
Definition secondPassArg (isJson isGroup : bool) (a : string) : Run (list Out) :=
  c0 <- lift (charAt a 0) ;;
  if is "-" c0 then
    c1 <- lift (charAt a 1) ;;
    done (if is "r" c1 then [MakeRomanOutput isJson isGroup]
          else if is "s" c1 then [MakeSoundexOutput isJson isGroup]
          else if is "t" c1 then [MakeThaiOutput isJson isGroup]
          else if is "p" c1 then [MakePhoneticOutput isJson isGroup]
          else if is "w" c1 then [MakeRawOutput isJson isGroup]
          else [])
  else done [].
Fixpoint secondPass (isJson isGroup : bool) (args : list string) : Run (list Out) :=
  match args with
  | [] => done []
  | a :: args' =>
      l <- secondPassArg isJson isGroup a ;;
      l' <- secondPass isJson isGroup args' ;;
      done (l ++ l')%list
  end.

(** [Parser::loadExceptDict], parser/parser.cxx:1951-1956. *)
Definition loadExceptDict (p : ParserObj) (path : string) : Res (ParserObj * bool) :=
  match DictOpen (files path) with
  | Ok (d, ok) => Ok (mkParser (Some d) (pBreaks p), ok)
  | Throw => Throw | UB => UB | NoFuel => NoFuel
  end.
(* thpronun/thpronun.cxx:167-184 *)
Definition LoadExceptDict (p : ParserObj) (dictPath : option string) : Run (ParserObj * bool) :=
  match dictPath with
  | Some path =>
      r <- lift (loadExceptDict p path) ;;
      if snd r then done r
      else err ("Failed to load exception dictionary '" ++ path ++ "'" ++ nl) ;;; done r
  | None =>
      r <- lift (loadExceptDict p EXCEPT_DICT_PATH) ;;
      if snd r then done r
      else err ("Failed to load exception dictionary " ++ EXCEPT_DICT_PATH ++ nl) ;;; done r
  end.

(** thpronun.cxx:292-297: the arguments that are not options. *)
Fixpoint parseArgs (p : ParserObj) (outs : list Out) (args : list string) : Run unit :=
  match args with
  | [] => done tt
  | a :: args' =>
      c0 <- lift (charAt a 0) ;;
      (if is "-" c0 then done tt else DoParse p outs a) ;;;
      parseArgs p outs args'
  end.

(* thpronun/thpronun.cxx:186-301; the result is the exit status *)
Definition main (argv : list string) : Run Z :=
  let argv0 := nth 0 argv "" in
  let argv1 := nth 1 argv "" in
  let args := tl argv in
  r <- firstPass argv0 argv1 (mkOpts 0 None true false false) args ;;
  match r with
  | Return n => done n
  | Go o =>
      outs <- secondPass (oJson o) (oGroup o) args ;;
      let outs := match outs with
                  | [] => [MakeThaiOutput (oJson o) (oGroup o); MakeRomanOutput (oJson o) (oGroup o);
                           MakePhoneticOutput (oJson o) (oGroup o)]
                  | _ => outs
                  end in
      l <- LoadExceptDict (mkParser None (oBreak o)) (oDict o) ;;
      (if snd l then done tt
       else err ("Warning: Working without exception dictionary" ++ nl)) ;;;
      (if Z.eqb 1 (Z.of_nat (List.length argv) - Z.of_nat (oCnt o)) then
         doAll (fst l) outs (getlines "" stdin)
       else parseArgs (fst l) outs args) ;;;
      done 0%Z
  end.
End Main.
