(** Output.v - model of output/output-{delim,json,gjson,roman}.cxx. *)
From Coq Require Import List NArith ZArith Bool String Ascii.
From Verif Require Import Base ThCons Syl Utf Lattice Dag PronDag SylOut ThaiOut.
Import ListNotations.
Local Open Scope string_scope.

Definition nl : string := String (ascii_of_nat 10) EmptyString.
Definition dquote : string := String (ascii_of_nat 34) EmptyString.

Section WithSylOutput.
Variable sylOut : Syl -> Res string.   (* mSylOutput->output *)

(* output/output-delim.cxx:9-29; [isBegin] is the loop flag *)
Fixpoint delimLoop (delim : ascii) (isBegin : bool) (s : SylString) : Res string :=
  match s with
  | [] => Ok ""
  | syl :: s' =>
      if syl_eqb syl Blank then
        (r <- delimLoop delim true s' ;; Ok (" " ++ r))%res
      else
        (o <- sylOut syl ;;
         r <- delimLoop delim false s' ;;
         Ok ((if isBegin then "" else String delim "") ++ o ++ r))%res
  end.
Definition delimOutputStr (delim : ascii) (s : SylString) : Res string :=
  delimLoop delim true s.
(* output/output-delim.cxx:31-41 *)
Definition delimOutputList (delim : ascii) (l : list SylString) : Res string :=
  (ls <- mapM (delimOutputStr delim) l ;;
   Ok (String.concat "" (map (fun x => x ++ nl) ls)))%res.
(* output/output-delim.cxx:43-47 *)
Definition delimOutputDAG (delim : ascii) (d : PronunDAG) : Res string :=
  (l <- DAGSylStrings d 0 ;; delimOutputList delim l)%res.

(* output/output-json.cxx:9-22: [*i] of an empty string is undefined *)
Definition jsonOutputStr (s : SylString) : Res string :=
  match s with
  | [] => UB
  | x :: s' =>
      (o <- sylOut x ;;
       os <- mapM sylOut s' ;;
       Ok ("[" ++ dquote ++ o ++ dquote
           ++ String.concat "" (map (fun y => "," ++ dquote ++ y ++ dquote) os)
           ++ "]"))%res
  end.
(* output/output-json.cxx:24-38: [*i] of an empty list is undefined *)
Definition jsonOutputList (l : list SylString) : Res string :=
  match l with
  | [] => UB
  | x :: l' =>
      (o <- jsonOutputStr x ;;
       os <- mapM jsonOutputStr l' ;;
       Ok ("[" ++ o ++ String.concat "" (map (fun y => "," ++ y) os) ++ "]"))%res
  end.
(* output/output-json.cxx:40-44 *)
Definition jsonOutputDAG (d : PronunDAG) : Res string :=
  (l <- DAGSylStrings d 0 ;; jsonOutputList l)%res.

(** "[" e1 "," e2 ... "]": the nested loops of output/output-gjson.cxx:27-48. *)
Definition bracket (l : list string) : string := "[" ++ String.concat "," l ++ "]".
(* output/output-gjson.cxx:22-51 *)
Definition gjsonOutputFrac (f : PronunFrac) : Res string :=
  (os <- mapM jsonOutputStr (alts f) ;; Ok (bracket os))%res.
Definition gjsonOutputChain (c : PronunChain) : Res string :=
  (os <- mapM gjsonOutputFrac c ;; Ok (bracket os))%res.
Definition gjsonOutputLatt (l : PronunLatt) : Res string :=
  (os <- mapM gjsonOutputChain l ;; Ok (bracket os))%res.
(* output/output-gjson.cxx:16-20 *)
Definition gjsonOutputDAG (d : PronunDAG) : Res string :=
  (fd <- fracDAG d ;; l <- fracLattice fd ;; gjsonOutputLatt l)%res.
(* output/output-gjson.cxx:10-14 *)
Definition gjsonOutputList (l : list SylString) : Res string :=
  gjsonOutputDAG (pronDAGOfList l).
End WithSylOutput.

(** [toupper] in the C locale. *)
Definition toupper (c : ascii) : ascii :=
  let n := N_of_ascii c in
  if (N.leb 97 n && N.leb n 122)%bool then ascii_of_N (n - 32) else c.
Definition capFirst (s : string) : string :=
  match s with String c s' => String (toupper c) s' | EmptyString => s end.

(* output/output-roman.cxx:21-40; [isBegin] is the flag of line 21, which is
   set at a blank and never cleared *)
Fixpoint romanLoop (isBegin : bool) (prev : Syl) (s : SylString) : Res string :=
  match s with
  | [] => Ok ""
  | x :: s' =>
      if syl_eqb x Blank then
        (r <- romanLoop true x s' ;; Ok (" " ++ r))%res
      else
        let hy := negb isBegin
                  && (ics_eqb ICS_A (iCons1 x)
                      || (ec_eqb EC_NONE (eCons prev) && ics_eqb NGA (iCons1 x))) in
        (o <- RomanSylOutput x ;;
         r <- romanLoop isBegin x s' ;;
         Ok ((if hy then "-" else "") ++ o ++ r))%res
  end.
(* output/output-roman.cxx:11-43: [*i] of an empty string is undefined *)
Definition romanOutputStr (isCapitalize : bool) (s : SylString) : Res string :=
  match s with
  | [] => UB
  | x :: s' =>
      (o <- RomanSylOutput x ;;
       r <- romanLoop false x s' ;;
       Ok ((if isCapitalize then capFirst o else o) ++ r))%res
  end.
(* output/output-roman.cxx:45-55 *)
Definition romanOutputList (cap : bool) (l : list SylString) : Res string :=
  (ls <- mapM (romanOutputStr cap) l ;;
   Ok (String.concat "" (map (fun x => x ++ nl) ls)))%res.
(* output/output-roman.cxx:57-61 *)
Definition romanOutputDAG (cap : bool) (d : PronunDAG) : Res string :=
  (l <- DAGSylStrings d 0 ;; romanOutputList cap l)%res.
