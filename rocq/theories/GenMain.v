(** GenMain.v - model of the program gen-lookup-dict (dict/gen-lookup-dict.c):
    its messages, its files and its exit status.  The data structures and the
    reading of a line are in [GenDict]; here they are run with the messages
    sent to [stderr]. *)
From Coq Require Import List NArith ZArith Bool String Ascii.
From Verif Require Import Base ThUni SylOut Output Dict GenDict Cli.
Import ListNotations.
Local Open Scope string_scope.
Local Open Scope run_scope.

(** [printf ("%08lx", c)] of a 32-bit character (on a platform that passes it
    like a [long], which the C standard does not promise). *)
Definition hexDigit (n : N) : ascii := ascii_of_N (if (n <? 10)%N then 48 + n else 87 + n).
Definition hex8 (c : N) : string :=
  string_of_list_ascii (map (fun k => hexDigit (N.modulo (N.shiftr c k) 16)) [28; 24; 20; 16; 12; 8; 4; 0]%N).

(* dict/gen-lookup-dict.c:197-221: what follows on a trimmed line *)
Definition takeLine (l rest : string) : Run (option (list N * string * string)) :=
  match splitTab l with
  | None => err ("Cannot find TAB delimeter." ++ nl) ;;; err ("Line:" ++ l ++ nl) ;;; done None
  | Some (word, data) =>
      match decodeWord 255 word with
      | None => err ("Fail to convert word '" ++ word ++ "'." ++ nl) ;;; done None
      | Some w => done (Some (cutKey w, data, rest))
      end
  end.
(* dict/gen-lookup-dict.c:180-229 *)
Definition ReadInputR (input : string) : Run (option (list N * string * string)) :=
  match fgets 255 input with
  | None => done None
  | Some (l, rest) => l <- lift (trimLine (cut0 l)) ;; takeLine l rest
  end.

(* dict/gen-lookup-dict.c:247-259: the message for a word that is not stored *)
Definition storeMessage (w : list N) (data : string) : string :=
  "Failed to store word of length " ++ to_string (Z.of_nat (List.length w)) ++ ", data '" ++ data ++ "'" ++ nl
  ++ "Word: [" ++ String.concat "," (map hex8 w) ++ "]" ++ nl.
(* dict/gen-lookup-dict.c:231-276; [None] is EXIT_FAILURE *)
Fixpoint genLoopR (fuel : nat) (input : string) (t : Trie) (bank : DataBank)
    : Run (option (Trie * DataBank)) :=
  match fuel with
  | O => lift NoFuel
  | S fuel' =>
      r <- ReadInputR input ;;
      match r with
      | None => done (Some (t, bank))
      | Some (w, data, rest) =>
          p <- lift (DataBankAddData bank data) ;;
          match trieStore t w (snd p) with
          | None => err (storeMessage w data) ;;; done None
          | Some t' => genLoopR fuel' rest t' (fst p)
          end
      end
  end.
(** What [trie_fwrite] and [DataBankWrite] leave in the output file; their
    results are not looked at (lines 264-265). *)
Definition GenDictR (input : string) : Run (option DictFile) :=
  r <- genLoopR (S (String.length input)) input [] NewDataBank ;;
  done (match r with
        | None => None
        | Some (t, bank) => Some (mkDictFile t (fst (DataBankWrite bank)))
        end).

(** What has become of the output file. *)
Inductive Left := Untouched | Emptied | Dictionary (f : DictFile).
Record Exit := mkExit { status : Z; atOutput : Left }.

(* dict/gen-lookup-dict.c:277-281 *)
Definition GenUsage : string := "Usage: gen-lookup-dict <input-file> <dict-file>" ++ nl.
(** The files: the bytes of a file that can be opened for reading, whether a
    path can be opened for writing, and which paths lead to the same file.
    Opening with "wb" empties the file; reading starts after that.  Writing
    does not fail. *)
Section Main.
Variable readable : string -> option string.
Variable writable : string -> bool.
Variable sameFile : string -> string -> bool.
(* dict/gen-lookup-dict.c:283-323 *)
Definition genMain (argv : list string) : Run Exit :=
  match argv with
  | [_; source; target] =>
      match readable source with
      | None =>
          err ("Fail to open input file """ ++ source ++ """ for reading." ++ nl) ;;;
          done (mkExit 1 Untouched)
      | Some bytes =>
          if writable target then
            r <- GenDictR (if sameFile source target then "" else bytes) ;;
            match r with
            | None => err ("Fail to generate dictionary" ++ nl) ;;; done (mkExit 1 Emptied)
            | Some f => done (mkExit 0 (Dictionary f))
            end
          else
            err ("Fail to open output file """ ++ target ++ """ for writing." ++ nl) ;;;
            done (mkExit 1 Untouched)
      end
  | _ => out GenUsage ;;; done (mkExit 1 Untouched)
  end.
End Main.
