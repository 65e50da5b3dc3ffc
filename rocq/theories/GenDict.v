(** GenDict.v - model of dict/gen-lookup-dict.c, and of reading its output
    (dict/dict.cxx).

    A file stream is the string of the bytes not read yet.  A dictionary file
    is a serialised trie followed by the bytes of the data bank; libdatrie's
    serialisation is external and modelled as the trie itself ([DictFile]). *)
From Coq Require Import String List NArith ZArith Bool Ascii.
From Verif Require Import Base ThUni Dict.
Import ListNotations.
Local Open Scope Z_scope.

Definition byteZ (c : ascii) : Z := Z.of_N (N_of_ascii c).

(* dict/gen-lookup-dict.c:22-28: [bPool] holds the [dataSize] bytes in use;
   [bPoolSize] bytes are allocated. *)
Record DataBank := mkBank { bPool : string; bPoolSize : Z }.
Definition dataSize (bank : DataBank) : Z := Z.of_nat (String.length (bPool bank)).
(* dict/gen-lookup-dict.c:30-53; [malloc] and [realloc] do not fail *)
Definition MIN_POOL_SIZE : Z := 256.
Definition NewDataBank : DataBank := mkBank EmptyString MIN_POOL_SIZE.
(** Conversion of a [size_t] to [int]. *)
Definition toInt (z : Z) : Z :=
  let m := z mod 4294967296 in if m <? 2147483648 then m else m - 4294967296.
(* dict/gen-lookup-dict.c:63-81: the size of the block afterwards; doubling may
   overflow [int] *)
Definition DataBankAllocate (bank : DataBank) (nBytes : Z) : Res Z :=
  let newSize := toInt (dataSize bank + nBytes) in
  if bPoolSize bank <? newSize then
    if 2147483647 <? bPoolSize bank * 2 then UB
    else Ok (Z.max (bPoolSize bank * 2) newSize)
  else Ok (bPoolSize bank).
(* dict/gen-lookup-dict.c:83-91: the text and its terminator are appended;
   the result is the offset of the text.  Writing past the block is
   undefined. *)
Definition DataBankAddData (bank : DataBank) (data : string) : Res (DataBank * Z) :=
  let n := Z.of_nat (String.length data) + 1 in
  (size <- DataBankAllocate bank n ;;
   if size <? dataSize bank + n then UB
   else Ok (mkBank (bPool bank ++ data ++ String Ascii.zero "") size, dataSize bank))%res.

(* dict/gen-lookup-dict.c:93-104 *)
Definition FileWriteInt32 (v : Z) : string :=
  let b k := ascii_of_N (Z.to_N (Z.shiftr v k mod 256)) in
  String (b 24) (String (b 16) (String (b 8) (String (b 0) ""))).
(* dict/gen-lookup-dict.c:106-117: the bytes written and whether the function
   reports success; [fwrite] of one item of size 0 writes nothing and
   returns 0. *)
Definition DataBankWrite (bank : DataBank) : string * bool :=
  ((FileWriteInt32 (dataSize bank) ++ bPool bank)%string,
   negb (dataSize bank =? 0)).

(** [trie_store]: fails when a character is outside the alphabet; a stored key
    gets the new value. *)
Definition trieStore (t : Trie) (k : list N) (v : Z) : option Trie :=
  if forallb inAlphabet k
  then Some ((k, v) :: filter (fun kv => negb (keyEqb k (fst kv))) t)
  else None.

(** ** Reading the input file *)
(** [fgets (line, 256, input)]: at most 255 bytes, up to and including a
    newline; [None] at end of file. *)
Fixpoint fgetsN (n : nat) (s : string) : string * string :=
  match n, s with
  | O, _ => (EmptyString, s)
  | _, EmptyString => (EmptyString, EmptyString)
  | S n', String c s' =>
      if Ascii.eqb c (ascii_of_nat 10) then (String c EmptyString, s')
      else let '(l, r) := fgetsN n' s' in (String c l, r)
  end.
Definition fgets (n : nat) (s : string) : option (string * string) :=
  match s with EmptyString => None | _ => Some (fgetsN n s) end.
(** A C string ends at its first NUL. *)
Fixpoint cut0 (s : string) : string :=
  match s with
  | EmptyString => EmptyString
  | String c s' => if Ascii.eqb c Ascii.zero then EmptyString else String c (cut0 s')
  end.
(** [strchr (line, '\t')]: the parts before and after. *)
Fixpoint splitTab (s : string) : option (string * string) :=
  match s with
  | EmptyString => None
  | String c s' =>
      if Ascii.eqb c (ascii_of_nat 9) then Some (EmptyString, s')
      else match splitTab s' with
           | Some (a, b) => Some (String c a, b)
           | None => None
           end
  end.
(** Remove one trailing newline (lines 191-195).  [line[lineLeft - 1]] of an
    empty line is a read before the buffer. *)
Fixpoint dropNl (s : string) : string :=
  match s with
  | EmptyString => EmptyString
  | String c EmptyString =>
      if Ascii.eqb c (ascii_of_nat 10) then EmptyString else String c EmptyString
  | String c s' => String c (dropNl s')
  end.
Definition trimLine (s : string) : Res string :=
  match s with EmptyString => UB | _ => Ok (dropNl s) end.

(** The number of leading one bits after the top bit, counted by the loop of
    lines 154-157 with the [check] mask starting at 0x40; at most 7 rounds
    before [check] becomes 0.  Returns (check as an index 6..0 or -1, mask). *)
Fixpoint leadLoop (k : nat) (h check mask : Z) : Z * Z :=
  match k with
  | O => (check, mask)
  | S k' =>
      if Z.land h check =? 0 then (check, mask)
      else leadLoop k' h (Z.shiftr check 1) (Z.shiftr mask 1)
  end.
(** The loop of lines 163-171: one continuation byte per doubling of [check]
    until it is 0x40.  [check] is an [unsigned char]; when it is 0 it never
    becomes 0x40 and the loop ends only at a byte that is not a continuation
    byte. The string ends with a NUL, which is not one. *)
Fixpoint contLoop (s : string) (check uc : Z) : option (Z * string) :=
  if check =? 64 then Some (uc, s)
  else
    match s with
    | EmptyString => None
    | String c s' =>
        if negb (Z.land (byteZ c) 192 =? 128) then None
        else contLoop s' (Z.land (Z.shiftl check 1) 255)
                      (Z.land (Z.lor (Z.shiftl uc 6) (Z.land (byteZ c) 63))
                              4294967295)
    end.
(* dict/gen-lookup-dict.c:138-178; [None] is EXIT_FAILURE *)
Definition GetUTF8 (s : string) : option (Z * string) :=
  match s with
  | EmptyString => None
  | String c s' =>
      let h := byteZ c in
      if h =? 0 then None
      else if Z.land h 128 =? 0 then Some (h, s')
      else
        let '(check, mask) := leadLoop 8 h 64 63 in
        if check =? 64 then None
        else contLoop s' check (Z.land h mask)
  end.
(** Lines 209-221: decode until the end of the word or 255 characters. *)
Fixpoint decodeWord (k : nat) (s : string) : option (list N) :=
  match s with
  | EmptyString => Some []
  | _ =>
      match k with
      | O => Some []
      | S k' =>
          match GetUTF8 s with
          | None => None
          | Some (u, s') =>
              match decodeWord k' s' with
              | None => None
              | Some l => Some (Z.to_N u :: l)
              end
          end
      end
  end.
(** The key [trie_store] sees ends at the first 0 character. *)
Fixpoint cutKey (k : list N) : list N :=
  match k with
  | [] => []
  | c :: k' => if N.eqb c 0 then [] else c :: cutKey k'
  end.

(* dict/gen-lookup-dict.c:180-229: [None] is EXIT_FAILURE (end of file, a line
   without a tab, a word that is not UTF-8 -- the caller cannot tell). *)
Definition ReadInput (input : string) : Res (option (list N * string * string)) :=
  match fgets 255 input with
  | None => Ok None
  | Some (line, rest) =>
      (line <- trimLine (cut0 line) ;;
       Ok (match splitTab line with
           | None => None
           | Some (word, data) =>
               match decodeWord 255 word with
               | None => None
               | Some w => Some (cutKey w, data, rest)
               end
           end))%res
  end.

(** A dictionary file: the trie and the bytes after it. *)
Record DictFile := mkDictFile { fTrie : Trie; fBytes : string }.

(* dict/gen-lookup-dict.c:231-276.  [Ok None] is EXIT_FAILURE.  Each round
   reads at least one byte. *)
Fixpoint genLoop (fuel : nat) (input : string) (t : Trie) (bank : DataBank)
    : Res (option (Trie * DataBank)) :=
  match fuel with
  | O => NoFuel
  | S fuel' =>
      (r <- ReadInput input ;;
       match r with
       | None => Ok (Some (t, bank))
       | Some (w, data, rest) =>
           p <- DataBankAddData bank data ;;
           match trieStore t w (snd p) with
           | None => Ok None
           | Some t' => genLoop fuel' rest t' (fst p)
           end
       end)%res
  end.
Definition GenDict (input : string) : Res (option DictFile) :=
  (r <- genLoop (S (String.length input)) input [] NewDataBank ;;
   Ok (match r with
       | None => None
       | Some (t, bank) => Some (mkDictFile t (fst (DataBankWrite bank)))
       end))%res.

(** ** Reading the dictionary file *)
(* dict/dict.cxx:15-24: big-endian, assembled in [int] *)
Definition ReadInt32 (s : string) : option (Z * string) :=
  match s with
  | String a (String b (String c (String d s'))) =>
      let v := byteZ a * 16777216 + byteZ b * 65536 + byteZ c * 256 + byteZ d in
      Some (if v <? 2147483648 then v else v - 4294967296, s')
  | _ => None
  end.
(* dict/dict.cxx:26-40: [new char[n]] throws for a negative size (for a size
   that exceeds memory too, which is not modelled); [fread] of size 0
   returns 0. *)
Definition ReadDataBank (s : string) : Res (option string) :=
  match ReadInt32 s with
  | None => Ok None
  | Some (n, s') =>
      if n <? 0 then Throw
      else if n =? 0 then Ok None
      else if Z.of_nat (String.length s') <? n then Ok None
      else Ok (Some (substring 0 (Z.to_nat n) s'))
  end.
(** What [fopen] and [trie_fread] can find at a path: nothing, a file that is
    not a trie (some bytes are read from it), or a trie and the bytes after. *)
Inductive PathContent :=
| NoFile
| NotATrie (rest : string)
| ATrie (f : DictFile).
(* dict/dict.cxx:42-56: the object after [open] and the returned flag *)
Definition DictOpen (p : PathContent) : Res (Dict * bool) :=
  match p with
  | NoFile => Ok (mkDict None None, false)
  | NotATrie rest =>
      (b <- ReadDataBank rest ;; Ok (mkDict None b, false))%res
  | ATrie f =>
      (b <- ReadDataBank (fBytes f) ;;
       Ok (mkDict (Some (fTrie f)) b,
           match b with Some _ => true | None => false end))%res
  end.
