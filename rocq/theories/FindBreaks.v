(** FindBreaks.v - the call of libthai's word breaker. *)
From Coq Require Import List NArith Bool String Arith.
From Verif Require Import Base ThUni Syl Lattice Dag PronDag Utf Dict Parser.
Import ListNotations.
Local Open Scope nat_scope.
Local Open Scope res_scope.

(** What a callee sees of a string passed by [c_str]: the characters before the
    first NUL (parser/parser.cxx:1964-1967, 1969). *)
Fixpoint cstr (w : list N) : list N :=
  match w with
  | [] => []
  | c :: w => if N.eqb c 0 then [] else c :: cstr w
  end.
(** [std::vector::resize]. *)
Definition resize (l : list nat) (k : nat) : list nat := firstn k l ++ repeat 0 (k - List.length l).
(** A callee stores into the front of a buffer. *)
Definition store (buf l : list nat) : list nat := l ++ skipn (List.length l) buf.

Section Breaks.
(** [th_brk_wc_find_breaks]: for a string and the size of the buffer, the
    positions stored and the number returned. *)
Variable lib : list N -> nat -> list nat * nat.
(** parser/parser.cxx:1958-1974; [thBrk] is whether there is a breaker.  The copy
    to [wchar_t] keeps every 16-bit unit.  Storing past the end of the buffer is
    undefined behaviour. *)
Definition FindBreaks (thBrk : bool) (w : list N) : Res (list nat) :=
  if negb thBrk then Ok []
  else
    let brkPos := repeat 0 (List.length w) in
    let r := lib (cstr w) (List.length brkPos) in
    if List.length brkPos <? List.length (fst r) then UB
    else Ok (resize (store brkPos (fst r)) (snd r)).
(** parser/parser.cxx:1976-1987. *)
Definition parseWordB (ct : CType) (thBrk : bool) (fuel : nat) (dict : option Dict) (word : string) : Res PronunDAG :=
  w <- from_bytes word ;;
  brkPos <- FindBreaks thBrk w ;;
  ParseU16F ct fuel w dict brkPos.
End Breaks.
