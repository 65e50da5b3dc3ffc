(** TextGrammar.v - specification: how any text is read.

    A text consists of Thai stretches (Thai letters and full stops), which the
    word breaks divide into words, and of foreign stretches.  The reading
    proceeds from position to position; like [Grammar] this does not use the
    parser model. *)
From Coq Require Import String List NArith ZArith Bool Arith.
From Verif Require Import Base ThUni ThCons Syl Utf Spec Prop_Syl Grammar.
Import ListNotations.
Local Open Scope nat_scope.

Definition fullStop : N := 46%N.
Definition thaiChar (c : N) : bool := thaiLetter c || (c =? fullStop)%N.
(** These vowels take the next letter even if it stands in the next word. *)
Definition eagerVowel (c : N) : Prop := oneOf "แโใไ" c.

(** ** Letters by name *)
Definition nameOf (c : N) (e : Z) : Syl :=
  SylOf (soundOf c) SEC_NONE V_AUU EC_NONE (match classOf c with HIGH => CHATTAWA | _ => SAMAN end) e.
(** The names of the consonants [g] written from [p] on; the last name extends
    over the full stop.  A full stop alone stands for itself. *)
Fixpoint names (p : Z) (g : list N) : SylString :=
  match g with
  | [] => []
  | [c] => [nameOf c (p + 2)]
  | c :: g => nameOf c (p + 1) :: names (p + 1) g
  end%Z.
Inductive Spelled (p : Z) : list N -> SylString -> list N -> Prop :=
| Spl_group g r : g <> [] -> length g <= 4 -> Forall (fun c => consonant c = true) g ->
    Spelled p (g ++ fullStop :: r) (names p g) r
| Spl_stop r : Spelled p (fullStop :: r) [SylLiteral (p + 1) [fullStop]] r
| Spl_one c : consonant c = true -> Spelled p [c] [nameOf c (p + 1)] [].

Section Text.
Variable D : list N -> list SylString -> Prop.
Variable w : list N.
Variable brk : list nat.
Notation n := (length w).

Definition thaiAt (p : nat) : Prop := exists c, nth_error w p = Some c /\ thaiChar c = true.
Definition between (p q : nat) : list N := firstn (q - p) (skipn p w).
(** The word that is being read at [p] ends at [q]. *)
Record wordTo (p q : nat) : Prop := {
  wt_lt : p < q;
  wt_le : q <= n;
  wt_thai : forall k, p <= k < q -> thaiAt k;
  wt_brk : forall x, In x brk -> ~ (p < x < q);
  wt_end : q = n \/ In q brk \/ ~ thaiAt q
}.
(** A foreign stretch. *)
Record foreignTo (p q : nat) : Prop := {
  ft_lt : p < q;
  ft_le : q <= n;
  ft_none : forall k, p <= k < q -> ~ thaiAt k;
  ft_end : q = n \/ thaiAt q
}.
(** Letters are read by name at the start and after a blank or a full stop. *)
Definition namePlace (p : nat) : Prop :=
  p = 0 \/ exists c, nth_error w (p - 1) = Some c /\ (c = 0x20 \/ c = fullStop)%N.
(** What a reading at [p] sees of the text. *)
Definition seenTo (p q : nat) : nat :=
  match nth_error w p with
  | Some c => if memN c (letters "แโใไ") && (q =? p + 1) then q + 1 else q
  | None => q
  end.
(** A listed word at the front of [t]. *)
Definition listedWord (t k r : list N) (strs : list SylString) : Prop :=
  wordAt D t k r strs /\ k <> [] /\ ~ In fullStop k.

(** Moves: where a syllable starts, and the syllable with its end. *)
Definition marker (p e : nat) : Z := (- (Z.of_nat p * 100 + Z.of_nat e))%Z.
Definition moves (p : nat) (pre : option Said) (x : Said) (e : nat) : list (Z * Syl) :=
  match pre with
  | None => [(Z.of_nat p, sylAt x (Z.of_nat e))]
  | Some y => [(Z.of_nat p, sylAt y (marker p e)); (marker p e, sylAt x (Z.of_nat e))]
  end.

(** One step of the reading from [p]: the moves, and where it leads.  [lk]: the
    consonant at [p] also closes the syllable before. *)
Inductive Pass (p : nat) (lk : bool) : list (Z * Syl) -> nat -> bool -> Prop :=
| P_foreign q : foreignTo p q ->
    Pass p lk [(Z.of_nat p, SylLiteral (Z.of_nat q) (between p q))] q lk
| P_word q k r strs : wordTo p q -> listedWord (between p q) k r strs ->
    Pass p lk (flat_map (fun s => along (Z.of_nat p) (shiftEndPos (Z.of_nat p) s)) strs) (p + length k) false
| P_names q s r : wordTo p q -> (forall k r strs, ~ listedWord (between p q) k r strs) ->
    namePlace p -> Spelled (Z.of_nat p) (between p q) s r ->
    Pass p lk (along (Z.of_nat p) s) (q - length r) false
| P_read q pre x r lk' : wordTo p q -> (forall k r strs, ~ listedWord (between p q) k r strs) ->
    ~ (namePlace p /\ exists s r, Spelled (Z.of_nat p) (between p q) s r) ->
    seenTo p q <= n -> Reads lk (between p (seenTo p q)) pre x r lk' ->
    Pass p lk (moves p pre x (seenTo p q - length r)) (seenTo p q - length r) lk'.

(** A full stop that is not read by itself: the syllable before it extends
    over it. *)
Definition tacit (p : nat) : Prop := nth_error w p = Some fullStop /\ ~ namePlace p.
Definition extend (p : nat) (es : list (Z * Syl)) : list (Z * Syl) :=
  map (fun m => if (endPos (snd m) =? Z.of_nat p)%Z then (fst m, setEndPos (snd m) (Z.of_nat (p + 1))) else m) es.
Inductive Step (p : nat) (lk : bool) : list (Z * Syl) -> nat -> bool -> Prop :=
| St_plain es e lk' : Pass p lk es e lk' -> ~ tacit e -> Step p lk es e lk'
| St_stop es e lk' : Pass p lk es e lk' -> tacit e -> Step p lk (extend e es) (e + 1) lk'.

Inductive Comes : nat -> bool -> Prop :=
| Co_start : Comes 0 false
| Co_step p lk es e lk' : Comes p lk -> Step p lk es e lk' -> Comes e lk'.
Inductive Ends : nat -> bool -> Prop :=
| En_end lk : Ends n lk
| En_step p lk es e lk' : Step p lk es e lk' -> Ends e lk' -> Ends p lk.
(** The moves on a complete reading of the text, and the pronunciations made of
    them. *)
Definition OnWay (f : Z) (v : Syl) : Prop :=
  exists p lk es e lk', Comes p lk /\ Step p lk es e lk' /\ Ends e lk' /\ In (f, v) es.
Fixpoint Path (f : Z) (s : SylString) (e : Z) : Prop :=
  match s with [] => f = e | v :: s => OnWay f v /\ Path (endPos v) s e end.
Definition Reading (s : SylString) : Prop := s <> [] /\ Path 0 s (Z.of_nat n).
(** The reading comes to one of the eager vowels at the very end of the
    text. *)
Definition stuck : Prop :=
  exists p lk c, Comes p lk /\ p + 1 = n /\ nth_error w p = Some c /\ eagerVowel c /\
    forall k r strs, ~ listedWord [c] k r strs.
End Text.
