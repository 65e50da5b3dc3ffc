(** Lattice.v - model of lattice/lattice.{h,inl,cxx}. *)
From Coq Require Import List ZArith Bool.
From Verif Require Import Base ThCons Syl.
Import ListNotations.

(* lattice/lattice.h:12-44 *)
Record PronunFrac := mkFrac { alts : list SylString; fracEndPos : Z }.

(* lattice/lattice.inl:11-13 *)
Definition fracEmpty : PronunFrac := mkFrac [] (-1).

(* lattice/lattice.cxx:23-36 -- skip smaller alternatives, then insert unless
   the one reached is == *)
Fixpoint altInsert (l : list SylString) (s : SylString) : list SylString :=
  match l with
  | [] => [s]
  | x :: l' =>
      if str_ltb x s then x :: altInsert l' s
      else if str_eqb x s then l
      else s :: l
  end.
Definition fracAddStr (f : PronunFrac) (s : SylString) : PronunFrac :=
  mkFrac (altInsert (alts f) s) (fracEndPos f).
(* lattice/lattice.cxx:13-21 *)
Definition fracAdd (f g : PronunFrac) : PronunFrac :=
  fold_left fracAddStr (alts g) f.
(* lattice/lattice.inl:15-20 *)
Definition fracOf (pos : Z) (s : SylString) : PronunFrac :=
  fracAddStr (mkFrac [] pos) s.
(* lattice/lattice.inl:48-52 *)
Definition fracAltCount (f : PronunFrac) : nat := length (alts f).
(* lattice/lattice.cxx:38-48 *)
Fixpoint alts_eqb (a b : list SylString) : bool :=
  match a, b with
  | x :: a', y :: b' => if negb (str_eqb x y) then false else alts_eqb a' b'
  | [], [] => true
  | _, _ => false
  end.
Definition frac_eqb (f g : PronunFrac) : bool := alts_eqb (alts f) (alts g).

(** [*begin() += other] on a non-empty alternative list. *)
Definition altsAppendFirst (f : PronunFrac) (s : SylString) : PronunFrac :=
  match alts f with
  | x :: l => mkFrac ((x ++ s) :: l) (fracEndPos f)
  | [] => f
  end.

(* lattice/lattice.h:46-71: a chain is the list of its fractions;
   lattice/lattice.h:73-99: a lattice is the list of its chains. *)
Definition PronunChain := list PronunFrac.
Definition PronunLatt := list PronunChain.

(* lattice/lattice.cxx:54-69.  [absorb f l] is the inner while loop at a
   single-alternative fraction [f] followed by [l]; it returns the grown
   fraction and the rest of the list, where the outer for loop continues. *)
Fixpoint absorb (f : PronunFrac) (l : list PronunFrac)
    : PronunFrac * list PronunFrac :=
  match l with
  | g :: l' =>
      match alts g with
      | [s] => absorb (altsAppendFirst f s) l'
      | _ => (f, l)
      end
  | [] => (f, [])
  end.
(** Structural version of the outer loop: [acc] is the current single
    fraction still absorbing, if any.  Equivalent to calling [absorb] at every
    single fraction; see [chainMergeSingles_unfold] in LatticeProofs.v. *)
Fixpoint mergeFrom (cur : option PronunFrac) (l : list PronunFrac)
    : list PronunFrac :=
  match l with
  | [] => match cur with Some f => [f] | None => [] end
  | g :: l' =>
      match cur, alts g with
      | Some f, [s] => mergeFrom (Some (altsAppendFirst f s)) l'
      | Some f, _ => f :: g :: mergeFrom None l'
      | None, [_] => mergeFrom (Some g) l'
      | None, _ => g :: mergeFrom None l'
      end
  end.
Definition chainMergeSingles (c : PronunChain) : PronunChain := mergeFrom None c.
(* lattice/lattice.cxx:75-83 *)
Definition lattMergeSingles (l : PronunLatt) : PronunLatt :=
  map chainMergeSingles l.
