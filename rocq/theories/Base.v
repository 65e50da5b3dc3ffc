(** Base.v - outcome monad shared by every part of the model.

    [Res A] is the outcome of running a C++ function that returns an [A]:
    - [Ok a]   normal return;
    - [Throw]  an exception leaves the function ([std::out_of_range] from
               [.at()], [stoi] failures, [range_error] from converters);
    - [UB]     undefined behaviour (dereferencing [end()], reading past a
               buffer, using an erased iterator, a null pointer);
    - [NoFuel] the recursion fuel given to the model ran out.  It stands for
               no C++ behaviour; termination theorems exclude it. *)
From Coq Require Import List NArith ZArith Bool.
Import ListNotations.

Inductive Res (A : Type) : Type :=
| Ok (a : A)
| Throw
| UB
| NoFuel.
Arguments Ok {A} a.
Arguments Throw {A}.
Arguments UB {A}.
Arguments NoFuel {A}.

(** Sequencing: the first abnormal outcome wins (C++ statement order). *)
Definition bind {A B : Type} (m : Res A) (k : A -> Res B) : Res B :=
  match m with
  | Ok a => k a
  | Throw => Throw
  | UB => UB
  | NoFuel => NoFuel
  end.

Declare Scope res_scope.
Delimit Scope res_scope with res.
Notation "x <- m ;; k" := (bind m (fun x => k))
  (at level 61, m at next level, right associativity) : res_scope.
Notation "' p <- m ;; k" := (bind m (fun x => match x with p => k end))
  (at level 61, p pattern, m at next level, right associativity) : res_scope.

Definition isOk {A} (m : Res A) : bool :=
  match m with Ok _ => true | _ => false end.

(** Iterate a fallible function over a list, collecting results in order
    (range-based [for] with an early exit on exception). *)
Fixpoint mapM {A B} (f : A -> Res B) (l : list A) : Res (list B) :=
  match l with
  | [] => Ok []
  | x :: xs =>
      (y <- f x ;; ys <- mapM f xs ;; Ok (y :: ys))%res
  end.

(** Left fold with a fallible step. *)
Fixpoint foldM {A B} (f : B -> A -> Res B) (b : B) (l : list A) : Res B :=
  match l with
  | [] => Ok b
  | x :: xs => (b' <- f b x ;; foldM f b' xs)%res
  end.

(** Membership of a [char16_t] in an [unordered_set<char16_t>]. *)
Definition memN (c : N) (s : list N) : bool := existsb (N.eqb c) s.
