(** Dag.v - model of lattice/dag.{h,inl}, generic in the edge value. *)
From Coq Require Import List ZArith Bool.
From Verif Require Import Base.
Import ListNotations.
Local Open Scope Z_scope.

Section Dag.
Variable T : Type.
Variable veqb : T -> T -> bool.   (* TEdgeVal::operator== *)

(* lattice/dag.h:14-23 *)
Record DAGEdge := mkEdge { target : Z; edgeVal : T }.

(** [std::multimap<int, DAGEdge>]: entries sorted by key, insertion order
    within equal keys. *)
Definition MMap := list (Z * DAGEdge).

(** [multimap::emplace]: at the end of the range of equal keys. *)
Fixpoint mmEmplace (m : MMap) (k : Z) (e : DAGEdge) : MMap :=
  match m with
  | [] => [(k, e)]
  | (k', e') :: m' =>
      if k <? k' then (k, e) :: m else (k', e') :: mmEmplace m' k e
  end.
(** [multimap::equal_range] as the list of its elements. *)
Definition mmRange (m : MMap) (k : Z) : list DAGEdge :=
  map snd (filter (fun p => fst p =? k) m).
(** [multimap::count]. *)
Definition mmCount (m : MMap) (k : Z) : nat := length (mmRange m k).

(** Erase the first element of the range of [k] that matches
    (dag.inl:170-177 and 179-186); the flag tells whether one was found. *)
Fixpoint mmEraseFirst (m : MMap) (k t : Z) (v : T) : MMap * bool :=
  match m with
  | [] => ([], false)
  | (k', e') :: m' =>
      if (k' =? k) && ((target e' =? t) && veqb (edgeVal e') v)
      then (m', true)
      else let '(r, b) := mmEraseFirst m' k t v in ((k', e') :: r, b)
  end.
(** Erase every element of the range of [k] with target [t]
    (dag.inl:197-205 and 207-215). *)
Definition mmEraseAll (m : MMap) (k t : Z) : MMap * bool :=
  (filter (fun p => negb ((fst p =? k) && (target (snd p) =? t))) m,
   existsb (fun p => (fst p =? k) && (target (snd p) =? t)) m).

(* lattice/dag.h:61-63 *)
Record DAG := mkDAG { mFrom : MMap; mTo : MMap }.
(* lattice/dag.inl:30-32 *)
Definition dagEmpty : DAG := mkDAG [] [].

(* lattice/dag.inl:42-54 *)
Definition isEdgeExist (d : DAG) (from to : Z) (v : T) : bool :=
  existsb (fun e => (target e =? to) && veqb (edgeVal e) v)
          (mmRange (mFrom d) from).
(* lattice/dag.inl:56-68 *)
Definition outDegree (d : DAG) (from : Z) : nat := mmCount (mFrom d) from.
Definition inDegree (d : DAG) (to : Z) : nat := mmCount (mTo d) to.
(* lattice/dag.inl:70-84 *)
Definition outEdges (d : DAG) (from : Z) : list DAGEdge := mmRange (mFrom d) from.
Definition inEdges (d : DAG) (to : Z) : list DAGEdge := mmRange (mTo d) to.

(* lattice/dag.inl:151-162 *)
Definition addEdge (d : DAG) (from to : Z) (v : T) : DAG * bool :=
  if isEdgeExist d from to v then (d, false)
  else (mkDAG (mmEmplace (mFrom d) from (mkEdge to v))
              (mmEmplace (mTo d) to (mkEdge from v)), true).
(* lattice/dag.inl:164-189 *)
Definition removeEdge (d : DAG) (from to : Z) (v : T) : DAG * bool :=
  let '(f, b1) := mmEraseFirst (mFrom d) from to v in
  let '(t, b2) := mmEraseFirst (mTo d) to from v in
  (mkDAG f t, b1 || b2).
(* lattice/dag.inl:191-218 *)
Definition removeDirectEdges (d : DAG) (from to : Z) : DAG * bool :=
  let '(f, b1) := mmEraseAll (mFrom d) from to in
  let '(t, b2) := mmEraseAll (mTo d) to from in
  (mkDAG f t, b1 || b2).
(* lattice/dag.inl:220-227 *)
Definition unionDAG (d other : DAG) : DAG :=
  fold_left (fun acc p =>
               fst (addEdge acc (fst p) (target (snd p)) (edgeVal (snd p))))
            (mFrom other) d.
End Dag.

Arguments mkEdge {T}.
Arguments target {T}.
Arguments edgeVal {T}.
Arguments mkDAG {T}.
Arguments mFrom {T}.
Arguments mTo {T}.
Arguments dagEmpty {T}.
Arguments mmEmplace {T}.
Arguments mmRange {T}.
Arguments mmCount {T}.
Arguments mmEraseFirst {T}.
Arguments mmEraseAll {T}.
Arguments isEdgeExist {T}.
Arguments outDegree {T}.
Arguments inDegree {T}.
Arguments outEdges {T}.
Arguments inEdges {T}.
Arguments addEdge {T}.
Arguments removeEdge {T}.
Arguments removeDirectEdges {T}.
Arguments unionDAG {T}.
