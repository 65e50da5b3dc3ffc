(** Spec.v - the specification vocabulary of the property theorems: what a
    syllable says, what a graph contains, its paths, what a lattice denotes.
    Nothing here computes with the algorithms of the model. *)
From Coq Require Import List ZArith NArith Bool.
From Verif Require Import Base ThCons Syl Lattice Dag PronDag.
Import ListNotations.
Local Open Scope Z_scope.

(** ** Syllables *)
(** What a syllable says: its literal text or its five components. *)
Definition spoken (s : Syl)
  : list N + (EInitConsSound * ESecInitCons * EVowel * EEndConsClass * ETone) :=
  match literal s with
  | [] => inr (iCons1 s, iCons2 s, vowel s, eCons s, tone s)
  | l => inl l
  end.
(** Same content and same end position. *)
Definition sameVal (a b : Syl) : Prop := spoken a = spoken b /\ endPos a = endPos b.
(** Strings that say the same. *)
Definition strEq (a b : SylString) : Prop := map spoken a = map spoken b.
Definition strLt (a b : SylString) : Prop := str_ltb a b = true.

(** ** Graphs *)
Section Graph.
Variable T : Type.
Notation DAGT := (DAG T).
(** The stored edges (from, to, value) read from the outgoing index and from
    the incoming index. *)
Definition fwd (p : Z * DAGEdge T) : Z * Z * T := (fst p, target (snd p), edgeVal (snd p)).
Definition bwd (p : Z * DAGEdge T) : Z * Z * T := (target (snd p), fst p, edgeVal (snd p)).
Definition edgesF (d : DAGT) : list (Z * Z * T) := map fwd (mFrom d).
Definition edgesT (d : DAGT) : list (Z * Z * T) := map bwd (mTo d).
Definition InE (d : DAGT) (f t : Z) (v : T) : Prop := In (f, t, v) (edgesF d).

(** A path is the list of its edges. *)
Inductive Path (d : DAGT) : Z -> list (DAGEdge T) -> Z -> Prop :=
| P_nil n : Path d n [] n
| P_cons n e p m : In e (outEdges d n) -> Path d (target e) p m -> Path d n (e :: p) m.
Definition Acyclic (d : DAGT) : Prop := forall n p, Path d n p n -> p = [].
Definition NoOut (d : DAGT) (n : Z) : Prop := outEdges d n = [].
Definition MaxPath (d : DAGT) (n : Z) (p : list (DAGEdge T)) : Prop :=
  exists m, Path d n p m /\ NoOut d m.

(** Number of stored edges between two nodes. *)
Definition direct (f t : Z) (x : Z * Z * T) : bool :=
  (fst (fst x) =? f) && (snd (fst x) =? t).
Definition between (d : DAGT) (f t : Z) : nat := length (filter (direct f t) (edgesF d)).
(** No two edges join the same pair of nodes. *)
Definition NoParallel (d : DAGT) : Prop := forall f t, (between d f t <= 1)%nat.

(** Edge values are compared by an equivalence [veqb]. *)
Variable veqb : T -> T -> bool.
Definition sameE (x y : Z * Z * T) : Prop :=
  fst x = fst y /\ veqb (snd x) (snd y) = true.
Definition Has (d : DAGT) (f t : Z) (v : T) : Prop :=
  exists v', InE d f t v' /\ veqb v' v = true.
End Graph.
Arguments fwd {T}.
Arguments bwd {T}.
Arguments edgesF {T}.
Arguments edgesT {T}.
Arguments InE {T}.
Arguments Path {T}.
Arguments P_nil {T}.
Arguments P_cons {T}.
Arguments Acyclic {T}.
Arguments NoOut {T}.
Arguments MaxPath {T}.
Arguments between {T}.
Arguments NoParallel {T}.
Arguments sameE {T}.
Arguments Has {T}.

(** ** What graphs and lattices denote *)
(** One alternative per fraction, concatenated. *)
Inductive ChainDen : PronunChain -> SylString -> Prop :=
| CD_nil : ChainDen [] []
| CD_cons f c a s : In a (alts f) -> ChainDen c s -> ChainDen (f :: c) (a ++ s).
Definition PLang (d : PronunDAG) (s : SylString) : Prop :=
  exists p, p <> [] /\ MaxPath d 0 p /\ s = map edgeVal p.
Definition FLang (d : FracDAG) (s : SylString) : Prop :=
  exists p, p <> [] /\ MaxPath d 0 p /\ ChainDen (map edgeVal p) s.
Definition LDen (l : PronunLatt) (s : SylString) : Prop :=
  exists c, In c l /\ ChainDen c s.
(** Languages up to the equality of strings. *)
Definition upTo (L : SylString -> Prop) (s : SylString) : Prop :=
  exists s', L s' /\ strEq s' s.
Definition LEq (L M : SylString -> Prop) : Prop := forall s, upTo L s <-> upTo M s.

Definition single (f : PronunFrac) : Prop := exists x, alts f = [x].
Fixpoint noAdjSingles (c : PronunChain) : Prop :=
  match c with
  | f :: ((g :: _) as c') => ~ (single f /\ single g) /\ noAdjSingles c'
  | _ => True
  end.

(** ** Positions *)
(** The node of a pre-syllable: it belongs to the cluster spanning text
    positions [b]..[e] (parser/parser.cxx AddSyl encodes it this way). *)
Definition preNode (b e : Z) : Z := - (b * 100 + e).
(** Order of node numbers along the text: a plain position [p] counts [101 p],
    a pre-syllable node counts its absolute value. *)
Definition nodeRank (p : Z) : Z := if p <? 0 then - p else 101 * p.
Fixpoint increasing (from : Z) (ps : list Z) : Prop :=
  match ps with
  | [] => True
  | p :: ps' => nodeRank from < nodeRank p /\ increasing p ps'
  end.
(** A non-empty string whose positions go up from 0 to [N]. *)
Definition wellPositioned (N : Z) (s : SylString) : Prop :=
  s <> [] /\ increasing 0 (map endPos s) /\ str_endPos s = N.
Definition interior (s : SylString) : list Z := map endPos (removelast s).
