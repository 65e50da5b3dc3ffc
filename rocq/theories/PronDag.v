(** PronDag.v - model of lattice/pron-dag.{h,cxx} and of the flat enumeration
    in output/ioutput.cxx. *)
From Coq Require Import List ZArith Bool.
From Verif Require Import Base ThCons Syl Lattice Dag.
Import ListNotations.
Local Open Scope Z_scope.

Definition PronunDAG := DAG Syl.
Definition FracDAG := DAG PronunFrac.

Definition pAddEdge := addEdge syl_eqb.
Definition fAddEdge := addEdge frac_eqb.
Definition fRemoveEdge := removeEdge frac_eqb.

(** The iterator [it] of the merge loops is the index of an element of
    [mFrom]; resetting it to [outBegin()] is index 0. *)

(* lattice/pron-dag.cxx:46-47: the merged string of the two edge values;
   [*begin()] of an empty alternative list is undefined. *)
Definition firstAlt (f : PronunFrac) : Res SylString :=
  match alts f with x :: _ => Ok x | [] => UB end.

(* lattice/pron-dag.cxx:41-55, one merge at edge ([n], [e]) where the node [n]
   has in- and out-degree 1.  When the single in-edge of [n] starts at [n]
   itself, the first [removeEdge] (line 50) erases the element [it] points to
   and line 51 reads it again: undefined behaviour. *)
Definition mergeSingleAt (d : FracDAG) (n : Z) (e : DAGEdge PronunFrac)
    : Res FracDAG :=
  match inEdges d n with
  | [] => UB   (* unreachable: in-degree is 1 *)
  | inE :: _ =>
      let src := target inE in
      let dst := target e in
      (a <- firstAlt (edgeVal inE) ;;
       b <- firstAlt (edgeVal e) ;;
       if src =? n then UB
       else
         let d1 := fst (fRemoveEdge d src n (edgeVal inE)) in
         let d2 := fst (fRemoveEdge d1 n dst (edgeVal e)) in
         Ok (fst (fAddEdge d2 src dst (fracOf dst (a ++ b)))))%res
  end.

(* lattice/pron-dag.cxx:37-60.  [i] is the position of [it] in [mFrom]. *)
Fixpoint mergeSinglesLoop (fuel : nat) (d : FracDAG) (i : nat) : Res FracDAG :=
  match fuel with
  | O => NoFuel
  | S fuel' =>
      match nth_error (mFrom d) i with
      | None => Ok d
      | Some (n, e) =>
          if (outDegree d n =? 1)%nat && (inDegree d n =? 1)%nat then
            (d' <- mergeSingleAt d n e ;; mergeSinglesLoop fuel' d' 0)%res
          else mergeSinglesLoop fuel' d (S i)
      end
  end.

(* lattice/pron-dag.cxx:74-82 *)
Definition mergedFracOf (d : FracDAG) (from to : Z) : PronunFrac * nat :=
  fold_left (fun acc e =>
               if target e =? to
               then (fracAdd (fst acc) (edgeVal e), S (snd acc))
               else acc)
            (outEdges d from) (fracEmpty, O).

(* lattice/pron-dag.cxx:62-92: after a merge the iterator is reset to the
   first element and then incremented by the for loop: index 1. *)
Fixpoint mergeParallelsLoop (fuel : nat) (d : FracDAG) (i : nat) : Res FracDAG :=
  match fuel with
  | O => NoFuel
  | S fuel' =>
      match nth_error (mFrom d) i with
      | None => Ok d
      | Some (from, e) =>
          let to := target e in
          if (outDegree d from =? 1)%nat then mergeParallelsLoop fuel' d (S i)
          else
            let '(mf, cnt) := mergedFracOf d from to in
            if (1 <? cnt)%nat then
              let d1 := fst (removeDirectEdges d from to) in
              let d2 := fst (fAddEdge d1 from to mf) in
              mergeParallelsLoop fuel' d2 1
            else mergeParallelsLoop fuel' d (S i)
      end
  end.

(** Fuel that covers every run of the loops: each merge lowers the number of
    edges and each scan between merges is at most one pass. *)
Definition mergeFuel (d : FracDAG) : nat :=
  S (length (mFrom d)) * S (S (length (mFrom d))).

(* lattice/pron-dag.cxx:25-35 *)
Definition mergeFractions (d : FracDAG) : Res FracDAG :=
  (d1 <- mergeSinglesLoop (mergeFuel d) d 0 ;;
   mergeParallelsLoop (mergeFuel d1) d1 0)%res.

(* lattice/pron-dag.cxx:100-123 *)
Fixpoint nodeLattice (fuel : nat) (d : FracDAG) (from : Z) : Res PronunLatt :=
  match fuel with
  | O => NoFuel
  | S fuel' =>
      (parts <- mapM (fun e =>
                        child <- nodeLattice fuel' d (target e) ;;
                        Ok (match child with
                            | [] => [[edgeVal e]]
                            | _ => map (fun ch => edgeVal e :: ch) child
                            end))
                     (outEdges d from) ;;
       Ok (List.concat parts))%res
  end.

(** A path of an acyclic graph has at most as many edges as the graph, so the
    recursion depth is bounded by the number of edges plus one. *)
Definition pathFuel {T} (d : DAG T) : nat := S (length (mFrom d)).

(* lattice/pron-dag.cxx:94-98 *)
Definition fracLattice (d : FracDAG) : Res PronunLatt :=
  (l <- nodeLattice (pathFuel d) d 0 ;; Ok (lattMergeSingles l))%res.

(* lattice/pron-dag.cxx:142-150 *)
Definition addSylString (d : PronunDAG) (pos : Z) (s : SylString) : PronunDAG :=
  fst (fold_left (fun acc syl =>
                    (fst (pAddEdge (fst acc) (snd acc) (endPos syl) syl), endPos syl))
                 s (d, pos)).
(* lattice/pron-dag.cxx:134-140 *)
Definition pronDAGOfList (l : list SylString) : PronunDAG :=
  fold_left (fun d s => addSylString d 0 s) l dagEmpty.

(* lattice/pron-dag.cxx:155-162 *)
Definition fracDAGInit (d : PronunDAG) : FracDAG :=
  fold_left (fun acc p =>
               let to := target (snd p) in
               fst (fAddEdge acc (fst p) to (fracOf to [edgeVal (snd p)])))
            (mFrom d) dagEmpty.
(* lattice/pron-dag.cxx:152-167 *)
Definition fracDAG (d : PronunDAG) : Res FracDAG := mergeFractions (fracDAGInit d).

(* output/ioutput.cxx:9-27 *)
Fixpoint DAGSylStringsF (fuel : nat) (d : PronunDAG) (root : Z)
    : Res (list SylString) :=
  match fuel with
  | O => NoFuel
  | S fuel' =>
      (parts <- mapM (fun e =>
                        child <- DAGSylStringsF fuel' d (target e) ;;
                        Ok (match child with
                            | [] => [[edgeVal e]]
                            | _ => map (fun s => edgeVal e :: s) child
                            end))
                     (outEdges d root) ;;
       Ok (List.concat parts))%res
  end.
Definition DAGSylStrings (d : PronunDAG) (root : Z) : Res (list SylString) :=
  DAGSylStringsF (pathFuel d) d root.
