(** The calls of _triangulateBase made by a run of DCTriangulator. *)
From Verif Require Import Outcome ListUtil WordsModel SimplexModel GeoModel MergeModel StepModel DcModel SplitModel.
Local Open Scope nat_scope.

Section Rec.
Variable over : N -> N.
Variable D : N.
Variable co : N -> vec.
Variable cgal : list N -> N -> list cell -> Prop.
Variable split : list (option nat) -> list N -> list (list N * box) -> Prop.
Variable depth : nat.
Variable par_edge : bool.

(** _triangulate, src/lib/DCTriangulator.cpp:498-608, as in DcModel (dc_run), and the calls of _triangulateBase, 477-495, with their provenance and points.  The
    partitions run in parallel (527-541); their calls are listed in the order of the partitions, those of the edge triangulation (580-586) last. *)
Inductive dc_trace : list (option nat) -> list N -> dsims -> list (N * N) -> list (list (option nat) * list N) -> Prop :=
| tr_base prov S out start last :
    Nat.ltb (length prov) depth && (500 <? N.of_nat (length S))%N = false ->
    base_run over D cgal S out start last ->
    dc_trace prov S out [(start, last)] [(prov, S)]
| tr_split prov S parts ps ps' edge W edgeDT out tks te css ce :
    Nat.ltb (length prov) depth && (500 <? N.of_nat (length S))%N = true ->
    split prov S parts ->
    length ps = length parts -> length tks = length parts -> length css = length parts ->
    (forall i, i < length parts -> dc_trace (prov ++ [Some i]) (fst (nth i parts ([], mkbox (fun _ => 0%R) (fun _ => 0%R)))) (nth i ps no_d) (nth i tks []) (nth i css [])) ->
    edge_run D (fun i => box_hit D co (boxes_of parts i)) ps ps' edge W ->
    edge_trace (prov ++ [None]) W edgeDT te ce ->
    join_run over D (numbered parts) ps' edge edgeDT out ->
    dc_trace prov S out (concat tks ++ te) (concat css ++ ce)
with edge_trace : list (option nat) -> list N -> dsims -> list (N * N) -> list (list (option nat) * list N) -> Prop :=
| tr_edge_rec prov W out te ce : par_edge = true -> dc_trace prov W out te ce -> edge_trace prov W out te ce
| tr_edge_base prov W out start last : par_edge = false -> base_run over D cgal W out start last -> edge_trace prov W out [(start, last)] [(prov, W)].
End Rec.

(** getRecursionDepth, include/Partitioner.h:234-239, 261-266, 286-291, 308-313, as DCTriangulator.cpp:61 calls it.  The assertions are compiled out. *)
Definition recursion_depth (fuel : nat) (D : nat) (sp : splitter) (threads : N) : res N :=
  match sp with DWay => logNm fuel threads (2 ^ N.of_nat D) | _ => log2m fuel threads end.
