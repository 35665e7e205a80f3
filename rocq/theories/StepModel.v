(** One level of divide and conquer after the partitions have been triangulated: src/lib/DCTriangulator.cpp:547-604.  Edge extraction (EdgeModel)
    and merge (MergeModel, NbrModel) are put together here; those models keep the marks and neighbors of the cells apart, so the
    marks and neighbors they end with are written back to the cells. *)
From Verif Require Import Outcome ListUtil WordsModel RangeModel BlockModel BlockSpec SimplexModel Pool EdgeModel NbrModel MergeModel MergeUpdate.
From Coq Require Import Permutation.
Local Open Scope nat_scope.

(** Overwriting cells: at(id) = f(id, at(id)).  Models no function of its own: it is how the marks (Geometry.h:668) and neighbors (666), which the
    models of getEdge and updateNeighbors keep apart, are in the cells again. *)
Definition set_cell (f : N -> simplex -> simplex) (l : list (block simplex)) (i : N) : res (option (list (block simplex))) :=
  rbind (ba_at l i 0) (fun o => match o with
    | None => Val None
    | Some (s, h) => rmap (option_map fst) (ba_set l i h (f i s))
    end).
Fixpoint set_cells (f : N -> simplex -> simplex) (l : list (block simplex)) (ids : list N) : res (option (list (block simplex))) :=
  match ids with
  | [] => Val (Some l)
  | i :: r => rbind (set_cell f l i) (fun o => match o with None => Val None | Some l' => set_cells f l' r end)
  end.
(** All cells, each once. *)
Definition rewritten (f : N -> simplex -> simplex) (l l' : list (block simplex)) : Prop :=
  exists ids, NoDup ids /\ (forall i, In i ids <-> exists s, holds l i s) /\ set_cells f l ids = Val (Some l').

(** mark, Geometry.h:668; neighbors, 666. *)
Definition with_mark (m : N) (s : simplex) : simplex := mks (x_id s) (x_verts s) (x_nbrs s) (x_fp s) m.
Definition with_nbrs (f : nat -> N) (s : simplex) : simplex := mks (x_id s) (x_verts s) (map f (seq 0 (length (x_nbrs s)))) (x_fp s) (x_mark s).

(** partialDTs[p], DCTriangulator.cpp:525-526. *)
Definition no_d : dsims := mkd [] [] 0.
Definition p_at (ps : list dsims) (p : nat) : dsims := nth p ps no_d.
(** partialDTs[p][id], and its mark. *)
Definition p_get (ps : list dsims) (p : nat) (id : N) : option simplex := d_get (d_arr (p_at ps p)) id.
Definition p_marks (ps : list dsims) (p : nat) (id : N) : N := match p_get ps p id with Some s => x_mark s | None => 0%N end.

(** Extracting the edge, 547-562: getEdge for all partitions in parallel.  [ps'] are the partial triangulations afterwards (their marks have changed),
    [edge] and [W] the members of edgeSimplexIds and edgePointIds. *)
Inductive edge_run (D : N) (hits : nat -> simplex -> bool) (ps ps' : list dsims) (edge W : list N) : Prop :=
| edge_run_intro (sh : esh) :
    pexec (e_step (length ps) (p_get ps) (fun p => d_hull (p_at ps p)) (fun p => d_mark (p_at ps p)) hits) (e_start D (length ps) (p_marks ps)) (mkp sh []) ->
    length ps' = length ps ->
    (forall p, p < length ps -> rewritten (fun i => with_mark (e_marks sh p i)) (d_arr (p_at ps p)) (d_arr (p_at ps' p)) /\
       d_hull (p_at ps' p) = d_hull (p_at ps p) /\ d_mark (p_at ps' p) = EdgeModel.d_mark (fun p => d_mark (p_at ps p)) p) ->
    NoDup edge -> (forall x, In x edge <-> In x (e_simp sh)) -> NoDup W -> (forall v, In v W <-> In v (e_pts sh)) ->
    edge_run D hits ps ps' edge W.

(** mergeTriangulation, 355-475: the merge and then updateNeighbors, 467-472. *)
Inductive join_run (over : N -> N) (D : N) (parts : list part) (ps : list dsims) (edge : list N) (edgeDT out : dsims) : Prop :=
| join_run_intro (m : dsims) (inserted : list N) (table : list (N * N)) (marks : N -> N) (tbl : N -> list N) (order : list N) (sh : ush) (cells : list (block simplex)) :
    merge_run over D parts ps edge edgeDT m inserted table marks ->
    (forall h c, In c (tbl h) <-> In (h, c) table) -> Permutation order inserted ->
    pexec (u_step over (d_get (d_arr m)) tbl (d_mark m)) (u_start (cell_nbr (d_arr m)) marks order) (mkp sh []) ->
    rewritten (fun i s => with_mark (u_marks sh i) (with_nbrs (u_nbr sh i) s)) (d_arr m) cells ->
    out = mkd cells (d_hull m) (ud_mark (d_mark m)) ->
    join_run over D parts ps edge edgeDT out.
