(** DCTriangulator as a whole: the base case src/lib/CGALTriangulator.cpp:301-365 and the recursion src/lib/DCTriangulator.cpp:477-608, with the steps of
    StepModel. *)
From Verif Require Import Outcome ListUtil WordsModel BlockModel SimplexModel GeoModel MergeModel StepModel.
Local Open Scope nat_scope.

(** ** The base case *)
(** A finite cell of a CGAL triangulation: m_id (CGALTriangulator.cpp:87, 142), the ids of its vertices (vertex(d)->info()), and the ids of the neighbors,
    [None] for an infinite cell. *)
Record cell := mkcell { c_id : N; c_verts : list N; c_nbrs : list (option N) }.

(** dSimplex(), Geometry.h:421, as it is in the new block: vertices, neighbors and fingerprint are not initialised, so any values. *)
Definition blank (vs ns : list N) (fp : N) : simplex := mks s_inf vs ns fp 0.
(** The simplex made of a cell, CGALTriangulator.cpp:337-351; its fingerprint before 351 does not matter. *)
Definition cell_simplex (over : N -> N) (start : N) (c : cell) : res simplex :=
  rmap (with_fp over)
    (sort_vertices (mks (wrap 64 (start + c_id c)) (c_verts c)
       (map (fun o => match o with None => s_inf | Some n => wrap 64 (start + n) end) (c_nbrs c)) 0 0)).
(** The loop 336-361; [None]: unsafe_at throws.  Simplification: the hint of unsafe_at (BlockedArray2.hxx:457-459) is 0, the only block. *)
Fixpoint collect_cells (over : N -> N) (D start : N) (cells : list cell) (DT : dsims) : res (option dsims) :=
  match cells with
  | [] => Val (Some DT)
  | c :: r =>
      rbind (cell_simplex over start c) (fun a =>
      let hull := if negb (s_isfinite D a) then d_hull DT ++ [x_id a] else d_hull DT in
      rbind (ba_set (d_arr DT) (x_id a) 0 a) (fun o =>
      match o with
      | None => Val None
      | Some (l, _) => collect_cells over D start r (mkd l hull (d_mark DT))
      end))
  end.
(** _delaunayCgal from 325 on: [start] is what fetch_add returned, [last] is maxId(). *)
Definition base_dt (over : N -> N) (dflt : simplex) (D start last : N) (cells : list cell) : res (option dsims) :=
  collect_cells over D start cells (mkd (ba_new dflt start (wrap 64 (start + last))) [] 0).

(** ** Which partitions a circumsphere meets *)
(** circumsphere, src/lib/Geometry.cpp (GeoModel), of the vertices of a simplex, for the two dimensions there are; [co]: the coordinates by id. *)
Definition circum_of (D : N) (co : N -> vec) (vs : list N) : res sphere :=
  match map co vs with
  | [a; b; c] => if (D =? 2)%N then circum2 a b c else Undef
  | [a; b; c; d] => if (D =? 3)%N then circum3 a b c d else Undef
  | _ => Undef
  end.
(** partitioning[i].bounds.intersects(cs), DCTriangulator.cpp:152-155.  Simplification: without a circumsphere (a division by zero, which gives an infinity or
    NaN there) there is no hit. *)
Definition box_hit (D : N) (co : N -> vec) (b : box) (s : simplex) : bool :=
  match circum_of D co (x_verts s) with Val sp => box_meets (N.to_nat D) b sp | _ => false end.

(** ** The recursion *)
Section Rec.
Variable over : N -> N.
Variable D : N.
Variable co : N -> vec.
(** What CGAL may give for a set of points: maxId() and the finite cells in the order of the iteration, 318-325, 336.  Oracle. *)
Variable cgal : list N -> N -> list cell -> Prop.
(** splitter->partition(ids, points, provenance), 520: the points and bounds of the partitions, whose numbers are their positions (PartModel).  Oracle. *)
Variable split : list (option nat) -> list N -> list (list N * box) -> Prop.
(** recursionDepth and parallelEdgeTria. *)
Variable depth : nat.
Variable par_edge : bool.

(** _triangulateBase, 477-495: the result, and the range of ids reserved for it. *)
Inductive base_run (S : list N) (out : dsims) (start last : N) : Prop :=
| base_run_intro dflt cells : x_id dflt = s_inf -> x_mark dflt = 0%N -> cgal S last cells -> base_dt over dflt D start last cells = Val (Some out) -> base_run S out start last.

(** The partitions as mergeTriangulation sees them. *)
Definition numbered (ps : list (list N * box)) : list part := combine (seq 0 (length ps)) (map fst ps).
Definition boxes_of (ps : list (list N * box)) (i : nat) : box := snd (nth i ps ([], mkbox (fun _ => 0%R) (fun _ => 0%R))).

(** _triangulate, 498-608.  Sets of points are lists of their members without repetition.  The provenance is as in TreeModel (the outermost "0" is the empty list, [None] is 'e').
    [takes]: the ranges of ids reserved, first id and number.  The partitions are triangulated in parallel (527-541), which share nothing but the counter of ids;
    so the ranges are what they took from it, in any order.  Simplification: the triangulations partialDTs[i] are moved, not copied. *)
Inductive dc_run : list (option nat) -> list N -> dsims -> list (N * N) -> Prop :=
| dc_base prov S out start last :
    Nat.ltb (length prov) depth && (500 <? N.of_nat (length S))%N = false ->
    base_run S out start last ->
    dc_run prov S out [(start, last)]
| dc_split prov S parts ps ps' edge W edgeDT out tks te :
    Nat.ltb (length prov) depth && (500 <? N.of_nat (length S))%N = true ->
    (* 520 *)
    split prov S parts ->
    (* 525-541 *)
    length ps = length parts -> length tks = length parts ->
    (forall i, i < length parts -> dc_run (prov ++ [Some i]) (fst (nth i parts ([], mkbox (fun _ => 0%R) (fun _ => 0%R)))) (nth i ps no_d) (nth i tks [])) ->
    (* 547-562 *)
    edge_run D (fun i => box_hit D co (boxes_of parts i)) ps ps' edge W ->
    (* 580-586 *)
    dc_edge (prov ++ [None]) W edgeDT te ->
    (* 602-603 *)
    join_run over D (numbered parts) ps' edge edgeDT out ->
    dc_run prov S out (concat tks ++ te)
with dc_edge : list (option nat) -> list N -> dsims -> list (N * N) -> Prop :=
| dc_edge_rec prov W out te : par_edge = true -> dc_run prov W out te -> dc_edge prov W out te
| dc_edge_base prov W out start last : par_edge = false -> base_run W out start last -> dc_edge prov W out [(start, last)].
End Rec.
