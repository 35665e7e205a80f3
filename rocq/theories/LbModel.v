(** LoadBalancing::DCTriangulator as a whole: the recursion over a partition tree, include/LoadBalancedDCTriangulator.tpp:500-695.  Its getEdge, buildWhereUsed,
    updateNeighbors and mergeTriangulation (117-498) are those of src/lib/DCTriangulator.cpp but for the test of circumspheres, so the steps of StepModel are
    used for them. *)
From Verif Require Import Outcome ListUtil WordsModel LPSetModel LPSetHistory BlockModel SimplexModel PointModel GeoModel PartModel MergeModel StepModel DcModel TreeModel SplitModel KWayModel.
Local Open Scope nat_scope.

(** std::to_string of a part number, 616: the digits. *)
Fixpoint digits (fuel i : nat) : list nat :=
  match fuel with
  | O => [i]
  | S f => if Nat.ltb i 10 then [i] else digits f (i / 10) ++ [i mod 10]
  end.
(** The characters of a provenance after the outermost "0"; [None] is 'e'. *)
Definition chars (prov : list (option nat)) : list (option nat) := flat_map (fun o => match o with None => [None] | Some i => map Some (digits i i) end) prov.

Section Lb.
Variable over : N -> N.
Variable D : N.
Variable co : N -> vec.
(** As in DcModel: CGAL; the splitter and the recursion depth of par_baseTriangulator, 92-95, a DCTriangulator (its own edges are triangulated in parallel). *)
Variable cgal : list N -> N -> list cell -> Prop.
Variable split : list (option nat) -> list N -> list (list N * box) -> Prop.
Variable depth : nat.
(** IntersectionChecker, load_balancing/IntersectionChecker.h: bounds() and intersects(sphere, simplex). *)
Variable C : Type.
Variable cbox : C -> box.
Variable meets : C -> sphere -> simplex -> bool.
(** mParallelBaseCase and mParallelEdgeTria. *)
Variables par_base par_edge : bool.

(** intersectionCheckers[i]->intersects(cs, simplex), 172-176; without a circumsphere as in DcModel. *)
Definition ck_hit (k : C) (s : simplex) : bool := match circum_of D co (x_verts s) with Val sp => meets k sp s | _ => false end.
Definition ck_hits (ks : list C) (i : nat) (s : simplex) : bool := match nth_error ks i with Some k => ck_hit k s | None => false end.

(** _triangulateBase, 500-546. *)
Inductive lb_base (par : bool) (prov : list (option nat)) (S : list N) (out : dsims) : list (N * N) -> Prop :=
| lb_seq start last : par = false -> base_run over D cgal S out start last -> lb_base par prov S out [(start, last)]
| lb_par takes : par = true -> dc_run over D co cgal split depth true (chars prov) S out takes -> lb_base par prov S out takes.

(** recursiveTriangulate, 572-695; sets of points, ranges of ids and provenance as in DcModel.  The children are copied (616), so their checkers must not be
    null; those of the tree itself and of all children are dereferenced at 582 and by toOldPartitioning (625). *)
Inductive lb_run : list (option nat) -> tree C -> dsims -> list (N * N) -> Prop :=
| lb_leaf prov k ids S out takes : lists ids S -> lb_base par_base prov S out takes -> lb_run prov (Tleaf (Some k) ids) out takes
| lb_one prov k ck ids S out takes : lists ids S -> lb_base par_base prov S out takes -> lb_run prov (Tnode (Some k) [Tleaf ck ids]) out takes
| lb_split prov k ch m ps ks parts dts dts' edge W edgeDT out tks te :
    2 <= length ch -> Forall (fun c => copyable c = true) ch ->
    (* 604-619 *)
    length dts = length ch -> length tks = length ch ->
    (forall i c, nth_error ch i = Some c -> lb_run (prov ++ [Some i]) c (nth i dts no_d) (nth i tks [])) ->
    (* 622-625 *)
    returns (fun f => to_old_partitioning C cbox f m ch) (ps, ks) ->
    Forall2 (fun p q => lists (pa_pts p) (fst q) /\ snd q = pa_box p) ps parts ->
    (* 634-648 *)
    edge_run D (ck_hits ks) dts dts' edge W ->
    (* 669-670 *)
    lb_base par_edge (prov ++ [None]) W edgeDT te ->
    (* 684-685 *)
    join_run over D (numbered parts) dts' edge edgeDT out ->
    lb_run prov (Tnode (Some k) ch) out (concat tks ++ te).
End Lb.

(** BoundsIntersectionChecker::intersects, load_balancing/BoundsIntersectionChecker.h:15-19. *)
Definition box_ck (D : N) (b : box) (sp : sphere) (s : simplex) : bool := box_meets (N.to_nat D) b sp.

(** ** OldPartitionerPartitioner with the partitioners of PartModel *)
Section Old.
Variable D : nat.
Variable pts : points vec.
Variables tiny huge : R.
Variable sp : splitter.
(** splitter->partition(pointIds, points, provenance), OldPartitionerPartitioner.h:39: as [splits] of SplitModel, but for a given set and with the sets that are
    returned. *)
Definition split_set (prov : list (option nat)) (ids : lpset) (ps : list PartModel.part) : Prop :=
  exists S work st mult work', lists ids S /\
    NoDup (concat work) /\ (forall i, In i (concat work) <-> In i S) /\ stats_par D pts tiny huge true work = Val st /\
    NoDup (concat work') /\ (forall i, In i (concat work') <-> In i S) /\
    parted_by D pts sp st mult (N.of_nat (length prov) + 1) ids work' ps.
(** buildTree, OldPartitionerPartitioner.h:30-66; [build_tree] of TreeModel with this splitter, whose results depend on the schedule.  Part numbers have one digit,
    since the splitters return at most eight parts. *)
Inductive built (cutoff : nat) : nat -> list (option nat) -> box -> lpset -> tree box -> Prop :=
| bt_end prov b ids : built cutoff 0 prov b ids (Tnode (Some b) [Tleaf (Some b) ids])
| bt_last rem prov b ids ps : set_size ids <= cutoff -> split_set prov ids ps ->
    built cutoff (S rem) prov b ids (Tnode (Some b) (map (fun p => Tleaf (Some (pa_box p)) (pa_pts p)) ps))
| bt_more rem prov b ids ps ch : cutoff < set_size ids -> split_set prov ids ps -> length ch = length ps ->
    (forall i p c, nth_error ps i = Some p -> nth_error ch i = Some c -> built cutoff rem (prov ++ [Some i]) (pa_box p) (pa_pts p) c) ->
    built cutoff (S rem) prov b ids (Tnode (Some b) ch).
End Old.

(** The tree of KWaySplitter::partition, load_balancing/kWaySplitter.h:16-26, from the leaves of KWayModel (96-106); their sets are lists there. *)
Definition kway_tree (b : box) (ls : list kleaf) (t : tree box) : Prop :=
  exists ch, t = Tnode (Some b) ch /\ Forall2 (fun l c => exists s, c = Tleaf (Some (fst l)) s /\ lists s (snd l)) ls ch.
