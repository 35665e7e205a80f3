(** The partitioners that split in two: include/load_balancing/sample_partitioner/HyperplaneBipartitioner.h,
    BinaryBoxEstimatingSamplePartitioner.h and NearestSamplePointAssigningSampleBipartitioner.h, and the checker of
    include/load_balancing/HyperplaneIntersectionChecker.h.

    Coordinates are exact real numbers.  The growing tables are sets with a capacity as in KWayModel.  The sampler is any
    function [smp] of the place in the tree (the turns taken from the root, the last one first) and the ids. *)
From Coq Require Import Reals.
From Verif Require Import Outcome ListUtil WordsModel LPSetModel SimplexModel PointModel GeoModel PartModel SampleModel KWayModel MakerModel AssignModel.
Open Scope list_scope.
Import ListNotations.

(** PartitionTree, PartitionTree.h:16-71, with at most two children; the checker may be missing. *)
Inductive ptree (C : Type) := PLeaf (ck : option C) (ids : list N) | PNode (ck : option C) (l r : ptree C).
Arguments PLeaf {C}. Arguments PNode {C}.
(** The checker of a tree is replaced, NearestSample...Bipartitioner.h:82-83. *)
Definition set_ck {C} (ck : option C) (t : ptree C) : ptree C := match t with PLeaf _ ids => PLeaf ck ids | PNode _ l r => PNode ck l r end.

(** Sampling, Sampler.h:82-102, without the simplices. *)
Record samp := mksm { sm_g : graph; sm_part : list Z; sm_pts : list vec }.
(** operator[] of a std::vector. *)
Definition get {A} (l : list A) (i : nat) : res A := match nth_error l i with Some a => Val a | None => Undef end.
(** The loops over the graph, HyperplaneBipartitioner.h:63-70 and BinaryBox...h:15-24: the edges whose ends are told apart by
    [cut].  The former stores the midpoint of each at once; here that is a second pass. *)
Fixpoint row_edges (sm : samp) (cut : Z -> Z -> bool) (a : nat) (is : list nat) : res (list (nat * nat)) :=
  match is with
  | [] => Val []
  | i :: r => rbind (get (g_adj (sm_g sm)) i) (fun b => rbind (get (sm_part sm) a) (fun pa => rbind (get (sm_part sm) b) (fun pb =>
      rmap (fun l => if cut pa pb then (a, b) :: l else l) (row_edges sm cut a r))))
  end.
Fixpoint all_rows (sm : samp) (cut : Z -> Z -> bool) (ns : list nat) : res (list (nat * nat)) :=
  match ns with
  | [] => Val []
  | a :: r => rbind (get (g_rec (sm_g sm)) a) (fun lo => rbind (get (g_rec (sm_g sm)) (S a)) (fun hi =>
      rbind (row_edges sm cut a (seq lo (hi - lo))) (fun l => rmap (app l) (all_rows sm cut r))))
  end.
Definition cut_edges (sm : samp) (cut : Z -> Z -> bool) : res (list (nat * nat)) := all_rows sm cut (seq 0 (length (g_rec (sm_g sm)) - 1)).
(** HyperplaneBipartitioner.h:67, makePartitionCenterPoints, BinaryBox...h:29-38. *)
Fixpoint mid_points (sm : samp) (es : list (nat * nat)) : res (list vec) :=
  match es with
  | [] => Val []
  | (a, b) :: r => rbind (get (sm_pts sm) a) (fun x => rbind (get (sm_pts sm) b) (fun y => rmap (cons (vscale (vplus x y) (1 / 2)%R)) (mid_points sm r)))
  end.

Section B.
Variable D : nat.
Variable pts : points vec.
Notation Dn := (N.of_nat D).
Variable smp : list bool -> list N -> samp.

(** ** Hyperplanes *)
(** A normal and an offset; [None]: the components are NaN. *)
Definition plane := option (vec * R).
(** HyperplaneBipartitioner.h:98-99; [o] are the first D components of the column of V and [l] the last one.  If [o] is zero,
    1/0 * 0 is NaN. *)
Definition h_plane (o : vec) (l : R) : plane :=
  if reqb (len2 D o) 0 then None
  else let n := vscale o (1 / sqrt (len2 D o))%R in Some (n, (- l / scalar D n o)%R).
(** distanceToPlane(...) > 0, VectorOperations.h:52-56; comparisons with NaN fail. *)
Definition h_dist (n : vec) (o : R) (c : vec) : R := (scalar D n c - o)%R.
Definition h_above (pl : plane) (c : vec) : bool := match pl with Some (n, o) => rltb 0 (h_dist n o c) | None => false end.
(** The checkers: of bounds, BoundsIntersectionChecker.h, and of a plane, HyperplaneIntersectionChecker.h:17-21. *)
Inductive hck := HBox (b : box) | HPlane (pl : plane).
Definition h_meets (k : hck) (s : sphere) : bool :=
  match k with
  | HBox b => box_meets D b s
  | HPlane (Some (n, o)) => rltb 0 (h_dist n o (sp_c s) + sp_r s)
  | HPlane None => false
  end.
(** HyperplaneBipartitioner.h:134-137 and 141-144; 1e-6 exactly. *)
Definition h_left (pl : plane) : plane := match pl with Some (n, o) => Some (n, (o - / 1000000)%R) | None => None end.
Definition h_right (pl : plane) : plane := match pl with Some (n, o) => Some (vneg n, (- o - / 1000000)%R) | None => None end.
(** The parallel loop HyperplaneBipartitioner.h:111-122 over all ids, the infinite ones too, in any order. *)
Fixpoint h_split (pl : plane) (ids : list N) (ss : list kset) : res (list kset) :=
  match ids with
  | [] => Val ss
  | i :: r => rbind (p_get Dn pts i) (fun c => rbind (k_put ss (if h_above pl c then 0 else 1)%nat i) (h_split pl r))
  end.
(** The singular value decomposition, HyperplaneBipartitioner.h:72-96: the column of V for a list of points. *)
Variable svd : list vec -> vec * R.
(** HyperplaneBipartitioner.h:56-99. *)
Definition h_find (path : list bool) (ids : list N) : res plane :=
  let sm := smp path ids in
  rbind (cut_edges sm (fun a b => negb (Z.eqb a b))) (fun es => rbind (mid_points sm es) (fun ps => let (o, l) := svd ps in Val (h_plane o l))).
(** makePartitioning, HyperplaneBipartitioner.h:46-155. *)
Fixpoint h_make (fuel : nat) (path : list bool) (ids : list N) (ck : hck) (p : N) : res (ptree hck) :=
  match fuel with
  | O => NoFuel
  | S f =>
      if (1 <? p)%N then
        rbind (h_find path ids) (fun pl =>
        rbind (h_split pl ids (m_sets (length ids) 2)) (fun ss =>
        rbind (m_infs D ss) (fun ls =>
          match ls with
          | [l; r] =>
              rbind (h_make f (false :: path) l (HPlane (h_left pl)) (p / 2)) (fun lt =>
              rmap (PNode (Some ck) lt) (h_make f (true :: path) r (HPlane (h_right pl)) (p / 2)))
          | _ => Undef
          end)))
      else Val (PLeaf (Some ck) ids)
  end.
(** partition, HyperplaneBipartitioner.h:27-34. *)
Definition h_partition (fuel : nat) (b : box) (ids : list N) (p : N) : res (ptree hck) := h_make fuel [] ids (HBox b) p.

(** ** Boxes *)
(** std::sort by coordinate [d], BinaryBox...h:50-53. *)
Variable srt : nat -> list vec -> list vec.
(** The inner loop, BinaryBox...h:55-57: the length is assigned, not added. *)
Fixpoint border_len (l : list vec) (acc : R) : R :=
  match l with
  | x :: (y :: _) as r => border_len r (len2 D (vminus x y))
  | _ => acc
  end.
(** The outer loop, BinaryBox...h:49-59: medians and lengths of the dimensions [ds]. *)
Fixpoint est_loop (mid : nat) (l : list vec) (ds : list nat) : res (list R * list R) :=
  match ds with
  | [] => Val ([], [])
  | d :: r =>
      let l' := srt d l in
      rbind (get l' mid) (fun x => rmap (fun q => (x d :: fst q, border_len l' 0 :: snd q)) (est_loop mid l' r))
  end.
(** estimateBoundingBoxes, BinaryBox...h:40-67. *)
Definition est_boxes (l : list vec) (b : box) : res (box * box) :=
  match l with
  | [] => Val (split_box b 0 ((b_lo b O + b_hi b O) / 2)%R)
  | _ => rbind (est_loop (length l / 2) l (seq 0 D)) (fun q =>
      let d := min_idx (snd q) in rbind (get (fst q) d) (fun x => Val (split_box b d x)))
  end.
(** seperatePointIds, BinaryBox...h:69-90; the sets grow as needed. *)
Fixpoint e_sep (b : box) (ids l r : list N) : res (list N * list N) :=
  match ids with
  | [] => Val (l, r)
  | i :: t =>
      if p_finite Dn i then
        rbind (p_get Dn pts i) (fun c => if box_has D b c then e_sep b t (k_add i l) r else e_sep b t l (k_add i r))
      else e_sep b t l r
  end.
Definition add_infs (l : list N) : list N := fold_left (fun l i => k_add i l) (inf_ids D) l.
(** buildTreeRecursively, BinaryBox...h:120-149. *)
Fixpoint e_build (cutoff : nat) (rem : nat) (path : list bool) (b : box) (ids : list N) : res (ptree box) :=
  match rem with
  | O => Val (PLeaf (Some b) ids)
  | S r' =>
      if (cutoff <=? length ids)%nat then
        let sm := smp path ids in
        rbind (cut_edges sm (fun pa pb => Z.eqb 0 pa && negb (Z.eqb 0 pb))) (fun es =>
        rbind (mid_points sm es) (fun ps =>
        rbind (est_boxes ps b) (fun bb =>
        rbind (e_sep (fst bb) ids [] []) (fun lr =>
        rbind (e_build cutoff r' (false :: path) (fst bb) (add_infs (fst lr))) (fun lt =>
        rmap (PNode (Some b) lt) (e_build cutoff r' (true :: path) (snd bb) (add_infs (snd lr))))))))
      else Val (PLeaf (Some b) ids)
  end.
(** partition, BinaryBox...h:98-104. *)
Definition e_partition (cutoff : nat) (b : box) (ids : list N) : res (ptree box) := e_build cutoff 10 [] b ids.

(** ** Nearest samples *)
(** Who owns a set of ids: the caller of partition, or the variable [tree] of the call at a place of the recursion,
    NearestSample...Bipartitioner.h:57. *)
Inductive owner := OCaller | OLocal (path : list bool).
(** The checkers: of the bounds of a leaf (88), or the one the maker made for entry [j]; it keeps the address of the set of ids
    given to the maker if [keeps], AccurateGridIntersectionChecker.h:42-49. *)
Inductive nck := NBox | NMade (path : list bool) (j : nat) (held : option owner).
Variable keeps : bool.
(** The assigner of the call at [path]: NearestSample...Partitioner.h:103-111, see [a_nearest]. *)
Variable part : list bool -> N -> res nat.
(** makePartitioning, NearestSample...Bipartitioner.h:44-92; [own]: the owner of the set that [pointIds] refers to.  The bounds
    of the children are only passed to the sampler and are left out. *)
Fixpoint n_make (fuel : nat) (cutoff : nat) (path : list bool) (own : owner) (ids : list N) (p : N) : res (ptree nck) :=
  match fuel with
  | O => NoFuel
  | S f =>
      if (1 <? p)%N && (cutoff <? length ids)%nat then
        rbind (m_ids D (part path) ids 2) (fun ls =>
          let held := if keeps then Some own else None in
          match ls with
          | [l; r] =>
              rbind (n_make f cutoff (false :: path) (OLocal path) l (p / 2)) (fun lt =>
              rmap (fun rt => PNode None (set_ck (Some (NMade path 0 held)) lt) (set_ck (Some (NMade path 1 held)) rt))
                   (n_make f cutoff (true :: path) (OLocal path) r (p / 2)))
          | _ => Undef
          end)
      else Val (PLeaf (Some NBox) ids)
  end.
(** partition, NearestSample...Bipartitioner.h:26-32. *)
Definition n_partition (fuel cutoff : nat) (ids : list N) (p : N) : res (ptree nck) := n_make fuel cutoff [] OCaller ids p.
End B.
