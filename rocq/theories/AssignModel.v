(** The assigners of the sample partitioners: include/load_balancing/sample_partitioner/BoundsDistancePointAssigningSamplePartitioner.h,
    CenterDistancePointAssigningSamplePartitioner.h and NearestSamplePointAssigningSamplePartitioner.h.
    The sampling (positions [ss] of the samples and their partitions [ps], ints) is any. *)
From Coq Require Import Reals.
From Verif Require Import Outcome ListUtil GeoModel.
Open Scope list_scope.
Import ListNotations.
Local Open Scope R_scope.

Section A.
Variable D : nat.
(** An int used as an index of a vector of [k] entries. *)
Definition a_index (k : nat) (p : Z) : option nat := if ((0 <=? p) && (p <? Z.of_nat k))%Z then Some (Z.to_nat p) else None.
(** The loop of makeBoundingBoxes over the samples, BoundsDistance...h:21-25. *)
Fixpoint a_group (ps : list Z) (ss : list vec) (acc : list (list vec)) : res (list (list vec)) :=
  match ps, ss with
  | [], _ => Val acc
  | p :: ps', s :: ss' =>
      match a_index (length acc) p with
      | Some j => match nth_error acc j with Some l => a_group ps' ss' (upd acc j (l ++ [s])) | None => Undef end
      | None => Undef
      end
  | _ :: _, [] => Undef
  end.
(** makeBoundingBoxes, 16-32: the box of a partition without samples is not initialised ([None]). *)
Definition a_boxes (k : nat) (ps : list Z) (ss : list vec) : res (list (option box)) :=
  rmap (map (bounding D)) (a_group ps ss (repeat [] k)).
(** std::min_element: the first position of a least entry; 0 for an empty range. *)
Fixpoint min_go (m : nat) (x : R) (i : nat) (ds : list R) : nat :=
  match ds with
  | [] => m
  | d :: r => if rltb d x then min_go i d (S i) r else min_go m x (S i) r
  end.
Definition min_idx (ds : list R) : nat := match ds with [] => O | d :: r => min_go O d 1 r end.
(** The assigner of makePartitioning, 82-93. *)
Fixpoint a_dists (bs : list (option box)) (c : vec) : res (list R) :=
  match bs with
  | [] => Val []
  | Some b :: r => rmap (cons (len2 D (vec_box c b))) (a_dists r c)
  | None :: _ => Undef
  end.
Definition a_bounds (bs : list (option box)) (c : vec) : res nat := rmap min_idx (a_dists bs c).

(** findPartitionCenters, CenterDistance...h:16-30: the vectors start as zero vectors; numbers of samples are exact. *)
Definition a_step (nc : nat * vec) (s : vec) : nat * vec :=
  let n := S (fst nc) in (n, vplus (vscale (snd nc) (INR n / INR (1 + n))) (vscale s (1 / INR (1 + n)))).
Fixpoint a_cents (ps : list Z) (ss : list vec) (acc : list (nat * vec)) : res (list (nat * vec)) :=
  match ps, ss with
  | [], _ => Val acc
  | p :: ps', s :: ss' =>
      match a_index (length acc) p with
      | Some j => match nth_error acc j with Some nc => a_cents ps' ss' (upd acc j (a_step nc s)) | None => Undef end
      | None => Undef
      end
  | _ :: _, [] => Undef
  end.
Definition a_centers (k : nat) (ps : list Z) (ss : list vec) : res (list vec) :=
  rmap (map snd) (a_cents ps ss (repeat (O, fun _ => 0) k)).
(** The assigner, CenterDistance...h:86-96. *)
Definition a_center (cs : list vec) (c : vec) : nat := min_idx (map (fun x => len2 D (vminus x c)) cs).

(** The assigner of NearestSample...Partitioner.h:104-112; [near] is the search in the k-d tree.  A negative partition
    becomes a huge size_t, with which the makers index a vector. *)
Definition a_nearest (near : vec -> nat) (k : nat) (ps : list Z) (c : vec) : res nat :=
  match nth_error ps (near c) with
  | Some p => match a_index k p with Some j => Val j | None => Undef end
  | None => Undef
  end.
End A.
