(** The trees of the sample partitioners: the assigners of AssignModel with the partition maker of BoundsIntersectionChecker.h (MakerModel).  The sampling is any. *)
From Verif Require Import Outcome ListUtil WordsModel LPSetModel SimplexModel PointModel GeoModel PartModel KWayModel Pool MakerModel AssignModel TreeModel LbModel.
Local Open Scope nat_scope.

Section S.
Variable D : nat.
Variable pts : points vec.
Notation Dn := (N.of_nat D).

(** The result of BoundsIntersectionPartitionMaker, BoundsIntersectionChecker.h:32-87, as the leaves of a tree, CenterDistance...h:44-56 (the others have the same
    lines): [ls] are the finite ids of the partitions in the order in which the second loop goes through them, [fin] is where its threads end.  The boxes are copied into
    the checkers and the tree: that is undefined for one without initialised corners, so there is no tree then. *)
Definition maker_tree (part : N -> res nat) (ids : list N) (k : nat) (b : box) (ls : list (list N)) (fin : pool bsh btask) (t : tree box) : Prop :=
  exists rs bs, m_ids D part ids k = Val rs /\ length ls = k /\
    (forall j l r, nth_error ls j = Some l -> nth_error rs j = Some r -> forall i, In i l <-> In i r /\ p_finite Dn i = true) /\
    pexec (b_step D pts) (b_start ls) fin /\ p_tasks fin = [] /\ s_box (p_sh fin) = map Some bs /\ kway_tree b (combine bs rs) t.

(** CenterDistancePointAssigningSamplePartitioner::partition, CenterDistance...h:36-58; [ps] and [ss] the partitions and coordinates of the samples. *)
Definition center_tree (ps : list Z) (ss : list vec) (ids : list N) (k : nat) (b : box) (ls : list (list N)) (fin : pool bsh btask) (t : tree box) : Prop :=
  exists cs, a_centers k ps ss = Val cs /\
    maker_tree (fun i => rbind (p_get Dn pts i) (fun c => Val (a_center D cs c))) ids k b ls fin t.

(** BoundsDistancePointAssigningSamplePartitioner::partition, BoundsDistance...h:41-63. *)
Definition dist_tree (ps : list Z) (ss : list vec) (ids : list N) (k : nat) (b : box) (ls : list (list N)) (fin : pool bsh btask) (t : tree box) : Prop :=
  exists bs, a_boxes D k ps ss = Val bs /\
    maker_tree (fun i => rbind (p_get Dn pts i) (a_bounds D bs)) ids k b ls fin t.

(** NearestSamplePointAssigningSamplePartitioner::partition, NearestSample...Partitioner.h:21-46; [near] is the search in the k-d tree. *)
Definition near_tree (near : vec -> nat) (ps : list Z) (ids : list N) (k : nat) (b : box) (ls : list (list N)) (fin : pool bsh btask) (t : tree box) : Prop :=
  maker_tree (fun i => rbind (p_get Dn pts i) (a_nearest near k ps)) ids k b ls fin t.
End S.
