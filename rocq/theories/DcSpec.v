(** What the triangulator relies on: CGAL in the base case, the splitter, the counter of ids. *)
From Coq Require Import Permutation.
From Verif Require Import Outcome ListUtil WordsModel SimplexModel GeoModel GeoSpec DelSpec PlaceSpec DcModel.
Local Open Scope nat_scope.

(** The face of [c] opposite to its vertex [v] is a face of [c']. *)
Definition beside (c : cell) (v : N) (c' : cell) : Prop := forall w, In w (c_verts c) -> (In w (c_verts c') <-> w <> v).
(** The finite cells CGAL gives for the points [S]: the Delaunay simplices for the heights [hgt], each once, with different ids below [last]; entry k of the
    neighbors is the cell that shares the face opposite to vertex k, or none. *)
Record cgal_ok (D : N) (co : N -> vec) (hgt : N -> R) (S : list N) (last : N) (cells : list cell) : Prop := mkcgal {
  cg_ids : NoDup (map c_id cells);
  cg_last : forall c, In c cells -> (c_id c < last)%N;
  cg_sound : forall c, In c cells -> dt (N.to_nat D) co hgt S (c_verts c);
  cg_complete : forall s, dt (N.to_nat D) co hgt S s -> exists c, In c cells /\ same s (c_verts c);
  cg_once : forall c c', In c cells -> In c' cells -> same (c_verts c) (c_verts c') -> c = c';
  cg_slots : forall c, In c cells -> length (c_nbrs c) = N.to_nat D + 1;
  cg_nbrs : forall c k v o, In c cells -> nth_error (c_verts c) k = Some v -> nth_error (c_nbrs c) k = Some o ->
    match o with None => forall c', In c' cells -> ~ beside c v c' | Some n => exists c', In c' cells /\ c_id c' = n /\ beside c v c' end }.

(** What the splitter gives: a partitioning of the points, without repetitions, and boxes with the finite points of the partitions.  Either two partitions
    have finite points; or one has, and the box of another one has a point beyond them (within the corners), or all of them are in a hyperplane and one is in
    the box of another partition. *)
Definition pts_at (ps : list (list N * box)) (i : nat) : list N := fst (nth i ps ([], mkbox (fun _ => 0%R) (fun _ => 0%R))).
Definition beyond (D : N) (co : N -> vec) (r : vec) (ps : list (list N * box)) : Prop := exists i j u p, i < length ps /\ j < length ps /\ i <> j /\ In u (pts_at ps i) /\ p_finite D u = true /\
  in_box (N.to_nat D) (boxes_of ps j) p /\
  ((forall k, k < N.to_nat D -> (Rabs (p k) <= r k)%R) /\ parted (N.to_nat D) co (filter (p_finite D) (pts_at ps i)) p \/
   p = co u /\ exists g, affine (N.to_nat D) g /\ (exists x, g x <> 0%R) /\ forall v, In v (pts_at ps i) -> p_finite D v = true -> g (co v) = 0%R).
Record split_ok (D : N) (co : N -> vec) (r : vec) (S : list N) (ps : list (list N * box)) : Prop := mksplit {
  so_parts : partitioned D co (length ps) (pts_at ps) S;
  so_nodup : forall i, i < length ps -> NoDup (pts_at ps i);
  so_boxes : forall i v, i < length ps -> In v (pts_at ps i) -> p_finite D v = true -> in_box (N.to_nat D) (boxes_of ps i) (co v);
  so_meet : two_filled D (length ps) (pts_at ps) \/ beyond D co r ps }.

(** Two ranges of ids (first id and number) have none in common. *)
Definition ranges_apart (a b : N * N) : Prop := forall i, ~ ((fst a <= i < fst a + snd a)%N /\ (fst b <= i < fst b + snd b)%N).
(** The ids taken from the counter: pairwise apart, not so many that it wraps. *)
Definition takes_ok (takes : list (N * N)) : Prop := ForallOrdPairs ranges_apart takes /\ (forall t, In t takes -> (fst t + snd t < 2 ^ 64)%N) /\ (N.of_nat (length takes) < 2 ^ 32)%N.
(** How they are taken, CGALTriangulator.cpp:328: one fetch_add after another, in some order; and their number. *)
Fixpoint fetched (c : N) (takes : list (N * N)) : Prop := match takes with [] => True | t :: r => fst t = c /\ fetched (wrap 64 (c + snd t)) r end.
Definition drawn (c : N) (takes : list (N * N)) : Prop := exists order, Permutation order takes /\ fetched c order.
Definition total (takes : list (N * N)) : N := fold_right (fun t n => (snd t + n)%N) 0%N takes.
