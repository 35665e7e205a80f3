(** Input that DCTriangulator can work on. *)
From Verif Require Import Outcome ListUtil SimplexModel PointModel PointProofs GeoModel GeoSpec DcModel DcSpec.
Local Open Scope nat_scope.

(** [c]: the coordinates of the input points.  [tiny], [huge]: numeric_limits::min() and max(). *)
Record input (D : nat) (tiny huge : R) (p : points vec) (c : N -> vec) : Prop := mkinput {
  in_ok : pts_ok (N.of_nat D) p;
  in_size : (N.of_nat (length (p_vec p)) <= 2 ^ 59)%N;
  in_get : forall i, is_fin_id p i -> p_get (N.of_nat D) p i = Val (c i);
  (* no point twice *)
  in_distinct : forall i j, is_fin_id p i -> is_fin_id p j -> veq D (c i) (c j) -> i = j;
  (* some extent in each dimension, and the origin is not too far for it (C55) *)
  in_tiny : (0 < tiny)%R;
  in_extent : forall d, d < D -> exists j k, is_fin_id p j /\ is_fin_id p k /\ (tiny <= 200 * (c j d - c k d))%R;
  in_near : forall i d, is_fin_id p i -> d < D -> exists j k, is_fin_id p j /\ is_fin_id p k /\ (Rabs (c i d) < 200 * (c j d - c k d))%R;
  in_huge : forall i d, is_fin_id p i -> d < D -> (c i d <= huge)%R }.

(** The coordinates the container gives. *)
Definition co_of (D : nat) (q : points vec) (v : N) : vec := match p_get (N.of_nat D) q v with Val x => x | _ => fun _ => 0%R end.

(** The contract of CGAL for the calls there are: some of the points [P], without repetition, and all infinite ones. *)
Definition cgal_right (D : N) (co : N -> vec) (hgt : N -> R) (P : list N) (cgal : list N -> N -> list cell -> Prop) : Prop := forall S last cells,
  NoDup S -> incl S P -> (forall v, (p_inf D <= v < 2 ^ 64)%N -> In v S) -> cgal S last cells -> cgal_ok D co hgt S last cells.
(** It gives an answer, with at most [M] ids. *)
Definition cgal_ends (D : N) (P : list N) (M : N) (cgal : list N -> N -> list cell -> Prop) : Prop := forall S,
  NoDup S -> incl S P -> (forall v, (p_inf D <= v < 2 ^ 64)%N -> In v S) -> exists last cells, cgal S last cells /\ (last <= M)%N.
