(** The points a triangulator works on: input points inside a box whose corners are the infinite points, and heights that break ties. *)
From Verif Require Import Outcome SimplexModel GeoModel GeoSpec DelSpec.
Local Open Scope R_scope.

(** The corner of the box with half lengths [r] around the origin that the bits of [v] say. *)
Definition corner (r : vec) (v : N) : vec := fun d => if N.testbit v (N.of_nat d) then r d else - r d.
(** Different points; the infinite points, which all are there, are the corners of a box with all others in it. *)
Record placed (D : N) (co : N -> vec) (r : vec) (S : list N) : Prop := mkplaced {
  pl_small : forall v, In v S -> (v < 2 ^ 64)%N;
  pl_inf : forall v, (p_inf D <= v < 2 ^ 64)%N -> In v S;
  pl_half : forall d, (d < N.to_nat D)%nat -> 0 < r d;
  pl_corner : forall v, In v S -> p_finite D v = false -> veq (N.to_nat D) (co v) (corner r v);
  pl_box : forall v d, In v S -> p_finite D v = true -> (d < N.to_nat D)%nat -> Rabs (co v d) <= r d;
  pl_distinct : distinct (N.to_nat D) co S }.

(** The heights break all ties: they agree with the spheres where those decide, and no plane goes through D + 2 lifted points. *)
Definition generic (D : nat) (co : N -> vec) (hgt : N -> R) (S : list N) : Prop := forall s k q, (forall v, In v s -> In v S) -> full D co s ->
  through D co hgt s k -> In q S -> k (co q) = hgt q -> In q s.
Definition breaks (D : nat) (co : N -> vec) (hgt : N -> R) (S : list N) : Prop := ties D co hgt S /\ generic D co hgt S.

(** A partitioning: finite points in one partition, infinite points in each; there is some finite point; a hyperplane tells each
    partition from a point of another one. *)
Record partitioned (D : N) (co : N -> vec) (np : nat) (pt : nat -> list N) (all : list N) : Prop := mkpd {
  pd_all : forall v, In v all <-> exists i, (i < np)%nat /\ In v (pt i);
  pd_one : forall i j v, (i < np)%nat -> (j < np)%nat -> In v (pt i) -> In v (pt j) -> p_finite D v = true -> i = j;
  pd_inf : forall i v, (i < np)%nat -> (p_inf D <= v < 2 ^ 64)%N -> In v (pt i);
  pd_some : exists i u, (i < np)%nat /\ In u (pt i) /\ p_finite D u = true;
  pd_parted : forall i j v, (i < np)%nat -> (j < np)%nat -> i <> j -> In v (pt j) -> p_finite D v = true ->
    parted (N.to_nat D) co (filter (p_finite D) (pt i)) (co v) }.
(** Two partitions have finite points. *)
Definition two_filled (D : N) (np : nat) (pt : nat -> list N) : Prop := exists i j u v, (i < np)%nat /\ (j < np)%nat /\ i <> j /\ In u (pt i) /\ p_finite D u = true /\ In v (pt j) /\ p_finite D v = true.
