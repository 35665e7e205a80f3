(** When an array of simplices is the Delaunay triangulation of a set of points. *)
From Verif Require Import Outcome ListUtil WordsModel BlockModel BlockProofs BlockSpec SimplexModel GeoModel GeoSpec DelSpec MergeModel MergeSpec NbrSpec.
Local Open Scope nat_scope.

(** The simplices of a triangulation: the cells that are not deleted. *)
Definition shown (d : dsims) (i : N) (s : simplex) : Prop := holds (d_arr d) i s /\ x_id s <> s_inf.

(** [d] is the triangulation of the points [S]: its simplices are the Delaunay simplices of [S], each once; the hull has those with an infinite
    vertex; slot k of a simplex has the simplex that shares the face opposite to vertex k, or the infinite id if there is none. *)
Record triangulation (over : N -> N) (D : N) (co : N -> vec) (hgt : N -> R) (S : list N) (d : dsims) : Prop := mktri {
  tr_wf : wf (d_arr d);
  tr_proper : proper over d;
  tr_sound : forall i s, shown d i s -> dt (N.to_nat D) co hgt S (x_verts s);
  tr_complete : forall s, dt (N.to_nat D) co hgt S s -> exists i x, shown d i x /\ same s (x_verts x);
  tr_once : forall i j s t, shown d i s -> shown d j t -> same (x_verts s) (x_verts t) -> i = j;
  tr_hull : forall i, In i (d_hull d) <-> exists s v, shown d i s /\ In v (x_verts s) /\ p_finite D v = false;
  tr_slots : forall i s, shown d i s -> length (x_nbrs s) = N.to_nat D + 1;
  tr_nbrs : forall i s k n, shown d i s -> nth_error (x_nbrs s) k = Some n ->
    (n = s_inf /\ forall j t, shown d j t -> ~ opposite s k t) \/ exists t, shown d n t /\ opposite s k t }.

Section Edge.
Variables (D : N) (co : N -> vec) (hgt : N -> R).
(** The partitions, and all their points. *)
Variables (np : nat) (pt : nat -> list N) (all : list N).
(** Their triangulations. *)
Variable tri : nat -> dsims.

(** The test of circumspheres against partitions finds each partition with a point in the sphere. *)
Definition finds (hits : nat -> simplex -> bool) : Prop := forall i j id x p c r2, i < np -> j < np -> i <> j -> shown (tri i) id x ->
  In p (pt j) -> p_finite D p = true -> on_ball (N.to_nat D) co (x_verts x) c r2 -> (dist2 (N.to_nat D) (co p) c <= r2)%R -> hits j x = true.

(** A simplex at the border of one partition, which has input points, is found to meet another one. *)
Definition hull_hit (hits : nat -> simplex -> bool) : Prop := exists i j u id x v, i < np /\ j < np /\ i <> j /\ In u (pt i) /\ p_finite D u = true /\
  shown (tri i) id x /\ In v (x_verts x) /\ p_finite D v = false /\ hits j x = true.

(** An edge to merge along: simplices of the partitions, at least those that are not Delaunay simplices of all points (the lifted point of another
    partition is not above them); their vertices and the infinite points. *)
Record edge_ok (edge W : list N) : Prop := mkedge {
  eo_stored : forall e, In e edge -> exists i x, i < np /\ shown (tri i) e x;
  eo_below : forall i j e x k p, i < np -> j < np -> i <> j -> shown (tri i) e x -> In p (pt j) -> p_finite D p = true ->
    through (N.to_nat D) co hgt (x_verts x) k -> (hgt p <= k (co p))%R -> In e edge;
  eo_points : forall v, In v W <-> (In v all /\ p_finite D v = false) \/ exists i e x, i < np /\ In e edge /\ shown (tri i) e x /\ In v (x_verts x) }.
End Edge.
