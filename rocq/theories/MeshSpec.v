(** What a user may expect of a Delaunay triangulation of points in a box: independent of how ties are broken. *)
From Verif Require Import Outcome ListUtil SimplexModel GeoModel GeoSpec DelSpec MergeModel NbrSpec TriSpec.
Local Open Scope R_scope.

(** All points of [S] that are no vertices of [s] are outside of its circumsphere. *)
Definition strictly_delaunay (D : nat) (co : N -> vec) (S s : list N) : Prop := (forall v, In v s -> In v S) /\ full D co s /\
  exists c r2, on_ball D co s c r2 /\ forall q, In q S -> ~ In q s -> r2 < dist2 D (co q) c.
(** The common vertices. *)
Definition shared (s t : list N) : list N := filter (fun v => if in_dec N.eq_dec v t then true else false) s.

Record mesh (D : N) (co : N -> vec) (r : vec) (S : list N) (d : dsims) : Prop := mkmesh {
  (* no simplex has a point inside of its circumsphere *)
  me_delaunay : forall i s, shown d i s -> delaunay (N.to_nat D) co S (x_verts s);
  (* what has no tie is there *)
  me_strict : forall s, strictly_delaunay (N.to_nat D) co S s -> exists i x, shown d i x /\ same s (x_verts x);
  (* every point is a vertex *)
  me_points : forall v, In v S -> exists i s, shown d i s /\ In v (x_verts s);
  (* the simplices cover the box *)
  me_cover : forall p, (forall k, (k < N.to_nat D)%nat -> Rabs (p k) <= r k) -> exists i s, shown d i s /\ in_hull (N.to_nat D) (map co (x_verts s)) p;
  (* two simplices meet in the face of their common vertices, or not at all *)
  me_face : forall i j s t p, shown d i s -> shown d j t -> in_hull (N.to_nat D) (map co (x_verts s)) p -> in_hull (N.to_nat D) (map co (x_verts t)) p ->
    in_hull (N.to_nat D) (map co (shared (x_verts s) (x_verts t))) p;
  (* no simplex twice *)
  me_once : forall i j s t, shown d i s -> shown d j t -> same (x_verts s) (x_verts t) -> i = j;
  (* neighbors share the face opposite to the vertex of the slot; where there is none the face is on the border *)
  me_nbrs : forall i s k n, shown d i s -> nth_error (x_nbrs s) k = Some n ->
    (n = s_inf /\ forall j t, shown d j t -> ~ opposite s k t) \/ exists t, shown d n t /\ opposite s k t }.
