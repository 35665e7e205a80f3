(** What the check of the programs is to decide. *)
From Coq Require Import Reals.
From Verif Require Import Outcome ListUtil SimplexModel GeoModel GeoSpec DelSpec MergeModel TriSpec.
Local Open Scope R_scope.

(** The predicates are sign exact for simplices of the dimension. *)
Definition preds_exact (D : nat) (orient : list vec -> R) (insphere : list vec -> vec -> R) : Prop :=
  (D = 2%nat -> forall a b c p, has_sign (orient [a; b; c]%list) (orient2 a b c) /\ has_sign (insphere [a; b; c]%list p) (insphere2 a b c p)) /\
  (D = 3%nat -> forall a b c e p, has_sign (orient [a; b; c; e]%list) (orient3 a b c e) /\ has_sign (insphere [a; b; c; e]%list p) (insphere3 a b c e p)).

(** The simplices [s] and [t] share a face of which [v] is the vertex of [t] on the other side. *)
Definition across (s t : simplex) (v : N) : Prop := In v (x_verts t) /\ ~ In v (x_verts s) /\ forall w, In w (x_verts t) -> w <> v -> In w (x_verts s).
(** No finite vertex behind a face of a simplex is on its circumsphere (or in it). *)
Definition no_ties (D : N) (co : N -> vec) (d : dsims) : Prop := forall i j s t v c r2, shown d i s -> shown d j t -> across s t v -> p_finite D v = true ->
  on_ball (N.to_nat D) co (x_verts s) c r2 -> r2 < dist2 (N.to_nat D) (co v) c.
(** No finite point is on the circumsphere of D + 1 other points, if there is no point inside of it. *)
Definition spread (D : N) (co : N -> vec) (P : list N) : Prop := forall s c r2 v, (forall w, In w s -> In w P) -> full (N.to_nat D) co s -> on_ball (N.to_nat D) co s c r2 ->
  (forall w, In w P -> r2 <= dist2 (N.to_nat D) (co w) c) -> In v P -> p_finite D v = true -> ~ In v s -> r2 <> dist2 (N.to_nat D) (co v) c.
(** A sphere has D + 2 points on it, not in a plane, and none inside, and the infinite points are outside of it. *)
Definition tied (D : N) (co : N -> vec) (P : list N) : Prop := exists s c r2 v, (forall w, In w s -> In w P) /\ full (N.to_nat D) co s /\ on_ball (N.to_nat D) co s c r2 /\
  (forall w, In w P -> r2 <= dist2 (N.to_nat D) (co w) c) /\ (forall w, In w P -> p_finite D w = false -> r2 < dist2 (N.to_nat D) (co w) c) /\
  In v P /\ ~ In v s /\ dist2 (N.to_nat D) (co v) c = r2.
