(** Specification of the geometric functions: sums, squared distance, boxes and balls as sets of points, convex
    combinations.  Independent of the functions of GeoModel apart from the record types. *)
From Verif Require Import Outcome GeoModel.
Local Open Scope R_scope.

Fixpoint sumn (n : nat) (f : nat -> R) : R := match n with O => 0 | S m => sumn m f + f m end.
Definition dist2 (D : nat) (x y : vec) : R := sumn D (fun d => (x d - y d) ^ 2).
Definition box_ok (D : nat) (b : box) : Prop := forall d, (d < D)%nat -> b_lo b d <= b_hi b d.
Definition in_box (D : nat) (b : box) (p : vec) : Prop := forall d, (d < D)%nat -> b_lo b d <= p d <= b_hi b d.
(** The closed ball. *)
Definition in_ball (D : nat) (s : sphere) (p : vec) : Prop := 0 <= sp_r s /\ dist2 D p (sp_c s) <= sp_r s ^ 2.
(** The open ball. *)
Definition inside (D : nat) (s : sphere) (p : vec) : Prop := 0 <= sp_r s /\ dist2 D p (sp_c s) < sp_r s ^ 2.
(** The sphere. *)
Definition on_sphere (D : nat) (s : sphere) (p : vec) : Prop := 0 <= sp_r s /\ dist2 D p (sp_c s) = sp_r s ^ 2.
(** Equality of vectors and of spheres. *)
Definition veq (D : nat) (x y : vec) : Prop := forall d, (d < D)%nat -> x d = y d.
Definition sph_eq (D : nat) (a b : sphere) : Prop := veq D (sp_c a) (sp_c b) /\ sp_r a = sp_r b.
(** The simplex with vertices [vs] as a set of points: the convex combinations. *)
Definition comb (ws : list (R * vec)) : vec := fun d => fold_right (fun wv a => fst wv * snd wv d + a) 0 ws.
Definition weights (ws : list (R * vec)) : Prop := Forall (fun wv => 0 <= fst wv) ws /\ fold_right (fun wv a => fst wv + a) 0 ws = 1.
Definition in_hull (D : nat) (vs : list vec) (p : vec) : Prop :=
  exists ws, map snd ws = vs /\ weights ws /\ veq D p (comb ws).
(** The vectors v_i - v_0 of the vertices span the space: the only combination of them giving 0 is trivial. *)
Definition independent (D : nat) (v0 : vec) (vs : list vec) : Prop :=
  forall ws, map snd ws = vs -> (forall d, (d < D)%nat -> fold_right (fun wv a => fst wv * (snd wv d - v0 d) + a) 0 ws = 0) ->
  Forall (fun wv => fst wv = 0) ws.
