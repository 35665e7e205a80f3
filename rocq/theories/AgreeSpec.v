(** When two results are the same triangulation, whatever the ids; and the results there are for given points. *)
From Coq Require Import Reals.
From Verif Require Import Outcome ListUtil WordsModel WordsProofs LPSetModel LPSetProofs LPSetHistory SimplexModel PointModel PointProofs GeoModel GeoSpec PartModel PartProofs PartTop InfModel InfProofs MergeModel TriSpec DelSpec PlaceSpec DcModel DcSpec TreeModel TreeSpec SplitModel TopSpec LbModel LbSpec.
Local Open Scope nat_scope.

(** [d] has [n] simplices. *)
Definition number (d : dsims) (n : N) : Prop := exists ids, NoDup ids /\ (forall i, In i ids <-> exists s, shown d i s) /\ n = N.of_nat (length ids).
(** [s] in [d] and [t] in [d'] have the same vertices. *)
Definition twins (d d' : dsims) (i j : N) (s t : simplex) : Prop := shown d i s /\ shown d' j t /\ x_verts s = x_verts t.
(** The same simplices; those at the border are the same; and the neighbors in each slot are the same. *)
Record agree (d d' : dsims) : Prop := mkagree {
  ag_left : forall i s, shown d i s -> exists j t, twins d d' i j s t;
  ag_right : forall j t, shown d' j t -> exists i s, twins d d' i j s t;
  ag_hull : forall i j s t, twins d d' i j s t -> (In i (d_hull d) <-> In j (d_hull d'));
  ag_slots : forall i j s t, twins d d' i j s t -> length (x_nbrs s) = length (x_nbrs t);
  ag_nbrs : forall i j s t k n m, twins d d' i j s t -> nth_error (x_nbrs s) k = Some n -> nth_error (x_nbrs t) k = Some m ->
    n = s_inf /\ m = s_inf \/ exists u v, twins d d' n m u v;
  ag_number : exists n, number d n /\ number d' n }.

(** Each point on a sphere through D + 1 points that has no point inside is one of these. *)
Definition no_cosphere (D : nat) (co : N -> vec) (P : list N) : Prop := forall s c r2 v, (forall w, In w s -> In w P) -> full D co s -> on_ball D co s c r2 ->
  (forall w, In w P -> (r2 <= dist2 D (co w) c)%R) -> In v P -> dist2 D (co v) c = r2 -> In v s.

(** The results for the points [q], to which the constructor has added the corners: of CGAL alone, of DCTriangulator, and of the load balanced one. *)
Inductive result (D : nat) (tiny huge : R) (q : points vec) (hgt : N -> R) : dsims -> Prop :=
| re_cgal over cgal start last out : cgal_right (N.of_nat D) (co_of D q) hgt (id_keys (N.of_nat D) q) cgal ->
    base_run over (N.of_nat D) cgal (id_keys (N.of_nat D) q) out start last -> (start + last < 2 ^ 64)%N ->
    result D tiny huge q hgt out
| re_dc over cgal sp depth par_edge c0 takes out : cgal_right (N.of_nat D) (co_of D q) hgt (id_keys (N.of_nat D) q) cgal ->
    (forall k, sp = OneDim k -> k < D) -> depth <= 42 ->
    dc_run over (N.of_nat D) (co_of D q) cgal (splits D q tiny huge sp) depth par_edge [] (id_keys (N.of_nat D) q) out takes ->
    drawn c0 takes -> (c0 + total takes < 2 ^ 64)%N -> (N.of_nat (length takes) < 2 ^ 32)%N ->
    result D tiny huge q hgt out
| re_lb over cgal depth C cbox meets par_base par_edge (t : tree C) l c0 takes out : cgal_right (N.of_nat D) (co_of D q) hgt (id_keys (N.of_nat D) q) cgal ->
    (forall r, placed (N.of_nat D) (co_of D q) r (id_keys (N.of_nat D) q) -> (forall d, d < D -> (tiny <= r d)%R) -> tree_ok (N.of_nat D) (co_of D q) r C meets t (id_keys (N.of_nat D) q)) ->
    Leaves t l -> (N.of_nat (4 * entries l) <= 2 ^ 63)%N -> height t <= 42 -> depth <= 42 ->
    lb_run over (N.of_nat D) (co_of D q) cgal (splits D q tiny huge Cycle) depth C cbox meets par_base par_edge [] t out takes ->
    drawn c0 takes -> (c0 + total takes < 2 ^ 64)%N -> (N.of_nat (length takes) < 2 ^ 32)%N ->
    result D tiny huge q hgt out.
