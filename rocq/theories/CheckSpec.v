(** What crossCheck and verify are to decide. *)
From Coq Require Import Permutation.
From Verif Require Import Outcome ListUtil WordsModel SimplexModel SimplexProofs NbrSpec PointModel PointProofs.
Local Open Scope N_scope.

(** [ls] lists the live simplices, each once. *)
Definition enum (get : N -> option simplex) (ls : list simplex) : Prop :=
  NoDup (map x_id ls) /\ forall s, In s ls <-> live get (x_id s) s.

(** A triangulation of dimension [k - 1]: each cell holds a simplex with its own id or a deleted one; each live simplex has [k] vertices in order and an up-to-date fingerprint, and
    its neighbor entries are infinite or name a stored cell (of a live or of a deleted simplex) that has one too. *)
Definition tri (over : N -> N) (k : nat) (get : N -> option simplex) : Prop :=
  (forall c s, get c = Some s -> x_id s = c \/ x_id s = s_inf) /\
  (forall c s, live get c s -> sorted (x_verts s) /\ length (x_verts s) = k /\ x_fp s = gen_fp over (x_verts s)) /\
  (forall c s n, live get c s -> In n (x_nbrs s) -> n <> s_inf -> exists t, get n = Some t /\ x_fp t = gen_fp over (x_verts t)).

(** No two live simplices have the same vertices. *)
Definition no_dups (get : N -> option simplex) : Prop :=
  forall c s c' s', live get c s -> live get c' s' -> x_verts s = x_verts s' -> c = c'.

(** A live simplex has exactly the vertices of [s]. *)
Definition occurs (get : N -> option simplex) (s : simplex) : Prop := exists c t, live get c t /\ x_verts t = x_verts s.
(** Both have the same simplices. *)
Definition same_simplices (g h : N -> option simplex) : Prop :=
  (forall c s, live g c s -> occurs h s) /\ (forall c s, live h c s -> occurs g s).

(** Every finite neighbor entry of a simplex of [rget] has an entry with the same vertices in the simplex of [mget] with
    the same vertices. *)
Definition entries_found (mget rget : N -> option simplex) : Prop :=
  forall c s d t n, live rget c s -> live mget d t -> x_verts t = x_verts s -> In n (x_nbrs s) -> n <> s_inf ->
    exists nn u w, In nn (x_nbrs t) /\ nn <> s_inf /\ mget nn = Some u /\ rget n = Some w /\ x_verts u = x_verts w.

(** Two simplices share all vertices but one. *)
Definition joined (s t : simplex) : Prop := exists d, opposite s d t.
(** The finite neighbor entries are the simplices that share a face: complete and correct. *)
Definition entries_right (get : N -> option simplex) : Prop :=
  forall c s n, live get c s -> (In n (x_nbrs s) /\ n <> s_inf <-> exists t, live get n t /\ joined s t).
(** Only complete: simplices that share a face list each other. *)
Definition entries_complete (get : N -> option simplex) : Prop :=
  forall c s d t, live get c s -> live get d t -> joined s t -> In d (x_nbrs s) /\ In c (x_nbrs t).
(** Some face of the one has the hash of some face of the other. *)
Definition hash_met (over : N -> N) (s t : simplex) : Prop :=
  exists i j h, face_fp over s i = Val h /\ face_fp over t j = Val h.
(** Correct as far as hashes meet. *)
Definition entries_met (over : N -> N) (get : N -> option simplex) : Prop :=
  forall c s d t, live get c s -> live get d t -> hash_met over s t -> ~ joined s t -> ~ In d (x_nbrs s) /\ ~ In c (x_nbrs t).

(** The hull lists every infinite simplex, and only ids of cells that are not finite. *)
Definition hull_right (D : N) (get : N -> option simplex) (hull : list N) : Prop :=
  (forall c s, live get c s -> s_isfinite D s = false -> In c hull) /\
  (forall c s, In c hull -> get c = Some s -> s_isfinite D s = false).

(** [used] lists the vertices of the live simplices, each once. *)
Definition used_list (get : N -> option simplex) (used : list N) : Prop :=
  NoDup used /\ forall v, In v used <-> exists c s, live get c s /\ In v (x_verts s).

Section Sphere.
Context {A : Type}.
Variable D : N.
Variable insph : list A -> A -> bool.
Variable pts : points A.
(** The sphere of [s] does not contain the vertex [v]: the corners and [v] are points, and the test says no. *)
Definition outside (s : simplex) (v : N) : Prop :=
  exists cs p, Forall2 (fun w c => p_get D pts w = Val c) (x_verts s) cs /\ p_get D pts v = Val p /\ insph cs p = false.
(** The finite vertices of neighbors that are not shared lie outside. *)
Definition circles_empty (get : N -> option simplex) : Prop :=
  forall c s n t v, live get c s -> In n (x_nbrs s) -> n <> s_inf -> get n = Some t -> In v (x_verts t) ->
    p_finite D v = true -> ~ In v (x_verts s) -> outside s v.
(** The vertices of live simplices and of the cells their neighbor entries name are points. *)
Definition verts_known (get : N -> option simplex) : Prop :=
  (forall c s v, live get c s -> In v (x_verts s) -> is_id D pts v) /\
  (forall c s n t v, live get c s -> In n (x_nbrs s) -> n <> s_inf -> get n = Some t -> In v (x_verts t) -> is_id D pts v).
(** The points used are those given.  Without [pointIds] these are all points, finite and infinite; with [pointIds] it is
    enough that the finite ones are those of [pointIds]. *)
Definition points_right (used : list N) (pointIds : option (list N)) : Prop :=
  (forall v, In v used <-> is_id D pts v) \/
  match pointIds with
  | Some ids => forall v, p_finite D v = true -> (In v used <-> In v ids)
  | None => False
  end.
(** The global property. *)
Definition delaunay (get : N -> option simplex) : Prop :=
  forall c s d t v, live get c s -> live get d t -> In v (x_verts t) -> p_finite D v = true -> ~ In v (x_verts s) -> outside s v.
End Sphere.
