(** Delaunay triangulations of finite sets of points, in any dimension. *)
From Verif Require Import Outcome GeoModel GeoSpec.
Local Open Scope R_scope.

(** A sum over a list. *)
Definition lsum (f : N -> R) (l : list N) : R := fold_right (fun v a => f v + a) 0 l.

Section Del.
Variable D : nat.
(** The coordinates of the points, by id. *)
Variable co : N -> vec.

(** Affine functions. *)
Definition affine (f : vec -> R) : Prop := exists a b, forall x, f x = sumn D (fun d => a d * x d) + b.

(** [L v] is the barycentric coordinate of the vertex [v] of [s]: 1 there, 0 at the other vertices; and each point is the combination of
    the vertices with its coordinates. *)
Definition coords (s : list N) (L : N -> vec -> R) : Prop :=
  (forall v, In v s -> affine (L v)) /\
  (forall v, In v s -> L v (co v) = 1) /\ (forall v w, In v s -> In w s -> v <> w -> L v (co w) = 0) /\
  (forall x, lsum (fun v => L v x) s = 1 /\ forall d, (d < D)%nat -> lsum (fun v => L v x * co v d) s = x d).
(** A simplex that is not flat: D + 1 different vertices that have barycentric coordinates. *)
Definition full (s : list N) : Prop := NoDup s /\ length s = S D /\ exists L, coords s L.

(** The points are lifted to these heights.  For Delaunay triangulations the height is the squared length, up to the breaking of ties. *)
Variable hgt : N -> R.
(** The plane [k] goes through the lifted vertices of [s]. *)
Definition through (s : list N) (k : vec -> R) : Prop := affine k /\ forall v, In v s -> k (co v) = hgt v.
(** No lifted point of [S] lies below it. *)
Definition free (S : list N) (k : vec -> R) : Prop := forall q, In q S -> k (co q) <= hgt q.
(** The simplices below which no lifted point lies: the lower hull of the lifted points. *)
Definition dt (S s : list N) : Prop := (forall v, In v s -> In v S) /\ full s /\ exists k, through s k /\ free S k.
(** No ties are left: these planes go through no further point. *)
Definition general (S : list N) : Prop := forall s k q, dt S s -> through s k -> In q S -> k (co q) = hgt q -> In q s.

(** The sphere with centre [c] and squared radius [r2] goes through the vertices of [s]. *)
Definition on_ball (s : list N) (c : vec) (r2 : R) : Prop := forall v, In v s -> dist2 D (co v) c = r2.
(** The Delaunay property: a circumsphere that has no point of [S] inside. *)
Definition delaunay (S s : list N) : Prop := (forall v, In v s -> In v S) /\ full s /\ exists c r2, on_ball s c r2 /\ forall q, In q S -> r2 <= dist2 D (co q) c.
(** The heights agree with the spheres, except that they may break ties: what is outside of a circumsphere is above the plane, what is inside below. *)
Definition ties (S : list N) : Prop := forall s k c r2 q, (forall v, In v s -> In v S) -> full s -> through s k -> on_ball s c r2 -> In q S ->
  (r2 < dist2 D (co q) c -> k (co q) < hgt q) /\ (dist2 D (co q) c < r2 -> hgt q < k (co q)).
(** Different points have different coordinates. *)
Definition distinct (S : list N) : Prop := forall u v, In u S -> In v S -> veq D (co u) (co v) -> u = v.

(** [p] lies in the convex hull of the points [S]: whatever is on one side of a hyperplane keeps [p] there. *)
Definition hull_of (S : list N) (p : vec) : Prop := forall g, affine g -> (forall u, In u S -> 0 <= g (co u)) -> 0 <= g p.
(** A hyperplane has [p] on one side, strictly, and all of [S] on the other. *)
Definition parted (S : list N) (p : vec) : Prop := exists g, affine g /\ g p < 0 /\ forall u, In u S -> 0 <= g (co u).
End Del.

Section Merge.
Variable D : nat.
Variable co : N -> vec.
Variable hgt : N -> R.
(** Which ids are those of input points; the others are the "infinite" points far outside. *)
Variable fin : N -> bool.
(** The partitions with the infinite points; all points. *)
Variable np : nat.
Variable part : nat -> list N.
Variable all : list N.

(** The infinite vertices of a Delaunay simplex lie on a hyperplane with all points on one side, not all of them in it. *)
Definition outer (S : list N) : Prop := forall s, dt D co hgt S s -> exists g, affine D g /\ (forall u, In u s -> fin u = false -> g (co u) = 0) /\
  (forall q, In q S -> 0 <= g (co q)) /\ exists q, In q S /\ 0 < g (co q).

(** A division of the points for divide and conquer: input points are in one partition, infinite points in each; the heights leave no ties;
    there is some simplex in all and in each partition; the input points lie in the hull of the infinite points; and each partition can be
    told from a point of another one by a hyperplane. *)
Record division : Prop := mkdiv {
  dv_all : forall v, In v all <-> exists i, (i < np)%nat /\ In v (part i);
  dv_one : forall i j v, (i < np)%nat -> (j < np)%nat -> In v (part i) -> In v (part j) -> fin v = true -> i = j;
  dv_inf : forall v j, In v all -> fin v = false -> (j < np)%nat -> In v (part j);
  dv_distinct : distinct D co all;
  dv_ties : ties D co hgt all;
  dv_gen : general D co hgt all;
  dv_gens : forall i, (i < np)%nat -> general D co hgt (part i);
  dv_some : exists s, dt D co hgt all s;
  dv_somes : forall i, (i < np)%nat -> exists s, dt D co hgt (part i) s;
  dv_hull : forall v, In v all -> hull_of D co (filter (fun u => negb (fin u)) all) (co v);
  dv_parted : forall i j v, (i < np)%nat -> (j < np)%nat -> i <> j -> In v (part j) -> fin v = true -> parted D co (filter fin (part i)) (co v);
  dv_outer : outer all }.

(** The same vertices. *)
Definition same (s s' : list N) : Prop := forall v, In v s <-> In v s'.
(** All vertices in one partition. *)
Definition single (s : list N) : Prop := exists i, (i < np)%nat /\ forall v, In v s -> In v (part i).
End Merge.
