(** The infinite points added by the constructors of the triangulators, src/lib/DCTriangulator.cpp:67-86 and
    include/LoadBalancedDCTriangulator.tpp:76-95.  Coordinates are exact real numbers. *)
From Verif Require Import Outcome ListUtil WordsModel SimplexModel PointModel GeoModel PartModel.

(** SAFETY, include/DCTriangulator.h:81 and include/LoadBalancedDCTriangulator.h:100. *)
Definition safety : R := 100%R.

(** The coordinates of the [i]-th infinite point, DCTriangulator.cpp:75-82: starts from [mid], but every coordinate is
    then overwritten. *)
Definition inf_coords (st : stats) (i : N) : vec :=
  fun d => ((if N.testbit i (N.of_nat d) then 1 else -1) * 2 * safety * (st_max st d - st_min st d))%R.

(** points[cINF | i] = p, DCTriangulator.cpp:84; VectorAdapter2.hxx:30-41. *)
Definition set_inf (D : N) (p : points vec) (i : N) (c : vec) : points vec :=
  mkpts (p_vec p) (p_off p) (upd (p_infs p) (N.to_nat (p_infidx D (N.lor (p_inf D) i))) c).
(** The loop, DCTriangulator.cpp:70-85: i < pow(2, D). *)
Definition add_infinite (D : nat) (p : points vec) (st : stats) : points vec :=
  fold_left (fun p i => set_inf (N.of_nat D) p (N.of_nat i) (inf_coords st (N.of_nat i))) (seq 0 (2 ^ D)) p.
(** The constructor's block, DCTriangulator.cpp:67-86; [work]: the ids of points.range() as handed out to threads. *)
Definition ctor_points (D : nat) (tiny huge : R) (p : points vec) (work : list (list N)) : res (points vec) :=
  rmap (add_infinite D p) (stats_par D p tiny huge true work).
