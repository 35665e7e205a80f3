(** The check the programs make of their results: dSimplices::verify and crossCheck with a reference triangulation by CGAL, src/exe/DAC_Test.cpp:139-152 (the same
    in DS_Studies.cpp and LB_Painting.cpp). *)
From Coq Require Import Reals Permutation.
From Verif Require Import Outcome ListUtil SimplexModel PointModel GeoModel MergeModel DcModel CheckModel CheckSpec.
Local Open Scope nat_scope.

(** GeometryCore::inSphere, Geometry.cpp:148-187, 351-410: the corners and the point; [orient] and [insphere] are the predicates (Predicates.h), which return any number
    with the right sign. *)
Definition insph (orient : list vec -> R) (insphere : list vec -> vec -> R) (cs : list vec) (p : vec) : bool := in_sphere (orient cs) (insphere cs p).

Section Self.
Variable over : N -> N.
Variable D : N.
Variable orient : list vec -> R.
Variable insphere : list vec -> vec -> R.

(** dt.verify(points), Geometry.cpp:898-1137 (DAC_Test.cpp:149): no set of ids is given.  [ls], [used]: the simplices and their vertices in the order of the iterations,
    [tab], [ftab]: the contents of the two multimaps in any order. *)
Definition verify_of (d : dsims) (pts : points vec) (ls : list simplex) (used : list N) (tab ftab : list (N * N)) : res vreport :=
  verify over D (insph orient insphere) (d_get (d_arr d)) pts (d_hull d) ls used None tab ftab.
(** What these may be. *)
Definition verify_sees (d : dsims) (ls : list simplex) (used : list N) (tab ftab : list (N * N)) : Prop :=
  enum (d_get (d_arr d)) ls /\ used_list (d_get (d_arr d)) used /\ Permutation tab (map entry ls) /\ exists fe, face_entries over ls = Val fe /\ Permutation ftab fe.

(** dt.crossCheck(realDT), Geometry.cpp:758-896 (DAC_Test.cpp:150). *)
Definition cross_of (d real : dsims) (tab : list (N * N)) (ms rs : list simplex) (chunks : list (list simplex)) : res creport :=
  cross_check (d_get (d_arr d)) (d_get (d_arr real)) tab ms rs chunks.
Definition cross_sees (d real : dsims) (tab : list (N * N)) (ms rs : list simplex) (chunks : list (list simplex)) : Prop :=
  enum (d_get (d_arr d)) ms /\ enum (d_get (d_arr real)) rs /\ Permutation tab (map entry ms ++ map entry rs) /\ Permutation (concat chunks) rs.

(** DAC_Test.cpp:149-152: ret.valid.  [real]: realDT, 145-146. *)
Definition self_check (d real : dsims) (pts : points vec) (ls : list simplex) (used : list N) (tab ftab : list (N * N))
    (tab' : list (N * N)) (ms rs : list simplex) (chunks : list (list simplex)) : res bool :=
  rbind (verify_of d pts ls used tab ftab) (fun vr => rmap (fun ccr => v_valid vr && c_valid ccr) (cross_of d real tab' ms rs chunks)).
End Self.
