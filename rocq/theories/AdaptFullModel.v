(** The orientation test in the plane as a whole: Predicates<2>::orient (src/utils/Predicates.cpp:1347-1378) with the call of orient_adapt. *)
From Verif Require Import Outcome GeoModel PredModel ExpansModel AdaptModel.
Local Open Scope R_scope.

(** orient, Predicates.cpp:1347-1378: the filter, and orient_adapt (lines 1268-1345) if it fails. *)
Definition orient2_full (rnd : R -> R) (splitter ccwA ccwB ccwC resb : R) (pa pb pc : vec) (n : nat) : res R :=
  match orient2_fp rnd ccwA pa pb pc with Early det => Val det | Adapt detsum => orient2_adapt rnd splitter ccwB ccwC resb pa pb pc detsum n end.
