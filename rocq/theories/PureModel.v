(** PureCGALTriangulator, the algorithms 'c' and 'm' of the programs (src/exe/DAC_Test.cpp:88-97). *)
From Verif Require Import Outcome BlockModel SimplexModel MergeModel.
Local Open Scope N_scope.

(** _pureCgal, src/lib/CGALTriangulator.cpp:482-504, called by _triangulate for all ids (511-525, 541-556, 572-587), for every input for which inserting
    the points into CGAL's triangulation returns: that triangulation is not used, the result is [dSimplices dummy(0, 1, 1)] (Geometry.h:734-739).  [dflt]: a
    simplex made by dSimplex() (Geometry.h:423), of which id and mark are set and the rest is not. *)
Definition pure_dt (dflt : simplex) : dsims := mkd (ba_new dflt 0 1) [] 0.
