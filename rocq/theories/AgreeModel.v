(** The number of simplices the programs report. *)
From Verif Require Import Outcome BlockModel SimplexModel MergeModel.

(** DAC_Test.cpp:135 (nSimplices), Benchmark.cpp:96 (nS), Experiment.h:73 ("simplices"): exact_size() of the result, BlockedArray2.hxx:502-509. *)
Definition n_simplices (d : dsims) : N := ba_exact_size (d_arr d).
