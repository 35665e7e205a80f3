(** The adaptive part of the two-dimensional orientation test: Predicates<2>::orient_adapt (src/utils/Predicates.cpp:1268-1345) and the macros it uses. *)
From Verif Require Import Outcome GeoModel PredModel ExpansModel.
Local Open Scope R_scope.

Section Adapt.
  Variable rnd : R -> R.
  (** super::splitter, ccwerrboundB, ccwerrboundC, resulterrbound, as set by the static constructor, Predicates.cpp:415-464. *)
  Variables splitter ccwB ccwC resb : R.
  Notation add := (fadd rnd). Notation sub := (fsub rnd). Notation mul := (fmul rnd).
  (** Two_Diff_Tail, Predicates.cpp:193-198: y. *)
  Definition two_diff_tail (a b x : R) : R :=
    let bvirt := sub a x in
    let avirt := add x bvirt in
    let bround := sub bvirt b in
    let around := sub a avirt in
    add around bround.
  (** Two_Diff, Predicates.cpp:200-202: x, y. *)
  Definition two_diff (a b : R) : R * R := let x := sub a b in (x, two_diff_tail a b x).
  (** Split, Predicates.cpp:204-208: ahi, alo. *)
  Definition split_fp (a : R) : R * R :=
    let c := mul splitter a in
    let abig := sub c a in
    let ahi := sub c abig in
    (ahi, sub a ahi).
  (** Two_Product, Predicates.cpp:210-220: x, y. *)
  Definition two_product (a b : R) : R * R :=
    let x := mul a b in
    let '(ahi, alo) := split_fp a in
    let '(bhi, blo) := split_fp b in
    let err1 := sub x (mul ahi bhi) in
    let err2 := sub err1 (mul alo bhi) in
    let err3 := sub err2 (mul ahi blo) in
    (x, sub (mul alo blo) err3).
  (** Two_One_Diff, Predicates.cpp:262-264: x2, x1, x0. *)
  Definition two_one_diff (a1 a0 b : R) : R * R * R :=
    let '(i, x0) := two_diff a0 b in
    let '(x2, x1) := two_sum rnd a1 i in (x2, x1, x0).
  (** Two_Two_Diff, Predicates.cpp:270-272: the array x0, x1, x2, x3. *)
  Definition two_two_diff (a1 a0 b1 b0 : R) : list R :=
    let '(j, z, x0) := two_one_diff a1 a0 b0 in
    let '(x3, x2, x1) := two_one_diff j z b1 in [x0; x1; x2; x3].
  (** estimate, Predicates.cpp:1132-1141. *)
  Definition estimate (e : list R) : R := match e with [] => 0 | q :: e => fold_left add e q end.
  (** Two products and their difference, as in Predicates.cpp:1296-1301, 1326-1329, 1332-1335, 1338-1341: (a b) - (c d). *)
  Definition prod_diff (a b c d : R) : list R :=
    let '(s1, s0) := two_product a b in let '(t1, t0) := two_product c d in two_two_diff s1 s0 t1 t0.
  (** The arrays C1[8], C2[12], D[16], Predicates.cpp:1274: [size] elements of which the first ones were written.  Simplified: the others are indeterminate in C++, here they are 0. *)
  Definition array (size : nat) (l : list R) : list R := l ++ repeat 0 (size - length l).

  (** orient_adapt, Predicates.cpp:1268-1345; [n]: steps of the loops in the sums of expansions. *)
  Definition orient2_adapt (pa pb pc : vec) (detsum : R) (n : nat) : res R :=
    let acx := sub (pa 0%nat) (pc 0%nat) in let bcx := sub (pb 0%nat) (pc 0%nat) in
    let acy := sub (pa 1%nat) (pc 1%nat) in let bcy := sub (pb 1%nat) (pc 1%nat) in
    let B := prod_diff acx bcy acy bcx in
    let det := estimate B in
    let errbound := mul ccwB detsum in
    if rleb errbound det || rleb errbound (- det) then Val det else
    let acxtail := two_diff_tail (pa 0%nat) (pc 0%nat) acx in let bcxtail := two_diff_tail (pb 0%nat) (pc 0%nat) bcx in
    let acytail := two_diff_tail (pa 1%nat) (pc 1%nat) acy in let bcytail := two_diff_tail (pb 1%nat) (pc 1%nat) bcy in
    if reqb acxtail 0 && reqb acytail 0 && reqb bcxtail 0 && reqb bcytail 0 then Val det else
    let errbound := add (mul ccwC detsum) (mul resb (Rabs det)) in
    let det := add det (sub (add (mul acx bcytail) (mul bcy acxtail)) (add (mul acy bcxtail) (mul bcx acytail))) in
    if rleb errbound det || rleb errbound (- det) then Val det else
    rbind (expansion_sum rnd 4 B 4 (prod_diff acxtail bcy acytail bcx) n) (fun C1 =>
    rbind (expansion_sum rnd (length C1) (array 8 C1) 4 (prod_diff acx bcytail acy bcxtail) n) (fun C2 =>
    rbind (expansion_sum rnd (length C2) (array 12 C2) 4 (prod_diff acxtail bcytail acytail bcxtail) n) (fun D =>
    rd (array 16 D) (length D - 1)))).
End Adapt.
