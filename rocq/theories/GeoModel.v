(** Geometry over exact real numbers: dBox and dSphere (include/Geometry.h:60-183), the predicates of
    src/lib/Geometry.cpp, include/load_balancing/BoxUtils.h, VectorOperations.h and Grid.h.

    Simplification: Precision (float or double) is replaced by the real numbers, so rounding, overflow,
    infinities and NaN are not modelled; comparisons of finite values are exact in both.  A division by zero gives
    [Undef] here (in IEEE arithmetic an infinity or NaN, not modelled).
    A dVector<D, Precision> is a function from indices; only the indices below D are used. *)
From Verif Require Import Outcome.
From Coq Require Export Reals Lra.
Local Open Scope R_scope.

Definition vec := nat -> R.
(** Comparisons. *)
Definition rleb (x y : R) : bool := if Rle_dec x y then true else false.
Definition rltb (x y : R) : bool := if Rlt_dec x y then true else false.
Definition reqb (x y : R) : bool := if Req_EM_T x y then true else false.

(** Geometry.h:61-65 and 71-73. *)
Record sphere := mksph { sp_c : vec; sp_r : R }.
Record box := mkbox { b_lo : vec; b_hi : vec }.

(** p[d] = x *)
Definition vset (p : vec) (d : nat) (x : R) : vec := fun i => if Nat.eqb i d then x else p i.
(** [Precision x = 0; for (d = 0; d < D; ++d) x += f(d)] *)
Definition sum_loop (D : nat) (f : nat -> R) : R := fold_left (fun a d => a + f d) (seq 0 D) 0.

Section D.
Variable D : nat.

(** dPoint::sqDistance, Geometry.h:217-225 (this is the point a). *)
Definition sq_distance (a p : vec) : R := sum_loop D (fun d => (p d - a d) * (p d - a d)).

(** contains(dVector), Geometry.h:81-90. *)
Definition box_has (b : box) (p : vec) : bool := forallb (fun d => rleb (b_lo b d) (p d) && rleb (p d) (b_hi b d)) (seq 0 D).
(** contains(dBox), Geometry.h:92-101. *)
Definition box_has_box (b c : box) : bool := forallb (fun d => rleb (b_lo b d) (b_lo c d) && rleb (b_hi c d) (b_hi b d)) (seq 0 D).
(** contains(dSphere), Geometry.h:104-132. *)
Definition box_has_sphere (b : box) (s : sphere) : bool :=
  let r2 := sp_r s * sp_r s in
  if forallb (fun d => rleb (b_lo b d) (sp_c s d) && rleb (sp_c s d) (b_hi b d)) (seq 0 D)
  then forallb (fun d =>
         let p := vset (sp_c s) d (if rltb (sp_c s d) ((b_hi b d + b_lo b d) / 2) then b_lo b d else b_hi b d) in
         negb (rltb (sum_loop D (fun i => (sp_c s i - p i) * (sp_c s i - p i))) r2)) (seq 0 D)
  else false.
(** intersects(dSphere), Geometry.h:135-154; the loop with its early return. *)
Fixpoint inter_loop (b : box) (s : sphere) (ds : list nat) (dist : R) : bool :=
  match ds with
  | nil => rleb dist (sp_r s * sp_r s)
  | cons d t =>
      let e := Rmax (b_lo b d - sp_c s d) 0 + Rmax (sp_c s d - b_hi b d) 0 in
      if rltb (sp_r s) e then false else inter_loop b s t (dist + e * e)
  end.
Definition box_meets (b : box) (s : sphere) : bool := inter_loop b s (seq 0 D) 0.
(** operator-, Geometry.h:156-183. *)
Definition box_minus (b o : box) : box :=
  mkbox (fun d => if reqb (b_hi b d) (b_hi o d) then b_lo b d else b_hi o d)
        (fun d => if reqb (b_lo b d) (b_lo o d) then b_hi b d else b_lo o d).

(** ** include/load_balancing/BoxUtils.h *)
(** VectorOperations.h:7-36. *)
Definition vscale (v : vec) (f : R) : vec := fun d => v d * f.
Definition vplus (a b : vec) : vec := fun d => a d + b d.
Definition vneg (v : vec) : vec := vscale v (-1).
Definition vminus (a b : vec) : vec := vplus a (vneg b).
(** VectorOperations.h:38-50. *)
Definition scalar (a b : vec) : R := sum_loop D (fun d => a d * b d).
Definition len2 (v : vec) : R := scalar v v.
(** splitBox, BoxUtils.h:9-22. *)
Definition split_box (b : box) (dim : nat) (x : R) : box * box :=
  (mkbox (b_lo b) (vset (b_hi b) dim x), mkbox (vset (b_lo b) dim x) (b_hi b)).
(** enlargeBoxAroundVector, BoxUtils.h:24-46: the assignments are repeated D times. *)
Definition enlarge1 (b : box) (v : vec) : box :=
  mkbox (fun d => Rmin (b_lo b d) (v d)) (fun d => Rmax (b_hi b d) (v d)).
Definition enlarge (b : box) (v : vec) : box := fold_left (fun b _ => enlarge1 b v) (seq 0 D) b.
(** makeBoundingBox, BoxUtils.h:48-62; [None]: uninitialised for an empty sequence. *)
Definition bounding (vs : list vec) : option box :=
  match vs with
  | nil => None
  | cons v t => Some (fold_left enlarge t (mkbox v v))
  end.
(** vecToLowerQuadrant, vecToCenteredBox, vecToBox, BoxUtils.h:64-84. *)
Definition vec_lq (v : vec) : vec := fun d => Rmax (v d) 0.
Definition vec_cb (v hc : vec) : vec := vec_lq (vminus (fun d => Rabs (v d)) hc).
Definition vec_box (v : vec) (b : box) : vec :=
  let center := vscale (vplus (b_hi b) (b_lo b)) (1 / 2) in vec_cb (vminus v center) (vminus (b_hi b) center).
(** std::max_element over the first D entries: the first index of a largest one. *)
Definition max_element (v : vec) : nat :=
  fold_left (fun m d => if rltb (v m) (v d) then d else m) (seq 0 D) O.
(** vecToLowerQuadrantBoundary, vecToCenteredBoxBoundary, vecToBoxBoundary, BoxUtils.h:86-108. *)
Definition vec_lqb (v : vec) : vec :=
  let r := vec_lq v in
  if forallb (fun d => reqb (r d) 0) (seq 0 D) then vset r (max_element v) (v (max_element v)) else r.
Definition vec_cbb (v hc : vec) : vec := vec_lqb (vminus (fun d => Rabs (v d)) hc).
Definition vec_box_boundary (v : vec) (b : box) : vec :=
  let center := vscale (vplus (b_hi b) (b_lo b)) (1 / 2) in vec_cbb (vminus v center) (vminus (b_hi b) center).

(** ** include/load_balancing/Grid.h; [w] is the cell width, indices are int64. *)
Definition in64 (z : Z) : bool := ((- 2 ^ 63 <=? z) && (z <? 2 ^ 63))%Z.
(** fitOneDimension, Grid.h:165-169, and indexAt, 79-85; converting a number outside int64 is undefined. *)
Definition fit (w x : R) : Z := Int_part (x / w).
Definition index_at (w : R) (v : vec) : res (nat -> Z) :=
  if forallb (fun d => in64 (fit w (v d))) (seq 0 D) then Val (fun d => fit w (v d)) else Undef.
(** centerOf, Grid.h:87-93. *)
Definition center_of (w : R) (i : nat -> Z) : vec := fun d => IZR (i d) * w + w / 2.
(** boundsOf, Grid.h:95-103; [x + 1] is computed in int64. *)
Definition bounds_of (w : R) (i : nat -> Z) : res box :=
  if forallb (fun d => in64 (i d + 1)) (seq 0 D)
  then Val (mkbox (fun d => IZR (i d) * w) (fun d => IZR (i d + 1) * w)) else Undef.
(** intersectsWith, Grid.h:40-64: the loop of dBox::intersects. *)
Definition grid_meets (w : R) (s : sphere) (i : nat -> Z) : res bool := rmap (fun b => box_meets b s) (bounds_of w i).
End D.

(** ** src/lib/Geometry.cpp *)
(** pow(x, 2) *)
Definition sq (x : R) : R := x * x.
(** dot, Geometry.cpp:45-51. *)
Definition dot (D : nat) (a b : vec) : R := sum_loop D (fun d => a d * b d).
(** operator-, Geometry.cpp:61-67: the result is b - a. *)
Definition cdiff (a b : vec) : vec := fun d => b d - a d.

(** *** Dimension 2 *)
(** The determinants of Predicates<2>::orient and insphere (src/utils/Predicates.cpp:1177-1185, 1405-1426, the
    non-adaptive forms).  The adaptive functions that are called return a number with the sign of the determinant:
    [has_sign] below; trusted. *)
Definition orient2 (a b c : vec) : R := (a 0%nat - c 0%nat) * (b 1%nat - c 1%nat) - (a 1%nat - c 1%nat) * (b 0%nat - c 0%nat).
Definition insphere2 (a b c d : vec) : R :=
  let adx := a 0%nat - d 0%nat in let ady := a 1%nat - d 1%nat in
  let bdx := b 0%nat - d 0%nat in let bdy := b 1%nat - d 1%nat in
  let cdx := c 0%nat - d 0%nat in let cdy := c 1%nat - d 1%nat in
  let abdet := adx * bdy - bdx * ady in let bcdet := bdx * cdy - cdx * bdy in let cadet := cdx * ady - adx * cdy in
  let alift := adx * adx + ady * ady in let blift := bdx * bdx + bdy * bdy in let clift := cdx * cdx + cdy * cdy in
  alift * bcdet + blift * cadet + clift * abdet.
Definition has_sign (x det : R) : Prop := (0 < x <-> 0 < det) /\ (x < 0 <-> det < 0).

(** inSphere, Geometry.cpp:148-187 (2D) and 351-410 (3D): [o] and [i] are what the predicates return. *)
Definition in_sphere (o i : R) : bool := rleb 0 (o * i).

(** inSimplex, Geometry.cpp:102-135. *)
Definition in_simplex2 (p s0 s1 s2 : vec) : res bool :=
  let v1 := cdiff s1 s0 in let v2 := cdiff s2 s0 in let vp := cdiff p s0 in
  let v1v1 := dot 2 v1 v1 in let v1v2 := dot 2 v1 v2 in let v1vp := dot 2 v1 vp in
  let v2v2 := dot 2 v2 v2 in let v2vp := dot 2 v2 vp in
  let den := v1v2 * v1v2 - v1v1 * v2v2 in
  if reqb den 0 then Undef else
  let invDenom := 1 / den in
  let u := - ((v1vp * v2v2 - v1v2 * v2vp) * invDenom) in
  let v := - ((- v1v2 * v1vp + v1v1 * v2vp) * invDenom) in
  Val (rleb 0 u && rleb 0 v && rleb (u + v) 1).

(** sqDistanceToFace, Geometry.cpp:137-146. *)
Definition dist_face2 (p s0 s1 : vec) : res R :=
  let v := cdiff s1 s0 in let r := cdiff p s0 in
  let n : vec := fun d => match d with O => v 1%nat | _ => - v 0%nat end in
  if reqb (dot 2 n n) 0 then Undef else Val (Rabs (dot 2 n r / dot 2 n n)).

(** circumsphere, Geometry.cpp:189-237. *)
Definition circum2 (s0 s1 s2 : vec) : res sphere :=
  let den := 2 * (s0 0%nat * (s1 1%nat - s2 1%nat) + s1 0%nat * (s2 1%nat - s0 1%nat) + s2 0%nat * (s0 1%nat - s1 1%nat)) in
  if reqb den 0 then Undef else
  let c0 := ((sq (s0 0%nat) + sq (s0 1%nat)) * (s1 1%nat - s2 1%nat) + (sq (s1 0%nat) + sq (s1 1%nat)) * (s2 1%nat - s0 1%nat) +
             (sq (s2 0%nat) + sq (s2 1%nat)) * (s0 1%nat - s1 1%nat)) / den in
  let c1 := ((sq (s0 0%nat) + sq (s0 1%nat)) * (s2 0%nat - s1 0%nat) + (sq (s1 0%nat) + sq (s1 1%nat)) * (s0 0%nat - s2 0%nat) +
             (sq (s2 0%nat) + sq (s2 1%nat)) * (s1 0%nat - s0 0%nat)) / den in
  Val (mksph (fun d => match d with O => c0 | _ => c1 end) (sqrt (sq (c0 - s0 0%nat) + sq (c1 - s0 1%nat)))).

(** *** Dimension 3 *)
(** src/utils/Predicates.cpp:2376-2394, 3089-3130. *)
Definition orient3 (a b c d : vec) : R :=
  let adx := a 0%nat - d 0%nat in let bdx := b 0%nat - d 0%nat in let cdx := c 0%nat - d 0%nat in
  let ady := a 1%nat - d 1%nat in let bdy := b 1%nat - d 1%nat in let cdy := c 1%nat - d 1%nat in
  let adz := a 2%nat - d 2%nat in let bdz := b 2%nat - d 2%nat in let cdz := c 2%nat - d 2%nat in
  adx * (bdy * cdz - bdz * cdy) + bdx * (cdy * adz - cdz * ady) + cdx * (ady * bdz - adz * bdy).
Definition insphere3 (a b c d e : vec) : R :=
  let aex := a 0%nat - e 0%nat in let bex := b 0%nat - e 0%nat in let cex := c 0%nat - e 0%nat in let dex := d 0%nat - e 0%nat in
  let aey := a 1%nat - e 1%nat in let bey := b 1%nat - e 1%nat in let cey := c 1%nat - e 1%nat in let dey := d 1%nat - e 1%nat in
  let aez := a 2%nat - e 2%nat in let bez := b 2%nat - e 2%nat in let cez := c 2%nat - e 2%nat in let dez := d 2%nat - e 2%nat in
  let ab := aex * bey - bex * aey in let bc := bex * cey - cex * bey in
  let cd := cex * dey - dex * cey in let da := dex * aey - aex * dey in
  let ac := aex * cey - cex * aey in let bd := bex * dey - dex * bey in
  let abc := aez * bc - bez * ac + cez * ab in let bcd := bez * cd - cez * bd + dez * bc in
  let cda := cez * da + dez * ac + aez * cd in let dab := dez * ab + aez * bd + bez * da in
  let alift := aex * aex + aey * aey + aez * aez in let blift := bex * bex + bey * bey + bez * bez in
  let clift := cex * cex + cey * cey + cez * cez in let dlift := dex * dex + dey * dey + dez * dez in
  (dlift * abc - clift * dab) + (blift * cda - alift * bcd).

(** inSimplex, Geometry.cpp:291-335. *)
Definition in_simplex3 (p s0 s1 s2 s3 : vec) : res bool :=
  let v1 := cdiff s1 s0 in let v2 := cdiff s2 s0 in let v3 := cdiff s3 s0 in let vp := cdiff p s0 in
  let v1v1 := dot 3 v1 v1 in let v1v2 := dot 3 v1 v2 in let v1v3 := dot 3 v1 v3 in let v1vp := dot 3 v1 vp in
  let v2v2 := dot 3 v2 v2 in let v2v3 := dot 3 v2 v3 in let v2vp := dot 3 v2 vp in
  let v3v3 := dot 3 v3 v3 in let v3vp := dot 3 v3 vp in
  let den := v1v3 * v1v3 * v2v2 - 2 * v1v2 * v1v3 * v2v3 + v1v1 * v2v3 * v2v3 + v1v2 * v1v2 * v3v3 - v1v1 * v2v2 * v3v3 in
  if reqb den 0 then Undef else
  let invDenom := 1 / den in
  let u := - ((- v1vp * v2v3 * v2v3 + v1v3 * v2v3 * v2vp + v1vp * v2v2 * v3v3 - v1v2 * v2vp * v3v3 - v1v3 * v2v2 * v3vp + v1v2 * v2v3 * v3vp) * invDenom) in
  let v := - ((v1v3 * v1vp * v2v3 - v1v3 * v1v3 * v2vp - v1v2 * v1vp * v3v3 + v1v1 * v2vp * v3v3 + v1v2 * v1v3 * v3vp - v1v1 * v2v3 * v3vp) * invDenom) in
  let z := - ((- v1v3 * v1vp * v2v2 + v1v2 * v1vp * v2v3 + v1v2 * v1v3 * v2vp - v1v1 * v2v3 * v2vp - v1v2 * v1v2 * v3vp + v1v1 * v2v2 * v3vp) * invDenom) in
  Val (rleb 0 u && rleb 0 v && rleb 0 z && rleb (u + v + z) 1).

(** sqDistanceToFace, Geometry.cpp:337-349. *)
Definition dist_face3 (p s0 s1 s2 : vec) : res R :=
  let u := cdiff s1 s0 in let v := cdiff s2 s0 in let w := cdiff p s0 in
  let n : vec := fun d => match d with
                          | O => u 1%nat * v 2%nat - u 2%nat * v 1%nat
                          | S O => u 2%nat * v 0%nat - u 0%nat * v 2%nat
                          | _ => u 0%nat * v 1%nat - u 1%nat * v 0%nat
                          end in
  if reqb (dot 3 n n) 0 then Undef else Val (Rabs (dot 3 w n / dot 3 n n)).

(** circumsphere, Geometry.cpp:412-721. *)
Section C3.
Variable s0 s1 s2 s3 : vec.
(** 417-464: the denominator. *)
Definition den3 : R :=
  2 * (s0 0%nat * (s2 1%nat * s3 2%nat + s1 1%nat * (s2 2%nat - s3 2%nat) - s3 1%nat * s2 2%nat - (s2 1%nat -
  s3 1%nat) * s1 2%nat) - s1 0%nat * (s2 1%nat * s3 2%nat - s3 1%nat * s2 2%nat) - s0 1%nat * (s2 0%nat * s3
  2%nat + s1 0%nat * (s2 2%nat - s3 2%nat) - s3 0%nat * s2 2%nat - (s2 0%nat - s3 0%nat) * s1 2%nat) + s1
  1%nat * (s2 0%nat * s3 2%nat - s3 0%nat * s2 2%nat) + s0 2%nat * (s2 0%nat * s3 1%nat + s1 0%nat * (s2 1%nat
  - s3 1%nat) - s3 0%nat * s2 1%nat - (s2 0%nat - s3 0%nat) * s1 1%nat) - s1 2%nat * (s2 0%nat * s3 1%nat - s3
  0%nat * s2 1%nat)).
(** 466-547, 549-630, 632-713: the numerators. *)
Definition num30 : R :=
  (- s0 1%nat * (- s2 2%nat * (sq (s3 2%nat) + sq (s3 1%nat) + sq (s3 0%nat)) - s1 2%nat * (- sq (s3 2%nat) +
  sq (s2 2%nat) - sq (s3 1%nat) + sq (s2 1%nat) - sq (s3 0%nat) + sq (s2 0%nat)) + (sq (s2 2%nat) + sq (s2
  1%nat) + sq (s2 0%nat)) * s3 2%nat + (sq (s1 2%nat) + sq (s1 1%nat) + sq (s1 0%nat)) * (s2 2%nat - s3
  2%nat)) + s1 1%nat * ((sq (s2 2%nat) + sq (s2 1%nat) + sq (s2 0%nat)) * s3 2%nat - s2 2%nat * (sq (s3 2%nat)
  + sq (s3 1%nat) + sq (s3 0%nat))) + s0 2%nat * (- s2 1%nat * (sq (s3 2%nat) + sq (s3 1%nat) + sq (s3 0%nat))
  - s1 1%nat * (- sq (s3 2%nat) + sq (s2 2%nat) - sq (s3 1%nat) + sq (s2 1%nat) - sq (s3 0%nat) + sq (s2
  0%nat)) + s3 1%nat * (sq (s2 2%nat) + sq (s2 1%nat) + sq (s2 0%nat)) + (s2 1%nat - s3 1%nat) * (sq (s1
  2%nat) + sq (s1 1%nat) + sq (s1 0%nat))) - s1 2%nat * (s3 1%nat * (sq (s2 2%nat) + sq (s2 1%nat) + sq (s2
  0%nat)) - s2 1%nat * (sq (s3 2%nat) + sq (s3 1%nat) + sq (s3 0%nat))) + (sq (s0 2%nat) + sq (s0 1%nat) + sq
  (s0 0%nat)) * (s2 1%nat * s3 2%nat + s1 1%nat * (s2 2%nat - s3 2%nat) - s3 1%nat * s2 2%nat - (s2 1%nat - s3
  1%nat) * s1 2%nat) - (sq (s1 2%nat) + sq (s1 1%nat) + sq (s1 0%nat)) * (s2 1%nat * s3 2%nat - s3 1%nat * s2
  2%nat)).
Definition num31 : R :=
  (s0 0%nat * (- s2 2%nat * (sq (s3 2%nat) + sq (s3 1%nat) + sq (s3 0%nat)) - s1 2%nat * (- sq (s3 2%nat) + sq
  (s2 2%nat) - sq (s3 1%nat) + sq (s2 1%nat) - sq (s3 0%nat) + sq (s2 0%nat)) + (sq (s2 2%nat) + sq (s2 1%nat)
  + sq (s2 0%nat)) * s3 2%nat + (sq (s1 2%nat) + sq (s1 1%nat) + sq (s1 0%nat)) * (s2 2%nat - s3 2%nat)) - s1
  0%nat * ((sq (s2 2%nat) + sq (s2 1%nat) + sq (s2 0%nat)) * s3 2%nat - s2 2%nat * (sq (s3 2%nat) + sq (s3
  1%nat) + sq (s3 0%nat))) - s0 2%nat * (- s2 0%nat * (sq (s3 2%nat) + sq (s3 1%nat) + sq (s3 0%nat)) - s1
  0%nat * (- sq (s3 2%nat) + sq (s2 2%nat) - sq (s3 1%nat) + sq (s2 1%nat) - sq (s3 0%nat) + sq (s2 0%nat)) +
  s3 0%nat * (sq (s2 2%nat) + sq (s2 1%nat) + sq (s2 0%nat)) + (s2 0%nat - s3 0%nat) * (sq (s1 2%nat) + sq (s1
  1%nat) + sq (s1 0%nat))) + s1 2%nat * (s3 0%nat * (sq (s2 2%nat) + sq (s2 1%nat) + sq (s2 0%nat)) - s2 0%nat
  * (sq (s3 2%nat) + sq (s3 1%nat) + sq (s3 0%nat))) - (sq (s0 2%nat) + sq (s0 1%nat) + sq (s0 0%nat)) * (s2
  0%nat * s3 2%nat + s1 0%nat * (s2 2%nat - s3 2%nat) - s3 0%nat * s2 2%nat - (s2 0%nat - s3 0%nat) * s1
  2%nat) + (sq (s1 2%nat) + sq (s1 1%nat) + sq (s1 0%nat)) * (s2 0%nat * s3 2%nat - s3 0%nat * s2 2%nat)).
Definition num32 : R :=
  (- s0 0%nat * (- s2 1%nat * (sq (s3 2%nat) + sq (s3 1%nat) + sq (s3 0%nat)) - s1 1%nat * (- sq (s3 2%nat) +
  sq (s2 2%nat) - sq (s3 1%nat) + sq (s2 1%nat) - sq (s3 0%nat) + sq (s2 0%nat)) + s3 1%nat * (sq (s2 2%nat) +
  sq (s2 1%nat) + sq (s2 0%nat)) + (s2 1%nat - s3 1%nat) * (sq (s1 2%nat) + sq (s1 1%nat) + sq (s1 0%nat))) +
  s1 0%nat * (s3 1%nat * (sq (s2 2%nat) + sq (s2 1%nat) + sq (s2 0%nat)) - s2 1%nat * (sq (s3 2%nat) + sq (s3
  1%nat) + sq (s3 0%nat))) + s0 1%nat * (- s2 0%nat * (sq (s3 2%nat) + sq (s3 1%nat) + sq (s3 0%nat)) - s1
  0%nat * (- sq (s3 2%nat) + sq (s2 2%nat) - sq (s3 1%nat) + sq (s2 1%nat) - sq (s3 0%nat) + sq (s2 0%nat)) +
  s3 0%nat * (sq (s2 2%nat) + sq (s2 1%nat) + sq (s2 0%nat)) + (s2 0%nat - s3 0%nat) * (sq (s1 2%nat) + sq (s1
  1%nat) + sq (s1 0%nat))) - s1 1%nat * (s3 0%nat * (sq (s2 2%nat) + sq (s2 1%nat) + sq (s2 0%nat)) - s2 0%nat
  * (sq (s3 2%nat) + sq (s3 1%nat) + sq (s3 0%nat))) - (s2 0%nat * s3 1%nat - s3 0%nat * s2 1%nat) * (sq (s1
  2%nat) + sq (s1 1%nat) + sq (s1 0%nat)) + (s2 0%nat * s3 1%nat + s1 0%nat * (s2 1%nat - s3 1%nat) - s3 0%nat
  * s2 1%nat - (s2 0%nat - s3 0%nat) * s1 1%nat) * (sq (s0 2%nat) + sq (s0 1%nat) + sq (s0 0%nat))).
Definition circum3 : res sphere :=
  if reqb den3 0 then Undef else
  let c0 := num30 / den3 in let c1 := num31 / den3 in let c2 := num32 / den3 in
  Val (mksph (fun d => match d with O => c0 | S O => c1 | _ => c2 end)
             (sqrt (sq (c0 - s0 0%nat) + sq (c1 - s0 1%nat) + sq (c2 - s0 2%nat)))).
End C3.
