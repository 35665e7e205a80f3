(** What the theorems on the predicates need of the rounding, and how close to zero a determinant is. *)
From Verif Require Import Outcome GeoModel PredModel.
From Coq Require Import ZArith.
Local Open Scope R_scope.

(** A rounding with relative error eps, in both forms; monotone, and symmetric. *)
Record rounding (eps : R) (rnd : R -> R) : Prop := mkrounding {
  r_eps : 0 < eps <= 1 / 1024;
  r_rel : forall x, Rabs (rnd x - x) <= eps * Rabs x;
  r_rel' : forall x, Rabs (rnd x - x) <= eps * Rabs (rnd x);
  r_mono : forall x y, x <= y -> rnd x <= rnd y;
  r_odd : forall x, rnd (- x) = - rnd x }.

(** The sum of the absolute values of the products of which the determinants are made up. *)
Definition size2 (x y z w : R) : R := Rabs (x * w) + Rabs (y * z).
Definition orient2_size (a b c : vec) : R :=
  size2 (a 0%nat - c 0%nat) (a 1%nat - c 1%nat) (b 0%nat - c 0%nat) (b 1%nat - c 1%nat).
(** |x| [y z] + |y| [z x] + |z| [x y] for three vectors of which the first two coordinates are differences to [o]. *)
Definition size3 (a b c o : vec) (wa wb wc : R) : R :=
  size2 (b 0%nat - o 0%nat) (b 1%nat - o 1%nat) (c 0%nat - o 0%nat) (c 1%nat - o 1%nat) * wa +
  size2 (c 0%nat - o 0%nat) (c 1%nat - o 1%nat) (a 0%nat - o 0%nat) (a 1%nat - o 1%nat) * wb +
  size2 (a 0%nat - o 0%nat) (a 1%nat - o 1%nat) (b 0%nat - o 0%nat) (b 1%nat - o 1%nat) * wc.
Definition norm2 (D : nat) (a o : vec) : R := sum_loop D (fun d => (a d - o d) * (a d - o d)).
Definition insphere2_size (a b c d : vec) : R := size3 a b c d (norm2 2 a d) (norm2 2 b d) (norm2 2 c d).
Definition orient3_size (a b c d : vec) : R := size3 a b c d (Rabs (a 2%nat - d 2%nat)) (Rabs (b 2%nat - d 2%nat)) (Rabs (c 2%nat - d 2%nat)).
Definition insphere3_size (a b c d e : vec) : R :=
  orient3_size b c d e * norm2 3 a e + orient3_size c d a e * norm2 3 b e + orient3_size d a b e * norm2 3 c e + orient3_size a b c e * norm2 3 d e.

(** The error bounds, exactly. *)
Definition bound (eps m n : R) : R := (m + n * eps) * eps.
(** A stage of a predicate is right: what is returned has the sign of the determinant, and the determinant is small if it is
    left to the next stage. *)
Definition stage_ok (st : stage) (A det size : R) : Prop :=
  match st with Early v => has_sign v det | Adapt _ => Rabs det <= 4 * A * size end.

(** A multiple of 2^j; a point with coordinates that are. *)
Definition mult (j : Z) (x : R) : Prop := exists n : Z, x = IZR n * powerRZ 2 j.
Definition grid (g : Z) (D : nat) (x : vec) : Prop := forall i, (i < D)%nat -> mult g (x i).
