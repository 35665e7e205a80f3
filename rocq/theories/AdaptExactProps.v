(** C98: the adaptive orientation test in the plane if the differences of the coordinates are exact. *)
From Coq Require Import Reals Lra Psatz.
From Verif Require Import Outcome GeoModel PredModel PredSpec FloatProofs PredProofs FloatInit ExpansModel ExpansProps ErrFree AdaptModel AdaptProps.
Local Open Scope R_scope.

Section Exact.
  Variables (p : Z) (lo : option Z).
  Hypothesis Hp : (1 <= p)%Z.
  Notation rnd := (fround p lo).
  Notation FN := (FN p lo).
  Variables splitter ccwB ccwC resb : R.
  Lemma tail_exact a c : FN a -> FN c -> FN (a - c) -> two_diff_tail rnd a c (a - c) = 0.
  Proof. intros A C D. pose proof (C98_two_diff p lo Hp a c A C) as Q. unfold two_diff, fsub in Q. rewrite (rnd_id p lo Hp (a - c) D) in Q. destruct Q as (_ & Q & _). lra. Qed.

  (** Exact differences: the test always returns after at most the second stage, the value being the sum, in floating point numbers and from the
      least component on, of four numbers whose exact sum is the determinant. *)
  Theorem C98_exact_diffs pa pb pc detsum n : (forall i, (i < 2)%nat -> FN (pa i) /\ FN (pb i) /\ FN (pc i) /\ FN (pa i - pc i) /\ FN (pb i - pc i)) ->
    product_exact p lo splitter (pa 0%nat - pc 0%nat) (pb 1%nat - pc 1%nat) -> product_exact p lo splitter (pa 1%nat - pc 1%nat) (pb 0%nat - pc 0%nat) ->
    exists x0 x1 x2 x3, orient2_adapt rnd splitter ccwB ccwC resb pa pb pc detsum n = Val (rnd (rnd (rnd (x0 + x1) + x2) + x3)) /\ x0 + x1 + x2 + x3 = det2 pa pb pc /\ Forall FN [x0; x1; x2; x3].
  Proof.
    intros HF P1 P2. assert (H0 : (0 < 2)%nat) by lia. assert (H1 : (1 < 2)%nat) by lia. destruct (HF 0%nat H0) as (A0 & B0 & C0 & D0 & E0). destruct (HF 1%nat H1) as (A1 & B1 & C1 & D1 & E1).
    pose proof (prod_diff_sum p lo Hp splitter _ _ _ _ P1 P2) as S. pose proof (prod_diff_len p lo splitter (pa 0%nat - pc 0%nat) (pb 1%nat - pc 1%nat) (pa 1%nat - pc 1%nat) (pb 0%nat - pc 0%nat)) as L.
    assert (F : Forall FN (prod_diff rnd splitter (pa 0%nat - pc 0%nat) (pb 1%nat - pc 1%nat) (pa 1%nat - pc 1%nat) (pb 0%nat - pc 0%nat))).
    { unfold product_exact in P1, P2. unfold prod_diff. destruct (two_product _ _ (pa 0%nat - pc 0%nat) _). destruct (two_product _ _ (pa 1%nat - pc 1%nat) _). now apply C98_two_two_diff. }
    assert (X : orient2_adapt rnd splitter ccwB ccwC resb pa pb pc detsum n = Val (estimate rnd (prod_diff rnd splitter (pa 0%nat - pc 0%nat) (pb 1%nat - pc 1%nat) (pa 1%nat - pc 1%nat) (pb 0%nat - pc 0%nat)))).
    { unfold orient2_adapt. cbv zeta.
      assert (Q : forall a c, FN (a - c) -> fsub rnd a c = a - c) by (intros; now apply rnd_id).
      rewrite (Q (pa 0%nat) (pc 0%nat)), (Q (pb 0%nat) (pc 0%nat)), (Q (pa 1%nat) (pc 1%nat)), (Q (pb 1%nat) (pc 1%nat)) by assumption.
      destruct (rleb _ _ || rleb _ _); [reflexivity|]. rewrite !tail_exact by assumption. replace (reqb 0 0) with true by (unfold reqb; destruct (Req_EM_T 0 0); [reflexivity|lra]). reflexivity. }
    destruct (prod_diff rnd splitter _ _ _ _) as [|x0 [|x1 [|x2 [|x3 [|? ?]]]]]; try discriminate L.
    exists x0, x1, x2, x3. split; [exact X|]. split; [|exact F]. unfold rsum in S. cbn [fold_right] in S. unfold det2. lra.
  Qed.
  (** Equal points: the result is zero. *)
  Theorem C98_equal pa pc detsum n : (forall i, (i < 2)%nat -> FN (pa i) /\ FN (pc i) /\ FN (pa i - pc i)) ->
    product_exact p lo splitter (pa 0%nat - pc 0%nat) (pa 1%nat - pc 1%nat) -> product_exact p lo splitter (pa 1%nat - pc 1%nat) (pa 0%nat - pc 0%nat) ->
    orient2_adapt rnd splitter ccwB ccwC resb pa pa pc detsum n = Val 0.
  Proof.
    intros HF P1 P2. assert (H0 : (0 < 2)%nat) by lia. assert (H1 : (1 < 2)%nat) by lia. destruct (HF 0%nat H0) as (A0 & C0 & D0). destruct (HF 1%nat H1) as (A1 & C1 & D1).
    unfold orient2_adapt. cbv zeta. assert (Q : forall a c, FN (a - c) -> fsub rnd a c = a - c) by (intros; now apply rnd_id).
    rewrite (Q (pa 0%nat) (pc 0%nat)), (Q (pa 1%nat) (pc 1%nat)) by assumption. rewrite prod_same by assumption.
    assert (E : estimate rnd [0; 0; 0; 0] = 0). { unfold estimate, fadd. cbn [fold_left]. now rewrite !Rplus_0_r, !fround_0. }
    rewrite E. destruct (rleb _ _ || rleb _ _); [reflexivity|]. rewrite !tail_exact by assumption. replace (reqb 0 0) with true by (unfold reqb; destruct (Req_EM_T 0 0); [reflexivity|lra]). reflexivity.
  Qed.
End Exact.
Print Assumptions C98_exact_diffs.
Print Assumptions C98_equal.

(** Doubles: (3, 2), (2, 2) and (1, 1). *)
Local Notation dbl := (fround 53 None).
Ltac dex := first [dnum 0 0%Z 0%Z|dnum 1 1%Z 0%Z|dnum 2 2%Z 0%Z|dnum 134217728 1%Z 27%Z|dnum 134217729 134217729%Z 0%Z|dnum 268435456 1%Z 28%Z|dnum 268435458 134217729%Z 1%Z].
Lemma ex_prod a b : (a = 1 \/ a = 2) -> (b = 1 \/ b = 2) -> a * b <= 2 -> product_exact 53 None spl a b.
Proof.
  assert (F0 : FN 53 None 0) by (apply Fd_small; lia). assert (F1 : FN 53 None 1) by (apply Fd_small; lia). assert (F2 : FN 53 None 2) by (apply Fd_small; lia).
  intros [-> | ->] [-> | ->] H; try lra; unfold product_exact, two_product, split_fp, fmul, fsub, spl; repeat dex; (split; [assumption|split; [assumption|lra]]).
Qed.
Definition e_a : vec := fun i => match i with O => 3 | _ => 2 end.
Definition e_b : vec := fun i => 2.
Example C98_exact_ex ccwB ccwC resb detsum n : exists x0 x1 x2 x3, orient2_adapt dbl spl ccwB ccwC resb e_a e_b ex_c detsum n = Val (dbl (dbl (dbl (x0 + x1) + x2) + x3)) /\ x0 + x1 + x2 + x3 = 1 /\ Forall (FN 53 None) [x0; x1; x2; x3].
Proof.
  destruct (C98_exact_diffs 53 None ltac:(lia) spl ccwB ccwC resb e_a e_b ex_c detsum n) as (x0 & x1 & x2 & x3 & X & S & F).
  - intros [|[|i]] H; [| |lia]; unfold e_a, e_b, ex_c; rewrite <- !minus_IZR; repeat split; apply Fd_small; cbn; lia.
  - apply ex_prod; unfold e_a, e_b, ex_c; lra.
  - apply ex_prod; unfold e_a, e_b, ex_c; lra.
  - exists x0, x1, x2, x3. split; [exact X|]. split; [|exact F]. rewrite S. unfold det2, e_a, e_b, ex_c. lra.
Qed.
Example C98_equal_ex ccwB ccwC resb detsum n : orient2_adapt dbl spl ccwB ccwC resb e_a e_a ex_c detsum n = Val 0.
Proof.
  apply C98_equal.
  - lia.
  - intros [|[|i]] H; [| |lia]; unfold e_a, ex_c; rewrite <- !minus_IZR; repeat split; apply Fd_small; cbn; lia.
  - apply ex_prod; unfold e_a, ex_c; lra.
  - apply ex_prod; unfold e_a, ex_c; lra.
Qed.
