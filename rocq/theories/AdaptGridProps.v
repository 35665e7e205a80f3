(** C98: orientation of points with small integer coordinates, with double numbers. *)
From Coq Require Import Reals Lra Psatz.
From Verif Require Import Outcome GeoModel PredModel PredSpec FloatProofs PredProofs FloatInit ExpansModel ExpansProps ErrFree AdaptModel AdaptFullModel AdaptProps AdaptExactProps.
Local Open Scope R_scope.

Section Grid.
  Variable lo : option Z.
  Hypothesis Hlo : match lo with Some l => (l <= 0)%Z | None => True end.
  Notation rnd := (fround 53 lo).
  Notation FN := (FN 53 lo).
  Lemma FN_int n : (Z.abs n <= 2 ^ 53)%Z -> FN (IZR n).
  Proof. intros H. exists n, 0%Z. split; [exact H|]. split; [exact Hlo|]. cbn [powerRZ]. ring. Qed.
  Lemma rnd_int n : (Z.abs n <= 2 ^ 53)%Z -> rnd (IZR n) = IZR n.
  Proof. intros H. apply rnd_id; [lia|now apply FN_int]. Qed.
  Notation spl := 134217729.
  Lemma split_int n : (Z.abs n <= 2 ^ 25)%Z -> split_fp rnd spl (IZR n) = (IZR n, 0).
  Proof.
    intros H. unfold split_fp, fmul, fsub. rewrite <- mult_IZR, rnd_int by lia. rewrite <- minus_IZR, (rnd_int (134217729 * n - n)) by lia. rewrite <- minus_IZR. replace (134217729 * n - (134217729 * n - n))%Z with n by ring. rewrite rnd_int by lia. f_equal. rewrite Rminus_diag_eq by reflexivity. apply fround_0.
  Qed.
  Lemma product_int m n : (Z.abs m <= 2 ^ 25)%Z -> (Z.abs n <= 2 ^ 25)%Z -> two_product rnd spl (IZR m) (IZR n) = (IZR (m * n), 0).
  Proof.
    intros Hm Hn. assert (Z.abs (m * n) <= 2 ^ 50)%Z by (rewrite Z.abs_mul; change (2 ^ 50)%Z with (2 ^ 25 * 2 ^ 25)%Z; apply Z.mul_le_mono_nonneg; lia).
    unfold two_product. rewrite !split_int by assumption. unfold fmul, fsub. rewrite <- mult_IZR, (rnd_int (m * n)) by lia. rewrite Rmult_0_l, Rmult_0_r, !Rmult_0_l, !fround_0. rewrite !Rminus_0_r. rewrite (Rminus_diag_eq (IZR (m * n))) by reflexivity. now rewrite !fround_0, Rminus_0_r, !fround_0.
  Qed.
  Lemma diff_int m n : (Z.abs m <= 2 ^ 50)%Z -> (Z.abs n <= 2 ^ 50)%Z -> two_two_diff rnd (IZR m) 0 (IZR n) 0 = [0; 0; 0; IZR (m - n)].
  Proof.
    intros Hm Hn.
    assert (Q : forall x y, FN x -> FN y -> FN (x + y) -> two_sum rnd x y = (x + y, 0)). { intros x y X Y XY. destruct (sum_at 53 lo ltac:(lia) x y X Y) as (u & v & E' & _ & _ & S). rewrite E'. unfold two_sum, fadd in E'. injection E' as Eu _. rewrite (rnd_id 53 lo ltac:(lia)) in Eu by exact XY. f_equal; lra. }
    assert (F0 : FN 0) by (apply FN_int; lia). assert (Fm : FN (IZR m)) by (apply FN_int; lia). assert (Fn : FN (- IZR n)) by (rewrite <- opp_IZR; apply FN_int; lia).
    unfold two_two_diff, two_one_diff. rewrite (two_diff_sum 53 lo 0 0). rewrite Ropp_0, Q by (rewrite ?Rplus_0_r; assumption). rewrite Rplus_0_r. rewrite (Q (IZR m) 0) by (rewrite ?Rplus_0_r; assumption). rewrite Rplus_0_r.
    rewrite (two_diff_sum 53 lo 0 (IZR n)). rewrite Q by (rewrite ?Rplus_0_l; assumption). rewrite Rplus_0_l. rewrite Q by (try assumption; rewrite <- opp_IZR, <- plus_IZR; apply FN_int; lia). rewrite minus_IZR. reflexivity.
  Qed.

  (** The points a, b, c: the result is the determinant, whatever the error bounds and in whichever stage it is found. *)
  Theorem C98_grid ccwA ccwB ccwC resb (a b c : nat -> Z) n : (forall i, (i < 2)%nat -> (Z.abs (a i) <= 2 ^ 24)%Z /\ (Z.abs (b i) <= 2 ^ 24)%Z /\ (Z.abs (c i) <= 2 ^ 24)%Z) ->
    orient2_full rnd spl ccwA ccwB ccwC resb (fun i => IZR (a i)) (fun i => IZR (b i)) (fun i => IZR (c i)) n =
    Val (IZR ((a 0%nat - c 0%nat) * (b 1%nat - c 1%nat) - (a 1%nat - c 1%nat) * (b 0%nat - c 0%nat))).
  Proof.
    intros H. assert (H0 : (0 < 2)%nat) by lia. assert (H1 : (1 < 2)%nat) by lia. destruct (H 0%nat H0) as (A0 & B0 & C0). destruct (H 1%nat H1) as (A1 & B1 & C1). clear H.
    assert (P : forall u v, (Z.abs u <= 2 ^ 25)%Z -> (Z.abs v <= 2 ^ 25)%Z -> (Z.abs (u * v) <= 2 ^ 50)%Z) by (intros u v U V; rewrite Z.abs_mul; change (2 ^ 50)%Z with (2 ^ 25 * 2 ^ 25)%Z; apply Z.mul_le_mono_nonneg; lia).
    assert (S : forall u v, (Z.abs u <= 2 ^ 24)%Z -> (Z.abs v <= 2 ^ 24)%Z -> fsub rnd (IZR u) (IZR v) = IZR (u - v)) by (intros; unfold fsub; rewrite <- minus_IZR; apply rnd_int; lia).
    assert (T : forall u v, (Z.abs u <= 2 ^ 24)%Z -> (Z.abs v <= 2 ^ 24)%Z -> two_diff_tail rnd (IZR u) (IZR v) (IZR (u - v)) = 0) by (intros; rewrite minus_IZR; apply tail_exact; [lia| | |rewrite <- minus_IZR]; apply FN_int; lia).
    set (D := ((a 0%nat - c 0%nat) * (b 1%nat - c 1%nat) - (a 1%nat - c 1%nat) * (b 0%nat - c 0%nat))%Z).
    pose proof (P (a 0%nat - c 0%nat)%Z (b 1%nat - c 1%nat)%Z ltac:(lia) ltac:(lia)) as P1. pose proof (P (a 1%nat - c 1%nat)%Z (b 0%nat - c 0%nat)%Z ltac:(lia) ltac:(lia)) as P2.
    assert (X : forall ds, orient2_adapt rnd spl ccwB ccwC resb (fun i => IZR (a i)) (fun i => IZR (b i)) (fun i => IZR (c i)) ds n = Val (IZR D)).
    { intros ds. unfold orient2_adapt. cbv beta zeta. rewrite !S by assumption.
      unfold prod_diff at 1 2 3 4. rewrite !product_int by lia. rewrite diff_int by lia. fold D.
      replace (estimate rnd [0; 0; 0; IZR D]) with (IZR D).
      2: { unfold estimate, fadd. cbn [fold_left]. rewrite !Rplus_0_r, !fround_0, Rplus_0_l. symmetry. apply rnd_int. lia. }
      destruct (rleb _ _ || rleb _ _); [reflexivity|]. rewrite !T by assumption. replace (reqb 0 0) with true by (unfold reqb; destruct (Req_EM_T 0 0); [reflexivity|lra]). reflexivity. }
    assert (Y : match orient2_fp rnd ccwA (fun i => IZR (a i)) (fun i => IZR (b i)) (fun i => IZR (c i)) with Early det => det = IZR D | Adapt _ => True end).
    { unfold orient2_fp. cbv beta zeta. rewrite !S by assumption.
      assert (E1 : fmul rnd (IZR (a 0%nat - c 0%nat)) (IZR (b 1%nat - c 1%nat)) = IZR ((a 0%nat - c 0%nat) * (b 1%nat - c 1%nat))) by (unfold fmul; rewrite <- mult_IZR; apply rnd_int; lia).
      assert (E2 : fmul rnd (IZR (a 1%nat - c 1%nat)) (IZR (b 0%nat - c 0%nat)) = IZR ((a 1%nat - c 1%nat) * (b 0%nat - c 0%nat))) by (unfold fmul; rewrite <- mult_IZR; apply rnd_int; lia).
      rewrite E1, E2.
      assert (E : fsub rnd (IZR ((a 0%nat - c 0%nat) * (b 1%nat - c 1%nat))) (IZR ((a 1%nat - c 1%nat) * (b 0%nat - c 0%nat))) = IZR D) by (unfold fsub; rewrite <- minus_IZR; apply rnd_int; lia).
      rewrite E. repeat match goal with |- context [if ?b then _ else _] => destruct b end; easy. }
    unfold orient2_full. destruct (orient2_fp _ _ _ _ _) as [d|ds]; [now rewrite Y|apply X].
  Qed.
End Grid.
Print Assumptions C98_grid.
(** (3, 2), (16777216, -7) and (-1, 1) with the error bound 1, which makes the filter fail always: the determinant is -16777249. *)
Example C98_grid_ex ccwB ccwC resb n : orient2_full (fround 53 (Some (-1074)%Z)) 134217729 1 ccwB ccwC resb (fun i => IZR (match i with O => 3 | _ => 2 end)) (fun i => IZR (match i with O => 16777216 | _ => -7 end)) (fun i => IZR (match i with O => -1 | _ => 1 end)) n = Val (-16777249).
Proof. apply (C98_grid (Some (-1074)%Z) ltac:(cbv beta iota; lia) 1 ccwB ccwC resb (fun i => match i with O => 3 | _ => 2 end)%Z (fun i => match i with O => 16777216 | _ => -7 end)%Z (fun i => match i with O => -1 | _ => 1 end)%Z n). intros [|[|i]] H; [| |lia]; lia. Qed.
