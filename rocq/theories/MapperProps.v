(** C58: the weights of the edges of the sample graph, in exact real arithmetic. *)
From Coq Require Import Reals Psatz.
From Verif Require Import Outcome GeoModel GeoProofs MapperModel.
Local Open Scope R_scope.

Lemma trunc_pos x : 0 <= x -> IZR (trunc x) <= x < IZR (trunc x) + 1 /\ (0 <= trunc x)%Z.
Proof.
  intros H. unfold trunc. apply rleb_iff in H as E. rewrite E. destruct (base_Int_part x) as [B1 B2]. split; [lra|]. assert (-1 < Int_part x)%Z; [|lia]. apply lt_IZR. lra.
Qed.
Lemma to_int_pos x : 0 <= x < 2 ^ 31 -> to_int x = Val (trunc x).
Proof.
  intros [H1 H2]. unfold to_int. destruct (trunc_pos x H1) as [[B1 B2] B3]. assert (B4 : (trunc x < 2 ^ 31)%Z) by (apply lt_IZR; change (IZR (2 ^ 31)) with (IZR 2147483648); assert (2 ^ 31 = 2147483648) by ring; lra).
  rewrite (proj2 (Z.ltb_lt _ _) B4), Bool.andb_true_r. destruct (Z.leb_spec (- 2 ^ 31) (trunc x)); [reflexivity|lia].
Qed.
Lemma trunc_mono x y : 0 <= x <= y -> (trunc x <= trunc y)%Z.
Proof. intros H. destruct (trunc_pos x) as [[B1 _] _]; [lra|]. destruct (trunc_pos y) as [[_ B2] _]; [lra|]. assert (trunc x < trunc y + 1)%Z; [|lia]. apply lt_IZR. rewrite plus_IZR. lra. Qed.
Lemma trunc_is x z : 0 <= x -> IZR z <= x < IZR z + 1 -> trunc x = z.
Proof. intros H B. destruct (trunc_pos x H) as [[B1 B2] _]. assert (trunc x < z + 1)%Z by (apply lt_IZR; rewrite plus_IZR; lra). assert (z < trunc x + 1)%Z by (apply lt_IZR; rewrite plus_IZR; lra). lia. Qed.

Section M.
Variable f : R -> R.
Notation lo := (Rmin (f 0) (f 1)).
Notation hi := (Rmax (f 0) (f 1)).
Hypothesis Hne : f 0 <> f 1.
Hypothesis Hwide : 98 / (hi - lo) < 2 ^ 31.
Lemma lohi : lo < hi.
Proof using Hne. clear - Hne. unfold Rmin, Rmax. destruct (Rle_dec (f 0) (f 1)); lra. Qed.
Notation scale := (trunc (98 / (hi - lo))).
Lemma pos98 : 0 < 98 / (hi - lo).
Proof using Hne. pose proof lohi as L. clear - L. apply Rdiv_lt_0_compat; lra. Qed.
Lemma graph_mapper_val : graph_mapper f = Val (mkm lo hi 1 scale).
Proof.
  unfold graph_mapper. pose proof lohi as L. pose proof pos98 as P.
  assert (G : new_mapper lo hi 1 99 = Val (mkm lo hi 1 scale)).
  { unfold new_mapper, reqb. destruct (Req_EM_T lo hi) as [E|_]; [lra|]. rewrite minus_IZR. replace (99 - 1) with 98 by lra. rewrite to_int_pos by lra. reflexivity. }
  destruct (rltb (f 1) (f 0)) eqn:E; rewrite <- G.
  - apply rltb_iff in E. rewrite Rmin_right, Rmax_left by lra. reflexivity.
  - apply rltb_false in E. rewrite Rmin_left, Rmax_right by lra. reflexivity.
Qed.
Definition clamped (x : R) : R := Rmin (Rmax x lo) hi.
Lemma clamped_in x : lo <= clamped x <= hi.
Proof using Hne. pose proof lohi as L. clear - L. unfold clamped. split; [apply Rmin_glb; [apply Rmax_r|lra]|apply Rmin_r]. Qed.
Lemma clamped_mono x y : x <= y -> clamped x <= clamped y.
Proof using Hne. pose proof lohi as L. clear - L. intros H. unfold clamped. apply Rle_min_compat_r. now apply Rle_max_compat_r. Qed.
Lemma scale_in : 0 <= IZR scale /\ IZR scale * (hi - lo) <= 98 /\ 98 < (IZR scale + 1) * (hi - lo).
Proof using Hne.
  pose proof lohi as L. pose proof pos98 as P. destruct (trunc_pos (98 / (hi - lo))) as [[B1 B2] B3]; [lra|]. apply IZR_le in B3. split; [exact B3|].
  assert (E : 98 = 98 / (hi - lo) * (hi - lo)) by (field; lra). revert B1 B2 E. generalize (98 / (hi - lo)). intros q B1 B2 E.
  assert (B1' : IZR (trunc q) * (hi - lo) <= q * (hi - lo)) by (apply Rmult_le_compat_r; lra).
  assert (B2' : q * (hi - lo) < (IZR (trunc q) + 1) * (hi - lo)) by (apply Rmult_lt_compat_r; lra). rewrite <- E in *. lra.
Qed.
Lemma weight_val d : edge_weight f d = Val (trunc ((clamped (f d) - lo) * IZR scale + 1)) /\ 0 <= (clamped (f d) - lo) * IZR scale <= 98.
Proof.
  unfold edge_weight. rewrite graph_mapper_val. cbn [rbind]. unfold map_value. cbn [m_lo m_hi m_scale m_out]. pose proof lohi as L.
  destruct (rltb hi lo) eqn:E; [apply rltb_iff in E; lra|].
  assert (C : (if rltb (f d) lo then lo else if rltb hi (f d) then hi else f d) = clamped (f d)).
  { unfold clamped. destruct (rltb (f d) lo) eqn:E1; [apply rltb_iff in E1; rewrite (Rmax_right (f d) lo), (Rmin_left lo hi) by lra; reflexivity|]. apply rltb_false in E1.
    rewrite (Rmax_left (f d) lo) by lra. destruct (rltb hi (f d)) eqn:E2; [apply rltb_iff in E2; rewrite (Rmin_right (f d) hi) by lra; reflexivity|]. apply rltb_false in E2. now rewrite (Rmin_left (f d) hi) by lra. }
  rewrite C. pose proof (clamped_in (f d)) as B. destruct scale_in as (S1 & S2 & S3).
  assert (P : 0 <= (clamped (f d) - lo) * IZR scale <= 98).
  { split; [apply Rmult_le_pos; lra|]. rewrite Rmult_comm. eapply Rle_trans; [|exact S2]. apply Rmult_le_compat_l; lra. }
  split; [|exact P]. apply to_int_pos. lra.
Qed.
End M.

(** The weight function takes different values at the ends and they are not closer than 98 / 2^31. *)
Definition spread (f : R -> R) : Prop := f 0 <> f 1 /\ 98 / (Rmax (f 0) (f 1) - Rmin (f 0) (f 1)) < 2 ^ 31.

Theorem C58_range : forall f d, spread f -> exists w, edge_weight f d = Val w /\ (1 <= w <= 99)%Z.
Proof.
  intros f d [H1 H2]. destruct (weight_val f H1 H2 d) as [E B]. eexists. split; [exact E|].
  destruct (trunc_pos ((clamped f (f d) - Rmin (f 0) (f 1)) * IZR (trunc (98 / (Rmax (f 0) (f 1) - Rmin (f 0) (f 1)))) + 1)) as [[B1 B2] B3]; [lra|].
  split; [apply Zlt_succ_le|apply Zlt_succ_le]; apply lt_IZR; rewrite succ_IZR; lra.
Qed.
Print Assumptions C58_range.
Theorem C58_monotone : forall f d d' w w', spread f -> f d <= f d' -> edge_weight f d = Val w -> edge_weight f d' = Val w' -> (w <= w')%Z.
Proof.
  intros f d d' w w' [H1 H2] Hle E E'. destruct (weight_val f H1 H2 d) as [F B]. destruct (weight_val f H1 H2 d') as [F' B']. rewrite F in E. rewrite F' in E'. injection E as <-. injection E' as <-.
  apply trunc_mono. split; [lra|]. apply Rplus_le_compat_r. apply Rmult_le_compat_r; [apply scale_in; exact H1|]. pose proof (clamped_mono f H1 _ _ Hle). lra.
Qed.
Print Assumptions C58_monotone.
(** At most 98 apart, the ends of the range get weights at least 49 apart. *)
Theorem C58_ends_partial : forall f d d', spread f -> Rmax (f 0) (f 1) - Rmin (f 0) (f 1) <= 98 -> f d = Rmin (f 0) (f 1) -> f d' = Rmax (f 0) (f 1) ->
  exists w, edge_weight f d = Val 1%Z /\ edge_weight f d' = Val w /\ (50 <= w <= 99)%Z.
Proof.
  intros f d d' [H1 H2] Hr E E'. destruct (weight_val f H1 H2 d) as [F B]. destruct (weight_val f H1 H2 d') as [F' B']. pose proof (lohi f H1) as L. destruct (scale_in f H1) as (S1 & S2 & S3).
  set (s := trunc (98 / (Rmax (f 0) (f 1) - Rmin (f 0) (f 1)))) in *. set (lo := Rmin (f 0) (f 1)) in *. set (hi := Rmax (f 0) (f 1)) in *.
  assert (C : clamped f (f d) = lo) by (unfold clamped; fold lo hi; rewrite E, (Rmax_left lo lo), (Rmin_left lo hi) by lra; reflexivity).
  assert (C' : clamped f (f d') = hi) by (unfold clamped; fold lo hi; rewrite E', (Rmax_left hi lo), (Rmin_left hi hi) by lra; reflexivity).
  rewrite C in *. rewrite C' in *. exists (trunc ((hi - lo) * IZR s + 1)). split; [rewrite F; f_equal; apply trunc_is; [lra|cbn; lra]|]. split; [exact F'|].
  assert (Hs : (1 <= s)%Z). { assert (0 < s)%Z; [|lia]. apply lt_IZR. assert (0 < IZR s + 1 - 1 + (IZR s)) by nra. lra. }
  apply IZR_le in Hs. cbn in Hs.
  assert (Q : 49 <= (hi - lo) * IZR s) by (destruct (Rle_dec 49 (hi - lo)); nra).
  destruct (trunc_pos ((hi - lo) * IZR s + 1)) as [[B1 B2] B3]; [lra|].
  split; apply Zlt_succ_le; apply lt_IZR; rewrite succ_IZR; lra.
Qed.
Print Assumptions C58_ends_partial.
(** Further apart all weights are the same. *)
Lemma wide_one f d : f 0 <> f 1 -> 98 < Rmax (f 0) (f 1) - Rmin (f 0) (f 1) -> edge_weight f d = Val 1%Z.
Proof.
  intros H1 Hr. assert (Q : 0 < 98 / (Rmax (f 0) (f 1) - Rmin (f 0) (f 1)) < 1). { split; [apply Rdiv_lt_0_compat; lra|]. apply (Rmult_lt_reg_r (Rmax (f 0) (f 1) - Rmin (f 0) (f 1))); [lra|]. field_simplify; lra. }
  assert (H2 : 98 / (Rmax (f 0) (f 1) - Rmin (f 0) (f 1)) < 2 ^ 31) by lra. destruct (weight_val f H1 H2 d) as [F B]. rewrite F. f_equal.
  rewrite (trunc_is (98 / _) 0) by (cbn; lra). rewrite Rmult_0_r. apply trunc_is; cbn; lra.
Qed.

(** Two of the functions of the command line weigh all edges alike, whatever their lengths. *)
Theorem C58_squared_inverted_refuted : forall d, edge_weight squared_inverted d = Val 1%Z.
Proof.
  intros d. assert (E0 : squared_inverted 0 = 10000000) by (unfold squared_inverted, eps; field). assert (E1 : 0 < squared_inverted 1 < 1).
  { unfold squared_inverted, eps. split; [apply Rdiv_lt_0_compat; lra|]. apply (Rmult_lt_reg_r (1 + / 10000000)); [lra|]. field_simplify; lra. }
  apply wide_one; [lra|]. rewrite Rmax_left, Rmin_right by lra. lra.
Qed.
Print Assumptions C58_squared_inverted_refuted.
Theorem C58_inverted_refuted : forall d, edge_weight inverted d = Val 1%Z.
Proof.
  intros d. assert (S0 : 0 < sqrt (0 + eps) <= / 1000).
  { split; [apply sqrt_lt_R0; unfold eps; lra|]. rewrite <- (sqrt_square (/ 1000)) by lra. apply sqrt_le_1_alt. unfold eps. lra. }
  assert (S1 : 1 <= sqrt (1 + eps)). { rewrite <- sqrt_1 at 1. apply sqrt_le_1_alt. unfold eps. lra. }
  assert (E0 : 1000 <= inverted 0). { unfold inverted. unfold Rdiv. rewrite Rmult_1_l. rewrite <- (Rinv_inv 1000). apply Rinv_le_contravar; lra. }
  assert (E1 : inverted 1 <= 1). { unfold inverted, Rdiv. rewrite Rmult_1_l. pose proof (Rinv_le_contravar 1 (sqrt (1 + eps))) as X. rewrite Rinv_1 in X. apply X; lra. }
  apply wide_one; [lra|]. rewrite Rmax_left, Rmin_right by lra. lra.
Qed.
Print Assumptions C58_inverted_refuted.

(** ** Cases *)
Lemma linear_spread : spread linear.
Proof. unfold spread, linear. split; [lra|]. rewrite Rmax_left, Rmin_right by lra. lra. Qed.
Example C58_linear : edge_weight linear 0 = Val 99%Z /\ edge_weight linear 1 = Val 1%Z /\ edge_weight linear (/ 4) = Val 74%Z.
Proof.
  destruct linear_spread as [H1 H2]. assert (M0 : Rmin (linear 0) (linear 1) = 0) by (unfold linear; rewrite Rmin_right; lra). assert (M1 : Rmax (linear 0) (linear 1) = 1) by (unfold linear; rewrite Rmax_left; lra).
  assert (T : trunc (98 / (Rmax (linear 0) (linear 1) - Rmin (linear 0) (linear 1))) = 98%Z) by (rewrite M0, M1; apply trunc_is; lra).
  assert (G : forall d z, 0 <= linear d <= 1 -> IZR z <= linear d * 98 + 1 < IZR z + 1 -> edge_weight linear d = Val z).
  { intros d z Hd Hz. destruct (weight_val linear H1 H2 d) as [F _]. rewrite F, T. unfold clamped. rewrite M0, M1, Rmax_left, Rmin_left, Rminus_0_r by lra. f_equal. apply trunc_is; lra. }
  repeat split; apply G; unfold linear; lra.
Qed.
Lemma ln_bound : 0 < ln (1 + eps) - ln (0 + eps) <= 98.
Proof.
  assert (E : 0 < eps) by (unfold eps; lra). split; [pose proof (ln_increasing (0 + eps) (1 + eps)); lra|].
  assert (L1 : ln (1 + eps) <= eps). { rewrite <- (ln_exp eps) at 2. destruct (Req_dec eps 0) as [X|X]; [lra|]. apply Rlt_le, ln_increasing; [lra|]. now apply exp_ineq1. }
  assert (L2 : ln (0 + eps) = - (7 * ln 10)). { rewrite Rplus_0_l. unfold eps. rewrite ln_Rinv by lra. f_equal. replace 10000000 with (10 ^ 7) by lra. rewrite ln_pow by lra. cbn [INR]. lra. }
  assert (L3 : ln 10 <= 9). { rewrite <- (ln_exp 9). apply Rlt_le, ln_increasing; [lra|]. pose proof (exp_ineq1 9). lra. }
  unfold eps in *. lra.
Qed.
(** The logarithm too is spread over the range. *)
Example C58_log : exists w, edge_weight logarithmic 1 = Val 1%Z /\ edge_weight logarithmic 0 = Val w /\ (50 <= w <= 99)%Z.
Proof.
  pose proof ln_bound as L. assert (M0 : Rmin (logarithmic 0) (logarithmic 1) = logarithmic 1) by (unfold logarithmic; rewrite Rmin_right; lra).
  assert (M1 : Rmax (logarithmic 0) (logarithmic 1) = logarithmic 0) by (unfold logarithmic; rewrite Rmax_left; lra).
  apply C58_ends_partial; rewrite ?M0, ?M1; try reflexivity; [|unfold logarithmic; lra]. split; [unfold logarithmic; lra|]. rewrite M0, M1.
  assert (G : / 100 <= logarithmic 0 - logarithmic 1).
  { unfold logarithmic. assert (X : 1 <= ln (1 + eps) - ln (0 + eps)); [|lra].
    assert (E : 0 < eps) by (unfold eps; lra). assert (Q : ln ((1 + eps) * / (0 + eps)) = ln (1 + eps) - ln (0 + eps)) by (rewrite ln_mult, ln_Rinv; try apply Rinv_0_lt_compat; lra).
    rewrite <- Q. assert (V : (1 + eps) * / (0 + eps) = 10000001) by (unfold eps; field). rewrite V.
    pose proof (ln_increasing (exp 1) 10000001 (exp_pos 1)) as X. rewrite ln_exp in X. pose proof exp_le_3. lra. }
  apply (Rmult_lt_reg_r (logarithmic 0 - logarithmic 1)); [lra|]. field_simplify; lra.
Qed.
