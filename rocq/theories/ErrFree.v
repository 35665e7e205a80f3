(** Two_Sum and Fast_Two_Sum are error free with IEEE rounding to nearest. *)
From Coq Require Import Reals Lra.
From Verif Require Import Outcome GeoModel PredModel PredSpec FloatProofs FloatInit ExpansModel.
Local Open Scope R_scope.
Local Notation pw := (powerRZ 2).

Section ErrFree.
Variables (p : Z) (lo : option Z).
Hypothesis Hp : (1 <= p)%Z.
Notation rd := (fround p lo).
Notation ue := (ue p lo).
Definition okl (k : Z) : Prop := match lo with Some l => (l <= k)%Z | None => True end.
(** The numbers of the format (without bound above). *)
Definition FN (x : R) : Prop := exists n k : Z, (Z.abs n <= 2 ^ p)%Z /\ okl k /\ x = IZR n * pw k.

Lemma okl_le i j : (i <= j)%Z -> okl i -> okl j.
Proof. unfold okl. destruct lo; [lia|easy]. Qed.
Lemma FN_opp x : FN x -> FN (- x).
Proof. intros (n & k & H1 & H2 & ->). exists (- n)%Z, k. rewrite Z.abs_opp, opp_IZR. repeat split; try easy. ring. Qed.
Lemma FN_mult k x : mult k x -> okl k -> Rabs x <= pw p * pw k -> FN x.
Proof.
  intros (n & ->) Hk H. exists n, k. split; [|now split]. pose proof (pw_pos k) as Pk. rewrite Rabs_mult, (Rabs_pos_eq (pw k)) in H by lra. rewrite (pw_nat p) in H by lia. rewrite <- abs_IZR in H.
  apply le_IZR. apply Rmult_le_reg_r with (pw k); [exact Pk|exact H].
Qed.
Lemma FN_elim x : FN x -> exists k, okl k /\ mult k x /\ Rabs x <= (pw p - 1) * pw k.
Proof.
  intros (n & k & H1 & H2 & E). pose proof (pw_pos k) as Pk. destruct (Z.eq_dec (Z.abs n) (2 ^ p)) as [Q|Q].
  - exists (k + 1)%Z. split; [apply (okl_le k); [lia|easy]|]. assert (P2 : (2 ^ p = 2 * 2 ^ (p - 1))%Z) by (replace p with (Z.succ (p - 1)) at 1 by lia; apply Z.pow_succ_r; lia). split.
    + exists (Z.sgn n * 2 ^ (p - 1))%Z. change (powerRZ 2 (k + 1)) with (pw (k + 1)). rewrite pw_half, E. replace n with (Z.sgn n * (2 * 2 ^ (p - 1)))%Z at 1 by (rewrite <- P2, <- Q; lia). rewrite !mult_IZR. ring.
    + rewrite E, Rabs_mult, (Rabs_pos_eq (pw k)), <- abs_IZR, Q, <- (pw_nat p) by (lra || lia). rewrite pw_half. assert (2 <= pw p). { rewrite (pw_nat p) by lia. apply IZR_le. rewrite P2. assert (0 < 2 ^ (p - 1))%Z by (apply Z.pow_pos_nonneg; lia). lia. } nra.
  - exists k. split; [easy|]. split; [now exists n|]. rewrite E, Rabs_mult, (Rabs_pos_eq (pw k)), <- abs_IZR by lra. apply Rmult_le_compat_r; [lra|]. rewrite (pw_nat p) by lia. rewrite <- minus_IZR. apply IZR_le. lia.
Qed.
Lemma FN_id x : FN x -> rd x = x.
Proof.
  intros H. destruct (FN_elim x H) as (k & K1 & (n & E) & K3). rewrite E in *. apply fround_exact; [|exact K1]. pose proof (pw_pos k) as Pk. rewrite Rabs_mult, (Rabs_pos_eq (pw k)), <- abs_IZR in K3 by lra.
  apply lt_IZR. apply Rmult_le_reg_r in K3; [|exact Pk]. rewrite (pw_nat p) in K3 by lia. lra.
Qed.
Lemma FN_0 : FN 0.
Proof. destruct lo as [l|] eqn:E; [exists 0%Z, l|exists 0%Z, 0%Z]; (split; [cbn; apply Z.pow_nonneg; lia|]); (split; [unfold okl; rewrite E; lia || easy|ring]). Qed.

Lemma nearest_best y n : Rabs (IZR (nearest y) - y) <= Rabs (IZR n - y).
Proof.
  pose proof (nearest_near y) as H. destruct (Z.eq_dec n (nearest y)) as [->|E]; [lra|]. destruct (Rle_dec (Rabs (IZR (nearest y) - y)) (Rabs (IZR n - y))) as [L|L]; [exact L|]. exfalso. apply E.
  assert (A : Rabs (IZR (n - nearest y)) < 1). { rewrite minus_IZR. replace (IZR n - IZR (nearest y)) with ((IZR n - y) - (IZR (nearest y) - y)) by ring. eapply Rle_lt_trans; [apply Rabs_triang|]. rewrite Rabs_Ropp. lra. }
  rewrite <- abs_IZR in A. apply lt_IZR in A. lia.
Qed.
Lemma grid_pos x : 0 < x -> mult (ue x) (rd x) /\ Rabs (rd x - x) <= pw (ue x) / 2 /\ (forall z, mult (ue x) z -> Rabs (rd x - x) <= Rabs (z - x)) /\ Rabs (rd x) <= pw p * pw (ue x).
Proof.
  intros H. rewrite fround_pos by exact H. set (u := ue x). pose proof (pw_pos u) as Pu.
  assert (Q : forall n, Rabs (IZR n * pw u - x) = Rabs (IZR n - x / pw u) * pw u). { intros n. replace (IZR n * pw u - x) with ((IZR n - x / pw u) * pw u) by (field; lra). rewrite Rabs_mult, (Rabs_pos_eq (pw u)) by lra. reflexivity. }
  split; [now eexists|]. split; [|split].
  - rewrite Q. pose proof (nearest_near (x / pw u)). nra.
  - intros z (n & ->). rewrite !Q. apply Rmult_le_compat_r; [lra|]. apply nearest_best.
  - rewrite Rabs_mult, (Rabs_pos_eq (pw u)) by lra. apply Rmult_le_compat_r; [lra|].
    assert (M : x / pw u <= IZR (2 ^ p)).
    { rewrite <- (pw_nat p) by lia. apply Rmult_le_reg_r with (pw u); [exact Pu|]. replace (x / pw u * pw u) with x by (field; lra). rewrite <- pw_add.
      destruct (expo_spec x ltac:(lra)) as [_ B]. rewrite Rabs_pos_eq in B by lra. left. eapply Rlt_le_trans; [exact B|]. apply pw_le. unfold u, FloatProofs.ue. destruct lo; lia. }
    assert (M0 : IZR 0 <= x / pw u) by (apply Rlt_le, Rdiv_lt_0_compat; lra). apply nearest_mono in M, M0. rewrite nearest_Z in M, M0. rewrite (pw_nat p) by lia. rewrite Rabs_pos_eq; apply IZR_le; lia.
Qed.
Lemma grid_at x : x <> 0 -> mult (ue x) (rd x) /\ Rabs (rd x - x) <= pw (ue x) / 2 /\ (forall z, mult (ue x) z -> Rabs (rd x - x) <= Rabs (z - x)) /\ Rabs (rd x) <= pw p * pw (ue x).
Proof.
  intros H. destruct (Rtotal_order x 0) as [L|[L|L]]; [|contradiction|now apply grid_pos].
  destruct (grid_pos (- x) ltac:(lra)) as (G1 & G2 & G3 & G4). rewrite fround_opp in *. assert (E : ue (- x) = ue x) by (unfold FloatProofs.ue; now rewrite expo_opp). rewrite E in *.
  replace (- rd x - - x) with (- (rd x - x)) in * by ring. rewrite Rabs_Ropp in *. split; [|split; [exact G2|split; [|exact G4]]].
  - apply mult_opp in G1. now rewrite Ropp_involutive in G1.
  - intros z Hz. specialize (G3 (- z) (mult_opp _ _ Hz)). replace (- rd x - - x) with (- (rd x - x)) in G3 by ring. replace (- z - - x) with (- (z - x)) in G3 by ring. now rewrite !Rabs_Ropp in G3.
Qed.
Lemma ue_ok x : okl (ue x).
Proof. unfold okl, FloatProofs.ue. destruct lo; [lia|easy]. Qed.
Lemma exact_mult x j : x <> 0 -> mult j x -> (ue x <= j)%Z -> rd x = x.
Proof.
  intros H M L. destruct (grid_at x H) as (_ & _ & G & _). specialize (G x (mult_low _ _ _ L M)). replace (x - x) with 0 in G by ring. rewrite Rabs_R0 in G.
  pose proof (Rabs_pos (rd x - x)) as A. assert (Z0 : Rabs (rd x - x) = 0) by lra. destruct (Req_dec (rd x - x) 0) as [E|E]; [lra|]. now apply Rabs_no_R0 in E.
Qed.
Lemma rd_mult x j : mult j x -> mult j (rd x).
Proof.
  intros M. destruct (Req_dec x 0) as [->|H]; [now rewrite fround_0|]. destruct (Z_le_gt_dec (ue x) j) as [L|L]; [now rewrite (exact_mult x j)|]. apply (mult_low _ (ue x)); [lia|]. now apply grid_at.
Qed.
Lemma FN_rd x : FN (rd x).
Proof. destruct (Req_dec x 0) as [->|H]; [rewrite fround_0; apply FN_0|]. destruct (grid_at x H) as (G1 & _ & _ & G4). now apply (FN_mult (ue x)); [|apply ue_ok|]. Qed.
(** No number of the format is nearer. *)
Lemma best x f : FN f -> Rabs (rd x - x) <= Rabs (f - x).
Proof.
  intros Hf. destruct (Req_dec x 0) as [->|H]; [rewrite fround_0, Rminus_0_r, Rabs_R0; apply Rabs_pos|]. destruct (grid_at x H) as (_ & _ & G & _). destruct (FN_elim f Hf) as (k & K1 & K2 & K3).
  destruct (Z_le_gt_dec (ue x) k) as [L|L]; [apply G; now apply (mult_low _ k)|].
  assert (U : (ue x = expo x - p + 1)%Z) by (unfold okl in K1; unfold FloatProofs.ue in *; destruct lo; lia).
  destruct (expo_spec x H) as [B _]. assert (Fx : Rabs f <= pw (expo x)).
  { eapply Rle_trans; [exact K3|]. replace (expo x) with (p + (expo x - p))%Z by lia. rewrite pw_add. pose proof (pw_pos p). pose proof (pw_pos k). assert (pw k <= pw (expo x - p)) by (apply pw_le; lia). nra. }
  assert (C : mult (ue x) (pw (expo x))). { apply (mult_low _ (expo x)); [lia|]. exists 1%Z. ring. }
  pose proof (pw_pos (expo x)) as Pe. pose proof (Rabs_pos f). assert (T : Rabs x - Rabs f <= Rabs (f - x)) by (rewrite Rabs_minus_sym; apply Rabs_triang_inv).
  destruct (Rle_dec 0 x) as [S|S].
  - specialize (G _ C). rewrite (Rabs_pos_eq x) in * by lra. rewrite (Rabs_minus_sym (pw _)) in G. rewrite (Rabs_pos_eq (x - _)) in G by lra. lra.
  - specialize (G _ (mult_opp _ _ C)). rewrite (Rabs_left x) in * by lra. rewrite (Rabs_pos_eq (- pw _ - x)) in G by lra. lra.
Qed.

Lemma add_small a b : FN a -> FN b -> Rabs (rd (a + b) - (a + b)) <= Rabs a /\ Rabs (rd (a + b) - (a + b)) <= Rabs b.
Proof.
  intros A B. split.
  - eapply Rle_trans; [apply (best _ b B)|]. replace (b - (a + b)) with (- a) by ring. rewrite Rabs_Ropp. lra.
  - eapply Rle_trans; [apply (best _ a A)|]. replace (a - (a + b)) with (- b) by ring. rewrite Rabs_Ropp. lra.
Qed.
(** The error of an addition is a number of the format. *)
Lemma err_FN a b : FN a -> FN b -> FN (a + b - rd (a + b)).
Proof.
  intros A B. destruct (add_small a b A B) as [S1 S2]. rewrite Rabs_minus_sym in S1, S2. destruct (FN_elim a A) as (i & I1 & I2 & I3). destruct (FN_elim b B) as (j & J1 & J2 & J3). pose proof (pw_pos i). pose proof (pw_pos j).
  destruct (Z_le_gt_dec i j) as [L|L].
  - apply (FN_mult i); [|exact I1|lra]. assert (mult i (a + b)) by (apply mult_add; [easy|now apply (mult_low _ j)]). apply mult_sub; [easy|now apply rd_mult].
  - apply (FN_mult j); [|exact J1|lra]. assert (mult j (a + b)) by (apply mult_add; [apply (mult_low _ i); [lia|easy]|easy]). apply mult_sub; [easy|now apply rd_mult].
Qed.
(** So is the difference of the sum to the greater operand. *)
Lemma virt_FN a b : FN a -> FN b -> Rabs b <= Rabs a -> FN (rd (a + b) - a).
Proof.
  intros A B Hab. destruct (Req_dec (a + b) 0) as [Z|Z]; [rewrite Z, fround_0; replace (0 - a) with (- a) by ring; now apply FN_opp|].
  assert (Ex : rd (a + b) = a + b -> FN (rd (a + b) - a)) by (intros ->; now replace (a + b - a) with b by ring).
  destruct (add_small a b A B) as [_ S2]. destruct (grid_at _ Z) as (G1 & G2 & _ & _). destruct (FN_elim a A) as (i & I1 & I2 & I3). destruct (FN_elim b B) as (j & J1 & J2 & J3). pose proof (pw_pos i) as Pi. pose proof (pw_pos j) as Pj. pose proof (pw_pos p) as Pp.
  assert (T : Rabs (rd (a + b) - a) <= Rabs (rd (a + b) - (a + b)) + Rabs b). { replace (rd (a + b) - a) with ((rd (a + b) - (a + b)) + b) by ring. apply Rabs_triang. }
  set (u := ue (a + b)) in *. destruct (Z_le_gt_dec i j) as [L|L].
  - assert (M : mult i (a + b)) by (apply mult_add; [easy|now apply (mult_low _ j)]). destruct (Z_le_gt_dec u i) as [Lu|Lu]; [apply Ex; now apply (exact_mult _ i)|].
    assert (U : u = (i + 1)%Z).
    { destruct (expo_spec _ Z) as [B1 _]. assert (expo (a + b) < p + (i + 1))%Z; [|unfold okl in I1; unfold u, FloatProofs.ue in *; destruct lo; lia].
      apply pw_lt_inv. eapply Rle_lt_trans; [exact B1|]. eapply Rle_lt_trans; [apply Rabs_triang|]. rewrite pw_add, pw_half. nra. }
    apply (FN_mult i); [apply mult_sub; [now apply rd_mult|easy]|exact I1|]. rewrite U, pw_half in G2. nra.
  - destruct (Z_le_gt_dec u j) as [Lu|Lu].
    + apply Ex. apply (exact_mult _ j); [exact Z| |exact Lu]. apply mult_add; [apply (mult_low _ i); [lia|easy]|easy].
    + set (g := Z.min u i). assert (pw (j + 1) <= pw g) by (apply pw_le; lia). rewrite pw_half in H. apply (FN_mult g); [|apply (okl_le j); [lia|exact J1]|nra].
      apply mult_sub; [apply (mult_low _ u); [lia|easy]|apply (mult_low _ i); [lia|easy]].
Qed.

Theorem fast_two_sum_exact a b : FN a -> FN b -> a = 0 \/ Rabs b <= Rabs a ->
  FN (fst (fast_two_sum rd a b)) /\ FN (snd (fast_two_sum rd a b)) /\ fst (fast_two_sum rd a b) + snd (fast_two_sum rd a b) = a + b.
Proof.
  intros A B H. unfold fast_two_sum, fadd, fsub. cbn [fst snd]. assert (E : rd (rd (a + b) - a) = rd (a + b) - a).
  { destruct H as [->|H]; [|apply FN_id; now apply virt_FN]. rewrite Rplus_0_l, (FN_id b B), Rminus_0_r. now apply FN_id. }
  rewrite E. replace (b - (rd (a + b) - a)) with (a + b - rd (a + b)) by ring. rewrite (FN_id _ (err_FN a b A B)). split; [apply FN_rd|]. split; [now apply err_FN|ring].
Qed.
Theorem two_sum_exact a b : FN a -> FN b -> FN (fst (two_sum rd a b)) /\ FN (snd (two_sum rd a b)) /\ fst (two_sum rd a b) + snd (two_sum rd a b) = a + b.
Proof.
  intros A B. unfold two_sum, fadd, fsub. cbn [fst snd]. set (x := rd (a + b)). pose proof (FN_rd (a + b)) as X. fold x in X.
  pose proof (err_FN a b A B) as D. fold x in D.
  assert (Y : rd (rd (a - rd (x - rd (x - a))) + rd (b - rd (x - a))) = a + b - x).
  { destruct (Rle_dec (Rabs b) (Rabs a)) as [L|L].
    - rewrite (FN_id (x - a)) by now apply virt_FN. replace (x - (x - a)) with a by ring. rewrite (FN_id a A). replace (a - a) with 0 by ring. rewrite fround_0, Rplus_0_l.
      replace (b - (x - a)) with (a + b - x) by ring. now rewrite !(FN_id _ D).
    - set (bv := rd (x - a)). assert (BR : FN (b - bv)).
      { assert (E : x - a = b + - (a + b - x)) by ring. pose proof (virt_FN b (- (a + b - x)) B (FN_opp _ D)) as V. rewrite <- E in V. fold bv in V. replace (b - bv) with (- (bv - b)) by ring. apply FN_opp, V.
        rewrite Rabs_Ropp, Rabs_minus_sym. destruct (add_small a b A B) as [S1 S2]. exact S2. }
      assert (AV : FN (x - bv)).
      { destruct (Rle_dec (Rabs a) (Rabs (a + b))) as [S|S].
        - assert (XA : Rabs a <= Rabs x).
          { assert (W : Rabs (x - (a + b)) <= Rabs (a + b) - Rabs a).
            { destruct (Rle_dec 0 (a + b)) as [P|P].
              - assert (FA : FN (Rabs a)) by (unfold Rabs; destruct (Rcase_abs a); [now apply FN_opp|exact A]). pose proof (best (a + b) _ FA) as W. fold x in W. rewrite (Rabs_pos_eq (a + b)) in * by lra. rewrite (Rabs_minus_sym (Rabs a)) in W. rewrite (Rabs_pos_eq (a + b - Rabs a)) in W by lra. exact W.
              - assert (FA : FN (- Rabs a)) by (unfold Rabs; destruct (Rcase_abs a); [rewrite Ropp_involutive; exact A|now apply FN_opp]). pose proof (best (a + b) _ FA) as W. fold x in W. rewrite (Rabs_left (a + b)) in * by lra. rewrite (Rabs_pos_eq (- Rabs a - (a + b))) in W by lra. lra. }
            pose proof (Rabs_triang_inv (a + b) (a + b - x)) as V. replace (a + b - (a + b - x)) with x in V by ring. rewrite (Rabs_minus_sym (a + b) x) in V. lra. }
          pose proof (virt_FN x (- a) X (FN_opp _ A)) as V. rewrite Rabs_Ropp in V. specialize (V XA). change (x + - a) with (x - a) in V. fold bv in V. replace (x - bv) with (- (bv - x)) by ring. now apply FN_opp.
        - assert (E : FN (a + b)).
          { destruct (FN_elim a A) as (i & I1 & I2 & I3). destruct (FN_elim b B) as (j & J1 & J2 & J3). pose proof (pw_pos i). pose proof (pw_pos j). destruct (Z_le_gt_dec i j) as [Q|Q].
            - apply (FN_mult i); [apply mult_add; [easy|now apply (mult_low _ j)]|exact I1|lra].
            - apply (FN_mult j); [apply mult_add; [apply (mult_low _ i); [lia|easy]|easy]|exact J1|lra]. }
          assert (Ex : x = a + b) by (unfold x; now apply FN_id). unfold bv. rewrite Ex. replace (a + b - a) with b by ring. rewrite (FN_id b B). now replace (a + b - b) with a by ring. }
      rewrite (FN_id _ AV), (FN_id _ BR).
      assert (AR : FN (a - (x - bv))). { pose proof (err_FN x (- a) X (FN_opp _ A)) as V. change (x + - a) with (x - a) in V. fold bv in V. replace (a - (x - bv)) with (- (x - a - bv)) by ring. now apply FN_opp. }
      rewrite (FN_id _ AR). replace (a - (x - bv) + (b - bv)) with (a + b - x) by ring. now apply FN_id. }
  rewrite Y. split; [exact X|]. split; [exact D|ring].
Qed.
End ErrFree.
