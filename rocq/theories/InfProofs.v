(** Where the infinite points lie. *)
From Coq Require Import Reals Lra.
From Verif Require Import Outcome ListUtil WordsModel SimplexModel PointModel PointProofs GeoModel PartModel InfModel.
Local Open Scope R_scope.

Fixpoint rsum (n : nat) (f : nat -> R) : R := match n with O => 0 | S m => rsum m f + f m end.
Lemma rsum_ext n f g : (forall i, (i < n)%nat -> f i = g i) -> rsum n f = rsum n g.
Proof. induction n as [|n IH]; intros H; cbn [rsum]; [reflexivity|]. rewrite IH by (intros; apply H; lia). rewrite H by lia. reflexivity. Qed.
Lemma rsum_scale n f a : rsum n (fun i => a * f i) = a * rsum n f.
Proof. induction n as [|n IH]; cbn [rsum]; [ring|]. rewrite IH. ring. Qed.
Lemma rsum_split n m f : rsum (n + m) f = rsum n f + rsum m (fun i => f (n + i)%nat).
Proof.
  induction m as [|m IH]; cbn [rsum]; [rewrite Nat.add_0_r; ring|]. rewrite Nat.add_succ_r. cbn [rsum]. rewrite IH. ring.
Qed.
Lemma rsum_le n f g : (forall i, (i < n)%nat -> f i <= g i) -> rsum n f <= rsum n g.
Proof. induction n as [|n IH]; intros H; cbn [rsum]; [lra|]. pose proof (IH ltac:(intros; apply H; lia)). pose proof (H n ltac:(lia)). lra. Qed.

(** Bits of indices of corners. *)
Definition bit (i d : nat) : bool := N.testbit (N.of_nat i) (N.of_nat d).
Lemma pow_of_nat D : N.of_nat (2 ^ D) = (2 ^ N.of_nat D)%N.
Proof. induction D as [|D IH]; [reflexivity|]. rewrite Nat.pow_succ_r', Nat2N.inj_mul, IH. rewrite (Nat2N.inj_succ D), N.pow_succ_r'. reflexivity. Qed.
Lemma bit_low i D : (i < 2 ^ D)%nat -> bit i D = false.
Proof.
  intros H. unfold bit. rewrite N.testbit_eqb, N.div_small; [reflexivity|]. rewrite <- pow_of_nat. lia.
Qed.
Lemma bit_high i D : (i < 2 ^ D)%nat -> bit (2 ^ D + i) D = true.
Proof.
  intros H. unfold bit. rewrite N.testbit_eqb, Nat2N.inj_add, pow_of_nat. rewrite <- (N.mul_1_l (2 ^ N.of_nat D)) at 1.
  rewrite N.div_add_l by (apply N.pow_nonzero; discriminate). rewrite N.div_small; [reflexivity|]. rewrite <- pow_of_nat. lia.
Qed.
Lemma bit_same i D d : (d < D)%nat -> bit (2 ^ D + i) d = bit i d.
Proof.
  intros H. unfold bit. rewrite !N.testbit_eqb, Nat2N.inj_add, pow_of_nat.
  replace (2 ^ N.of_nat D)%N with (2 ^ N.of_nat (D - 1 - d) * 2 * 2 ^ N.of_nat d)%N.
  - rewrite N.div_add_l by (apply N.pow_nonzero; discriminate). rewrite N.add_comm, N.mod_add by discriminate. reflexivity.
  - replace (2 ^ N.of_nat (D - 1 - d) * 2)%N with (2 ^ N.succ (N.of_nat (D - 1 - d)))%N by (rewrite N.pow_succ_r'; lia).
    rewrite <- N.pow_add_r. f_equal. lia.
Qed.

(** A point of the box [-r, r] is a convex combination of its corners. *)
Lemma box_hull (r c : nat -> R) : forall D, (forall d, (d < D)%nat -> Rabs (c d) <= r d) ->
  exists w, (forall i, (i < 2 ^ D)%nat -> 0 <= w i) /\ rsum (2 ^ D) w = 1 /\
    forall d, (d < D)%nat -> rsum (2 ^ D) (fun i => w i * (if bit i d then r d else - r d)) = c d.
Proof.
  induction D as [|D IH]; intros H.
  - exists (fun _ => 1). cbn. split; [intros; lra|]. split; [lra|]. intros d Hd. lia.
  - destruct IH as [w [W1 [W2 W3]]]; [intros; apply H; lia|].
    assert (Ht : exists t, 0 <= t <= 1 /\ (2 * t - 1) * r D = c D).
    { specialize (H D ltac:(lia)). destruct (Req_dec (r D) 0) as [Er|Er].
      - exists (1 / 2). split; [lra|]. rewrite Er in *. assert (c D = 0); [|lra]. pose proof (Rabs_pos (c D)). apply Rabs_def2 with (a := 0 + 1) in H || idtac.
        destruct (Req_dec (c D) 0) as [E0|E0]; [exact E0|]. pose proof (Rabs_pos_lt _ E0). lra.
      - assert (Hr : 0 < r D) by (pose proof (Rabs_pos (c D)); lra). assert (Hc : - r D <= c D <= r D) by (split; [pose proof (Rle_abs (- c D)); rewrite Rabs_Ropp in *; lra|pose proof (Rle_abs (c D)); lra]).
        assert (Hq : -1 <= c D / r D <= 1).
        { split; apply Rmult_le_reg_r with (r D); auto; unfold Rdiv; rewrite Rmult_assoc, Rinv_l by lra; lra. }
        exists ((c D / r D + 1) / 2). split; [lra|]. field. exact Er. }
    destruct Ht as [t [T1 T2]]. set (m := (2 ^ D)%nat) in *.
    exists (fun i => if Nat.ltb i m then (1 - t) * w i else t * w (i - m)%nat).
    assert (E : (2 ^ S D = m + m)%nat) by (unfold m; cbn; lia). rewrite E.
    assert (A1 : forall f, rsum m (fun i => (if Nat.ltb i m then (1 - t) * w i else t * w (i - m)%nat) * f i) = (1 - t) * rsum m (fun i => w i * f i)).
    { intros f. rewrite <- rsum_scale. apply rsum_ext. intros i Hi. destruct (Nat.ltb_spec i m); [ring|lia]. }
    assert (A2 : forall f, rsum m (fun i => (if Nat.ltb (m + i) m then (1 - t) * w (m + i)%nat else t * w (m + i - m)%nat) * f i) = t * rsum m (fun i => w i * f i)).
    { intros f. rewrite <- rsum_scale. apply rsum_ext. intros i Hi. destruct (Nat.ltb_spec (m + i) m); [lia|]. replace (m + i - m)%nat with i by lia. ring. }
    split; [|split].
    + intros i Hi. destruct (Nat.ltb_spec i m) as [L|L]; apply Rmult_le_pos; try lra; apply W1; fold m; lia.
    + rewrite rsum_split.
      rewrite (rsum_ext m _ (fun i => (if Nat.ltb i m then (1 - t) * w i else t * w (i - m)%nat) * 1)) by (intros; ring). rewrite A1.
      rewrite (rsum_ext m (fun i => if Nat.ltb (m + i) m then _ else _) (fun i => (if Nat.ltb (m + i) m then (1 - t) * w (m + i)%nat else t * w (m + i - m)%nat) * 1)) by (intros; ring). rewrite A2.
      rewrite (rsum_ext m _ w) by (intros; ring). rewrite W2. ring.
    + intros d Hd. rewrite rsum_split, A1, A2. destruct (Nat.eq_dec d D) as [->|Hne].
      * rewrite (rsum_ext m (fun i => w i * (if bit i D then r D else - r D)) (fun i => - r D * w i)) by (intros i Hi; rewrite bit_low by exact Hi; ring).
        rewrite (rsum_ext m (fun i => w i * (if bit (m + i) D then r D else - r D)) (fun i => r D * w i)) by (intros i Hi; unfold m; rewrite bit_high by exact Hi; ring).
        rewrite !rsum_scale, W2. lra.
      * rewrite (rsum_ext m (fun i => w i * (if bit (m + i) d then r d else - r d)) (fun i => w i * (if bit i d then r d else - r d))) by (intros i Hi; unfold m; rewrite bit_same by lia; reflexivity).
        rewrite W3 by lia. ring.
Qed.

(** ** The loop *)
Section Loop.
Variable D : nat.
Hypothesis HD : (N.of_nat D <= 30)%N.
Notation Dn := (N.of_nat D).

Lemma infidx_lor i : (i < 2 ^ Dn)%N -> p_infidx Dn (N.lor (p_inf Dn) i) = i.
Proof.
  intros Hi. apply N.bits_inj. intros n. unfold p_infidx, p_inf. rewrite N.land_spec, N.lor_spec, !N.lxor_spec.
  replace (2 ^ 64 - 1)%N with (N.ones 64) by reflexivity. replace (2 ^ Dn - 1)%N with (N.ones Dn) by (rewrite N.ones_equiv; lia).
  destruct (N.lt_ge_cases n Dn) as [L|L].
  - rewrite (N.ones_spec_low Dn n L), (N.ones_spec_low 64 n) by lia. reflexivity.
  - rewrite (N.ones_spec_high Dn n L). assert (E : N.testbit i n = false).
    { rewrite N.testbit_eqb, N.div_small; [reflexivity|]. eapply N.lt_le_trans; [exact Hi|]. now apply N.pow_le_mono_r. }
    rewrite E. destruct (N.testbit (N.ones 64) n); reflexivity.
Qed.

Lemma add_infinite_spec p st : length (p_infs p) = (2 ^ D)%nat ->
  p_vec (add_infinite D p st) = p_vec p /\ p_off (add_infinite D p st) = p_off p /\ length (p_infs (add_infinite D p st)) = (2 ^ D)%nat /\
  forall i, (i < 2 ^ D)%nat -> nth_error (p_infs (add_infinite D p st)) i = Some (inf_coords st (N.of_nat i)).
Proof.
  intros Hl. unfold add_infinite.
  assert (G : forall k, (k <= 2 ^ D)%nat -> let q := fold_left (fun p i => set_inf Dn p (N.of_nat i) (inf_coords st (N.of_nat i))) (seq 0 k) p in
    p_vec q = p_vec p /\ p_off q = p_off p /\ length (p_infs q) = (2 ^ D)%nat /\ forall i, (i < k)%nat -> nth_error (p_infs q) i = Some (inf_coords st (N.of_nat i))).
  { induction k as [|k IH]; intros Hk; cbv zeta.
    - cbn. split; [reflexivity|]. split; [reflexivity|]. split; [exact Hl|]. intros i Hi. lia.
    - rewrite seq_S, fold_left_app. cbn [fold_left Nat.add]. destruct (IH ltac:(lia)) as [A1 [A2 [A3 A4]]].
      set (q := fold_left _ (seq 0 k) p) in *. unfold set_inf. cbn [p_vec p_off p_infs].
      split; [exact A1|]. split; [exact A2|]. rewrite upd_length. split; [exact A3|].
      assert (Ek : N.to_nat (p_infidx Dn (N.lor (p_inf Dn) (N.of_nat k))) = k).
      { rewrite infidx_lor; [lia|]. rewrite <- pow_of_nat. lia. }
      rewrite Ek. intros i Hi. destruct (Nat.eq_dec i k) as [->|Hne]; [apply nth_error_upd_eq; lia|]. rewrite nth_error_upd_neq by lia. apply A4. lia. }
  exact (G (2 ^ D)%nat (le_n _)).
Qed.

Lemma add_infinite_ok p st : pts_ok Dn p -> pts_ok Dn (add_infinite D p st) /\
  (forall i, is_fin_id p i -> p_get Dn (add_infinite D p st) i = p_get Dn p i) /\
  (forall i, (i < 2 ^ D)%nat -> p_get Dn (add_infinite D p st) (2 ^ 64 - 2 ^ Dn + N.of_nat i)%N = Val (inf_coords st (N.of_nat i))).
Proof.
  intros Hp. assert (Hl : length (p_infs p) = (2 ^ D)%nat) by (destruct Hp as [_ [_ H]]; rewrite <- pow_of_nat in H; lia).
  destruct (add_infinite_spec p st Hl) as [A1 [A2 [A3 A4]]]. set (q := add_infinite D p st) in *.
  assert (Hq : pts_ok Dn q).
  { destruct Hp as [H1 [H2 H3]]. unfold pts_ok, finite_size in *. rewrite A1, A2, A3, pow_of_nat. auto. }
  split; [exact Hq|]. pose proof (N.pow_le_mono_r 2 Dn 30 ltac:(lia) HD) as H30. change (2 ^ 30)%N with 1073741824%N in H30. split.
  - intros i Hi. unfold p_get, fin_idx. rewrite A1, A2. destruct (p_finite Dn i) eqn:Ef; [reflexivity|]. exfalso.
    assert (Hlt : (i < 2 ^ 64 - 2 ^ Dn)%N) by (destruct Hp as [_ [H _]]; unfold is_fin_id in Hi; unfold finite_size in H; lia).
    apply (p_finite_spec Dn HD) in Hlt; [congruence|]. lia.
  - intros i Hi. assert (Hn : (N.of_nat i < 2 ^ Dn)%N) by (rewrite <- pow_of_nat; lia).
    change (2 ^ 64)%N with 18446744073709551616%N in *.
    destruct (get_id Dn HD q (18446744073709551616 - 2 ^ Dn + N.of_nat i) Hq) as [a [Ea H]].
    { right. unfold is_inf_id. change (2 ^ 64)%N with 18446744073709551616%N. lia. }
    rewrite Ea. f_equal. destruct H as [[H _]|[_ H]].
    + exfalso. destruct Hq as [_ [H2 _]]. unfold is_fin_id in H. unfold finite_size in H2. change (2 ^ 64)%N with 18446744073709551616%N in *. lia.
    + change (2 ^ 64)%N with 18446744073709551616%N in H. replace (N.to_nat (18446744073709551616 - 2 ^ Dn + N.of_nat i - (18446744073709551616 - 2 ^ Dn))) with i in H by lia.
      rewrite A4 in H by exact Hi. congruence.
Qed.
End Loop.
