(** Error bounds of the first stage of the predicates. *)
From Verif Require Import Outcome GeoModel PredModel PredSpec.
From Coq Require Import Lia Psatz.
Local Open Scope R_scope.

Lemma Rabs_le_inv x a : Rabs x <= a -> - a <= x <= a.
Proof. unfold Rabs. destruct (Rcase_abs x); lra. Qed.

Section P.
Variable eps : R.
Variable rnd : R -> R.
Hypothesis HR : rounding eps rnd.

Let E (k : nat) : R := (1 + eps) ^ k.
Lemma eps_pos : 0 < eps. Proof. apply (r_eps _ _ HR). Qed.
Lemma eps_small : eps <= 1 / 1024. Proof. apply (r_eps _ _ HR). Qed.
Lemma E_ge1 k : 1 <= E k.
Proof. pose proof eps_pos. apply pow_R1_Rle. lra. Qed.
Lemma E_mono j k : (j <= k)%nat -> E j <= E k.
Proof. intros. pose proof eps_pos. apply Rle_pow; [lra|easy]. Qed.
Lemma E_add j k : E (j + k) = E j * E k.
Proof. apply pow_add. Qed.
Lemma E_S k : E (S k) = (1 + eps) * E k.
Proof. reflexivity. Qed.

Lemma rnd0 : rnd 0 = 0.
Proof. pose proof (r_odd _ _ HR 0) as H. rewrite Ropp_0 in H. lra. Qed.
Lemma rnd_nonneg x : 0 <= x -> 0 <= rnd x.
Proof. intros H. rewrite <- rnd0. now apply (r_mono _ _ HR). Qed.
Lemma rnd_le x y : x <= y -> rnd x <= rnd y. Proof. apply (r_mono _ _ HR). Qed.
(** |rnd x| <= rnd m if |x| <= m *)
Lemma rnd_abs x m : Rabs x <= m -> Rabs (rnd x) <= rnd m.
Proof.
  intros H. apply Rabs_le. apply Rabs_le_inv in H as [H1 H2]. split; [|now apply rnd_le].
  rewrite <- (r_odd _ _ HR). now apply rnd_le.
Qed.
Lemma rnd_up x : 0 <= x -> rnd x <= (1 + eps) * x.
Proof. intros H. pose proof (r_rel _ _ HR x) as Q. rewrite (Rabs_pos_eq x) in Q by easy. apply Rabs_le_inv in Q. lra. Qed.
Lemma rnd_down x : 0 <= x -> x <= (1 + eps) * rnd x.
Proof. intros H. pose proof (r_rel' _ _ HR x) as Q. rewrite (Rabs_pos_eq (rnd x)) in Q by now apply rnd_nonneg. apply Rabs_le_inv in Q. lra. Qed.
Lemma rnd_pos x : 0 < x -> 0 < rnd x.
Proof. intros H. pose proof (rnd_down x ltac:(lra)). pose proof eps_pos. destruct (Rle_lt_dec (rnd x) 0); [|easy]. assert ((1 + eps) * rnd x <= 0) by nra. lra. Qed.
Lemma rnd_neg x : x < 0 -> rnd x < 0.
Proof. intros H. replace x with (- (- x)) by ring. rewrite (r_odd _ _ HR). pose proof (rnd_pos (- x)). lra. Qed.
Lemma rnd_sign x : (0 < rnd x <-> 0 < x) /\ (rnd x < 0 <-> x < 0).
Proof.
  pose proof (rnd_pos x). pose proof (rnd_neg x). pose proof rnd0. destruct (Rtotal_order x 0) as [|[->|]]; intuition lra.
Qed.

(** [x] is computed for [X]; [m] is computed for the bound [M], in the same way. *)
Definition B (k : nat) (x X m M : R) : Prop := Rabs x <= m /\ Rabs (x - X) <= (E k - 1) * m /\ m <= E k * M.

Lemma B_m k x X m M : B k x X m M -> 0 <= m.
Proof. intros (H & _). pose proof (Rabs_pos x). lra. Qed.
Lemma B_M k x X m M : B k x X m M -> 0 <= M.
Proof. intros (H & _ & H2). pose proof (Rabs_pos x). pose proof (E_ge1 k). nra. Qed.
Lemma B_up j k x X m M : (j <= k)%nat -> B j x X m M -> B k x X m M.
Proof.
  intros L H. pose proof (B_m _ _ _ _ _ H) as P1. pose proof (B_M _ _ _ _ _ H) as P2. destruct H as (H1 & H2 & H3).
  pose proof (E_mono j k L). repeat split; [easy|nra|nra].
Qed.
Lemma B_leaf a b : B 1 (fsub rnd a b) (a - b) (Rabs (fsub rnd a b)) (Rabs (a - b)).
Proof.
  unfold B, fsub, E. rewrite pow_1. repeat split; [lra| |].
  - pose proof (r_rel' _ _ HR (a - b)). lra.
  - pose proof (r_rel _ _ HR (a - b)). pose proof (Rabs_triang_inv (rnd (a - b)) (a - b)). lra.
Qed.
Lemma B_rnd k x X m M : Rabs x <= m -> Rabs (x - X) <= (E k - 1) * m -> m <= E k * M -> B (S k) (rnd x) X (rnd m) M.
Proof.
  intros H1 H2 H3. pose proof (rnd_abs x m H1) as A. pose proof (r_rel' _ _ HR x) as Q.
  pose proof (Rabs_pos x). pose proof (rnd_down m ltac:(lra)) as U. pose proof (rnd_up m ltac:(lra)) as U'. pose proof eps_pos. pose proof (E_ge1 k). repeat split; [easy| |].
  - replace (rnd x - X) with ((rnd x - x) + (x - X)) by ring. eapply Rle_trans; [apply Rabs_triang|]. rewrite E_S.
    assert ((E k - 1) * m <= (E k - 1) * ((1 + eps) * rnd m)) by (apply Rmult_le_compat_l; lra).
    assert (eps * Rabs (rnd x) <= eps * rnd m) by (apply Rmult_le_compat_l; lra). lra.
  - rewrite E_S. assert ((1 + eps) * m <= (1 + eps) * (E k * M)) by (apply Rmult_le_compat_l; lra). lra.
Qed.
Lemma B_mul j k x X m M y Y n N : B j x X m M -> B k y Y n N -> B (S (j + k)) (fmul rnd x y) (X * Y) (fmul rnd m n) (M * N).
Proof.
  intros Hx Hy. pose proof (B_m _ _ _ _ _ Hx). pose proof (B_m _ _ _ _ _ Hy). pose proof (B_M _ _ _ _ _ Hx). pose proof (B_M _ _ _ _ _ Hy).
  destruct Hx as (A1 & A2 & A3), Hy as (B1 & B2 & B3). pose proof (E_ge1 j). pose proof (E_ge1 k). apply B_rnd.
  - rewrite Rabs_mult. apply Rmult_le_compat; auto using Rabs_pos.
  - rewrite E_add. replace (x * y - X * Y) with (x * (y - Y) + (x - X) * y - (x - X) * (y - Y)) by ring.
    eapply Rle_trans; [apply Rabs_triang|]. eapply Rle_trans; [apply Rplus_le_compat_r, Rabs_triang|]. rewrite Rabs_Ropp, !Rabs_mult.
    assert (Rabs x * Rabs (y - Y) <= m * ((E k - 1) * n)) by (apply Rmult_le_compat; auto using Rabs_pos).
    assert (Rabs (x - X) * Rabs y <= ((E j - 1) * m) * n) by (apply Rmult_le_compat; auto using Rabs_pos).
    assert (Rabs (x - X) * Rabs (y - Y) <= ((E j - 1) * m) * ((E k - 1) * n)) by (apply Rmult_le_compat; auto using Rabs_pos). lra.
  - rewrite E_add. replace (E j * E k * (M * N)) with ((E j * M) * (E k * N)) by ring. apply Rmult_le_compat; easy.
Qed.
Lemma sum_bounds k x X m M y Y n N : B k x X m M -> B k y Y n N ->
  Rabs (x + y) <= m + n /\ Rabs (x + y - (X + Y)) <= (E k - 1) * (m + n) /\ m + n <= E k * (M + N).
Proof.
  intros (A1 & A2 & A3) (B1 & B2 & B3). repeat split.
  - eapply Rle_trans; [apply Rabs_triang|]. lra.
  - replace (x + y - (X + Y)) with ((x - X) + (y - Y)) by ring. eapply Rle_trans; [apply Rabs_triang|]. lra.
  - lra.
Qed.
Lemma B_add k x X m M y Y n N : B k x X m M -> B k y Y n N -> B (S k) (fadd rnd x y) (X + Y) (fadd rnd m n) (M + N).
Proof. intros H1 H2. destruct (sum_bounds _ _ _ _ _ _ _ _ _ H1 H2) as (? & ? & ?). now apply B_rnd. Qed.
Lemma B_opp k x X m M : B k x X m M -> B k (- x) (- X) m M.
Proof.
  intros (A1 & A2 & A3). repeat split; [now rewrite Rabs_Ropp| |easy].
  replace (- x - - X) with (- (x - X)) by ring. now rewrite Rabs_Ropp.
Qed.
Lemma B_sub k x X m M y Y n N : B k x X m M -> B k y Y n N -> B (S k) (fsub rnd x y) (X - Y) (fadd rnd m n) (M + N).
Proof. intros H1 H2. exact (B_add _ _ _ _ _ _ _ _ _ H1 (B_opp _ _ _ _ _ H2)). Qed.

(** The end of the predicates. *)
Lemma sign_of det DET K A p : 0 <= p -> 0 <= K -> 0 <= A -> Rabs (det - DET) <= eps * Rabs det + K * p -> (1 + eps) * K < (1 - eps) * A ->
  rnd (A * p) <= Rabs det -> has_sign det DET.
Proof.
  intros Hp HK HA H HK' HT. pose proof eps_pos. pose proof eps_small.
  pose proof (rnd_down (A * p) ltac:(now apply Rmult_le_pos)) as Hd.
  destruct (Rle_lt_or_eq_dec 0 p Hp) as [P|P].
  - assert (Q : K * p < (1 - eps) * Rabs det).
    { assert ((1 + eps) * K * p < (1 - eps) * A * p) by (apply Rmult_lt_compat_r; easy).
      assert ((1 - eps) * (A * p) <= (1 - eps) * ((1 + eps) * Rabs det)).
      { apply Rmult_le_compat_l; [lra|]. eapply Rle_trans; [exact Hd|]. apply Rmult_le_compat_l; lra. }
      apply Rmult_lt_reg_l with (1 + eps); [lra|]. lra. }
    apply Rabs_le_inv in H. unfold has_sign. destruct (Rtotal_order det 0) as [L|[L|L]].
    + rewrite (Rabs_left det L) in *. lra.
    + rewrite L, Rabs_R0 in *. assert (0 <= K * p) by (now apply Rmult_le_pos). lra.
    + rewrite (Rabs_pos_eq det) in * by lra. lra.
  - rewrite <- P in H. replace (eps * Rabs det + K * 0) with (eps * Rabs det) in H by ring.
    apply Rabs_le_inv in H. unfold has_sign. destruct (Rtotal_order det 0) as [L|[L|L]].
    + rewrite (Rabs_left det L) in *. nra.
    + rewrite L, Rabs_R0 in *. lra.
    + rewrite (Rabs_pos_eq det) in * by lra. nra.
Qed.
Lemma close_of det DET K A p : 0 <= p -> 0 <= A -> Rabs (det - DET) <= eps * Rabs det + K * p -> K <= A ->
  Rabs det <= rnd (A * p) -> Rabs DET <= 3 * A * p.
Proof.
  intros Hp HA H HK HT. pose proof eps_pos. pose proof eps_small.
  pose proof (rnd_up (A * p) ltac:(now apply Rmult_le_pos)) as Hd. assert (0 <= A * p) by (now apply Rmult_le_pos).
  assert (Rabs DET <= Rabs det + Rabs (det - DET)).
  { replace DET with (det + - (det - DET)) at 1 by ring. eapply Rle_trans; [apply Rabs_triang|]. rewrite Rabs_Ropp. lra. }
  assert (K * p <= A * p) by (apply Rmult_le_compat_r; easy). pose proof (Rabs_pos det).
  assert (eps * (A * p) <= 1 / 1024 * (A * p)) by (apply Rmult_le_compat_r; lra).
  assert (eps * Rabs det <= 1 / 1024 * Rabs det) by (apply Rmult_le_compat_r; lra). lra.
Qed.
Lemma last_early det DET K A p x : 0 <= p -> 0 <= K -> 0 <= A -> Rabs (det - DET) <= eps * Rabs det + K * p -> (1 + eps) * K < (1 - eps) * A ->
  last_test rnd A det p = Early x -> has_sign x DET.
Proof.
  unfold last_test, fmul, rltb. intros Hp HK HA H HK' HT. destruct (Rlt_dec _ det); [|destruct (Rlt_dec _ (- det))]; cbn in HT; inversion HT; subst x;
    (eapply sign_of; [exact Hp|exact HK|exact HA|exact H|exact HK'|]); [pose proof (Rle_abs det); lra|].
  rewrite <- Rabs_Ropp. pose proof (Rle_abs (- det)); lra.
Qed.
Lemma last_adapt det DET K A p q : 0 <= p -> 0 <= A -> Rabs (det - DET) <= eps * Rabs det + K * p -> K <= A ->
  last_test rnd A det p = Adapt q -> q = p /\ Rabs DET <= 3 * A * p.
Proof.
  unfold last_test, fmul, rltb. intros Hp HA H HK' HT. destruct (Rlt_dec _ det); [discriminate|]. destruct (Rlt_dec _ (- det)); [discriminate|]. cbn in HT. inversion HT; subst q. split; [easy|].
  eapply close_of; eauto. apply Rabs_le; lra.
Qed.
(** The last sum. *)
Lemma final k x X m M y Y n N : B k x X m M -> B k y Y n N ->
  Rabs (fadd rnd x y - (X + Y)) <= eps * Rabs (fadd rnd x y) + (E (S k) - (1 + eps)) * fadd rnd m n /\ 0 <= fadd rnd m n /\ fadd rnd m n <= E (S k) * (M + N).
Proof.
  intros H1 H2. pose proof (B_m _ _ _ _ _ H1). pose proof (B_m _ _ _ _ _ H2). destruct (sum_bounds _ _ _ _ _ _ _ _ _ H1 H2) as (A1 & A2 & A3).
  pose proof (B_add _ _ _ _ _ _ _ _ _ H1 H2) as (_ & _ & A4). unfold fadd in *. pose proof (rnd_down (m + n) ltac:(lra)). pose proof (E_ge1 k). split; [|split; [apply rnd_nonneg; lra|exact A4]].
  replace (rnd (x + y) - (X + Y)) with ((rnd (x + y) - (x + y)) + (x + y - (X + Y))) by ring. eapply Rle_trans; [apply Rabs_triang|].
  pose proof (r_rel' _ _ HR (x + y)). rewrite E_S. assert ((E k - 1) * (m + n) <= (E k - 1) * ((1 + eps) * rnd (m + n))) by (apply Rmult_le_compat_l; lra). lra.
Qed.

Lemma E_bound k : (k <= 32)%nat -> E k <= 1 + INR k * eps + INR k * INR k / 2 * (eps * eps).
Proof.
  pose proof eps_pos. pose proof eps_small. induction k as [|k IH]; intros L.
  - unfold E. cbn. lra.
  - specialize (IH ltac:(lia)). rewrite E_S, S_INR. set (c := INR k) in *.
    assert (Hc : 0 <= c <= 32). { split; [apply pos_INR|]. replace 32 with (INR 32) by (cbn; ring). apply le_INR. lia. }
    assert (Hs : 0 <= c * c <= 1024) by nra. assert (0 < eps * eps) by nra.
    assert ((1 + eps) * E k <= (1 + eps) * (1 + c * eps + c * c / 2 * (eps * eps))) by (apply Rmult_le_compat_l; lra).
    assert (c * c / 2 * (eps * eps) * eps <= 1 / 2 * (eps * eps)).
    { assert (c * c / 2 * eps <= 1 / 2) by nra. nra. }
    nra.
Qed.

Lemma fmul_comm x y : fmul rnd x y = fmul rnd y x. Proof. unfold fmul. now rewrite Rmult_comm. Qed.
Lemma fadd_comm x y : fadd rnd x y = fadd rnd y x. Proof. unfold fadd. now rewrite Rplus_comm. Qed.
Lemma abs_rnd x : Rabs (rnd x) = rnd (Rabs x).
Proof.
  destruct (Rle_lt_dec 0 x) as [H|H].
  - rewrite (Rabs_pos_eq x H). apply Rabs_pos_eq. now apply rnd_nonneg.
  - rewrite (Rabs_left x H), (r_odd _ _ HR). apply Rabs_left. now apply rnd_neg.
Qed.
Lemma B_eq k x X m M X' m' M' : B k x X m M -> X = X' -> m = m' -> M = M' -> B k x X' m' M'.
Proof. now intros H -> -> ->. Qed.
Notation leaf x X := (B 1 x X (Rabs x) (Rabs X)).
Lemma B_prod x X y Y : leaf x X -> leaf y Y -> B 3 (fmul rnd x y) (X * Y) (Rabs (fmul rnd x y)) (Rabs (X * Y)).
Proof. intros H1 H2. eapply B_eq; [exact (B_mul _ _ _ _ _ _ _ _ _ _ H1 H2)|easy| |now rewrite Rabs_mult]. unfold fmul. now rewrite abs_rnd, Rabs_mult. Qed.
Lemma B_sq x X : leaf x X -> B 3 (fmul rnd x x) (X * X) (fmul rnd x x) (X * X).
Proof.
  intros H. eapply B_eq; [exact (B_prod _ _ _ _ H H)|easy| |]; apply Rabs_pos_eq; [apply rnd_nonneg|]; apply Rle_0_sqr.
Qed.
(** |xw| + |yz| *)
Lemma B_minor x X y Y z Z w W : leaf x X -> leaf y Y -> leaf z Z -> leaf w W ->
  B 4 (fsub rnd (fmul rnd x w) (fmul rnd z y)) (X * W - Z * Y) (fadd rnd (Rabs (fmul rnd x w)) (Rabs (fmul rnd z y))) (size2 X Y Z W).
Proof.
  intros. eapply B_eq; [apply (B_sub _ _ _ _ _ _ _ _ _ (B_prod x X w W H H2) (B_prod z Z y Y H1 H0))|easy|easy|].
  unfold size2. now rewrite (Rmult_comm Y Z).
Qed.
Lemma B_flip k x X m M n N : B k x X (fadd rnd m n) M -> N = M -> B k x X (fadd rnd n m) N.
Proof. intros H ->. now rewrite fadd_comm. Qed.
Lemma B_scale j k x X m M y Y n N : B j x X m M -> B k y Y n N -> B (S (j + k)) (fmul rnd x y) (X * Y) (fmul rnd n m) (N * M).
Proof. intros H1 H2. eapply B_eq; [exact (B_mul _ _ _ _ _ _ _ _ _ _ H1 H2)|easy|apply fmul_comm|apply Rmult_comm]. Qed.

Lemma mul_sign x X y Y : has_sign x X -> has_sign y Y -> has_sign (fmul rnd x y) (X * Y).
Proof.
  unfold fmul, has_sign. intros Hx Hy. destruct (rnd_sign (x * y)) as [-> ->].
  destruct (Rtotal_order x 0) as [x0|[x0|x0]], (Rtotal_order y 0) as [y0|[y0|y0]];
    (assert (X < 0 \/ X = 0 \/ 0 < X) as X0 by apply Rtotal_order); (assert (Y < 0 \/ Y = 0 \/ 0 < Y) as Y0 by apply Rtotal_order);
    assert (HX : (0 < x /\ 0 < X) \/ (x = 0 /\ X = 0) \/ (x < 0 /\ X < 0)) by lra; assert (HY : (0 < y /\ 0 < Y) \/ (y = 0 /\ Y = 0) \/ (y < 0 /\ Y < 0)) by lra;
    clear - HX HY; destruct HX as [[A1 A2]|[[-> ->]|[A1 A2]]], HY as [[B1 B2]|[[-> ->]|[B1 B2]]]; rewrite ?Rmult_0_l, ?Rmult_0_r; try lra; nra.
Qed.

(** ** The predicates *)
Notation bound := (PredSpec.bound eps).
Lemma K_bound k m n : (k <= 32)%nat -> INR k - 1 = m -> INR k * INR k / 2 + 2 * m + 1 <= n -> n <= 256 -> 0 <= m <= 16 ->
  let K := E k - (1 + eps) in (0 < k)%nat -> 0 <= K /\ K <= bound m n /\ (1 + eps) * K < (1 - eps) * bound m n.
Proof.
  intros Hk Hm Hn Hn' Hm' K H0. pose proof (E_bound k Hk) as HB. pose proof eps_pos. pose proof eps_small. unfold K, bound.
  assert (E 1 <= E k) by (apply E_mono; lia). unfold E at 1 in H2. rewrite pow_1 in H2. set (c := INR k * INR k / 2) in *.
  assert (Hc : 0 <= c) by (unfold c; pose proof (pos_INR k); nra).
  assert (0 < eps * eps) by nra.
  assert (L : E k - (1 + eps) <= m * eps + c * (eps * eps)) by (rewrite <- Hm; lra).
  assert (eps * eps * eps <= 1 / 1024 * (eps * eps)) by nra.
  split; [lra|split].
  - assert (c * (eps * eps) <= n * (eps * eps)) by (apply Rmult_le_compat_r; lra). lra.
  - assert ((1 + eps) * (E k - (1 + eps)) <= (1 + eps) * (m * eps + c * (eps * eps))) by (apply Rmult_le_compat_l; lra).
    assert (c * (eps * eps * eps) <= c * (1 / 1024 * (eps * eps))) by (apply Rmult_le_compat_l; lra).
    assert (n * (eps * eps * eps) <= n * (1 / 1024 * (eps * eps))) by (apply Rmult_le_compat_l; lra).
    assert (n * (eps * eps) >= (c + 2 * m + 1) * (eps * eps)) by (apply Rle_ge, Rmult_le_compat_r; lra).
    nra.
Qed.

Lemma two_thirds A p M k : (k <= 17)%nat -> 0 <= A -> p <= E k * M -> 0 <= M -> 3 * A * p <= 4 * A * M.
Proof.
  intros Hk HA Hp HM. pose proof (E_bound 17 ltac:(lia)) as HB. pose proof (E_mono k 17 Hk). pose proof eps_pos. pose proof eps_small.
  assert (E 17 <= 4 / 3). { replace (INR 17) with 17 in HB by (cbn; ring). nra. }
  assert (E k * M <= 4 / 3 * M) by (apply Rmult_le_compat_r; lra).
  assert (3 * A * p <= 3 * A * (4 / 3 * M)) by (apply Rmult_le_compat_l; lra). lra.
Qed.
Lemma bound_pos m n : 0 <= m -> 0 <= n -> 0 <= bound m n.
Proof. intros. pose proof eps_pos. unfold bound. apply Rmult_le_pos; nra. Qed.

(** The common end with a last sum of two terms. *)
Lemma common k A m n x X p M y Y q N st D : B k x X p M -> B k y Y q N -> A = bound m n ->
  (S k <= 17)%nat -> INR (S k) - 1 = m -> INR (S k) * INR (S k) / 2 + 2 * m + 1 <= n -> n <= 256 -> 0 <= m <= 16 -> D = X + Y ->
  last_test rnd A (fadd rnd x y) (fadd rnd p q) = st ->
  (forall v, st = Early v -> has_sign v D) /\ (forall v, st = Adapt v -> Rabs D <= 4 * A * (M + N)).
Proof.
  intros H1 H2 -> Hk Hm Hn Hn' Hm' -> HT. pose proof (B_M _ _ _ _ _ H1). pose proof (B_M _ _ _ _ _ H2).
  destruct (final _ _ _ _ _ _ _ _ _ H1 H2) as (F1 & F2 & F3).
  assert (n0 : 0 <= n). { pose proof (pos_INR (S k)) as Q. assert (0 <= INR (S k) * INR (S k)) by (now apply Rmult_le_pos). lra. }
  destruct (K_bound (S k) m n ltac:(lia) Hm Hn Hn' Hm' ltac:(lia)) as (K1 & K2 & K3). pose proof (bound_pos m n ltac:(lra) n0) as HA.
  split; intros v ->.
  - exact (last_early _ _ _ _ _ _ F2 K1 HA F1 K3 HT).
  - destruct (last_adapt _ _ _ _ _ _ F2 HA F1 K2 HT) as [-> L]. eapply Rle_trans; [exact L|].
    apply (two_thirds _ _ _ (S k)); try easy. lra.
Qed.

Theorem orient3_stage a b c d st : orient3_fp rnd (bound 7 56) a b c d = st ->
  (forall v, st = Early v -> has_sign v (orient3 a b c d)) /\ (forall v, st = Adapt v -> Rabs (orient3 a b c d) <= 4 * bound 7 56 * orient3_size a b c d).
Proof.
  unfold orient3_fp, orient3_size, size3. cbv zeta. intros H.
  set (l := B_leaf) in *.
  assert (T1 := B_scale _ _ _ _ _ _ _ _ _ _ (l (a 2%nat) (d 2%nat)) (B_minor _ _ _ _ _ _ _ _ (l (b 0%nat) (d 0%nat)) (l (b 1%nat) (d 1%nat)) (l (c 0%nat) (d 0%nat)) (l (c 1%nat) (d 1%nat)))).
  assert (T2 := B_scale _ _ _ _ _ _ _ _ _ _ (l (b 2%nat) (d 2%nat)) (B_minor _ _ _ _ _ _ _ _ (l (c 0%nat) (d 0%nat)) (l (c 1%nat) (d 1%nat)) (l (a 0%nat) (d 0%nat)) (l (a 1%nat) (d 1%nat)))).
  assert (T3 := B_scale _ _ _ _ _ _ _ _ _ _ (l (c 2%nat) (d 2%nat)) (B_minor _ _ _ _ _ _ _ _ (l (a 0%nat) (d 0%nat)) (l (a 1%nat) (d 1%nat)) (l (b 0%nat) (d 0%nat)) (l (b 1%nat) (d 1%nat)))).
  refine (common _ _ 7 56 _ _ _ _ _ _ _ _ _ _ (B_add _ _ _ _ _ _ _ _ _ T1 T2) (B_up 6 7 _ _ _ _ ltac:(lia) T3) eq_refl _ _ _ _ _ _ H); [lia|cbn; lra|cbn; lra|lra|lra|].
  unfold orient3. cbv zeta. ring.
Qed.

Theorem insphere2_stage a b c d st : insphere2_fp rnd (bound 10 96) a b c d = st ->
  (forall v, st = Early v -> has_sign v (insphere2 a b c d)) /\ (forall v, st = Adapt v -> Rabs (insphere2 a b c d) <= 4 * bound 10 96 * insphere2_size a b c d).
Proof.
  unfold insphere2_fp, insphere2_size, size3. cbv zeta. intros H.
  set (l := B_leaf) in *.
  assert (L : forall x, B 4 (fadd rnd (fmul rnd (fsub rnd (x 0%nat) (d 0%nat)) (fsub rnd (x 0%nat) (d 0%nat))) (fmul rnd (fsub rnd (x 1%nat) (d 1%nat)) (fsub rnd (x 1%nat) (d 1%nat)))) (norm2 2 x d)
    (fadd rnd (fmul rnd (fsub rnd (x 0%nat) (d 0%nat)) (fsub rnd (x 0%nat) (d 0%nat))) (fmul rnd (fsub rnd (x 1%nat) (d 1%nat)) (fsub rnd (x 1%nat) (d 1%nat)))) (norm2 2 x d)).
  { intros x. eapply B_eq; [exact (B_add _ _ _ _ _ _ _ _ _ (B_sq _ _ (l (x 0%nat) (d 0%nat))) (B_sq _ _ (l (x 1%nat) (d 1%nat))))| |easy|]; unfold norm2, sum_loop; cbn; ring. }
  assert (T1 := B_scale _ _ _ _ _ _ _ _ _ _ (L a) (B_minor _ _ _ _ _ _ _ _ (l (b 0%nat) (d 0%nat)) (l (b 1%nat) (d 1%nat)) (l (c 0%nat) (d 0%nat)) (l (c 1%nat) (d 1%nat)))).
  assert (T2 := B_scale _ _ _ _ _ _ _ _ _ _ (L b) (B_minor _ _ _ _ _ _ _ _ (l (c 0%nat) (d 0%nat)) (l (c 1%nat) (d 1%nat)) (l (a 0%nat) (d 0%nat)) (l (a 1%nat) (d 1%nat)))).
  assert (T3 := B_scale _ _ _ _ _ _ _ _ _ _ (L c) (B_minor _ _ _ _ _ _ _ _ (l (a 0%nat) (d 0%nat)) (l (a 1%nat) (d 1%nat)) (l (b 0%nat) (d 0%nat)) (l (b 1%nat) (d 1%nat)))).
  refine (common _ _ 10 96 _ _ _ _ _ _ _ _ _ _ (B_add _ _ _ _ _ _ _ _ _ T1 T2) (B_up 9 10 _ _ _ _ ltac:(lia) T3) eq_refl _ _ _ _ _ _ H); [lia|cbn; lra|cbn; lra|lra|lra|].
  unfold insphere2, norm2, sum_loop. cbn. ring.
Qed.

Theorem orient2_stage a b c st : orient2_fp rnd (bound 3 16) a b c = st ->
  (forall v, st = Early v -> has_sign v (orient2 a b c)) /\ (forall v, st = Adapt v -> Rabs (orient2 a b c) <= 4 * bound 3 16 * orient2_size a b c).
Proof.
  unfold orient2_fp, orient2_size. cbv zeta. intros H. set (l := B_leaf) in *.
  set (acx := fsub rnd (a 0%nat) (c 0%nat)) in *. set (bcy := fsub rnd (b 1%nat) (c 1%nat)) in *.
  set (acy := fsub rnd (a 1%nat) (c 1%nat)) in *. set (bcx := fsub rnd (b 0%nat) (c 0%nat)) in *.
  pose proof (B_prod _ _ _ _ (l (a 0%nat) (c 0%nat)) (l (b 1%nat) (c 1%nat))) as T1.
  pose proof (B_prod _ _ _ _ (l (a 1%nat) (c 1%nat)) (l (b 0%nat) (c 0%nat))) as T2.
  fold acx bcy acy bcx in T1, T2.
  assert (S1 : has_sign (fmul rnd acx bcy) ((a 0%nat - c 0%nat) * (b 1%nat - c 1%nat))) by (apply mul_sign; apply rnd_sign).
  assert (S2 : has_sign (fmul rnd acy bcx) ((a 1%nat - c 1%nat) * (b 0%nat - c 0%nat))) by (apply mul_sign; apply rnd_sign).
  unfold orient2, size2. set (T := (a 0%nat - c 0%nat) * (b 1%nat - c 1%nat)) in *. set (U := (a 1%nat - c 1%nat) * (b 0%nat - c 0%nat)) in *.
  set (t := fmul rnd acx bcy) in *. set (u := fmul rnd acy bcx) in *.
  assert (EA : (t <= 0 /\ 0 <= u) \/ (0 <= t /\ u <= 0) \/ t = 0 -> has_sign (fsub rnd t u) (T - U)).
  { intros Q. unfold has_sign in *. destruct (rnd_sign (t - u)) as [-> ->]. clear - Q S1 S2.
    destruct (Rtotal_order t 0) as [|[|]], (Rtotal_order u 0) as [|[|]], (Rtotal_order T 0) as [|[|]], (Rtotal_order U 0) as [|[|]]; lra. }
  assert (LA : forall ds, ds = fadd rnd (Rabs t) (Rabs u) ->
    (if rleb (fmul rnd (bound 3 16) ds) (fsub rnd t u) || rleb (fmul rnd (bound 3 16) ds) (- fsub rnd t u) then Early (fsub rnd t u) else Adapt ds) = st ->
    (forall v, st = Early v -> has_sign v (T - U)) /\ (forall v, st = Adapt v -> Rabs (T - U) <= 4 * bound 3 16 * (Rabs T + Rabs U))).
  { clear H. intros ds Ed HT. destruct (final _ _ _ _ _ _ _ _ _ T1 (B_opp _ _ _ _ _ T2)) as (F1 & F2 & F3). rewrite <- Ed in F1, F2, F3.
    change (fadd rnd t (- u)) with (fsub rnd t u) in F1. change (T + - U) with (T - U) in F1.
    pose proof (K_bound 4 3 16 ltac:(lia) ltac:(cbn; lra) ltac:(cbn; lra) ltac:(lra) ltac:(lra) ltac:(lia)) as (K1 & K2 & K3). pose proof (bound_pos 3 16 ltac:(lra) ltac:(lra)) as HA.
    unfold rleb in HT. destruct (Rle_dec _ (fsub rnd t u)) as [G|G]; [|destruct (Rle_dec _ (- fsub rnd t u)) as [G'|G']]; cbn in HT; subst st; split; intros v Q; try discriminate Q; injection Q as <-.
    - eapply sign_of; [exact F2|exact K1|exact HA|exact F1|exact K3|]. eapply Rle_trans; [exact G|apply Rle_abs].
    - eapply sign_of; [exact F2|exact K1|exact HA|exact F1|exact K3|]. eapply Rle_trans; [exact G'|]. rewrite <- Rabs_Ropp. apply Rle_abs.
    - eapply Rle_trans; [eapply close_of; [exact F2|exact HA|exact F1|exact K2|]|].
      + fold (fmul rnd (bound 3 16) ds). apply Rabs_le. lra.
      + apply (two_thirds _ _ _ 4); try easy. lia. pose proof (Rabs_pos T). pose proof (Rabs_pos U). lra. }
  unfold rltb in H. destruct (Rlt_dec 0 t) as [G|G].
  - unfold rleb at 1 in H. destruct (Rle_dec u 0) as [Q|Q].
    + subst st. split; intros v X; try discriminate X; injection X as <-. apply EA. lra.
    + apply (LA (fadd rnd t u)); [|exact H]. now rewrite !Rabs_pos_eq by lra.
  - destruct (Rlt_dec t 0) as [G'|G'].
    + unfold rleb at 1 in H. destruct (Rle_dec 0 u) as [Q|Q].
      * subst st. split; intros v X; try discriminate X; injection X as <-. apply EA. lra.
      * apply (LA (fsub rnd (- t) u)); [|exact H]. now rewrite !Rabs_left by lra.
    + subst st. split; intros v X; try discriminate X; injection X as <-. apply EA. lra.
Qed.

Lemma final4 k xa Xa pa Ma xb Xb pb Mb xc Xc pc Mc xd Xd pd Md : B k xa Xa pa Ma -> B k xb Xb pb Mb -> B k xc Xc pc Mc -> B k xd Xd pd Md ->
  let det := fadd rnd (fsub rnd xd xc) (fsub rnd xb xa) in let p := fadd rnd (fadd rnd (fadd rnd pa pb) pc) pd in
  Rabs (det - ((Xd - Xc) + (Xb - Xa))) <= eps * Rabs det + ((E k - 1 + eps) * E 3) * p /\ 0 <= p /\ p <= E (3 + k) * (Ma + Mb + Mc + Md) /\ 0 <= Ma + Mb + Mc + Md.
Proof.
  intros Ha Hb Hc Hd det p.
  pose proof (B_m _ _ _ _ _ Ha) as a0. pose proof (B_m _ _ _ _ _ Hb) as b0. pose proof (B_m _ _ _ _ _ Hc) as c0. pose proof (B_m _ _ _ _ _ Hd) as d0.
  pose proof (B_M _ _ _ _ _ Ha) as a1. pose proof (B_M _ _ _ _ _ Hb) as b1. pose proof (B_M _ _ _ _ _ Hc) as c1. pose proof (B_M _ _ _ _ _ Hd) as d1.
  destruct (sum_bounds _ _ _ _ _ _ _ _ _ Hd (B_opp _ _ _ _ _ Hc)) as (X1 & X2 & X3). destruct (sum_bounds _ _ _ _ _ _ _ _ _ Hb (B_opp _ _ _ _ _ Ha)) as (Y1 & Y2 & Y3).
  pose proof (B_add _ _ _ _ _ _ _ _ _ (B_add _ _ _ _ _ _ _ _ _ (B_add _ _ _ _ _ _ _ _ _ Ha Hb) (B_up _ _ _ _ _ _ (Nat.le_succ_diag_r k) Hc)) (B_up _ _ _ _ _ _ (Nat.le_trans _ _ _ (Nat.le_succ_diag_r k) (Nat.le_succ_diag_r (S k))) Hd)) as P.
  fold p in P. pose proof (B_m _ _ _ _ _ P) as p0. destruct P as (_ & _ & P).
  assert (S3 : pa + pb + pc + pd <= E 3 * p).
  { pose proof eps_pos. pose proof (rnd_down (pa + pb) ltac:(lra)) as Q1. fold (fadd rnd pa pb) in Q1. set (q1 := fadd rnd pa pb) in *. assert (q1p : 0 <= q1) by (apply rnd_nonneg; lra).
    pose proof (rnd_down (q1 + pc) ltac:(lra)) as Q2. fold (fadd rnd q1 pc) in Q2. set (q2 := fadd rnd q1 pc) in *. assert (q2p : 0 <= q2) by (apply rnd_nonneg; lra).
    pose proof (rnd_down (q2 + pd) ltac:(lra)) as Q3. fold (fadd rnd q2 pd) in Q3. fold p in Q3.
    unfold E. assert (pa + pb + pc <= (1 + eps) * ((1 + eps) * q2)).
    { assert ((1 + eps) * (q1 + pc) <= (1 + eps) * ((1 + eps) * q2)) by (apply Rmult_le_compat_l; lra). nra. }
    assert ((1 + eps) * ((1 + eps) * (q2 + pd)) <= (1 + eps) * ((1 + eps) * ((1 + eps) * p))) by (apply Rmult_le_compat_l; [lra|]; apply Rmult_le_compat_l; lra).
    assert (pd <= (1 + eps) * ((1 + eps) * pd)) by nra. lra. }
  split; [|split; [exact p0|split; [|lra]]].
  - pose proof (r_rel' _ _ HR (fsub rnd xd xc + fsub rnd xb xa)) as R1. pose proof (r_rel _ _ HR (xd - xc)) as R2. pose proof (r_rel _ _ HR (xb - xa)) as R3.
    fold (fadd rnd (fsub rnd xd xc) (fsub rnd xb xa)) in R1. fold det in R1. fold (fsub rnd xd xc) in R2. fold (fsub rnd xb xa) in R3.
    replace (det - (Xd - Xc + (Xb - Xa))) with ((det - (fsub rnd xd xc + fsub rnd xb xa)) + (((fsub rnd xd xc - (xd - xc)) + (fsub rnd xb xa - (xb - xa))) + ((xd + - xc - (Xd + - Xc)) + (xb + - xa - (Xb + - Xa))))) by ring.
    pose proof eps_pos. pose proof (E_ge1 k).
    assert (eps * Rabs (xd - xc) <= eps * (pd + pc)) by (apply Rmult_le_compat_l; [lra|exact X1]).
    assert (eps * Rabs (xb - xa) <= eps * (pb + pa)) by (apply Rmult_le_compat_l; [lra|exact Y1]).
    assert ((E k - 1 + eps) * (pa + pb + pc + pd) <= (E k - 1 + eps) * (E 3 * p)) by (apply Rmult_le_compat_l; lra).
    eapply Rle_trans; [apply Rabs_triang|]. eapply Rle_trans; [apply Rplus_le_compat_l, Rabs_triang|].
    eapply Rle_trans; [apply Rplus_le_compat_l, Rplus_le_compat_r, Rabs_triang|]. eapply Rle_trans; [apply Rplus_le_compat_l, Rplus_le_compat_l, Rabs_triang|]. lra.
  - exact P.
Qed.
Lemma K_insphere3 : let K := (E 14 - 1 + eps) * E 3 in 0 <= K /\ K <= bound 16 224 /\ (1 + eps) * K < (1 - eps) * bound 16 224.
Proof.
  intros K. pose proof eps_pos. pose proof eps_small. pose proof (E_ge1 14). pose proof (E_ge1 3).
  pose proof (E_bound 14 ltac:(lia)) as B1. pose proof (E_bound 3 ltac:(lia)) as B2. replace (INR 14) with 14 in B1 by (cbn; ring). replace (INR 3) with 3 in B2 by (cbn; ring).
  assert (e2 : 0 < eps * eps <= 1 / 1024 * eps) by nra.
  assert (L1 : E 14 - 1 + eps <= (15 + 1 / 10) * eps) by lra. assert (L2 : E 3 <= 1 + 1 / 300) by lra.
  assert (L : K <= (15 + 1 / 5) * eps). { unfold K. apply Rle_trans with ((15 + 1 / 10) * eps * (1 + 1 / 300)); [apply Rmult_le_compat; lra|lra]. }
  assert (0 <= K) by (apply Rmult_le_pos; lra). split; [easy|]. unfold bound. split; [nra|].
  apply Rle_lt_trans with ((1 + eps) * ((15 + 1 / 5) * eps)); [apply Rmult_le_compat_l; lra|]. nra.
Qed.

Theorem insphere3_stage a b c d e st : insphere3_fp rnd (bound 16 224) a b c d e = st ->
  (forall v, st = Early v -> has_sign v (insphere3 a b c d e)) /\ (forall v, st = Adapt v -> Rabs (insphere3 a b c d e) <= 4 * bound 16 224 * insphere3_size a b c d e).
Proof.
  unfold insphere3_fp, insphere3_size. cbv zeta. intros H. set (l := B_leaf) in *.
  assert (L : forall x, let y i := fsub rnd (x i) (e i) in let v := fadd rnd (fadd rnd (fmul rnd (y 0%nat) (y 0%nat)) (fmul rnd (y 1%nat) (y 1%nat))) (fmul rnd (y 2%nat) (y 2%nat)) in
    B 5 v (norm2 3 x e) v (norm2 3 x e)).
  { intros x y v. eapply B_eq; [refine (B_add _ _ _ _ _ _ _ _ _ (B_add _ _ _ _ _ _ _ _ _ (B_sq _ _ (l (x 0%nat) (e 0%nat))) (B_sq _ _ (l (x 1%nat) (e 1%nat)))) (B_up 3 4 _ _ _ _ ltac:(lia) (B_sq _ _ (l (x 2%nat) (e 2%nat)))))| |reflexivity|]; unfold norm2, sum_loop; cbn; ring. }
  cbv zeta in L.
  assert (M : forall x y, let p i := fsub rnd (x i) (e i) in let q i := fsub rnd (y i) (e i) in
    B 4 (fsub rnd (fmul rnd (p 0%nat) (q 1%nat)) (fmul rnd (q 0%nat) (p 1%nat))) ((x 0%nat - e 0%nat) * (y 1%nat - e 1%nat) - (y 0%nat - e 0%nat) * (x 1%nat - e 1%nat))
      (fadd rnd (Rabs (fmul rnd (p 0%nat) (q 1%nat))) (Rabs (fmul rnd (q 0%nat) (p 1%nat)))) (size2 (x 0%nat - e 0%nat) (x 1%nat - e 1%nat) (y 0%nat - e 0%nat) (y 1%nat - e 1%nat))).
  { intros x y p q. exact (B_minor _ _ _ _ _ _ _ _ (l (x 0%nat) (e 0%nat)) (l (x 1%nat) (e 1%nat)) (l (y 0%nat) (e 0%nat)) (l (y 1%nat) (e 1%nat))). }
  assert (M' : forall x y, let p i := fsub rnd (x i) (e i) in let q i := fsub rnd (y i) (e i) in
    B 4 (fsub rnd (fmul rnd (p 0%nat) (q 1%nat)) (fmul rnd (q 0%nat) (p 1%nat))) ((x 0%nat - e 0%nat) * (y 1%nat - e 1%nat) - (y 0%nat - e 0%nat) * (x 1%nat - e 1%nat))
      (fadd rnd (Rabs (fmul rnd (q 0%nat) (p 1%nat))) (Rabs (fmul rnd (p 0%nat) (q 1%nat)))) (size2 (x 0%nat - e 0%nat) (x 1%nat - e 1%nat) (y 0%nat - e 0%nat) (y 1%nat - e 1%nat))).
  { intros x y p q. eapply B_flip; [apply M|reflexivity]. }
  cbv zeta in M, M'.
  assert (S3 : forall x X m N y Y m' N' z Z m'' N'', B 6 x X m N -> B 6 y Y m' N' -> B 6 z Z m'' N'' ->
    B 8 (fadd rnd (fsub rnd x y) z) (X - Y + Z) (fadd rnd (fadd rnd m m') m'') (N + N' + N'') /\ B 8 (fadd rnd (fadd rnd x y) z) (X + Y + Z) (fadd rnd (fadd rnd m m') m'') (N + N' + N'')).
  { intros. split; apply B_add; [apply B_sub| |apply B_add|]; try easy; apply (B_up 6 7); try easy; lia. }
  set (z := fun x => l (x 2%nat) (e 2%nat)). cbv beta in z.
  pose proof (B_scale _ _ _ _ _ _ _ _ _ _ (L a) (proj1 (S3 _ _ _ _ _ _ _ _ _ _ _ _ (B_scale _ _ _ _ _ _ _ _ _ _ (z b) (M c d)) (B_scale _ _ _ _ _ _ _ _ _ _ (z c) (M' b d)) (B_scale _ _ _ _ _ _ _ _ _ _ (z d) (M b c))))) as Ta.
  pose proof (B_scale _ _ _ _ _ _ _ _ _ _ (L b) (proj2 (S3 _ _ _ _ _ _ _ _ _ _ _ _ (B_scale _ _ _ _ _ _ _ _ _ _ (z c) (M d a)) (B_scale _ _ _ _ _ _ _ _ _ _ (z d) (M a c)) (B_scale _ _ _ _ _ _ _ _ _ _ (z a) (M c d))))) as Tb.
  pose proof (B_scale _ _ _ _ _ _ _ _ _ _ (L c) (proj2 (S3 _ _ _ _ _ _ _ _ _ _ _ _ (B_scale _ _ _ _ _ _ _ _ _ _ (z d) (M a b)) (B_scale _ _ _ _ _ _ _ _ _ _ (z a) (M b d)) (B_scale _ _ _ _ _ _ _ _ _ _ (z b) (M d a))))) as Tc.
  pose proof (B_scale _ _ _ _ _ _ _ _ _ _ (L d) (proj1 (S3 _ _ _ _ _ _ _ _ _ _ _ _ (B_scale _ _ _ _ _ _ _ _ _ _ (z a) (M b c)) (B_scale _ _ _ _ _ _ _ _ _ _ (z b) (M' a c)) (B_scale _ _ _ _ _ _ _ _ _ _ (z c) (M a b))))) as Td.
  destruct (final4 _ _ _ _ _ _ _ _ _ _ _ _ _ _ _ _ _ Ta Tb Tc Td) as (F1 & F2 & F3 & F4). clear S3 z L M M' l Ta Tb Tc Td.
  match type of F1 with Rabs (_ - ?X) <= _ => replace X with (insphere3 a b c d e) in F1 end.
  2:{ unfold insphere3, norm2, sum_loop. cbn [fold_left seq]. ring. }
  destruct K_insphere3 as (K1 & K2 & K3). pose proof (bound_pos 16 224 ltac:(lra) ltac:(lra)) as HA.
  split; intros v ->.
  - exact (last_early _ _ _ _ _ _ F2 K1 HA F1 K3 H).
  - destruct (last_adapt _ _ _ _ _ _ F2 HA F1 K2 H) as [-> Q]. eapply Rle_trans; [exact Q|].
    eapply Rle_trans; [apply (two_thirds _ _ _ 17 ltac:(lia) HA F3 F4)|]. apply Req_le. unfold orient3_size, size3, size2. 
    repeat match goal with |- context [Rabs (?x * ?y)] => rewrite (Rabs_mult x y) end. ring.
Qed.
End P.
