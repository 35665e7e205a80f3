(** The constants, and underflow. *)
From Verif Require Import Outcome GeoModel PredModel PredSpec PredProofs FloatProofs.
From Coq Require Import ZArith Lia Psatz.
Local Open Scope R_scope.

(** ** The static constructor *)
Lemma init_loop_more rnd n : forall m e s c b v, init_loop rnd n e s c b = Val v -> (n <= m)%nat -> init_loop rnd m e s c b = Val v.
Proof.
  induction n as [|n IH]; intros [|m] e s c b v H L; try discriminate; [lia|]. cbn [init_loop] in H |- *. cbv zeta in H |- *.
  destruct (_ || _); [exact H|]. apply IH; [exact H|lia].
Qed.
Lemma exact_init_more rnd n m k : exact_init rnd n = Val k -> (n <= m)%nat -> exact_init rnd m = Val k.
Proof.
  unfold exact_init. intros H L. destruct (init_loop rnd n 1 1 1 true) as [v| |] eqn:E; try discriminate. now rewrite (init_loop_more _ _ _ _ _ _ _ _ E L).
Qed.
Section Init.
Variable p : Z.
Variable lo : option Z.
Hypothesis Hp : (10 <= p)%Z.
Hypothesis Hlo : match lo with Some l => (l <= 3 - 2 * p)%Z | None => True end.
Notation rd := (fround p lo).

Lemma exact_at n k x : x = IZR n * pw k -> (Z.abs n < 2 ^ p)%Z -> (3 - 2 * p <= k)%Z -> rd x = x.
Proof. intros -> H1 H2. apply fround_exact; [easy|]. destruct lo; lia. Qed.
Lemma pw0 : pw 0 = 1. Proof. reflexivity. Qed.
Lemma pw1 : pw 1 = 2. Proof. exact (powerRZ_1 2). Qed.
Lemma pwm1 : pw (-1)%Z = 1 / 2. Proof. change (-1)%Z with (- (1))%Z. rewrite powerRZ_neg', pw1. lra. Qed.
Lemma exact_pw k : (3 - 2 * p <= k)%Z -> rd (pw k) = pw k.
Proof. intros H. apply (exact_at 1 k); [ring| |easy]. change (Z.abs 1) with (2 ^ 0)%Z. apply Z.pow_lt_mono_r; lia. Qed.
(** The sum 1 + 2^-i. *)
Lemma check_at i : (1 <= i < p)%Z -> fadd rd 1 (pw (- i)) = 1 + pw (- i).
Proof.
  intros H. unfold fadd. apply (exact_at (2 ^ i + 1) (- i)); [| |lia].
  - rewrite plus_IZR, <- pw_nat by lia. rewrite Rmult_plus_distr_r, <- pw_add. replace (i + - i)%Z with 0%Z by lia. rewrite pw0. ring.
  - assert (2 ^ i <= 2 ^ (p - 1))%Z by (apply Z.pow_le_mono_r; lia). assert (2 ^ p = 2 * 2 ^ (p - 1))%Z by (rewrite <- Z.pow_succ_r by lia; f_equal; lia).
    assert (2 ^ 1 < 2 ^ (p - 1))%Z by (apply Z.pow_lt_mono_r; lia). pose proof (Z.pow_pos_nonneg 2 i). lia.
Qed.
Lemma check_last : fadd rd 1 (pw (- p)) = 1.
Proof.
  unfold fadd. set (x := 1 + pw (- p)). assert (P := pw_pos (- p)). assert (Q : pw (- p) <= pw (-1)%Z) by (apply pw_le; lia). rewrite pwm1 in Q.
  assert (Ee : expo x = 0%Z). { apply expo_unique. change (0 + 1)%Z with 1%Z. rewrite pw0, pw1. unfold x. rewrite Rabs_pos_eq by lra. lra. }
  rewrite fround_pos by (unfold x; lra). assert (Eu : ue p lo x = (1 - p)%Z) by (unfold ue; rewrite Ee; destruct lo; lia). rewrite Eu.
  assert (Ex : x / pw (1 - p) = IZR (2 ^ (p - 1)) + 1 / 2).
  { rewrite <- pw_nat by lia. pose proof (pw_pos (1 - p)). apply Rmult_eq_reg_r with (pw (1 - p)); [|lra]. replace (x / pw (1 - p) * pw (1 - p)) with x by (field; lra).
    rewrite Rmult_plus_distr_r, <- pw_add. replace (p - 1 + (1 - p))%Z with 0%Z by lia. rewrite pw0. unfold x. replace (1 - p)%Z with (- p + 1)%Z by lia. rewrite pw_half. lra. }
  rewrite Ex. assert (Ei : Int_part (IZR (2 ^ (p - 1)) + 1 / 2) = (2 ^ (p - 1))%Z).
  { set (y := IZR _ + 1 / 2). destruct (base_Int_part y) as [H1 H2]. assert (Int_part y < 2 ^ (p - 1) + 1)%Z by (apply lt_IZR; rewrite plus_IZR; unfold y in *; lra).
    assert (2 ^ (p - 1) < Int_part y + 1)%Z by (apply lt_IZR; rewrite plus_IZR; unfold y in *; lra). lia. }
  unfold nearest. rewrite Ei. replace (IZR (2 ^ (p - 1)) + 1 / 2 - IZR (2 ^ (p - 1))) with (1 / 2) by ring. unfold rltb. destruct (Rlt_dec (1 / 2) (1 / 2)); [lra|].
  assert (Ev : Z.even (2 ^ (p - 1)) = true) by (rewrite Z.even_pow by lia; reflexivity). rewrite Ev. rewrite <- pw_nat by lia. rewrite <- pw_add. now replace (p - 1 + (1 - p))%Z with 0%Z by lia.
Qed.
Lemma init_loop_runs m : forall i fuel check, (0 <= i)%Z -> (i + Z.of_nat m = p - 1)%Z -> (m < fuel)%nat ->
  check = (if (i =? 0)%Z then 1 else 1 + pw (- i)) ->
  init_loop rd fuel (pw (- i)) (pw ((i + 1) / 2)) check (Z.even i) = Val (pw (- p), pw ((p + 1) / 2) + 1).
Proof.
  induction m as [|m IH]; intros i fuel check Hi Hm Hf Hc; (destruct fuel as [|fuel]; [lia|]); cbn [init_loop].
  all: assert (Ee : fmul rd (pw (- i)) (1 / 2) = pw (- (i + 1))) by (unfold fmul; rewrite <- pwm1, <- pw_add; replace (- i + -1)%Z with (- (i + 1))%Z by lia; apply exact_pw; lia).
  all: assert (Es : (if Z.even i then fmul rd (pw ((i + 1) / 2)) 2 else pw ((i + 1) / 2)) = pw ((i + 1 + 1) / 2)).
  1,3: pose proof (Zdiv.Zmod_even i) as Q; pose proof (Z.div_mod i 2); destruct (Z.even i);
    [unfold fmul; rewrite (Rmult_comm _ 2), <- pw_half; replace ((i + 1 + 1) / 2)%Z with ((i + 1) / 2 + 1)%Z by (Z.div_mod_to_equations; lia); apply exact_pw; Z.div_mod_to_equations; lia
    |f_equal; Z.div_mod_to_equations; lia].
  all: rewrite Ee, Es.
  - replace (i + 1)%Z with p by lia. rewrite check_last. unfold reqb. destruct (Req_EM_T 1 1); [|lra]. cbn [orb]. repeat f_equal.
    unfold fadd. apply (exact_at (2 ^ ((p + 1) / 2) + 1) 0); [| |lia].
    + rewrite plus_IZR, <- pw_nat by (apply Z.div_pos; lia). rewrite pw0. ring.
    + assert (2 ^ ((p + 1) / 2) <= 2 ^ (p - 1))%Z by (apply Z.pow_le_mono_r; Z.div_mod_to_equations; lia). assert (2 ^ p = 2 * 2 ^ (p - 1))%Z by (rewrite <- Z.pow_succ_r by lia; f_equal; lia).
      assert (2 ^ 1 < 2 ^ (p - 1))%Z by (apply Z.pow_lt_mono_r; lia). pose proof (Z.pow_nonneg 2 ((p + 1) / 2)). lia.
  - rewrite check_at by lia. pose proof (pw_pos (- (i + 1))) as P. unfold reqb. destruct (Req_EM_T _ 1); [lra|]. cbn [orb].
    destruct (Req_EM_T _ check) as [Q|_].
    { subst check. destruct (Z.eqb_spec i 0) as [->|]; [lra|]. replace (- i)%Z with (- (i + 1) + 1)%Z in Q by lia. rewrite pw_half in Q. lra. }
    replace (negb (Z.even i)) with (Z.even (i + 1)) by (rewrite Z.even_add; now destruct (Z.even i)).
    apply IH; [lia|lia|lia|]. destruct (Z.eqb_spec (i + 1) 0); [lia|easy].
Qed.
Lemma err_bound_exact m n k c : (0 <= k)%Z -> (k <= 5)%Z -> (3 <= k)%Z -> (0 <= m < 32)%Z -> (n = c * 2 ^ k)%Z -> (0 <= c <= 7)%Z -> (exists h, m * 2 ^ (10 - k) = h /\ h <= 1024 - 8)%Z ->
  err_bound rd (IZR m) (IZR n) (pw (- p)) = (IZR m + IZR n * pw (- p)) * pw (- p).
Proof.
  intros Hk Hk' Hk3 Hm En Hc (h & Eh & Hh).
  assert (Mp : (m * 2 ^ (p - k) = h * 2 ^ (p - 10))%Z). { rewrite <- Eh, <- Z.mul_assoc, <- Z.pow_add_r by lia. do 2 f_equal. lia. }
  assert (P10 : (2 ^ p = 1024 * 2 ^ (p - 10))%Z). { change 1024%Z with (2 ^ 10)%Z. rewrite <- Z.pow_add_r by lia. f_equal. lia. }
  pose proof (Z.pow_pos_nonneg 2 (p - 10) ltac:(lia) ltac:(lia)) as PP.
  assert (E1 : IZR n * pw (- p) = IZR c * pw (k - p)). { rewrite En, mult_IZR, <- pw_nat by easy. rewrite Rmult_assoc, <- pw_add. reflexivity. }
  assert (E2 : IZR m + IZR n * pw (- p) = IZR (m * 2 ^ (p - k) + c) * pw (k - p)).
  { rewrite E1, plus_IZR, mult_IZR, <- pw_nat by lia. rewrite Rmult_plus_distr_r, Rmult_assoc, <- pw_add. replace (p - k + (k - p))%Z with 0%Z by lia. rewrite pw0. ring. }
  assert (L1 : (Z.abs (m * 2 ^ (p - k) + c) < 2 ^ p)%Z). { rewrite Mp, P10. assert (0 <= h)%Z by (rewrite <- Eh; apply Z.mul_nonneg_nonneg; [lia|apply Z.pow_nonneg; lia]). rewrite Z.abs_eq; nia. }
  unfold err_bound, fmul, fadd. rewrite (exact_at c (k - p) _ E1) by (try lia; rewrite P10; rewrite Z.abs_eq by lia; nia).
  rewrite (exact_at _ _ _ E2 L1) by lia. rewrite E2. rewrite Rmult_assoc, <- pw_add.
  apply (exact_at (m * 2 ^ (p - k) + c) (k - p + - p)); [easy|easy|lia].
Qed.
Theorem init_consts_at : exact_init rd (Z.to_nat p) = Val (mkconsts (pw (- p)) (pw ((p + 1) / 2) + 1)
  (bound (pw (- p)) 3 16) (bound (pw (- p)) 7 56) (bound (pw (- p)) 10 96) (bound (pw (- p)) 16 224)).
Proof.
  unfold exact_init.
  assert (Q := init_loop_runs (Z.to_nat (p - 1)) 0 (Z.to_nat p) 1 ltac:(lia) ltac:(lia) ltac:(lia) eq_refl).
  change (pw (- 0)%Z) with 1 in Q. change ((0 + 1) / 2)%Z with 0%Z in Q. rewrite pw0 in Q. change (Z.even 0) with true in Q. rewrite Q. cbn [rbind].
  unfold bound. f_equal. f_equal.
  - apply (err_bound_exact 3 16 4 1); try lia. eexists; split; [reflexivity|]. now vm_compute.
  - apply (err_bound_exact 7 56 3 7); try lia. eexists; split; [reflexivity|]. now vm_compute.
  - apply (err_bound_exact 10 96 5 3); try lia. eexists; split; [reflexivity|]. now vm_compute.
  - apply (err_bound_exact 16 224 5 7); try lia. eexists; split; [reflexivity|]. now vm_compute.
Qed.
Theorem init_consts : returns (exact_init rd) (mkconsts (pw (- p)) (pw ((p + 1) / 2) + 1)
  (bound (pw (- p)) 3 16) (bound (pw (- p)) 7 56) (bound (pw (- p)) 10 96) (bound (pw (- p)) 16 224)).
Proof.
  exists (Z.to_nat p). intros f Hf. exact (exact_init_more _ _ _ _ init_consts_at Hf).
Qed.
End Init.

(** ** Underflow *)
Lemma mult_low i j x : (i <= j)%Z -> mult j x -> mult i x.
Proof. intros H (n & ->). exists (n * 2 ^ (j - i))%Z. rewrite mult_IZR, <- pw_nat by lia. rewrite Rmult_assoc, <- pw_add. repeat f_equal. lia. Qed.
Lemma mult_add j x y : mult j x -> mult j y -> mult j (x + y).
Proof. intros (n & ->) (m & ->). exists (n + m)%Z. rewrite plus_IZR. ring. Qed.
Lemma mult_opp j x : mult j x -> mult j (- x).
Proof. intros (n & ->). exists (- n)%Z. rewrite opp_IZR. ring. Qed.
Lemma mult_sub j x y : mult j x -> mult j y -> mult j (x - y).
Proof. intros. apply mult_add; [easy|now apply mult_opp]. Qed.
Lemma mult_mul i j x y : mult i x -> mult j y -> mult (i + j) (x * y).
Proof. intros (n & ->) (m & ->). exists (n * m)%Z. rewrite mult_IZR, pw_add. ring. Qed.
Lemma mult_abs j x : mult j x -> mult j (Rabs x).
Proof. intros H. unfold Rabs. destruct (Rcase_abs x); [now apply mult_opp|easy]. Qed.
Lemma nearest_of n : nearest (IZR n) = n. Proof. apply nearest_Z. Qed.

Section Under.
Variable p l : Z.
Notation r1 := (fround p (Some l)).
Notation r0 := (fround p None).
Lemma round_mult_pos x j : 0 < x -> mult j x -> mult j (r0 x) /\ ((l <= j)%Z -> r1 x = r0 x).
Proof.
  intros H (n & E). assert (Ex : forall e, (e <= j)%Z -> IZR (nearest (x / pw e)) * pw e = x).
  { intros e He. pose proof (pw_pos e). assert (Q : x / pw e = IZR (n * 2 ^ (j - e))).
    { rewrite mult_IZR, <- pw_nat by lia. rewrite E. replace j with (e + (j - e))%Z at 1 by lia. rewrite pw_add. field. lra. }
    rewrite Q, nearest_Z, <- Q. field. lra. }
  rewrite !fround_pos by easy. unfold ue. set (e := (expo x - p + 1)%Z). destruct (Z_le_gt_dec e j) as [L|L].
  - rewrite (Ex e L). split; [now exists n|]. intros Hl. apply Ex. lia.
  - split; [apply (mult_low _ e); [lia|now eexists]|]. intros Hl. now rewrite Z.max_r by lia.
Qed.
Lemma round_mult x j : mult j x -> mult j (r0 x) /\ ((l <= j)%Z -> r1 x = r0 x).
Proof.
  intros H. destruct (Rtotal_order x 0) as [L|[->|L]].
  - replace x with (- (- x)) by ring. rewrite !(fround_opp p _ (- x)). destruct (round_mult_pos (- x) j ltac:(lra) (mult_opp _ _ H)) as [Q1 Q2].
    split; [now apply mult_opp|]. intros Hl. now rewrite Q2.
  - rewrite !fround_0. split; [exists 0%Z; ring|easy].
  - now apply round_mult_pos.
Qed.
(** The two computations agree. *)
Definition G (j : Z) (x y : R) : Prop := x = y /\ mult j y.
Variable g : Z.
Definition GD (d : nat) (x y : R) : Prop := (l <= Z.of_nat d * g)%Z -> G (Z.of_nat d * g) x y.
Lemma GD_leaf a b : mult g a -> mult g b -> GD 1 (fsub r1 a b) (fsub r0 a b).
Proof.
  intros H1 H2 Hl. replace (Z.of_nat 1 * g)%Z with g in * by lia. destruct (round_mult _ g (mult_sub _ _ _ H1 H2)) as [Q1 Q2]. split; [now apply Q2|easy].
Qed.
Hypothesis g_neg : (g <= 0)%Z.
Lemma GD_mul i j x y x' y' : GD i x x' -> GD j y y' -> GD (i + j) (fmul r1 x y) (fmul r0 x' y').
Proof.
  intros H1 H2 Hl. destruct (H1 ltac:(nia)) as [-> M1]. destruct (H2 ltac:(nia)) as [-> M2].
  replace (Z.of_nat (i + j) * g)%Z with (Z.of_nat i * g + Z.of_nat j * g)%Z in * by lia. destruct (round_mult _ _ (mult_mul _ _ _ _ M1 M2)) as [Q1 Q2]. split; [now apply Q2|easy].
Qed.
Lemma GD_add d x y x' y' : GD d x x' -> GD d y y' -> GD d (fadd r1 x y) (fadd r0 x' y').
Proof. intros H1 H2 Hl. destruct (H1 Hl) as [-> M1]. destruct (H2 Hl) as [-> M2]. destruct (round_mult _ _ (mult_add _ _ _ M1 M2)) as [Q1 Q2]. split; [now apply Q2|easy]. Qed.
Lemma GD_sub d x y x' y' : GD d x x' -> GD d y y' -> GD d (fsub r1 x y) (fsub r0 x' y').
Proof. intros H1 H2 Hl. destruct (H1 Hl) as [-> M1]. destruct (H2 Hl) as [-> M2]. destruct (round_mult _ _ (mult_sub _ _ _ M1 M2)) as [Q1 Q2]. split; [now apply Q2|easy]. Qed.
Lemma GD_abs d x x' : GD d x x' -> GD d (Rabs x) (Rabs x').
Proof. intros H1 Hl. destruct (H1 Hl) as [-> M1]. split; [easy|now apply mult_abs]. Qed.
Lemma GD_opp d x x' : GD d x x' -> GD d (- x) (- x').
Proof. intros H1 Hl. destruct (H1 Hl) as [-> M1]. split; [easy|now apply mult_opp]. Qed.
Lemma GD_last A k d det det' q q' : mult k A -> (l <= Z.of_nat d * g)%Z -> (l <= k + Z.of_nat d * g)%Z -> GD d det det' -> GD d q q' -> last_test r1 A det q = last_test r0 A det' q'.
Proof.
  intros HA H0 Hl H1 H2. destruct (H1 H0) as [-> _]. destruct (H2 H0) as [-> M2]. unfold last_test, fmul.
  destruct (round_mult _ _ (mult_mul _ _ _ _ HA M2)) as [_ Q]. now rewrite (Q Hl).
Qed.
Variable A : R.
Variable k : Z.
Hypothesis HA : mult k A.
Notation grid := (PredSpec.grid g).
Ltac gd' := match goal with
  | |- GD _ (Rabs _) _ => apply GD_abs; gd'
  | |- GD _ (- _) _ => apply GD_opp; gd'
  | |- GD _ (fadd _ _ _) _ => eapply GD_add; [gd'|gd']
  | |- GD _ (fmul _ _ _) _ => eapply GD_mul; [gd'|gd']
  | |- GD _ (fsub _ (_ _) (_ _)) _ => eapply GD_leaf; match goal with H : grid _ ?x |- mult _ (?x _) => apply H; lia end
  | |- GD _ (fsub _ _ _) _ => eapply GD_sub; [gd'|gd']
  end.
Lemma orient3_agree a b c d : grid 3 a -> grid 3 b -> grid 3 c -> grid 3 d -> (l <= 3 * g)%Z -> (l <= k + 3 * g)%Z -> orient3_fp r1 A a b c d = orient3_fp r0 A a b c d.
Proof.
  intros. unfold orient3_fp. cbv zeta. eapply (GD_last A k 3); try easy; [change 3%nat with (1 + (1 + 1))%nat; gd'|change 3%nat with ((1 + 1) + 1)%nat; gd'].
Qed.
Lemma insphere2_agree a b c d : grid 2 a -> grid 2 b -> grid 2 c -> grid 2 d -> (l <= 4 * g)%Z -> (l <= k + 4 * g)%Z -> insphere2_fp r1 A a b c d = insphere2_fp r0 A a b c d.
Proof.
  intros. unfold insphere2_fp. cbv zeta. eapply (GD_last A k 4); try easy; change 4%nat with ((1 + 1) + (1 + 1))%nat; gd'.
Qed.
Lemma insphere3_agree a b c d e : grid 3 a -> grid 3 b -> grid 3 c -> grid 3 d -> grid 3 e -> (l <= 5 * g)%Z -> (l <= k + 5 * g)%Z -> insphere3_fp r1 A a b c d e = insphere3_fp r0 A a b c d e.
Proof.
  intros. unfold insphere3_fp. cbv zeta. eapply (GD_last A k 5); try easy; [change 5%nat with ((1 + 1) + (1 + (1 + 1)))%nat; gd'|change 5%nat with (((1 + 1) + 1) + (1 + 1))%nat; gd'].
Qed.
Lemma orient2_agree a b c : grid 2 a -> grid 2 b -> grid 2 c -> (l <= 2 * g)%Z -> (l <= k + 2 * g)%Z -> orient2_fp r1 A a b c = orient2_fp r0 A a b c.
Proof.
  intros Ha Hb Hc H1 H2. unfold orient2_fp. cbv zeta.
  assert (T1 : GD 2 (fmul r1 (fsub r1 (a 0%nat) (c 0%nat)) (fsub r1 (b 1%nat) (c 1%nat))) (fmul r0 (fsub r0 (a 0%nat) (c 0%nat)) (fsub r0 (b 1%nat) (c 1%nat)))) by (change 2%nat with (1 + 1)%nat; gd').
  assert (T2 : GD 2 (fmul r1 (fsub r1 (a 1%nat) (c 1%nat)) (fsub r1 (b 0%nat) (c 0%nat))) (fmul r0 (fsub r0 (a 1%nat) (c 1%nat)) (fsub r0 (b 0%nat) (c 0%nat)))) by (change 2%nat with (1 + 1)%nat; gd').
  destruct (T1 H1) as [-> M1]. destruct (T2 H1) as [-> M2]. clear T1 T2. generalize dependent (fmul r0 (fsub r0 (a 1%nat) (c 1%nat)) (fsub r0 (b 0%nat) (c 0%nat))). intros u M2.
  generalize dependent (fmul r0 (fsub r0 (a 0%nat) (c 0%nat)) (fsub r0 (b 1%nat) (c 1%nat))). intros t M1.
  assert (S1 : fsub r1 t u = fsub r0 t u) by (apply (round_mult _ _ (mult_sub _ _ _ M1 M2)); easy).
  assert (S2 : fadd r1 t u = fadd r0 t u) by (apply (round_mult _ _ (mult_add _ _ _ M1 M2)); easy).
  assert (S3 : fsub r1 (- t) u = fsub r0 (- t) u) by (apply (round_mult _ _ (mult_sub _ _ _ (mult_opp _ _ M1) M2)); easy).
  assert (S4 : fmul r1 A (fadd r0 t u) = fmul r0 A (fadd r0 t u)).
  { apply (round_mult _ (k + Z.of_nat 2 * g)); [|easy]. apply mult_mul; [easy|]. apply (round_mult _ _ (mult_add _ _ _ M1 M2)). }
  assert (S5 : fmul r1 A (fsub r0 (- t) u) = fmul r0 A (fsub r0 (- t) u)).
  { apply (round_mult _ (k + Z.of_nat 2 * g)); [|easy]. apply mult_mul; [easy|]. apply (round_mult _ _ (mult_sub _ _ _ (mult_opp _ _ M1) M2)). }
  now rewrite S1, S2, S3, S4, S5.
Qed.
End Under.
