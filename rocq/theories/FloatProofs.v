(** Rounding to nearest. *)
From Verif Require Import Outcome GeoModel PredModel PredSpec PredProofs.
From Coq Require Import ZArith Lia Psatz.
Local Open Scope R_scope.

Notation pw := (powerRZ 2).
Lemma pw_pos e : 0 < pw e. Proof. apply powerRZ_lt. lra. Qed.
Lemma pw_add a b : pw (a + b) = pw a * pw b. Proof. apply powerRZ_add. lra. Qed.
Lemma pw_nat n : (0 <= n)%Z -> pw n = IZR (2 ^ n).
Proof.
  intros H. rewrite <- (Z2Nat.id n H). generalize (Z.to_nat n). intros m. rewrite <- pow_powerRZ. apply pow_IZR.
Qed.
Lemma pw_le a b : (a <= b)%Z -> pw a <= pw b.
Proof.
  intros H. replace b with (a + (b - a))%Z by lia. rewrite pw_add. rewrite (pw_nat (b - a)) by lia.
  assert (1 <= IZR (2 ^ (b - a))). { apply IZR_le. pose proof (Z.pow_pos_nonneg 2 (b - a)). lia. }
  pose proof (pw_pos a). nra.
Qed.
Lemma pw_lt_inv a b : pw a < pw b -> (a < b)%Z.
Proof. intros H. destruct (Z_lt_le_dec a b) as [|L]; [easy|]. pose proof (pw_le _ _ L). lra. Qed.
Lemma pw_half e : pw (e + 1) = 2 * pw e.
Proof. rewrite pw_add. assert (H : pw 1 = 2) by exact (powerRZ_1 2). rewrite H. ring. Qed.

Lemma pw_m10 : pw (-10)%Z = 1 / 1024.
Proof. change (-10)%Z with (- (10))%Z. rewrite powerRZ_neg', pw_nat by lia. change (2 ^ 10)%Z with 1024%Z. lra. Qed.

(** ** The nearest integer *)
Lemma nearest_near y : Rabs (IZR (nearest y) - y) <= 1 / 2.
Proof.
  unfold nearest, rltb. destruct (base_Int_part y) as [H1 H2]. apply Rabs_le.
  repeat (destruct (Rlt_dec _ _) || destruct (Z.even _)); rewrite ?plus_IZR; lra.
Qed.
Lemma Int_part_le y z : y <= z -> (Int_part y <= Int_part z)%Z.
Proof.
  intros H. destruct (base_Int_part y) as [H1 H2], (base_Int_part z) as [H3 H4]. apply Z.lt_succ_r. apply lt_IZR. rewrite succ_IZR. lra.
Qed.
Lemma nearest_range y : (Int_part y <= nearest y <= Int_part y + 1)%Z.
Proof. unfold nearest, rltb. repeat (destruct (Rlt_dec _ _) || destruct (Z.even _)); lia. Qed.
Lemma nearest_mono y z : y <= z -> (nearest y <= nearest z)%Z.
Proof.
  intros H. pose proof (Int_part_le _ _ H) as HI. pose proof (nearest_range y). pose proof (nearest_range z).
  destruct (Z.eq_dec (Int_part y) (Int_part z)) as [E|E]; [|lia].
  unfold nearest, rltb. rewrite E. repeat (destruct (Rlt_dec _ _) || destruct (Z.even _)); try lia; lra.
Qed.
Lemma Int_part_Z n : Int_part (IZR n) = n.
Proof.
  destruct (base_Int_part (IZR n)) as [H1 H2]. apply Z.le_antisymm; [now apply le_IZR|]. apply Z.lt_succ_r. apply lt_IZR. rewrite succ_IZR. lra.
Qed.
Lemma nearest_Z n : nearest (IZR n) = n.
Proof. unfold nearest, rltb. rewrite Int_part_Z. repeat (destruct (Rlt_dec _ _) || destruct (Z.even _)); lra || lia. Qed.

(** ** The exponent *)
Lemma ln2_pos : 0 < ln 2. Proof. rewrite <- ln_1. apply ln_increasing; lra. Qed.
Lemma pw_exp e : pw e = exp (IZR e * ln 2).
Proof. rewrite powerRZ_Rpower by lra. reflexivity. Qed.
Lemma expo_spec x : x <> 0 -> pw (expo x) <= Rabs x < pw (expo x + 1).
Proof.
  intros H. assert (P : 0 < Rabs x) by (now apply Rabs_pos_lt). unfold expo. set (t := ln (Rabs x) / ln 2).
  pose proof ln2_pos. assert (Et : Rabs x = exp (t * ln 2)). { unfold t. replace (ln (Rabs x) / ln 2 * ln 2) with (ln (Rabs x)) by (field; lra). now rewrite exp_ln. }
  destruct (base_Int_part t) as [H1 H2]. rewrite !pw_exp, Et, plus_IZR. split.
  - destruct (Rle_lt_or_eq_dec _ _ H1) as [L|L].
    + left. apply exp_increasing. apply Rmult_lt_compat_r; lra.
    + right. now rewrite L.
  - apply exp_increasing. apply Rmult_lt_compat_r; lra.
Qed.
Lemma expo_unique x e : pw e <= Rabs x < pw (e + 1) -> expo x = e.
Proof.
  intros [H1 H2]. assert (x <> 0). { intros ->. rewrite Rabs_R0 in H1. pose proof (pw_pos e). lra. }
  destruct (expo_spec x H) as [H3 H4]. assert (e < expo x + 1)%Z by (apply pw_lt_inv; lra). assert (expo x < e + 1)%Z by (apply pw_lt_inv; lra). lia.
Qed.
Lemma expo_mono x y : 0 < x -> x <= y -> (expo x <= expo y)%Z.
Proof.
  intros H L. destruct (expo_spec x ltac:(lra)) as [H1 _]. destruct (expo_spec y ltac:(lra)) as [_ H2]. rewrite Rabs_pos_eq in H1, H2 by lra.
  assert (expo x < expo y + 1)%Z by (apply pw_lt_inv; lra). lia.
Qed.
Lemma expo_opp x : expo (- x) = expo x. Proof. unfold expo. now rewrite Rabs_Ropp. Qed.

(** ** fround *)
Definition ue (p : Z) (lo : option Z) (x : R) : Z := let e := (expo x - p + 1)%Z in match lo with None => e | Some l => Z.max l e end.
Lemma fround_pos p lo x : 0 < x -> fround p lo x = IZR (nearest (x / pw (ue p lo x))) * pw (ue p lo x).
Proof.
  intros H. unfold fround, reqb, rltb. destruct (Req_EM_T x 0); [lra|]. destruct (Rlt_dec x 0); [lra|]. cbv zeta. fold (ue p lo x). rewrite Rabs_pos_eq by lra. apply Rmult_1_l.
Qed.
Lemma fround_0 p lo : fround p lo 0 = 0.
Proof. unfold fround, reqb. destruct (Req_EM_T 0 0); [easy|lra]. Qed.
Lemma fround_opp p lo x : fround p lo (- x) = - fround p lo x.
Proof.
  destruct (Req_dec x 0) as [->|H]; [rewrite Ropp_0, fround_0; ring|].
  unfold fround, reqb, rltb. rewrite expo_opp, Rabs_Ropp. destruct (Req_EM_T (- x) 0); [lra|]. destruct (Req_EM_T x 0); [easy|].
  destruct (Rlt_dec (- x) 0), (Rlt_dec x 0); try lra; cbv zeta; ring.
Qed.
(** Numbers of the format are not changed. *)
Lemma fround_exact_pos p lo n k : (0 < n < 2 ^ p)%Z -> match lo with Some l => (l <= k)%Z | None => True end -> fround p lo (IZR n * pw k) = IZR n * pw k.
Proof.
  intros Hn Hl. set (x := IZR n * pw k). pose proof (pw_pos k). assert (n0 : 1 <= IZR n) by (apply IZR_le; lia). assert (x0 : 0 < x) by (unfold x; nra).
  assert (Hp : (0 <= p)%Z). { destruct (Z_lt_le_dec p 0); [|easy]. rewrite Z.pow_neg_r in Hn by easy. lia. }
  rewrite fround_pos by easy. set (e := ue p lo x).
  assert (He : (e <= k)%Z).
  { assert (expo x < p + k)%Z.
    { apply pw_lt_inv. destruct (expo_spec x ltac:(lra)) as [Q _]. rewrite Rabs_pos_eq in Q by lra. eapply Rle_lt_trans; [exact Q|].
      rewrite pw_add, (pw_nat p) by easy. unfold x. apply Rmult_lt_compat_r; [easy|]. apply IZR_lt. lia. }
    unfold e, ue. destruct lo; lia. }
  assert (Ex : x / pw e = IZR (n * 2 ^ (k - e))).
  { rewrite mult_IZR, <- pw_nat by lia. unfold x. replace k with (e + (k - e))%Z at 1 by lia. rewrite pw_add. pose proof (pw_pos e). field. lra. }
  rewrite Ex, nearest_Z, <- Ex. pose proof (pw_pos e). field. lra.
Qed.
Lemma fround_exact p lo n k : (Z.abs n < 2 ^ p)%Z -> match lo with Some l => (l <= k)%Z | None => True end -> fround p lo (IZR n * pw k) = IZR n * pw k.
Proof.
  intros Hn Hl. destruct (Z.lt_trichotomy n 0) as [L|[->|L]].
  - replace (IZR n * pw k) with (- (IZR (- n) * pw k)) by (rewrite opp_IZR; ring). rewrite fround_opp, fround_exact_pos; [easy|lia|easy].
  - rewrite Rmult_0_l. apply fround_0.
  - apply fround_exact_pos; [lia|easy].
Qed.

Section None_.
Variable p : Z.
Hypothesis Hp : (10 <= p)%Z.
Notation rd := (fround p None).
(** The number in front of the exponent. *)
Lemma mant x : 0 < x -> pw (p - 1) <= x / pw (ue p None x) <= pw p.
Proof.
  intros H. destruct (expo_spec x ltac:(lra)) as [Q1 Q2]. rewrite Rabs_pos_eq in Q1, Q2 by lra. unfold ue. cbv zeta. set (e := (expo x - p + 1)%Z).
  replace (expo x) with ((p - 1) + e)%Z in Q1 by (unfold e; lia). replace (expo x + 1)%Z with (p + e)%Z in Q2 by (unfold e; lia). rewrite pw_add in Q1, Q2. pose proof (pw_pos e).
  split; (apply Rmult_le_reg_r with (pw e); [easy|]); replace (x / pw e * pw e) with x by (field; lra); lra.
Qed.
Lemma round_range x : 0 < x -> pw (expo x) <= rd x <= pw (expo x + 1).
Proof.
  intros H. rewrite fround_pos by easy. destruct (mant x H) as [M1 M2]. rewrite (pw_nat (p - 1)) in M1 by lia. rewrite (pw_nat p) in M2 by lia.
  apply nearest_mono in M1, M2. rewrite nearest_Z in M1, M2. apply IZR_le in M1, M2. rewrite <- pw_nat in M1, M2 by lia.
  set (e := ue p None x) in *. pose proof (pw_pos e). replace (expo x) with ((p - 1) + e)%Z by (unfold e, ue; lia). replace (p - 1 + e + 1)%Z with (p + e)%Z by lia. rewrite !pw_add.
  split; apply Rmult_le_compat_r; lra.
Qed.
Lemma round_err x : 0 < x -> Rabs (rd x - x) <= pw (- p) * pw (expo x).
Proof.
  intros H. rewrite fround_pos by easy. set (e := ue p None x). pose proof (pw_pos e). pose proof (nearest_near (x / pw e)) as N.
  replace (IZR (nearest (x / pw e)) * pw e - x) with ((IZR (nearest (x / pw e)) - x / pw e) * pw e) by (field; lra).
  rewrite Rabs_mult, (Rabs_pos_eq (pw e)) by lra. rewrite <- pw_add.
  assert (Q : pw e = 2 * pw (- p + expo x)) by (rewrite <- pw_half; f_equal; unfold e, ue; lia). nra.
Qed.
Lemma fround_rounding : rounding (pw (- p)) rd.
Proof.
  assert (P0 := pw_pos (- p)).
  assert (A : forall P : R -> Prop, P 0 -> (forall x, 0 < x -> P x) -> (forall x, 0 < x -> P x -> P (- x)) -> forall x, P x).
  { intros P H0 H1 H2 x. destruct (Rtotal_order x 0) as [L|[->|L]]; [|easy|now apply H1]. replace x with (- (- x)) by ring. apply H2; [lra|]. apply H1. lra. }
  constructor.
  - split; [easy|]. rewrite <- pw_m10. apply pw_le. lia.
  - apply A; [rewrite fround_0, Rminus_0_r, Rabs_R0; lra| |].
    + intros x H. eapply Rle_trans; [now apply round_err|]. apply Rmult_le_compat_l; [lra|]. apply expo_spec. lra.
    + intros x _ IH. rewrite fround_opp. replace (- rd x - - x) with (- (rd x - x)) by ring. now rewrite !Rabs_Ropp.
  - apply A; [rewrite fround_0, Rminus_0_r, Rabs_R0; lra| |].
    + intros x H. eapply Rle_trans; [now apply round_err|]. apply Rmult_le_compat_l; [lra|]. eapply Rle_trans; [apply (round_range x H)|]. apply Rle_abs.
    + intros x _ IH. rewrite fround_opp. replace (- rd x - - x) with (- (rd x - x)) by ring. now rewrite !Rabs_Ropp.
  - assert (PP : forall x y, 0 < x -> x <= y -> rd x <= rd y).
    { intros x y Hx L. pose proof (expo_mono x y Hx L) as HE. destruct (Z.eq_dec (expo x) (expo y)) as [E|E].
      - rewrite !fround_pos by lra. unfold ue. rewrite E. pose proof (pw_pos (expo y - p + 1)). apply Rmult_le_compat_r; [lra|]. apply IZR_le, nearest_mono.
        apply Rmult_le_compat_r; [|easy]. left. now apply Rinv_0_lt_compat.
      - eapply Rle_trans; [apply (round_range x Hx)|]. eapply Rle_trans; [|apply (round_range y); lra]. apply pw_le. lia. }
    assert (P1 : forall x, 0 <= x -> 0 <= rd x).
    { intros x [H| <-]; [|rewrite fround_0; lra]. eapply Rle_trans; [|apply (round_range x H)]. left. apply pw_pos. }
    intros x y L. destruct (Rlt_le_dec 0 x) as [H|H]; [now apply PP|].
    destruct (Rlt_le_dec y 0) as [G|G].
    + replace x with (- (- x)) by ring. replace y with (- (- y)) by ring. rewrite !(fround_opp p None (- _)). apply Ropp_le_contravar. apply PP; lra.
    + pose proof (P1 y G). pose proof (P1 (- x) ltac:(lra)) as Q. rewrite fround_opp in Q. lra.
  - intros x. apply fround_opp.
Qed.
End None_.
