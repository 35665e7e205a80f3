From Verif Require Import Outcome ListUtil WordsModel.
Local Open Scope N_scope.

Lemma pow2_pos k : 0 < 2 ^ k.
Proof. apply N.neq_0_lt_0, N.pow_nonzero. discriminate. Qed.

Lemma wrap_lt w x : wrap w x < 2 ^ w.
Proof. unfold wrap. apply N.mod_lt, N.pow_nonzero. discriminate. Qed.

Lemma wrap_id w x : x < 2 ^ w -> wrap w x = x.
Proof. intros H. unfold wrap. now apply N.mod_small. Qed.

Lemma wrap_pred w x : 1 <= x -> x <= 2 ^ w -> wrap w (x + 2 ^ w - 1) = x - 1.
Proof.
  intros H1 H2. unfold wrap. replace (x + 2 ^ w - 1) with ((x - 1) + 1 * 2 ^ w) by lia.
  rewrite N.mod_add by (apply N.pow_nonzero; discriminate). apply N.mod_small. lia.
Qed.

(** ** nextPow2 *)

Definition smear_step (v : N) (k : nat) := N.lor v (N.shiftr v (2 ^ N.of_nat k)).

(* after handling all shifts below 2^m, the 2^m bits below the top bit are ones *)
Definition smeared (L m : N) (v : N) : Prop :=
  forall i, (L < i -> N.testbit v i = false) /\
            (i <= L -> L < i + 2 ^ m -> N.testbit v i = true).

Lemma smear_step_ok L m v :
  smeared L (N.of_nat m) v -> smeared L (N.of_nat (S m)) (smear_step v m).
Proof.
  intros H i. unfold smear_step. rewrite N.lor_spec, N.shiftr_spec by lia.
  assert (E : 2 ^ N.of_nat (S m) = 2 ^ N.of_nat m + 2 ^ N.of_nat m).
  { rewrite Nat2N.inj_succ, N.pow_succ_r by lia. lia. }
  split.
  - intros Hi. destruct (H i) as [H1 _]. rewrite H1 by assumption.
    destruct (H (i + 2 ^ N.of_nat m)) as [H2 _]. rewrite H2 by lia. reflexivity.
  - intros Hi HL. rewrite E in HL.
    destruct (N.lt_ge_cases L (i + 2 ^ N.of_nat m)) as [Hc|Hc].
    + destruct (H i) as [_ H2]. rewrite H2 by assumption. reflexivity.
    + destruct (H (i + 2 ^ N.of_nat m)) as [_ H2]. rewrite H2 by lia. apply orb_true_r.
Qed.

Lemma smear_fold_ok L k : forall m v,
  smeared L (N.of_nat m) v ->
  smeared L (N.of_nat (m + k)) (fold_left smear_step (seq m k) v).
Proof.
  induction k as [|k IH]; intros m v H; cbn [seq fold_left].
  - now rewrite Nat.add_0_r.
  - replace (m + S k)%nat with (S m + k)%nat by lia. apply IH. now apply smear_step_ok.
Qed.

Lemma smear_fold_0 k : forall m, fold_left smear_step (seq m k) 0 = 0.
Proof.
  induction k as [|k IH]; intros m; cbn [seq fold_left]; auto.
  unfold smear_step at 2. rewrite N.shiftr_0_l. apply IH.
Qed.

Lemma smear_all w v :
  1 <= w -> 0 < v -> v < 2 ^ w ->
  fold_left smear_step (seq 0 (N.to_nat (N.log2_up w))) v = 2 ^ (N.log2 v + 1) - 1.
Proof.
  intros Hw Hv Hvw. set (L := N.log2 v).
  assert (H0 : smeared L (N.of_nat 0) v).
  { intros i. cbn [N.of_nat]. rewrite N.pow_0_r. split.
    - intros Hi. apply N.bits_above_log2. exact Hi.
    - intros H1 H2. assert (i = L) by lia. subst i. apply N.bit_log2. lia. }
  pose proof (smear_fold_ok L (N.to_nat (N.log2_up w)) 0 v H0) as H.
  cbn [Nat.add] in H. rewrite N2Nat.id in H.
  set (r := fold_left _ _ _) in *.
  assert (HLw : L < 2 ^ N.log2_up w).
  { assert (L < w) by (apply N.log2_lt_pow2; lia).
    pose proof (N.log2_log2_up_spec w ltac:(lia)). lia. }
  apply N.bits_inj. intros i.
  rewrite N.sub_1_r, <- N.ones_equiv.
  destruct (N.lt_ge_cases L i) as [Hi|Hi].
  - destruct (H i) as [H1 _]. rewrite H1 by assumption.
    rewrite N.ones_spec_high by lia. reflexivity.
  - destruct (H i) as [_ H1]. rewrite H1 by lia. rewrite N.ones_spec_low by lia. reflexivity.
Qed.

(** [nextPow2 w x] is the least power of two not below [x]. *)
Lemma nextPow2_log2_up w x :
  1 <= w -> 1 <= x -> x <= 2 ^ (w - 1) -> nextPow2 w x = 2 ^ N.log2_up x.
Proof.
  intros Hw Hx1 Hx2. unfold nextPow2.
  assert (E2 : 2 ^ w = 2 * 2 ^ (w - 1)).
  { rewrite <- N.pow_succ_r by lia. f_equal. lia. }
  rewrite wrap_pred by lia.
  change (fold_left _ ?l ?v) with (fold_left smear_step l v).
  destruct (N.eq_dec x 1) as [->|Hn].
  - change (1 - 1) with 0. rewrite smear_fold_0. cbn [N.add]. apply wrap_id.
    change (N.log2_up 1) with 0. assert (0 < 2 ^ (w - 1)) by apply pow2_pos. lia.
  - rewrite smear_all by lia.
    assert (Hlog : N.log2 (x - 1) + 1 = N.log2_up x).
    { rewrite N.log2_up_eqn, <- N.sub_1_r by lia. lia. }
    rewrite Hlog. assert (0 < 2 ^ N.log2_up x) by apply pow2_pos.
    replace (2 ^ N.log2_up x - 1 + 1) with (2 ^ N.log2_up x) by lia.
    apply wrap_id.
    assert (N.log2_up x <= w - 1) by (apply N.log2_up_le_pow2; lia).
    assert (2 ^ N.log2_up x <= 2 ^ (w - 1)) by (apply N.pow_le_mono_r; lia).
    assert (0 < 2 ^ (w - 1)) by apply pow2_pos. lia.
Qed.

Lemma nextPow2_least w x :
  1 <= w -> 1 <= x -> x <= 2 ^ (w - 1) ->
  (exists k, nextPow2 w x = 2 ^ k /\ k < w) /\ x <= nextPow2 w x /\
  (forall j, x <= 2 ^ j -> nextPow2 w x <= 2 ^ j).
Proof.
  intros Hw H1 H2. rewrite nextPow2_log2_up by assumption. repeat split.
  - exists (N.log2_up x). split; [reflexivity|].
    assert (N.log2_up x <= w - 1) by (apply N.log2_up_le_pow2; lia). lia.
  - apply N.log2_up_le_pow2; lia.
  - intros j Hj. apply N.pow_le_mono_r; [lia|]. apply N.log2_up_le_pow2; lia.
Qed.

Lemma nextPow2_zero w : nextPow2 w 0 = if w =? 0 then nextPow2 w 0 else 0.
Proof.
  destruct (N.eqb_spec w 0) as [->|Hw]; [reflexivity|].
  unfold nextPow2. assert (E : 2 ^ w - 1 < 2 ^ w) by (pose proof (pow2_pos w); lia).
  assert (E2 : 2 ^ w = 2 * 2 ^ (w - 1)).
  { rewrite <- N.pow_succ_r by lia. f_equal. lia. }
  pose proof (pow2_pos (w - 1)) as P.
  rewrite N.add_0_l, (wrap_id w (2 ^ w - 1)) by exact E.
  change (fold_left _ ?l ?v) with (fold_left smear_step l v).
  rewrite smear_all by lia.
  assert (HL : N.log2 (2 ^ w - 1) = w - 1).
  { apply N.log2_unique; [lia|]. replace (N.succ (w - 1)) with w by lia. lia. }
  rewrite HL. replace (w - 1 + 1) with w by lia.
  replace (2 ^ w - 1 + 1) with (2 ^ w) by lia.
  unfold wrap. apply N.mod_same. lia.
Qed.

Lemma nextPow2_idem w k : 1 <= w -> k < w -> nextPow2 w (2 ^ k) = 2 ^ k.
Proof.
  intros Hw Hk. rewrite nextPow2_log2_up; auto.
  - now rewrite N.log2_up_pow2 by lia.
  - pose proof (pow2_pos k). lia.
  - apply N.pow_le_mono_r; lia.
Qed.

(** ** isPow2 *)
Lemma land_pred_zero x : x <> 0 -> (N.land x (x - 1) = 0 <-> exists k, x = 2 ^ k).
Proof.
  intros Hx. split.
  - intros H. exists (N.log2 x). set (L := N.log2 x).
    destruct (N.eq_dec x (2 ^ L)) as [E|E]; [exact E|exfalso].
    assert (HL : 2 ^ L <= x) by (apply N.log2_spec; lia).
    assert (B : N.testbit (N.land x (x - 1)) L = true).
    { rewrite N.land_spec. unfold L at 1. rewrite N.bit_log2 by lia. simpl.
      assert (HL' : N.log2 (x - 1) = L).
      { apply N.log2_unique; [lia|]. assert (x < 2 ^ N.succ L) by (apply N.log2_spec; lia). lia. }
      rewrite <- HL'. apply N.bit_log2. lia. }
    rewrite H, N.bits_0 in B. discriminate.
  - intros [k ->]. apply N.bits_inj. intros i. rewrite N.land_spec, N.bits_0, N.pow2_bits_eqb.
    destruct (N.eqb_spec k i) as [<-|]; auto. simpl.
    rewrite N.sub_1_r, <- N.ones_equiv. apply N.ones_spec_high. lia.
Qed.

Lemma isPow2_correct w x : x < 2 ^ w -> isPow2 w x = true <-> exists k, x = 2 ^ k.
Proof.
  intros Hx. unfold isPow2. rewrite andb_true_iff, negb_true_iff, N.eqb_neq, N.eqb_eq.
  destruct (N.eq_dec x 0) as [->|Hn].
  - split; [intros [? _]; congruence|]. intros [k Hk]. pose proof (pow2_pos k). lia.
  - rewrite wrap_pred by lia. rewrite land_pred_zero by assumption. tauto.
Qed.

(** ** log2, logN *)
Lemma log2_loop_ok fuel : forall x y, x < 2 ^ N.of_nat fuel -> (0 < fuel)%nat ->
  log2_loop fuel x y = Val (y + N.log2 x).
Proof.
  induction fuel as [|f IH]; intros x y H Hf; [lia|]. cbn [log2_loop].
  rewrite N.shiftr_div_pow2. change (2 ^ 1) with 2.
  destruct (N.eqb_spec (x / 2) 0) as [E|E].
  - f_equal. assert (x < 2) by (apply N.div_small_iff in E; lia).
    assert (N.log2 x = 0) by (destruct (N.eq_dec x 0) as [->|]; [reflexivity|]; replace x with 1 by lia; reflexivity).
    lia.
  - destruct f as [|f'].
    + change (N.of_nat 1) with 1 in H. rewrite N.pow_1_r in H. rewrite N.div_small in E by lia. lia.
    + rewrite IH; [|rewrite Nat2N.inj_succ, N.pow_succ_r in H by lia|lia].
      * f_equal. assert (E2 : N.log2 x = N.succ (N.log2 (x / 2))); [|lia].
        assert (Hx2 : 2 <= x) by (destruct (N.lt_ge_cases x 2) as [Hl|]; [rewrite (N.div_small x 2 Hl) in E; lia|assumption]).
        assert (N.log2 (x / 2) = N.log2 x - 1) by (change 2 with (2 ^ 1) at 1; rewrite <- N.shiftr_div_pow2; apply N.log2_shiftr).
        assert (1 <= N.log2 x) by (apply N.log2_le_pow2; simpl; lia). lia.
      * apply N.div_lt_upper_bound; lia.
Qed.

Lemma log2m_correct x : 0 < x -> returns (fun f => log2m f x) (N.log2 x).
Proof.
  intros Hx. exists (S (N.to_nat (N.log2 x))). intros m Hm. unfold log2m. rewrite log2_loop_ok.
  - reflexivity.
  - assert (x < 2 ^ N.succ (N.log2 x)) by (apply N.log2_spec; lia).
    eapply N.lt_le_trans; [eassumption|]. apply N.pow_le_mono_r; lia.
  - lia.
Qed.

Lemma logN_loop_ok s fuel : forall x y, 1 <= s -> x < 2 ^ (s * N.of_nat fuel) -> (0 < fuel)%nat ->
  logN_loop fuel s x y = Val (y + N.log2 x / s).
Proof.
  induction fuel as [|f IH]; intros x y Hs H Hf; [lia|]. cbn [logN_loop].
  rewrite N.shiftr_div_pow2. pose proof (pow2_pos s) as Ps.
  destruct (N.eqb_spec (x / 2 ^ s) 0) as [E|E].
  - f_equal. apply N.div_small_iff in E; [|lia].
    destruct (N.eq_dec x 0) as [->|]. { change (N.log2 0) with 0. rewrite N.div_0_l by lia. lia. }
    assert (N.log2 x < s) by (apply N.log2_lt_pow2; lia).
    rewrite (N.div_small (N.log2 x) s) by lia. lia.
  - assert (Hx : 2 ^ s <= x).
    { destruct (N.lt_ge_cases x (2 ^ s)) as [Hl|]; [rewrite (N.div_small x _ Hl) in E; lia|assumption]. }
    assert (HL : N.log2 (x / 2 ^ s) = N.log2 x - s).
    { rewrite <- N.shiftr_div_pow2. apply N.log2_shiftr. }
    assert (HLs : s <= N.log2 x) by (apply N.log2_le_pow2; lia).
    assert (HD : N.log2 x / s = (N.log2 x - s) / s + 1).
    { replace (N.log2 x) with ((N.log2 x - s) + 1 * s) at 1 by lia. rewrite N.div_add by lia. reflexivity. }
    destruct f as [|f'].
    + rewrite N.mul_1_r in H. lia.
    + rewrite IH; [|exact Hs| |lia].
      * f_equal. rewrite HL, HD. lia.
      * apply N.div_lt_upper_bound; [lia|]. rewrite <- N.pow_add_r.
        replace (s + s * N.of_nat (S f')) with (s * N.of_nat (S (S f'))) by lia. exact H.
Qed.

Lemma logNm_correct x n : 2 <= n -> returns (fun f => logNm f x n) (N.log2 x / N.log2 n).
Proof.
  intros Hn. assert (H1 : 1 <= N.log2 n) by (apply N.log2_le_pow2; simpl; lia).
  destruct (log2m_correct n ltac:(lia)) as [k Hk].
  exists (k + S (N.to_nat (N.log2 x)))%nat. intros m Hm. unfold logNm. rewrite Hk by lia. cbn [rbind].
  rewrite logN_loop_ok; [f_equal; lia|exact H1| |lia].
  destruct (N.eq_dec x 0) as [->|]; [apply pow2_pos|].
  assert (x < 2 ^ N.succ (N.log2 x)) by (apply N.log2_spec; lia).
  eapply N.lt_le_trans; [eassumption|]. apply N.pow_le_mono_r; [lia|]. nia.
Qed.

Lemma logNm_one_diverges x : 0 < x -> diverges (fun f => logNm f x 1).
Proof.
  intros Hx n. unfold logNm. destruct n as [|f]; [reflexivity|].
  replace (log2m (S f) 1) with (Val 0) by reflexivity. cbn [rbind].
  generalize (S f). clear f. intros n. generalize 0 at 2.
  induction n as [|n IH]; intros y; [reflexivity|]. cbn [logN_loop]. rewrite N.shiftr_0_r.
  destruct (N.eqb_spec x 0); [lia|]. apply IH.
Qed.

(** ** popcount, 32 bits *)

(** Specification: the number of one bits among the lowest [n] bits. *)
Definition ones_below (x : N) (n : nat) : nat :=
  length (filter (N.testbit x) (map N.of_nat (seq 0 n))).

Lemma ones_below_S x n :
  ones_below x (S n) = (ones_below x n + if N.testbit x (N.of_nat n) then 1 else 0)%nat.
Proof.
  unfold ones_below. rewrite seq_S, map_app, filter_app, app_length. cbn [Nat.add map filter].
  destruct (N.testbit x (N.of_nat n)); reflexivity.
Qed.

Lemma ones_below_ext x y n :
  (forall i, i < N.of_nat n -> N.testbit x i = N.testbit y i) -> ones_below x n = ones_below y n.
Proof.
  induction n as [|n IH]; intros H; [reflexivity|]. rewrite !ones_below_S, IH, H; auto; try lia.
  intros i Hi. apply H. lia.
Qed.

Lemma ones_below_app x m n :
  ones_below x (m + n) = (ones_below x m + ones_below (N.shiftr x (N.of_nat m)) n)%nat.
Proof.
  induction n as [|n IH].
  - rewrite Nat.add_0_r. unfold ones_below at 3. simpl. lia.
  - rewrite Nat.add_succ_r, !ones_below_S, IH, N.shiftr_spec by lia.
    replace (N.of_nat n + N.of_nat m) with (N.of_nat (m + n)) by lia. lia.
Qed.

(* one byte of the first three SWAR steps *)
Definition swar3 (ones x : N) : N :=
  let v := x - N.land (N.shiftr x 1) (ones / 3) in
  let v := N.land v (ones / 15 * 3) + N.land (N.shiftr v 2) (ones / 15 * 3) in
  N.land (v + N.shiftr v 4) (ones / 255 * 15).

Lemma land_cons b y c m : b < 256 -> c < 256 ->
  N.land (b + 256 * y) (c + 256 * m) = N.land b c + 256 * N.land y m.
Proof.
  intros Hb Hc. change 256 with (2 ^ 8) in *.
  rewrite !(N.mul_comm (2 ^ 8)).
  assert (A : forall b y, b < 2 ^ 8 -> b + y * 2 ^ 8 = N.lor b (N.shiftl y 8)).
  { intros b' y' H'. rewrite N.shiftl_mul_pow2. rewrite N.add_nocarry_lxor.
    - apply N.lxor_lor. apply N.bits_inj. intros i. rewrite N.land_spec, N.bits_0.
      destruct (N.lt_ge_cases i 8) as [Hi|Hi].
      + rewrite N.mul_pow2_bits_low by assumption. apply andb_false_r.
      + rewrite <- (N.mod_small b' (2 ^ 8)) by assumption. rewrite N.mod_pow2_bits_high by assumption. reflexivity.
    - apply N.bits_inj. intros i. rewrite N.land_spec, N.bits_0.
      destruct (N.lt_ge_cases i 8) as [Hi|Hi].
      + rewrite N.mul_pow2_bits_low by assumption. apply andb_false_r.
      + rewrite <- (N.mod_small b' (2 ^ 8)) by assumption. rewrite N.mod_pow2_bits_high by assumption. reflexivity. }
  assert (L : N.land b c < 2 ^ 8).
  { rewrite <- (N.mod_small b (2 ^ 8)) by assumption. rewrite <- N.land_ones.
    rewrite <- N.land_assoc, (N.land_comm _ c), N.land_assoc, N.land_ones. apply N.mod_lt. discriminate. }
  rewrite !A by assumption. apply N.bits_inj. intros i.
  rewrite N.land_spec, !N.lor_spec, N.land_spec.
  destruct (N.lt_ge_cases i 8) as [Hi|Hi].
  - rewrite !N.shiftl_spec_low by assumption. rewrite !orb_false_r. reflexivity.
  - rewrite !N.shiftl_spec_high' by assumption. rewrite N.land_spec.
    assert (Hb' : N.testbit b i = false).
    { rewrite <- (N.mod_small b (2 ^ 8)) by assumption. now rewrite N.mod_pow2_bits_high. }
    assert (Hc' : N.testbit c i = false).
    { rewrite <- (N.mod_small c (2 ^ 8)) by assumption. now rewrite N.mod_pow2_bits_high. }
    rewrite Hb', Hc'. reflexivity.
Qed.

Definition bytes256 : list N := map N.of_nat (seq 0 256).
Lemma bytes256_spec b : b < 256 -> In b bytes256.
Proof.
  intros H. unfold bytes256. apply in_map_iff. exists (N.to_nat b). split; [lia|]. apply in_seq. lia.
Qed.

(* finite facts about one byte, checked exhaustively over its 256 values *)
Lemma byte_facts : forallb (fun b =>
   let a := N.land (N.shiftr b 1) 85 in
   let v := b - a in
   let v1 := N.land v 51 + N.land (N.shiftr v 2) 51 in
   (a <=? b) &&
   (N.land (b / 2 + 128) 85 =? a) && (N.land (b / 2) 85 =? a) &&
   (v <? 256) &&
   (forallb (fun c => N.land (v / 4 + 64 * c) 51 =? N.land (v / 4) 51) [0;1;2;3]) &&
   (N.shiftr v 2 =? v / 4) &&
   (v1 <? 85) && (N.land v1 15 <=? 4) && (v1 / 16 <=? 4) &&
   (N.land (v1 + N.shiftr v1 4) 15 =? N.of_nat (ones_below b 8)) &&
   (forallb (fun c => (N.land (v1 + v1 / 16 + 16 * c) 15 =? N.of_nat (ones_below b 8))
                      && (v1 + v1 / 16 + 16 * c <? 256)) [0;1;2;3;4])) bytes256 = true.
Proof. vm_compute. reflexivity. Qed.

(* one byte plus the rest *)
Lemma swar3_cons b y m55 m33 m0f :
  b < 256 ->
  let v1 x m := x - N.land (N.shiftr x 1) m in
  let v2 v m := N.land v m + N.land (N.shiftr v 2) m in
  let y2 := v2 (v1 y m55) m33 in
  N.land (N.shiftr y 1) m55 <= y ->
  (y2 mod 16 <= 4) ->
  let x := b + 256 * y in
  let x2 := v2 (v1 x (85 + 256 * m55)) (51 + 256 * m33) in
  N.land (N.shiftr x 1) (85 + 256 * m55) <= x /\
  x2 mod 16 <= 4 /\
  N.land (x2 + N.shiftr x2 4) (15 + 256 * m0f) =
  N.of_nat (ones_below b 8) + 256 * N.land (y2 + N.shiftr y2 4) m0f.
Proof.
  intros Hb v1 v2 y2 Hle Hy2 x x2.
  pose proof byte_facts as F. rewrite forallb_forall in F. specialize (F b (bytes256_spec b Hb)).
  cbv zeta in F. rewrite !andb_true_iff in F.
  destruct F as [[[[[[[[[[Fa Fb] Fc] Fd] Fe] Fe2] Ff] Fg] Fh] Fi] Fj].
  apply N.leb_le in Fa. apply N.eqb_eq in Fb, Fc, Fe2. apply N.ltb_lt in Fd, Ff.
  apply N.leb_le in Fg, Fh.
  set (a := N.land (N.shiftr b 1) 85) in *. set (v := b - a) in *.
  set (w1 := N.land v 51 + N.land (N.shiftr v 2) 51) in *.
  assert (E1 : N.land (N.shiftr x 1) (85 + 256 * m55) = a + 256 * N.land (N.shiftr y 1) m55).
  { unfold x. rewrite !N.shiftr_div_pow2. change (2 ^ 1) with 2.
    assert (Ey : y = 2 * (y / 2) + y mod 2) by (apply N.div_mod; discriminate).
    pose proof (N.mod_lt y 2 ltac:(discriminate)) as Hm.
    assert (Eb : b = 2 * (b / 2) + b mod 2) by (apply N.div_mod; discriminate).
    pose proof (N.mod_lt b 2 ltac:(discriminate)) as Hmb.
    assert (E : (b + 256 * y) / 2 = (b / 2 + 128 * (y mod 2)) + 256 * (y / 2)).
    { symmetry. apply (N.div_unique _ _ _ (b mod 2)); lia. }
    rewrite E, land_cons by (try lia; assert (b / 2 < 128) by (apply N.div_lt_upper_bound; lia); lia).
    f_equal. destruct (N.eq_dec (y mod 2) 0) as [->|Hn].
    - rewrite N.mul_0_r, N.add_0_r. exact Fc.
    - replace (y mod 2) with 1 by lia. exact Fb. }
  set (t := N.land (N.shiftr y 1) m55) in *.
  assert (Ev : v1 x (85 + 256 * m55) = v + 256 * (y - t)).
  { unfold v1. rewrite E1. unfold x, v. lia. }
  assert (E2 : x2 = w1 + 256 * y2).
  { unfold x2, v2. rewrite Ev. set (z := y - t). rewrite !land_cons by (try lia).
    rewrite !N.shiftr_div_pow2. change (2 ^ 2) with 4.
    assert (Ez : z = 4 * (z / 4) + z mod 4) by (apply N.div_mod; discriminate).
    pose proof (N.mod_lt z 4 ltac:(discriminate)) as Hm.
    assert (Eb : v = 4 * (v / 4) + v mod 4) by (apply N.div_mod; discriminate).
    pose proof (N.mod_lt v 4 ltac:(discriminate)) as Hmb.
    assert (E : (v + 256 * z) / 4 = (v / 4 + 64 * (z mod 4)) + 256 * (z / 4)).
    { symmetry. apply (N.div_unique _ _ _ (v mod 4)); lia. }
    rewrite E, land_cons by (try lia; assert (v / 4 < 64) by (apply N.div_lt_upper_bound; lia); lia).
    rewrite forallb_forall in Fe. specialize (Fe (z mod 4)).
    assert (In (z mod 4) [0;1;2;3]) as HI.
    { simpl. lia. }
    apply Fe, N.eqb_eq in HI. rewrite HI.
    assert (Ey2 : y2 = N.land z m33 + N.land (z / 4) m33).
    { unfold y2, v2, v1. fold t. fold z. rewrite (N.shiftr_div_pow2 z 2). reflexivity. }
    assert (Ew : w1 = N.land v 51 + N.land (v / 4) 51).
    { unfold w1. rewrite (N.shiftr_div_pow2 v 2). reflexivity. }
    rewrite Ey2, Ew. lia. }
  split; [rewrite E1; unfold x; lia|]. split.
  - rewrite E2. change 256 with (16 * 16). rewrite <- N.mul_assoc, (N.mul_comm 16).
    rewrite N.mod_add by discriminate.
    rewrite (N.land_ones w1 4 : N.land w1 15 = w1 mod 16) in Fg. exact Fg.
  - rewrite E2. rewrite !N.shiftr_div_pow2. change (2 ^ 4) with 16.
    pose proof (N.div_mod y2 16 ltac:(discriminate)) as Ey.
    pose proof (N.div_mod w1 16 ltac:(discriminate)) as Ew.
    pose proof (N.mod_lt w1 16 ltac:(discriminate)) as Hmw.
    assert (E : (w1 + 256 * y2) / 16 = (w1 / 16 + 16 * (y2 mod 16)) + 256 * (y2 / 16)).
    { symmetry. apply (N.div_unique _ _ _ (w1 mod 16)); lia. }
    rewrite E.
    replace (w1 + 256 * y2 + (w1 / 16 + 16 * (y2 mod 16) + 256 * (y2 / 16)))
      with ((w1 + w1 / 16 + 16 * (y2 mod 16)) + 256 * (y2 + y2 / 16)) by lia.
    rewrite forallb_forall in Fj. specialize (Fj (y2 mod 16)).
    assert (In (y2 mod 16) [0;1;2;3;4]) as HI by (simpl; lia).
    apply Fj in HI. rewrite andb_true_iff, N.eqb_eq, N.ltb_lt in HI. destruct HI as [HI1 HI2].
    rewrite land_cons by lia. rewrite HI1. reflexivity.
Qed.

Lemma ones_below_byte b y n :
  b < 256 -> ones_below (b + 256 * y) (8 + n) = (ones_below b 8 + ones_below y n)%nat.
Proof.
  intros Hb. rewrite ones_below_app. f_equal.
  - apply ones_below_ext. intros i Hi.
    rewrite <- (N.mod_pow2_bits_low (b + 256 * y) 8 i) by lia.
    change (2 ^ 8) with 256. rewrite N.mul_comm, N.mod_add, N.mod_small by lia. reflexivity.
  - f_equal. change (N.of_nat 8) with 8. rewrite N.shiftr_div_pow2. change (2 ^ 8) with 256.
    rewrite N.mul_comm, N.div_add, N.div_small by lia. reflexivity.
Qed.

Lemma ones_below_le x n : (ones_below x n <= n)%nat.
Proof.
  induction n as [|n IH]; [reflexivity|]. rewrite ones_below_S. destruct (N.testbit _ _); lia.
Qed.

Lemma popcount32_correct x : x < 2 ^ 32 -> popcount 32 x = N.of_nat (ones_below x 32).
Proof.
  intros Hx.
  pose (x1 := x / 256). pose (x2 := x1 / 256). pose (x3 := x2 / 256).
  pose (b0 := x mod 256). pose (b1 := x1 mod 256). pose (b2 := x2 mod 256).
  assert (H0 : x = b0 + 256 * x1) by (unfold b0, x1; pose proof (N.div_mod x 256 ltac:(discriminate)); lia).
  assert (H1 : x1 = b1 + 256 * x2) by (unfold b1, x2; pose proof (N.div_mod x1 256 ltac:(discriminate)); lia).
  assert (H2 : x2 = b2 + 256 * x3) by (unfold b2, x3; pose proof (N.div_mod x2 256 ltac:(discriminate)); lia).
  assert (B0 : b0 < 256) by (apply N.mod_lt; discriminate).
  assert (B1 : b1 < 256) by (apply N.mod_lt; discriminate).
  assert (B2 : b2 < 256) by (apply N.mod_lt; discriminate).
  assert (B3 : x3 < 256).
  { unfold x3, x2, x1. repeat (apply N.div_lt_upper_bound; [discriminate|]).
    change (256 * (256 * (256 * 256))) with (2 ^ 32). exact Hx. }
  clearbody x1 x2 x3 b0 b1 b2. subst x2 x1.
  assert (C3 : x3 = x3 + 256 * 0) by lia.
  pose proof (swar3_cons x3 0 0 0 0 B3 ltac:(vm_compute; discriminate) ltac:(vm_compute; discriminate)) as S3.
  rewrite <- C3 in S3. change (85 + 256 * 0) with 85 in S3. change (51 + 256 * 0) with 51 in S3.
  change (15 + 256 * 0) with 15 in S3. cbv zeta in S3. destruct S3 as [S3a [S3b S3c]].
  pose proof (swar3_cons b2 x3 85 51 15 B2 S3a S3b) as S2.
  change (85 + 256 * 85) with 21845 in S2. change (51 + 256 * 51) with 13107 in S2.
  change (15 + 256 * 15) with 3855 in S2. cbv zeta in S2. destruct S2 as [S2a [S2b S2c]].
  pose proof (swar3_cons b1 _ 21845 13107 3855 B1 S2a S2b) as S1.
  change (85 + 256 * 21845) with 5592405 in S1. change (51 + 256 * 13107) with 3355443 in S1.
  change (15 + 256 * 3855) with 986895 in S1. cbv zeta in S1. destruct S1 as [S1a [S1b S1c]].
  pose proof (swar3_cons b0 _ 5592405 3355443 986895 B0 S1a S1b) as S0.
  change (85 + 256 * 5592405) with 1431655765 in S0. change (51 + 256 * 3355443) with 858993459 in S0.
  change (15 + 256 * 986895) with 252645135 in S0. cbv zeta in S0. destruct S0 as [S0a [S0b S0c]].
  rewrite S1c, S2c, S3c in S0c. clear S1c S2c S3c S3a S3b S2a S2b S1a S1b S0b.
  rewrite <- H0 in *.
  unfold popcount. change ((2 ^ 32 - 1) / 3) with 1431655765.
  change ((2 ^ 32 - 1) / 15 * 3) with 858993459. change ((2 ^ 32 - 1) / 255 * 15) with 252645135.
  change ((2 ^ 32 - 1) / 255) with 16843009. change ((32 / 8 - 1) * 8) with 24.
  set (t := N.land (N.shiftr x 1) 1431655765) in *.
  assert (Ea : wrap 32 (x + 2 ^ 32 - t) = x - t).
  { unfold wrap. replace (x + 2 ^ 32 - t) with ((x - t) + 1 * 2 ^ 32) by lia.
    rewrite N.mod_add by discriminate. apply N.mod_small. lia. }
  rewrite Ea. set (v := x - t) in *.
  assert (LM : forall u m, m < 2 ^ 32 -> N.land u m <= m).
  { intros u m _. apply N.ldiff_le. apply N.bits_inj. intros i.
    rewrite N.ldiff_spec, N.land_spec, N.bits_0. destruct (N.testbit u i), (N.testbit m i); reflexivity. }
  set (v2 := N.land v 858993459 + N.land (N.shiftr v 2) 858993459) in *.
  assert (Hv2 : v2 <= 2 * 858993459).
  { unfold v2. pose proof (LM v 858993459 ltac:(reflexivity)).
    pose proof (LM (N.shiftr v 2) 858993459 ltac:(reflexivity)). lia. }
  assert (Hv2s : N.shiftr v2 4 <= 2 * 858993459 / 16).
  { rewrite N.shiftr_div_pow2. change (2 ^ 4) with 16. apply N.div_le_mono; [discriminate|exact Hv2]. }
  rewrite (wrap_id 32 v2) by (change (2 ^ 32) with 4294967296; lia).
  rewrite (wrap_id 32 (v2 + N.shiftr v2 4)).
  2: { change (2 * 858993459 / 16) with 107374182 in Hv2s. change (2 ^ 32) with 4294967296. lia. }
  rewrite S0c.
  assert (P0 := ones_below_le b0 8). assert (P1 := ones_below_le b1 8).
  assert (P2 := ones_below_le b2 8). assert (P3 := ones_below_le x3 8).
  assert (T : ones_below x 32 = (ones_below b0 8 + (ones_below b1 8 + (ones_below b2 8 + ones_below x3 8)))%nat).
  { rewrite H0. change 32%nat with (8 + 24)%nat. rewrite ones_below_byte by assumption. f_equal.
    change 24%nat with (8 + 16)%nat. rewrite ones_below_byte by assumption. f_equal.
    change 16%nat with (8 + 8)%nat. rewrite ones_below_byte by assumption. reflexivity. }
  rewrite T.
  remember (N.of_nat (ones_below b0 8)) as d0. remember (N.of_nat (ones_below b1 8)) as d1.
  remember (N.of_nat (ones_below b2 8)) as d2. remember (N.of_nat (ones_below x3 8)) as d3.
  rewrite !Nat2N.inj_add, <- Heqd0, <- Heqd1, <- Heqd2, <- Heqd3.
  change (N.land (0 - N.land (N.shiftr 0 1) 0) 0) with 0.
  rewrite N.land_0_r, N.mul_0_r, N.add_0_r.
  assert (D0 : d0 <= 8) by lia. assert (D1 : d1 <= 8) by lia.
  assert (D2 : d2 <= 8) by lia. assert (D3 : d3 <= 8) by lia.
  clear - D0 D1 D2 D3.
  rewrite N.shiftr_div_pow2. unfold wrap. change (2 ^ 24) with 16777216. change (2 ^ 32) with 4294967296.
  set (q := d1 + d2 + d3 + 256 * (d2 + d3) + 65536 * d3).
  set (r := 65536 * (d0 + d1 + d2) + 256 * (d0 + d1) + d0).
  assert (E : (d0 + 256 * (d1 + 256 * (d2 + 256 * d3))) * 16843009
              = ((d0 + (d1 + (d2 + d3))) * 16777216 + r) + q * 4294967296).
  { unfold q, r. lia. }
  rewrite E, N.mod_add by discriminate. rewrite N.mod_small by (unfold r; lia).
  rewrite N.div_add_l by discriminate. rewrite N.div_small by (unfold r; lia). lia.
Qed.

(** ** logN for a base that is a power of two *)
Lemma logNm_pow2_base x s : 1 <= s -> 1 <= x ->
  exists k, returns (fun f => logNm f x (2 ^ s)) k /\ (2 ^ s) ^ k <= x < (2 ^ s) ^ (k + 1).
Proof.
  intros Hs Hx. exists (N.log2 x / s). split.
  - assert (H2 : 2 <= 2 ^ s).
    { change 2 with (2 ^ 1) at 1. apply N.pow_le_mono_r; lia. }
    pose proof (logNm_correct x (2 ^ s) H2) as H. now rewrite N.log2_pow2 in H by lia.
  - rewrite <- !N.pow_mul_r. destruct (N.log2_spec x ltac:(lia)) as [L1 L2].
    pose proof (N.div_mod (N.log2 x) s ltac:(lia)) as E.
    pose proof (N.mod_lt (N.log2 x) s ltac:(lia)) as Em. split.
    + eapply N.le_trans; [|exact L1]. apply N.pow_le_mono_r; lia.
    + eapply N.lt_le_trans; [exact L2|]. apply N.pow_le_mono_r; lia.
Qed.
