(** C98: the adaptive orientation test in the plane. *)
From Coq Require Import Reals Lra Psatz.
From Verif Require Import Outcome GeoModel PredModel PredSpec FloatProofs PredProofs FloatInit ExpansModel ExpansProps ErrFree AdaptModel.
Local Open Scope R_scope.

Section Adapt.
  Variables (p : Z) (lo : option Z).
  Hypothesis Hp : (1 <= p)%Z.
  Notation rnd := (fround p lo).
  Notation FN := (FN p lo).
  Lemma rnd_id x : FN x -> rnd x = x.
  Proof. now apply FN_id. Qed.

  (** Two_Diff is Two_Sum with the negative. *)
  Lemma two_diff_sum a b : two_diff rnd a b = two_sum rnd a (- b).
  Proof.
    unfold two_diff, two_diff_tail, two_sum, fadd, fsub. change (a - b) with (a + - b). set (x := rnd (a + - b)). replace (a - x) with (- (x - a)) by ring. rewrite fround_opp. set (v := rnd (x - a)).
    change (x - v) with (x + - v). replace (- b - v) with (- v - b) by ring. reflexivity.
  Qed.
  Theorem C98_two_diff a b : FN a -> FN b -> let '(x, y) := two_diff rnd a b in x = rnd (a - b) /\ x + y = a - b /\ FN x /\ FN y.
  Proof.
    intros A B. rewrite two_diff_sum. destruct (two_sum_exact p lo Hp a (- b) A (FN_opp p lo b B)) as (H1 & H2 & H3). unfold two_sum in *. cbn [fst snd] in *. now repeat split.
  Qed.
  Lemma sum_at a b : FN a -> FN b -> exists x y, two_sum rnd a b = (x, y) /\ FN x /\ FN y /\ x + y = a + b.
  Proof. intros A B. destruct (two_sum_exact p lo Hp a b A B) as (H1 & H2 & H3). destruct (two_sum rnd a b) as [x y]. now exists x, y. Qed.
  Lemma one_diff_at a1 a0 b : FN a1 -> FN a0 -> FN b -> exists x2 x1 x0, two_one_diff rnd a1 a0 b = (x2, x1, x0) /\ FN x2 /\ FN x1 /\ FN x0 /\ x2 + x1 + x0 = a1 + a0 - b.
  Proof.
    intros A1 A0 B. unfold two_one_diff. rewrite two_diff_sum. destruct (sum_at a0 (- b) A0 (FN_opp p lo b B)) as (i & x0 & -> & Fi & F0 & E1). destruct (sum_at a1 i A1 Fi) as (x2 & x1 & -> & F2 & F1 & E2).
    exists x2, x1, x0. repeat split; auto. lra.
  Qed.
  (** The four components of Two_Two_Diff add up exactly. *)
  Theorem C98_two_two_diff a1 a0 b1 b0 : FN a1 -> FN a0 -> FN b1 -> FN b0 -> rsum (two_two_diff rnd a1 a0 b1 b0) = a1 + a0 - b1 - b0 /\ length (two_two_diff rnd a1 a0 b1 b0) = 4%nat /\ Forall FN (two_two_diff rnd a1 a0 b1 b0).
  Proof.
    intros A1 A0 B1 B0. unfold two_two_diff. destruct (one_diff_at a1 a0 b0 A1 A0 B0) as (j & z & x0 & -> & Fj & Fz & F0 & E1). destruct (one_diff_at j z b1 Fj Fz B1) as (x3 & x2 & x1 & -> & F3 & F2 & F1 & E2).
    split; [unfold rsum; cbn [fold_right]; lra|]. split; [reflexivity|]. now repeat constructor.
  Qed.

  Variables splitter ccwB ccwC resb : R.
  (** Two_Product gives the product without error (it does unless it underflows; not proved here). *)
  Definition product_exact (a b : R) : Prop := let '(x, y) := two_product rnd splitter a b in FN x /\ FN y /\ x + y = a * b.
  Lemma prod_diff_sum a b c d : product_exact a b -> product_exact c d -> rsum (prod_diff rnd splitter a b c d) = a * b - c * d.
  Proof.
    unfold product_exact, prod_diff. destruct (two_product rnd splitter a b) as [s1 s0]. destruct (two_product rnd splitter c d) as [t1 t0]. intros (S1 & S0 & S) (T1 & T0 & T).
    destruct (C98_two_two_diff s1 s0 t1 t0 S1 S0 T1 T0) as [E _]. rewrite E. lra.
  Qed.
  (** The orientation determinant. *)
  Definition det2 (a b c : vec) : R := (a 0%nat - c 0%nat) * (b 1%nat - c 1%nat) - (a 1%nat - c 1%nat) * (b 0%nat - c 0%nat).

  (** The four expansions of the last stage: with x = rnd (a - c) and its tail t, x + t is a - c, so that they add up exactly to the determinant. *)
  Theorem C98_terms_partial pa pb pc : (forall i, (i < 2)%nat -> FN (pa i) /\ FN (pb i) /\ FN (pc i)) ->
    let acx := rnd (pa 0%nat - pc 0%nat) in let bcx := rnd (pb 0%nat - pc 0%nat) in let acy := rnd (pa 1%nat - pc 1%nat) in let bcy := rnd (pb 1%nat - pc 1%nat) in
    let acxt := two_diff_tail rnd (pa 0%nat) (pc 0%nat) acx in let bcxt := two_diff_tail rnd (pb 0%nat) (pc 0%nat) bcx in
    let acyt := two_diff_tail rnd (pa 1%nat) (pc 1%nat) acy in let bcyt := two_diff_tail rnd (pb 1%nat) (pc 1%nat) bcy in
    (forall x y, In (x, y) [(acx, bcy); (acy, bcx); (acxt, bcy); (acyt, bcx); (acx, bcyt); (acy, bcxt); (acxt, bcyt); (acyt, bcxt)] -> product_exact x y) ->
    rsum (prod_diff rnd splitter acx bcy acy bcx) + rsum (prod_diff rnd splitter acxt bcy acyt bcx) + rsum (prod_diff rnd splitter acx bcyt acy bcxt) + rsum (prod_diff rnd splitter acxt bcyt acyt bcxt) = det2 pa pb pc /\
    (acxt = 0 -> acyt = 0 -> bcxt = 0 -> bcyt = 0 -> rsum (prod_diff rnd splitter acx bcy acy bcx) = det2 pa pb pc).
  Proof.
    intros HF acx bcx acy bcy acxt bcxt acyt bcyt HP.
    assert (T : forall a c, FN a -> FN c -> rnd (a - c) + two_diff_tail rnd a c (rnd (a - c)) = a - c). { intros a c A C. pose proof (C98_two_diff a c A C) as Q. unfold two_diff, fsub in Q. apply Q. }
    assert (H0 : (0 < 2)%nat) by lia. assert (H1 : (1 < 2)%nat) by lia. destruct (HF 0%nat H0) as (A0 & B0 & C0). destruct (HF 1%nat H1) as (A1 & B1 & C1).
    pose proof (T _ _ A0 C0) as E1. pose proof (T _ _ B0 C0) as E2. pose proof (T _ _ A1 C1) as E3. pose proof (T _ _ B1 C1) as E4. fold acx in E1. fold acxt in E1. fold bcx in E2. fold bcxt in E2. fold acy in E3. fold acyt in E3. fold bcy in E4. fold bcyt in E4.
    rewrite !prod_diff_sum by (apply HP; cbn [In]; tauto). unfold det2. rewrite <- E1, <- E2, <- E3, <- E4. split; [ring|]. intros -> -> -> ->. ring.
  Qed.

  (** Two equal points: everything is zero up to the last stage, which reads behind the arrays B and u. *)
  Lemma two_two_same s1 s0 : FN s1 -> FN s0 -> two_two_diff rnd s1 s0 s1 s0 = [0; 0; 0; 0].
  Proof.
    intros S1 S0.
    assert (Z : forall x y, FN x -> FN y -> FN (x + y) -> two_sum rnd x y = (x + y, 0)). { intros x y X Y XY. destruct (sum_at x y X Y) as (u & v & E' & _ & _ & S). rewrite E'. unfold two_sum, fadd in E'. injection E' as Eu _. rewrite rnd_id in Eu by exact XY. f_equal; lra. }
    pose proof (FN_0 p lo) as F0. pose proof (FN_opp p lo) as O.
    unfold two_two_diff, two_one_diff. rewrite !two_diff_sum. rewrite (Z s0 (- s0)) by (auto; now replace (s0 + - s0) with 0 by ring). replace (s0 + - s0) with 0 by ring. rewrite (Z s1 0) by (auto; now rewrite Rplus_0_r). rewrite Rplus_0_r.
    rewrite two_diff_sum. rewrite (Z 0 (- s1)) by (auto; rewrite Rplus_0_l; auto). rewrite Rplus_0_l. rewrite (Z s1 (- s1)) by (auto; now replace (s1 + - s1) with 0 by ring). replace (s1 + - s1) with 0 by ring. reflexivity.
  Qed.
  Lemma prod_same a b : product_exact a b -> product_exact b a -> prod_diff rnd splitter a b b a = [0; 0; 0; 0].
  Proof.
    unfold product_exact, prod_diff. assert (X : fst (two_product rnd splitter a b) = fst (two_product rnd splitter b a)). { unfold two_product. destruct (split_fp _ _ a), (split_fp _ _ b). cbn [fst]. unfold fmul. now rewrite Rmult_comm. }
    destruct (two_product rnd splitter a b) as [s1 s0]. destruct (two_product rnd splitter b a) as [t1 t0]. cbn [fst] in X. intros (S1 & S0 & S) (T1 & T0 & T). replace t0 with s0 by lra. rewrite <- X. now apply two_two_same.
  Qed.
  Lemma prod_diff_len a b c d : length (prod_diff rnd splitter a b c d) = 4%nat.
  Proof. unfold prod_diff, two_two_diff. destruct (two_product _ _ a b), (two_product _ _ c d). destruct (two_one_diff _ _ _ _) as [[? ?] ?]. now destruct (two_one_diff _ _ _ _) as [[? ?] ?]. Qed.
  Lemma rleb_no x y : y < x -> rleb x y = false.
  Proof. intros H. unfold rleb. destruct (Rle_dec x y); [lra|reflexivity]. Qed.
  Lemma rnd_gt0 x : 0 < rnd x -> rleb (rnd x) 0 || rleb (rnd x) (- 0) = false.
  Proof. intros H. rewrite !rleb_no by lra. reflexivity. Qed.

  Theorem C98_equal_refuted pa pc detsum :
    let x := rnd (pa 0%nat - pc 0%nat) in let y := rnd (pa 1%nat - pc 1%nat) in
    product_exact x y -> product_exact y x -> x <> pa 0%nat - pc 0%nat -> FN (pa 0%nat) -> FN (pc 0%nat) -> 0 < rnd (ccwB * detsum) -> 0 < rnd (ccwC * detsum) ->
    exists n, forall m, (n <= m)%nat -> orient2_adapt rnd splitter ccwB ccwC resb pa pa pc detsum m = Undef.
  Proof.
    intros x y P1 P2 NX FA FC HB HC.
    set (xt := two_diff_tail rnd (pa 0%nat) (pc 0%nat) x). set (yt := two_diff_tail rnd (pa 1%nat) (pc 1%nat) y).
    assert (T : xt <> 0). { pose proof (C98_two_diff _ _ FA FC) as Q. unfold two_diff, fsub in Q. fold x in Q. fold xt in Q. intros E. apply NX. destruct Q as (_ & Q & _). lra. }
    destruct (C97_bounds_refuted rnd 4 [0; 0; 0; 0] 4 (prod_diff rnd splitter xt y yt x)) as (n & Hn); [cbn [length]; lia|rewrite prod_diff_len; lia|now left|].
    exists n. intros m Hm. unfold orient2_adapt. cbv zeta. change (fsub rnd (pa 0%nat) (pc 0%nat)) with x. change (fsub rnd (pa 1%nat) (pc 1%nat)) with y. rewrite prod_same by assumption.
    assert (E : estimate rnd [0; 0; 0; 0] = 0). { unfold estimate, fadd. cbn [fold_left]. now rewrite !Rplus_0_r, !fround_0. }
    rewrite E. change (fmul rnd ccwB detsum) with (rnd (ccwB * detsum)). rewrite rnd_gt0 by exact HB. fold xt yt.
    replace (reqb xt 0) with false by (unfold reqb; destruct (Req_EM_T xt 0); [contradiction|reflexivity]). cbn [andb].
    assert (D : fadd rnd 0 (fsub rnd (fadd rnd (fmul rnd x yt) (fmul rnd y xt)) (fadd rnd (fmul rnd y xt) (fmul rnd x yt))) = 0).
    { generalize (fmul rnd x yt) (fmul rnd y xt). intros u v. unfold fadd, fsub. replace (v + u) with (u + v) by ring. replace (rnd (u + v) - rnd (u + v)) with 0 by ring. rewrite fround_0. now rewrite Rplus_0_l, fround_0. }
    rewrite D. rewrite Rabs_R0. replace (fadd rnd (fmul rnd ccwC detsum) (fmul rnd resb 0)) with (rnd (rnd (ccwC * detsum))) by (unfold fadd, fmul; now rewrite Rmult_0_r, fround_0, Rplus_0_r).
    rewrite (rnd_id (rnd _)) by (apply FN_rd; lia). rewrite rnd_gt0 by exact HC. rewrite Hn by exact Hm. reflexivity.
  Qed.
End Adapt.
Print Assumptions C98_two_diff.
Print Assumptions C98_two_two_diff.
Print Assumptions C98_terms_partial.
Print Assumptions C98_equal_refuted.

(** ** Doubles: (2^60, 2), the same point again and (1, 1). *)
Local Notation dbl := (fround 53 None).
Local Notation Fd := (FN 53 None).
Definition spl : R := 134217729.
Definition ex_a : vec := fun i => match i with O => 1152921504606846976 | _ => 2 end.
Definition ex_c : vec := fun _ => 1.
Lemma Fd_at n k x : (Z.abs n <= 2 ^ 53)%Z -> (0 <= k)%Z -> x = IZR (n * 2 ^ k) -> Fd x.
Proof. intros H K ->. exists n, k. split; [exact H|]. split; [exact I|]. now rewrite mult_IZR, <- pw_nat by exact K. Qed.
Lemma Fd_small n : (Z.abs n <= 2 ^ 53)%Z -> Fd (IZR n).
Proof. intros H. apply (Fd_at n 0); [exact H|lia|]. f_equal. lia. Qed.
Lemma dbl_pos x : 0 < x -> 0 < dbl x.
Proof.
  intros H. pose proof (fround_rounding 53 ltac:(lia)) as HR. pose proof (r_mono _ _ HR 0 x ltac:(lra)) as M. rewrite fround_0 in M. destruct M as [M|M]; [exact M|].
  pose proof (r_rel' _ _ HR x) as Q. rewrite <- M, Rabs_R0, Rmult_0_r in Q. apply Rabs_le_inv in Q. lra.
Qed.
(** 2^60 - 1 is rounded to 2^60. *)
Lemma dbl_x : dbl (1152921504606846976 - 1) = 1152921504606846976.
Proof.
  set (x := 1152921504606846976 - 1). assert (F : Fd 1152921504606846976) by (apply (Fd_at 1 60); [lia|lia|reflexivity]).
  pose proof (best 53 None ltac:(lia) x _ F) as B. replace (1152921504606846976 - x) with 1 in B by (unfold x; ring). rewrite (Rabs_pos_eq 1) in B by lra.
  destruct (FN_rd 53 None ltac:(lia) x) as (n & k & Hn & _ & E). rewrite E in *. apply Rabs_le_inv in B.
  assert (K : (7 <= k)%Z).
  { destruct (Z_lt_le_dec k 7) as [L|L]; [exfalso|exact L]. assert (P : powerRZ 2 k <= powerRZ 2 6) by (apply pw_le; lia). rewrite (pw_nat 6) in P by lia. change (2 ^ 6)%Z with 64%Z in P. pose proof (pw_pos k) as P0.
    assert (N : IZR n <= 9007199254740992) by (apply IZR_le; lia). assert (IZR n * powerRZ 2 k <= 9007199254740992 * 64) by nra. unfold x in B. lra. }
  rewrite pw_nat, <- mult_IZR in * by lia. replace k with (7 + (k - 7))%Z in * by lia. rewrite Z.pow_add_r in * by lia. change (2 ^ 7)%Z with 128%Z in *. unfold x in B.
  set (m := (n * (128 * 2 ^ (k - 7)))%Z) in *. assert (M1 : (1152921504606846974 <= m)%Z) by (apply le_IZR; lra). assert (M2 : (m <= 1152921504606846976)%Z) by (apply le_IZR; lra).
  assert (M : (m = 128 * (n * 2 ^ (k - 7)))%Z) by (unfold m; ring). f_equal. lia.
Qed.
Ltac dnum v n k := match goal with |- context [dbl ?x] => lazymatch x with context [dbl _] => fail | _ => replace (dbl x) with v by (replace x with v by lra; symmetry; apply rnd_id; [lia|apply (Fd_at n k); [lia|lia|reflexivity]]) end end.
Ltac dany := first [dnum 0 0%Z 0%Z|dnum 1 1%Z 0%Z|dnum 134217728 1%Z 27%Z|dnum 134217729 134217729%Z 0%Z|dnum 1152921504606846976 1%Z 60%Z|dnum 154742506063594038969237504 134217729%Z 60%Z|dnum 154742504910672534362390528 1%Z 87%Z].
Lemma ex_prod1 : two_product dbl spl 1152921504606846976 1 = (1152921504606846976, 0).
Proof. unfold two_product, split_fp, fmul, fsub, spl. repeat dany. reflexivity. Qed.
Lemma ex_prod2 : two_product dbl spl 1 1152921504606846976 = (1152921504606846976, 0).
Proof. unfold two_product, split_fp, fmul, fsub, spl. repeat dany. reflexivity. Qed.
(** orient calls orient_adapt for them, which reads behind its arrays, whatever the (positive) constants. *)
Example C98_ex A ccwB ccwC resb : 0 < A -> 0 < ccwB -> 0 < ccwC ->
  orient2_fp dbl A ex_a ex_a ex_c = Adapt 2305843009213693952 /\
  exists n, forall m, (n <= m)%nat -> orient2_adapt dbl spl ccwB ccwC resb ex_a ex_a ex_c 2305843009213693952 m = Undef.
Proof.
  intros HA HB HC. assert (Y : dbl (2 - 1) = 1) by (replace (2 - 1) with (IZR 1) by lra; apply rnd_id; [lia|apply Fd_small; lia]). split.
  - unfold orient2_fp, fmul, fsub, fadd, ex_a, ex_c. cbv zeta. rewrite dbl_x, Y. replace (1 * 1152921504606846976) with (1152921504606846976 * 1) by ring. repeat dnum 1152921504606846976 1%Z 60%Z. dnum 2305843009213693952 1%Z 61%Z.
    unfold rltb at 1. destruct (Rlt_dec 0 1152921504606846976); [|lra]. replace (rleb 1152921504606846976 0) with false by (symmetry; apply rleb_no; lra).
    replace (1152921504606846976 - 1152921504606846976) with 0 by lra. rewrite fround_0. rewrite rnd_gt0 by (apply dbl_pos; lra). reflexivity.
  - apply C98_equal_refuted.
    + lia.
    + unfold product_exact, ex_a, ex_c. rewrite dbl_x, Y, ex_prod1. split; [apply (Fd_at 1 60); [lia|lia|reflexivity]|]. split; [apply FN_0; lia|lra].
    + unfold product_exact, ex_a, ex_c. rewrite dbl_x, Y, ex_prod2. split; [apply (Fd_at 1 60); [lia|lia|reflexivity]|]. split; [apply FN_0; lia|lra].
    + unfold ex_a, ex_c. rewrite dbl_x. lra.
    + apply (Fd_at 1 60); [lia|lia|reflexivity].
    + apply Fd_small. lia.
    + apply dbl_pos. lra.
    + apply dbl_pos. lra.
Qed.
Lemma ex_tail : two_diff_tail dbl 1152921504606846976 1 1152921504606846976 = -1.
Proof.
  assert (F : Fd 1152921504606846976) by (apply (Fd_at 1 60); [lia|lia|reflexivity]). pose proof (C98_two_diff 53 None ltac:(lia) _ 1 F (Fd_small 1 ltac:(lia))) as Q. unfold two_diff, fsub in Q. rewrite dbl_x in Q. destruct Q as (_ & Q & _). lra.
Qed.
Ltac dneg := first [dany|dnum (-1) (-1)%Z 0%Z|dnum (-134217728) (-1)%Z 27%Z|dnum (-134217729) (-134217729)%Z 0%Z].
Definition ex_b : vec := fun i => match i with O => 1 | _ => 2 end.
(** (2^60, 2), (1, 2) and (1, 1): the tail of the first difference is -1, and the expansions add up to 2^60 - 1, which is not a double. *)
Example C98_terms_ex : rsum (prod_diff dbl spl 1152921504606846976 1 1 0) + rsum (prod_diff dbl spl (-1) 1 0 0) + rsum (prod_diff dbl spl 1152921504606846976 0 1 0) + rsum (prod_diff dbl spl (-1) 0 0 0) = 1152921504606846975.
Proof.
  assert (F60 : Fd 1152921504606846976) by (apply (Fd_at 1 60); [lia|lia|reflexivity]). assert (F1 : Fd 1) by (apply Fd_small; lia). assert (F2 : Fd 2) by (apply Fd_small; lia).
  assert (Y : dbl (2 - 1) = 1) by (replace (2 - 1) with (IZR 1) by lra; apply rnd_id; [lia|apply Fd_small; lia]). assert (O : dbl (1 - 1) = 0) by (replace (1 - 1) with 0 by lra; apply fround_0).
  assert (TY : two_diff_tail dbl 2 1 1 = 0). { pose proof (C98_two_diff 53 None ltac:(lia) 2 1 F2 F1) as Q. unfold two_diff, fsub in Q. rewrite Y in Q. destruct Q as (_ & Q & _). lra. }
  assert (TO : two_diff_tail dbl 1 1 0 = 0). { pose proof (C98_two_diff 53 None ltac:(lia) 1 1 F1 F1) as Q. unfold two_diff, fsub in Q. rewrite O in Q. destruct Q as (_ & Q & _). lra. }
  pose proof (C98_terms_partial 53 None ltac:(lia) spl ex_a ex_b ex_c) as T. unfold ex_a, ex_b, ex_c, det2 in T. cbv zeta in T. rewrite dbl_x, Y, O, ex_tail, TY, TO in T. destruct T as [T _].
  - intros [|[|i]] H; [| |lia]; now repeat split.
  - assert (F0 : Fd 0) by (apply Fd_small; lia). assert (Fm : Fd (-1)) by (apply Fd_small; lia).
    intros x y H. unfold product_exact. cbn [In] in H.
    repeat (destruct H as [H|H]; [injection H as <- <-; unfold two_product, split_fp, fmul, fsub, spl; repeat dneg; split; [assumption|split; [assumption|lra]]|]). contradiction.
  - rewrite T. lra.
Qed.
