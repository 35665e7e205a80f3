(** C85, C86: the first stage of the predicates. *)
From Verif Require Import Outcome GeoModel PredModel PredSpec PredProofs FloatProofs FloatInit.
From Coq Require Import ZArith Lia Psatz.
Local Open Scope R_scope.

(** For every rounding with relative error eps: if one of the four predicates returns after the first stage, the result has the sign of the
    determinant; otherwise the determinant is within a few units of rounding of zero. *)
Theorem C85_stage eps rnd : rounding eps rnd ->
  (forall a b c, stage_ok (orient2_fp rnd (bound eps 3 16) a b c) (bound eps 3 16) (orient2 a b c) (orient2_size a b c)) /\
  (forall a b c d, stage_ok (insphere2_fp rnd (bound eps 10 96) a b c d) (bound eps 10 96) (insphere2 a b c d) (insphere2_size a b c d)) /\
  (forall a b c d, stage_ok (orient3_fp rnd (bound eps 7 56) a b c d) (bound eps 7 56) (orient3 a b c d) (orient3_size a b c d)) /\
  (forall a b c d e, stage_ok (insphere3_fp rnd (bound eps 16 224) a b c d e) (bound eps 16 224) (insphere3 a b c d e) (insphere3_size a b c d e)).
Proof.
  intros H. repeat split; intros; unfold stage_ok.
  - destruct (orient2_stage eps rnd H a b c _ eq_refl) as [H1 H2]. destruct (orient2_fp _ _ _ _ _) as [x|x]; [now apply H1|now apply (H2 x)].
  - destruct (insphere2_stage eps rnd H a b c d _ eq_refl) as [H1 H2]. destruct (insphere2_fp _ _ _ _ _ _) as [x|x]; [now apply H1|now apply (H2 x)].
  - destruct (orient3_stage eps rnd H a b c d _ eq_refl) as [H1 H2]. destruct (orient3_fp _ _ _ _ _ _) as [x|x]; [now apply H1|now apply (H2 x)].
  - destruct (insphere3_stage eps rnd H a b c d e _ eq_refl) as [H1 H2]. destruct (insphere3_fp _ _ _ _ _ _ _) as [x|x]; [now apply H1|now apply (H2 x)].
Qed.
Print Assumptions C85_stage.
(** Such a rounding: to nearest, with p bits. *)
Example C85_stage_ex : rounding (powerRZ 2 (-53)) (fround 53 None) /\ rounding (powerRZ 2 (-24)) (fround 24 None).
Proof. split; [apply (fround_rounding 53)|apply (fround_rounding 24)]; lia. Qed.

(** The static constructor finds the relative error of the arithmetic and the bounds, without rounding. *)
Theorem C85_constants p lo : (10 <= p)%Z -> match lo with Some l => (l <= 3 - 2 * p)%Z | None => True end ->
  let eps := powerRZ 2 (- p) in
  returns (exact_init (fround p lo)) (mkconsts eps (powerRZ 2 ((p + 1) / 2) + 1) (bound eps 3 16) (bound eps 7 56) (bound eps 10 96) (bound eps 16 224)).
Proof. intros H1 H2. now apply init_consts. Qed.
Print Assumptions C85_constants.
Example C85_constants_ex : returns (exact_init (fround 53 (Some (-1074)%Z))) (mkconsts (powerRZ 2 (-53)) (powerRZ 2 27 + 1)
  (bound (powerRZ 2 (-53)) 3 16) (bound (powerRZ 2 (-53)) 7 56) (bound (powerRZ 2 (-53)) 10 96) (bound (powerRZ 2 (-53)) 16 224)).
Proof. apply (C85_constants 53 (Some (-1074)%Z)); lia. Qed.

Lemma bound_mult p m n : (10 <= p)%Z -> mult (- (2 * p)) (bound (powerRZ 2 (- p)) (IZR m) (IZR n)).
Proof.
  intros H. unfold bound. replace (- (2 * p))%Z with (- p + - p)%Z by lia. apply mult_mul; [|exists 1%Z; ring].
  apply mult_add; [|exists n; ring]. apply (mult_low _ 0); [lia|]. exists m. cbn. ring.
Qed.
(** With underflow, and the constants of the program: right for points on a grid that is coarse enough.  For double (p = 53, l = -1074): multiples of
    2^-193 (all numbers of magnitude at least 2^-141 are), for float (24, -149): multiples of 2^-20. *)
Theorem C85_ieee p l g fuel k : (10 <= p)%Z -> (g <= 0)%Z -> (l <= 5 * g - 2 * p)%Z -> exact_init (fround p (Some l)) fuel = Val k ->
  let rnd := fround p (Some l) in
  (forall a b c, grid g 2 a -> grid g 2 b -> grid g 2 c -> stage_ok (orient2_fp rnd (k_ccwA k) a b c) (k_ccwA k) (orient2 a b c) (orient2_size a b c)) /\
  (forall a b c d, grid g 2 a -> grid g 2 b -> grid g 2 c -> grid g 2 d -> stage_ok (insphere2_fp rnd (k_iccA k) a b c d) (k_iccA k) (insphere2 a b c d) (insphere2_size a b c d)) /\
  (forall a b c d, grid g 3 a -> grid g 3 b -> grid g 3 c -> grid g 3 d -> stage_ok (orient3_fp rnd (k_o3dA k) a b c d) (k_o3dA k) (orient3 a b c d) (orient3_size a b c d)) /\
  (forall a b c d e, grid g 3 a -> grid g 3 b -> grid g 3 c -> grid g 3 d -> grid g 3 e ->
     stage_ok (insphere3_fp rnd (k_ispA k) a b c d e) (k_ispA k) (insphere3 a b c d e) (insphere3_size a b c d e)).
Proof.
  intros Hp Hg Hl Hk rnd.
  assert (Hl' : (l <= 3 - 2 * p)%Z) by lia. destruct (C85_constants p (Some l) Hp Hl') as [n Hn]. cbv zeta in Hn.
  assert (Ek : exact_init (fround p (Some l)) (max n fuel) = Val k). { apply (exact_init_more _ fuel); [exact Hk|lia]. }
  rewrite (Hn (max n fuel) ltac:(lia)) in Ek. injection Ek as <-. cbn [k_ccwA k_o3dA k_iccA k_ispA]. set (eps := powerRZ 2 (- p)).
  destruct (C85_stage eps (fround p None) (fround_rounding p Hp)) as (S1 & S2 & S3 & S4). unfold rnd.
  repeat split; intros.
  - rewrite (orient2_agree p l g Hg _ (- (2 * p)) (bound_mult p 3 16 Hp)) by (try easy; lia). apply S1.
  - rewrite (insphere2_agree p l g Hg _ (- (2 * p)) (bound_mult p 10 96 Hp)) by (try easy; lia). apply S2.
  - rewrite (orient3_agree p l g Hg _ (- (2 * p)) (bound_mult p 7 56 Hp)) by (try easy; lia). apply S3.
  - rewrite (insphere3_agree p l g Hg _ (- (2 * p)) (bound_mult p 16 224 Hp)) by (try easy; lia). apply S4.
Qed.
Print Assumptions C85_ieee.

(** Points of the plane for an example. *)
Definition pt (x y : R) : vec := fun i => match i with 0%nat => x | _ => y end.
Lemma pt_grid g x y : mult g x -> mult g y -> grid g 2 (pt x y).
Proof. intros H1 H2 [|i] _; easy. Qed.
Lemma int_exact p l n : (2 <= p)%Z -> (l <= 0)%Z -> (Z.abs n <= 2)%Z -> fround p (Some l) (IZR n) = IZR n.
Proof.
  intros Hp Hl Hn. destruct (Z.eq_dec (Z.abs n) 2) as [E|E].
  - replace (IZR n) with (IZR (n / 2) * powerRZ 2 1). 2:{ rewrite pw1. rewrite <- mult_IZR. f_equal. Z.div_mod_to_equations; lia. }
    apply fround_exact; [|lia]. assert (2 ^ 2 <= 2 ^ p)%Z by (apply Z.pow_le_mono_r; lia). Z.div_mod_to_equations; lia.
  - replace (IZR n) with (IZR n * powerRZ 2 0) by (cbn; ring). apply fround_exact; [|lia]. assert (2 ^ 2 <= 2 ^ p)%Z by (apply Z.pow_le_mono_r; lia). lia.
Qed.
Example C85_ieee_ex : let rnd := fround 53 (Some (-1074)%Z) in
  exists k, exact_init rnd 53 = Val k /\ (-1074 <= 5 * -193 - 2 * 53)%Z /\ grid (-193) 2 (pt 1 0) /\ grid (-193) 2 (pt 1 1) /\
    orient2_fp rnd (k_ccwA k) (pt 1 0) (pt 0 1) (pt 0 0) = Early 1 /\ orient2_fp rnd (k_ccwA k) (pt 1 1) (pt (-1) (-1)) (pt 0 0) = Adapt 2.
Proof.
  intros rnd. eexists. split. { apply (init_consts_at 53 (Some (-1074)%Z)); lia. }
  assert (I : forall n, (Z.abs n <= 2)%Z -> rnd (IZR n) = IZR n) by (intros; apply int_exact; lia).
  assert (M : forall n, mult (-193) (IZR n)). { intros n. apply (mult_low _ 0); [lia|]. exists n. cbn. ring. }
  repeat split; try (apply pt_grid; apply M).
  - lia.
  - unfold orient2_fp, fmul, fsub, fadd, pt. cbv zeta. replace (1 - 0) with 1 by ring. replace (0 - 0) with 0 by ring. rewrite (I 1%Z), (I 0%Z) by lia.
    replace (1 * 1) with 1 by ring. replace (0 * 0) with 0 by ring. rewrite (I 1%Z), (I 0%Z) by lia. replace (1 - 0) with 1 by ring. rewrite (I 1%Z) by lia.
    unfold rltb, rleb. destruct (Rlt_dec 0 1); [|lra]. destruct (Rle_dec 0 0); [easy|lra].
  - unfold orient2_fp, fmul, fsub, fadd, pt. cbv zeta. cbn [k_ccwA]. replace (1 - 0) with 1 by ring. replace (-1 - 0) with (-1) by ring. rewrite (I 1%Z), (I (-1)%Z) by lia.
    replace (1 * -1) with (-1) by ring. rewrite (I (-1)%Z) by lia. replace (-1 - -1) with 0 by ring. rewrite (I 0%Z) by lia. replace (- -1 - -1) with 2 by ring. rewrite (I 2%Z) by lia.
    unfold rltb. destruct (Rlt_dec 0 (-1)); [lra|]. destruct (Rlt_dec (-1) 0); [|lra]. unfold rleb at 1. destruct (Rle_dec 0 (-1)); [lra|].
    set (A := bound (powerRZ 2 (- 53)) 3 16). assert (HA : 0 < fround 53 (Some (-1074)%Z) (A * 2)).
    { assert (P := pw_pos (- 53)). assert (P1 : 0 < A) by (unfold A, bound; nra).
      assert (MA : mult (- (2 * 53) + 0) (A * 2)) by (apply mult_mul; [apply (bound_mult 53 3 16); lia|exists 2%Z; cbn; ring]).
      rewrite (proj2 (round_mult 53 (-1074) _ _ MA) ltac:(lia)).
      apply (rnd_pos (powerRZ 2 (- 53)) _ (fround_rounding 53 ltac:(lia))). lra. }
    unfold rleb. destruct (Rle_dec _ 0) as [Q|_]; [destruct (Rlt_not_le _ _ HA Q)|]. rewrite Ropp_0. destruct (Rle_dec _ 0) as [Q|_]; [destruct (Rlt_not_le _ _ HA Q)|easy].
Qed.

(** C86.  It is not so that the predicates are sign exact for all points with double coordinates: for a right-angled triangle with legs of length 2^-600
    orient returns 0, because the products underflow.  inSphere then says of every point that it is in the circumsphere. *)
Theorem C86_all_points_refuted : exists a b c k, let rnd := fround 53 (Some (-1074)%Z) in
  (forall x i, In x (a :: b :: c :: nil)%list -> (i < 2)%nat -> rnd (x i) = x i) /\
  exact_init rnd 53 = Val k /\ orient2_fp rnd (k_ccwA k) a b c = Early 0 /\ 0 < orient2 a b c /\ (forall i, in_sphere 0 i = true).
Proof.
  set (u := powerRZ 2 (- 600)). exists (pt u 0), (pt 0 u), (pt 0 0). eexists. intros rnd.
  assert (Eu : rnd u = u). { unfold u. replace (powerRZ 2 (- 600)) with (1 * powerRZ 2 (- 600)) by ring. apply (fround_exact 53 (Some (-1074)%Z) 1 (- 600)); [reflexivity|lia]. }
  assert (E0 : rnd 0 = 0) by apply fround_0.
  assert (U0 := pw_pos (- 600)). fold u in U0.
  assert (Euu : rnd (u * u) = 0).
  { unfold rnd. assert (Q : u * u = powerRZ 2 (- 1200)) by (unfold u; rewrite <- pw_add; reflexivity). rewrite Q. pose proof (pw_pos (- 1200)). rewrite fround_pos by easy.
    assert (Ee : expo (powerRZ 2 (- 1200)) = (- 1200)%Z). { apply expo_unique. rewrite Rabs_pos_eq by lra. rewrite pw_half. lra. }
    unfold ue. rewrite Ee. change (Z.max (-1074) (- 1200 - 53 + 1)) with (- 1074)%Z.
    assert (En : nearest (powerRZ 2 (- 1200) / powerRZ 2 (- 1074)) = 0%Z).
    { pose proof (pw_pos (- 1074)). replace (powerRZ 2 (- 1200) / powerRZ 2 (- 1074)) with (powerRZ 2 (- 126)) by (replace (- 1200)%Z with (- 126 + - 1074)%Z by lia; rewrite pw_add; field; lra).
      pose proof (pw_pos (- 126)) as P1. assert (P2 : powerRZ 2 (- 126) < 1 / 2). { apply Rle_lt_trans with (powerRZ 2 (- 10)); [apply pw_le; lia|]. change (- 10)%Z with (-10)%Z. rewrite pw_m10. lra. }
      assert (I : Int_part (powerRZ 2 (- 126)) = 0%Z). { destruct (base_Int_part (powerRZ 2 (- 126))) as [I1 I2]. assert (Int_part (powerRZ 2 (- 126)) < 1)%Z by (apply lt_IZR; lra). assert (-1 < Int_part (powerRZ 2 (- 126)))%Z by (apply lt_IZR; lra). lia. }
      unfold nearest, rltb. rewrite I. destruct (Rlt_dec _ _); [easy|lra]. }
    rewrite En. ring. }
  split; [|split; [apply (init_consts_at 53 (Some (-1074)%Z)); lia|split; [|split]]].
  - intros x [|[|i]] [<-|[<-|[<-|[]]]] L; cbn; try easy; lia.
  - unfold orient2_fp, fmul, fsub, fadd, pt. cbv zeta. replace (u - 0) with u by ring. replace (0 - 0) with 0 by ring. rewrite Eu, E0, Euu, Rmult_0_l, E0. replace (0 - 0) with 0 by ring. rewrite E0.
    unfold rltb. destruct (Rlt_dec 0 0); [lra|easy].
  - unfold orient2, pt. nra.
  - intros i. unfold in_sphere, rleb. rewrite Rmult_0_l. destruct (Rle_dec 0 0); [easy|lra].
Qed.
Print Assumptions C86_all_points_refuted.
