(** Proofs about boxes, spheres and simplices. *)
From Verif Require Import Outcome GeoModel GeoSpec.
From Coq Require Import Lia Psatz.
Local Open Scope R_scope.

Lemma rleb_iff : forall x y, rleb x y = true <-> x <= y.
Proof. intros. unfold rleb. destruct (Rle_dec x y); split; intros; try easy. Qed.
Lemma rltb_iff : forall x y, rltb x y = true <-> x < y.
Proof. intros. unfold rltb. destruct (Rlt_dec x y); split; intros; try easy. Qed.
Lemma reqb_iff : forall x y, reqb x y = true <-> x = y.
Proof. intros. unfold reqb. destruct (Req_EM_T x y); split; intros; try easy. Qed.
Lemma rltb_false : forall x y, rltb x y = false <-> y <= x.
Proof. intros. unfold rltb. destruct (Rlt_dec x y); split; intros; try easy; lra. Qed.
Lemma rleb_false : forall x y, rleb x y = false <-> y < x.
Proof. intros. unfold rleb. destruct (Rle_dec x y); split; intros; try easy; lra. Qed.
Lemma reqb_refl : forall x, reqb x x = true. Proof. intros. now apply reqb_iff. Qed.
Lemma reqb_false : forall x y, x <> y -> reqb x y = false.
Proof. intros. unfold reqb. now destruct (Req_EM_T x y). Qed.

Lemma forallb_seq : forall D f, forallb f (seq 0 D) = true <-> forall d, (d < D)%nat -> f d = true.
Proof.
  intros. rewrite forallb_forall. split; intros H d Hd; apply H.
  - apply in_seq. lia.
  - apply in_seq in Hd. lia.
Qed.
Lemma sum_loop_sumn : forall D f, sum_loop D f = sumn D f.
Proof.
  intros. unfold sum_loop. induction D as [|D IH]; [reflexivity|].
  rewrite seq_S, fold_left_app. cbn [sumn fold_left]. now rewrite IH.
Qed.
Lemma sumn_ext : forall D f g, (forall d, (d < D)%nat -> f d = g d) -> sumn D f = sumn D g.
Proof. induction D; intros; cbn [sumn]; [reflexivity|]. rewrite (IHD f g), H by (intros; try apply H; lia). reflexivity. Qed.
Lemma sumn_le : forall D f g, (forall d, (d < D)%nat -> f d <= g d) -> sumn D f <= sumn D g.
Proof. induction D; intros; cbn [sumn]; [lra|]. apply Rplus_le_compat; [apply IHD; intros; apply H; lia|apply H; lia]. Qed.
Lemma sumn_nonneg : forall D f, (forall d, (d < D)%nat -> 0 <= f d) -> 0 <= sumn D f.
Proof. induction D; intros; cbn [sumn]; [lra|]. apply Rplus_le_le_0_compat; [apply IHD; intros; apply H; lia|apply H; lia]. Qed.
Lemma sumn_ge1 : forall D f d, (forall d, (d < D)%nat -> 0 <= f d) -> (d < D)%nat -> f d <= sumn D f.
Proof.
  induction D; intros f d H Hd; [lia|]. cbn [sumn].
  assert (0 <= sumn D f) by (apply sumn_nonneg; intros; apply H; lia).
  assert (0 <= f D) by (apply H; lia).
  destruct (Nat.eq_dec d D) as [->|]; [lra|].
  assert (f d <= sumn D f) by (apply IHD; [intros; apply H; lia|lia]). lra.
Qed.
Lemma sumn_one : forall D f d, (d < D)%nat -> (forall i, (i < D)%nat -> i <> d -> f i = 0) -> sumn D f = f d.
Proof.
  induction D; intros f d Hd H; [lia|]. cbn [sumn]. destruct (Nat.eq_dec d D) as [->|].
  - assert (E : sumn D f = sumn D (fun _ => 0)) by (apply sumn_ext; intros; apply H; lia).
    assert (Z : forall n, sumn n (fun _ => 0) = 0) by (induction n; cbn [sumn]; lra).
    rewrite E, Z. lra.
  - rewrite (IHD f d), (H D); try lia; [lra|]. intros; apply H; lia.
Qed.
Lemma sqr_nonneg : forall x : R, 0 <= x ^ 2. Proof. intros. nra. Qed.
Lemma sqr_le : forall x r, 0 <= r -> x ^ 2 <= r ^ 2 -> - r <= x <= r.
Proof. intros. split; nra. Qed.
Lemma le_sqr : forall x r, - r <= x <= r -> x ^ 2 <= r ^ 2.
Proof. intros. nra. Qed.
Lemma dist2_nonneg : forall D x y, 0 <= dist2 D x y.
Proof. intros. apply sumn_nonneg. intros. apply sqr_nonneg. Qed.
Lemma dist2_sym : forall D x y, dist2 D x y = dist2 D y x.
Proof. intros. apply sumn_ext. intros. ring. Qed.
Lemma sq_distance_spec : forall D a p, sq_distance D a p = dist2 D a p.
Proof. intros. unfold sq_distance. rewrite sum_loop_sumn. apply sumn_ext. intros. ring. Qed.

(** ** Boxes *)
Lemma box_has_spec : forall D b p, box_has D b p = true <-> in_box D b p.
Proof.
  intros. unfold box_has, in_box. rewrite forallb_seq. split; intros H d Hd; specialize (H d Hd).
  - apply andb_prop in H. now rewrite !rleb_iff in H.
  - apply andb_true_intro. now rewrite !rleb_iff.
Qed.
Lemma box_has_box_spec : forall D b c, box_ok D c ->
  (box_has_box D b c = true <-> forall p, in_box D c p -> in_box D b p).
Proof.
  intros D b c Hc. unfold box_has_box. rewrite forallb_seq. split.
  - intros H p Hp d Hd. specialize (H d Hd). specialize (Hp d Hd). apply andb_prop in H. rewrite !rleb_iff in H. lra.
  - intros H d Hd. apply andb_true_intro. rewrite !rleb_iff. split.
    + apply (H (b_lo c)); [|exact Hd]. intros i Hi. specialize (Hc i Hi). lra.
    + apply (H (b_hi c)); [|exact Hd]. intros i Hi. specialize (Hc i Hi). lra.
Qed.

Definition excess (b : box) (s : sphere) (d : nat) : R := Rmax (b_lo b d - sp_c s d) 0 + Rmax (sp_c s d - b_hi b d) 0.
Lemma excess_nonneg : forall b s d, 0 <= excess b s d.
Proof. intros. unfold excess. pose proof (Rmax_r (b_lo b d - sp_c s d) 0). pose proof (Rmax_r (sp_c s d - b_hi b d) 0). lra. Qed.
Lemma inter_loop_spec : forall b s ds dist, 0 <= dist -> (0 <= sp_r s \/ ds <> nil) ->
  (inter_loop b s ds dist = true <->
   0 <= sp_r s /\ fold_left (fun a d => a + excess b s d * excess b s d) ds dist <= sp_r s * sp_r s).
Proof.
  intros b s. assert (Mono : forall ds x, x <= fold_left (fun a d => a + excess b s d * excess b s d) ds x).
  { induction ds as [|d t IH]; intros; cbn [fold_left]; [lra|].
    specialize (IH (x + excess b s d * excess b s d)). pose proof (excess_nonneg b s d). nra. }
  induction ds as [|d t IH]; intros dist Hd Hr; cbn [inter_loop fold_left].
  - rewrite rleb_iff. destruct Hr as [Hr|Hr]; [tauto|now contradiction Hr].
  - fold (excess b s d). pose proof (excess_nonneg b s d) as He.
    destruct (rltb (sp_r s) (excess b s d)) eqn:E.
    + apply rltb_iff in E. split; [discriminate|]. intros [H0 H1].
      specialize (Mono t (dist + excess b s d * excess b s d)). nra.
    + apply rltb_false in E. apply IH; [nra|left; lra].
Qed.
(** The point of the box closest to [c]. *)
Definition closest (b : box) (c : vec) : vec :=
  fun d => if Rle_dec (b_lo b d) (c d) then if Rle_dec (c d) (b_hi b d) then c d else b_hi b d else b_lo b d.
Lemma closest_in : forall D b c, box_ok D b -> in_box D b (closest b c).
Proof. intros D b c H d Hd. specialize (H d Hd). unfold closest. destruct (Rle_dec _ _); [destruct (Rle_dec _ _)|]; lra. Qed.
Lemma closest_excess : forall b s d, b_lo b d <= b_hi b d -> (closest b (sp_c s) d - sp_c s d) ^ 2 = excess b s d ^ 2.
Proof.
  intros b s d H. unfold closest, excess. destruct (Rle_dec _ _); [destruct (Rle_dec _ _)|].
  - rewrite !Rmax_right by lra. ring.
  - rewrite Rmax_right, Rmax_left by lra. ring.
  - rewrite Rmax_left, Rmax_right by lra. ring.
Qed.
Lemma closest_least : forall b c d p, b_lo b d <= p <= b_hi b d -> (closest b c d - c d) ^ 2 <= (p - c d) ^ 2.
Proof.
  intros b c d p H. unfold closest. destruct (Rle_dec _ _); [destruct (Rle_dec _ _)|].
  - pose proof (sqr_nonneg (p - c d)). replace ((c d - c d) ^ 2) with 0 by ring. lra.
  - nra.
  - nra.
Qed.
Lemma closest_dist : forall D b c p, in_box D b p -> dist2 D (closest b c) c <= dist2 D p c.
Proof. intros D b c p H. apply sumn_le. intros d Hd. apply closest_least, H, Hd. Qed.
Lemma dist_excess : forall D b s, box_ok D b ->
  fold_left (fun a d => a + excess b s d * excess b s d) (seq 0 D) 0 = dist2 D (closest b (sp_c s)) (sp_c s).
Proof.
  intros D b s H. change (sum_loop D (fun d => excess b s d * excess b s d) = dist2 D (closest b (sp_c s)) (sp_c s)).
  rewrite sum_loop_sumn. apply sumn_ext. intros d Hd. rewrite closest_excess by (apply H, Hd). ring.
Qed.
Lemma meets_closest : forall D b s, box_ok D b -> (0 < D)%nat -> (box_meets D b s = true <-> in_ball D s (closest b (sp_c s))).
Proof.
  intros D b s Hb HD. unfold box_meets, in_ball. rewrite inter_loop_spec; [|lra|right; destruct D; [lia|discriminate]].
  rewrite dist_excess by exact Hb. replace (sp_r s ^ 2) with (sp_r s * sp_r s) by ring. tauto.
Qed.
Lemma box_meets_spec : forall D b s, box_ok D b -> (0 < D)%nat ->
  (box_meets D b s = true <-> exists p, in_box D b p /\ in_ball D s p).
Proof.
  intros D b s Hb HD. rewrite meets_closest by assumption. split.
  - intros H. exists (closest b (sp_c s)). split; [now apply closest_in|exact H].
  - intros (p & Hp & Hr & H). split; [exact Hr|]. pose proof (closest_dist D b (sp_c s) p Hp). lra.
Qed.

Lemma vset_same : forall p d x, vset p d x d = x. Proof. intros. unfold vset. now rewrite Nat.eqb_refl. Qed.
Lemma vset_other : forall p d x i, i <> d -> vset p d x i = p i.
Proof. intros. unfold vset. now rewrite (proj2 (Nat.eqb_neq i d) H). Qed.
Lemma vset_dist : forall D c d x, (d < D)%nat -> dist2 D (vset c d x) c = (x - c d) ^ 2.
Proof.
  intros. unfold dist2. rewrite (sumn_one D _ d H).
  - now rewrite vset_same.
  - intros i _ Hi. rewrite vset_other by exact Hi. ring.
Qed.
Lemma dist2_coord : forall D p c d, (d < D)%nat -> (p d - c d) ^ 2 <= dist2 D p c.
Proof. intros. unfold dist2. apply (sumn_ge1 D (fun d => (p d - c d) ^ 2) d); [intros; apply sqr_nonneg|exact H]. Qed.

Lemma box_has_sphere_spec : forall D b s, 0 <= sp_r s -> (0 < D)%nat ->
  (box_has_sphere D b s = true <-> forall p, in_ball D s p -> in_box D b p).
Proof.
  intros D b s Hr HD. unfold box_has_sphere. cbv zeta.
  change (forallb (fun d => rleb (b_lo b d) (sp_c s d) && rleb (sp_c s d) (b_hi b d)) (seq 0 D)) with (box_has D b (sp_c s)).
  set (x := fun d => if rltb (sp_c s d) ((b_hi b d + b_lo b d) / 2) then b_lo b d else b_hi b d).
  assert (E : forallb (fun d =>
       let p := vset (sp_c s) d (if rltb (sp_c s d) ((b_hi b d + b_lo b d) / 2) then b_lo b d else b_hi b d) in
       negb (rltb (sum_loop D (fun i => (sp_c s i - p i) * (sp_c s i - p i))) (sp_r s * sp_r s))) (seq 0 D) = true <->
     forall d, (d < D)%nat -> sp_r s ^ 2 <= (x d - sp_c s d) ^ 2).
  { rewrite forallb_seq. split; intros H d Hd; specialize (H d Hd); cbv zeta in *; fold (x d) in *;
      rewrite <- (vset_dist D) in * by exact Hd;
      assert (S : sum_loop D (fun i => (sp_c s i - vset (sp_c s) d (x d) i) * (sp_c s i - vset (sp_c s) d (x d) i)) =
                  dist2 D (vset (sp_c s) d (x d)) (sp_c s))
        by (rewrite sum_loop_sumn; apply sumn_ext; intros; ring); rewrite S in *.
    - apply Bool.negb_true_iff, rltb_false in H. lra.
    - apply Bool.negb_true_iff, rltb_false. lra. }
  destruct (box_has D b (sp_c s)) eqn:C.
  - rewrite E. apply box_has_spec in C. split.
    + intros H p [_ Hp] d Hd. specialize (H d Hd). specialize (C d Hd). pose proof (dist2_coord D p (sp_c s) d Hd).
      assert (Hp2 : - sp_r s <= p d - sp_c s d <= sp_r s) by (apply sqr_le; lra).
      unfold x in H. destruct (rltb _ _) eqn:L; [apply rltb_iff in L|apply rltb_false in L]; clear - H C Hp2 L Hr; split; nra.
    + intros H d Hd. specialize (C d Hd).
      assert (Hb : forall y, (y - sp_c s d) ^ 2 <= sp_r s ^ 2 -> b_lo b d <= y <= b_hi b d).
      { intros y Hy. rewrite <- (vset_same (sp_c s) d y). apply H; [|exact Hd]. split; [exact Hr|]. now rewrite vset_dist. }
      assert (H1 := Hb (sp_c s d - sp_r s) ltac:(nra)). assert (H2 := Hb (sp_c s d + sp_r s) ltac:(nra)).
      unfold x. destruct (rltb _ _); clear - H1 H2 C Hr; nra.
  - split; [discriminate|]. intros H. assert (B : in_box D b (sp_c s)).
    { apply H. split; [exact Hr|]. unfold dist2. rewrite (sumn_ext D _ (fun _ => 0)) by (intros; ring).
      assert (Z : forall n, sumn n (fun _ => 0) = 0) by (induction n; cbn [sumn]; lra). rewrite Z. nra. }
    apply box_has_spec in B. congruence.
Qed.

Lemma split_box_spec : forall D b d x, (d < D)%nat -> b_lo b d <= x <= b_hi b d ->
  forall p, (in_box D b p <-> in_box D (fst (split_box b d x)) p \/ in_box D (snd (split_box b d x)) p).
Proof.
  intros D b d x Hd Hx p. unfold split_box, in_box. cbn [fst snd b_lo b_hi]. split.
  - intros H. destruct (Rle_dec (p d) x) as [L|L].
    + left. intros i Hi. specialize (H i Hi). destruct (Nat.eq_dec i d) as [->|N].
      * rewrite vset_same. lra.
      * rewrite vset_other by exact N. lra.
    + right. intros i Hi. specialize (H i Hi). destruct (Nat.eq_dec i d) as [->|N].
      * rewrite vset_same. lra.
      * rewrite vset_other by exact N. lra.
  - intros [H|H] i Hi; specialize (H i Hi); (destruct (Nat.eq_dec i d) as [->|N];
      [rewrite vset_same in H; lra|rewrite vset_other in H by exact N; lra]).
Qed.
Lemma split_box_both : forall D b d x p, (d < D)%nat ->
  in_box D (fst (split_box b d x)) p -> in_box D (snd (split_box b d x)) p -> p d = x.
Proof.
  intros D b d x p Hd H1 H2. specialize (H1 d Hd). specialize (H2 d Hd). unfold split_box in *. cbn [fst snd b_lo b_hi] in *.
  rewrite vset_same in *. lra.
Qed.
Lemma box_minus_lower : forall b d x i, x <> b_hi b d ->
  b_lo (box_minus b (fst (split_box b d x))) i = b_lo (snd (split_box b d x)) i /\
  b_hi (box_minus b (fst (split_box b d x))) i = b_hi (snd (split_box b d x)) i.
Proof.
  intros b d x i Hx. unfold box_minus, split_box. cbn [fst snd b_lo b_hi]. rewrite reqb_refl.
  destruct (Nat.eq_dec i d) as [->|N].
  - rewrite !vset_same. rewrite reqb_false by congruence. easy.
  - rewrite !vset_other by exact N. now rewrite reqb_refl.
Qed.
Lemma box_minus_upper : forall b d x i, x <> b_lo b d ->
  b_lo (box_minus b (snd (split_box b d x))) i = b_lo (fst (split_box b d x)) i /\
  b_hi (box_minus b (snd (split_box b d x))) i = b_hi (fst (split_box b d x)) i.
Proof.
  intros b d x i Hx. unfold box_minus, split_box. cbn [fst snd b_lo b_hi]. rewrite reqb_refl.
  destruct (Nat.eq_dec i d) as [->|N].
  - rewrite !vset_same. rewrite reqb_false by congruence. easy.
  - rewrite !vset_other by exact N. now rewrite reqb_refl.
Qed.
