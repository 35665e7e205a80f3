(** Proofs about BoxUtils.h and Grid.h. *)
From Verif Require Import Outcome GeoModel GeoSpec GeoProofs.
From Coq Require Import Lia Psatz.
Local Open Scope R_scope.

(** ** BoxUtils *)
Lemma len2_spec : forall D v, len2 D v = sumn D (fun d => v d ^ 2).
Proof. intros. unfold len2, scalar. rewrite sum_loop_sumn. apply sumn_ext. intros. ring. Qed.
(** The entry of vecToBox before it is cut off at zero. *)
Definition over (v : vec) (b : box) (d : nat) : R := Rabs (v d - (b_hi b d + b_lo b d) / 2) - (b_hi b d - b_lo b d) / 2.
Lemma over_arg : forall v b d,
  vminus (fun d => Rabs (vminus v (vscale (vplus (b_hi b) (b_lo b)) (1 / 2)) d))
         (vminus (b_hi b) (vscale (vplus (b_hi b) (b_lo b)) (1 / 2))) d = over v b d.
Proof.
  intros. unfold over, vminus, vplus, vneg, vscale.
  replace (v d + (b_hi b d + b_lo b d) * (1 / 2) * -1) with (v d - (b_hi b d + b_lo b d) / 2) by lra. lra.
Qed.
Lemma over_cases : forall v b d, b_lo b d <= b_hi b d ->
  over v b d = Rmax (b_lo b d - v d) (v d - b_hi b d).
Proof.
  intros v b d H. unfold over. destruct (Rle_dec (v d) ((b_hi b d + b_lo b d) / 2)).
  - rewrite Rabs_left1 by lra. rewrite Rmax_left by lra. lra.
  - rewrite Rabs_right by lra. rewrite Rmax_right by lra. lra.
Qed.
Lemma vec_box_entry : forall v b d, b_lo b d <= b_hi b d -> (vec_box v b d) ^ 2 = (closest b v d - v d) ^ 2.
Proof.
  intros v b d H. unfold vec_box, vec_cb, vec_lq. rewrite over_arg, over_cases by exact H. unfold closest.
  destruct (Rle_dec (b_lo b d) (v d)); [destruct (Rle_dec (v d) (b_hi b d))|].
  - rewrite Rmax_right; [ring|]. apply Rmax_lub; lra.
  - rewrite (Rmax_right (b_lo b d - v d)) by lra. rewrite Rmax_left by lra. ring.
  - rewrite (Rmax_left (b_lo b d - v d)) by lra. rewrite Rmax_left by lra. ring.
Qed.
Lemma vec_box_closest : forall D v b, box_ok D b -> len2 D (vec_box v b) = dist2 D (closest b v) v.
Proof.
  intros D v b H. rewrite len2_spec. apply sumn_ext. intros d Hd. apply vec_box_entry, H, Hd.
Qed.
Lemma vec_box_dist : forall D v b, box_ok D b ->
  (exists q, in_box D b q /\ dist2 D q v = len2 D (vec_box v b)) /\
  (forall q, in_box D b q -> len2 D (vec_box v b) <= dist2 D q v).
Proof.
  intros D v b H. rewrite vec_box_closest by exact H. split.
  - exists (closest b v). split; [now apply closest_in|reflexivity].
  - intros q Hq. now apply closest_dist.
Qed.
Lemma sumn_zero : forall D f, (forall d, (d < D)%nat -> 0 <= f d) -> sumn D f = 0 -> forall d, (d < D)%nat -> f d = 0.
Proof.
  intros D f H E d Hd. pose proof (sumn_ge1 D f d H Hd). pose proof (H d Hd). lra.
Qed.
Lemma dist2_zero : forall D x y, dist2 D x y = 0 -> forall d, (d < D)%nat -> x d = y d.
Proof.
  intros D x y H d Hd. assert (E := sumn_zero D (fun d => (x d - y d) ^ 2) ltac:(intros; apply sqr_nonneg) H d Hd).
  cbv beta in E. nra.
Qed.
Lemma vec_box_zero : forall D v b, box_ok D b -> (len2 D (vec_box v b) = 0 <-> in_box D b v).
Proof.
  intros D v b H. rewrite vec_box_closest by exact H. split.
  - intros E d Hd. rewrite <- (dist2_zero D _ _ E d Hd). exact (closest_in D b v H d Hd).
  - intros Hv. pose proof (closest_dist D b v v Hv) as L. pose proof (dist2_nonneg D (closest b v) v).
    assert (E : dist2 D v v = 0).
    { unfold dist2. rewrite (sumn_ext D _ (fun _ => 0)) by (intros; ring).
      assert (Z : forall n, sumn n (fun _ => 0) = 0) by (induction n; cbn [sumn]; lra). apply Z. }
    lra.
Qed.

(** max_element *)
Lemma max_element_spec : forall D v, (0 < D)%nat ->
  (max_element D v < D)%nat /\ forall d, (d < D)%nat -> v d <= v (max_element D v).
Proof.
  intros D v HD. unfold max_element.
  assert (G : forall n, (n <= D)%nat -> let m := fold_left (fun m d => if rltb (v m) (v d) then d else m) (seq 0 n) 0%nat in
            (m < D)%nat /\ forall d, (d < n)%nat -> v d <= v m).
  { induction n as [|n IH]; intros Hn; [split; [exact HD|intros; lia]|].
    cbv zeta. rewrite seq_S, fold_left_app. cbn [fold_left plus]. destruct IH as [I1 I2]; [lia|]. cbv zeta in I1, I2.
    set (m := fold_left _ (seq 0 n) 0%nat) in *. destruct (rltb (v m) (v n)) eqn:L.
    - apply rltb_iff in L. split; [lia|]. intros d Hd. destruct (Nat.eq_dec d n) as [->|]; [lra|].
      assert (v d <= v m) by (apply I2; lia). lra.
    - apply rltb_false in L. split; [exact I1|]. intros d Hd. destruct (Nat.eq_dec d n) as [->|]; [lra|]. apply I2; lia. }
  exact (G D (le_n D)).
Qed.

(** The boundary of a box. *)
Definition on_border (D : nat) (b : box) (p : vec) : Prop :=
  in_box D b p /\ exists d, (d < D)%nat /\ (p d = b_lo b d \/ p d = b_hi b d).
Lemma boundary_zero : forall D v b, box_ok D b ->
  (forallb (fun d => reqb (vec_box v b d) 0) (seq 0 D) = true <-> in_box D b v).
Proof.
  intros D v b H. rewrite forallb_seq. rewrite <- (vec_box_zero D v b H), len2_spec. split.
  - intros Z. rewrite (sumn_ext D _ (fun _ => 0)) by (intros d Hd; rewrite (proj1 (reqb_iff _ _) (Z d Hd)); ring).
    clear. induction D; cbn [sumn]; lra.
  - intros Z d Hd. apply reqb_iff.
    assert (E := sumn_zero D (fun d => vec_box v b d ^ 2) ltac:(intros; apply sqr_nonneg) Z d Hd). cbv beta in E. nra.
Qed.
Lemma vec_box_boundary_dist : forall D v b, (0 < D)%nat -> box_ok D b ->
  (exists q, on_border D b q /\ dist2 D q v = len2 D (vec_box_boundary D v b)) /\
  (forall q, on_border D b q -> len2 D (vec_box_boundary D v b) <= dist2 D q v).
Proof.
  intros D v b HD H. unfold vec_box_boundary, vec_cbb, vec_lqb.
  set (a := vminus _ _). change (vec_lq a) with (vec_box v b).
  destruct (forallb _ _) eqn:F.
  - apply boundary_zero in F as Hv; [|exact H]. pose proof (max_element_spec D a HD) as [Hm Hmax].
    set (m := max_element D a) in *.
    assert (Ea : forall d, (d < D)%nat -> a d = Rmax (b_lo b d - v d) (v d - b_hi b d)).
    { intros d Hd. unfold a. rewrite over_arg. apply over_cases, H, Hd. }
    assert (El : len2 D (vset (vec_box v b) m (a m)) = a m ^ 2).
    { rewrite len2_spec, (sumn_one D _ m Hm); [now rewrite vset_same|]. intros i Hi Hn. rewrite vset_other by exact Hn.
      rewrite forallb_seq in F. rewrite (proj1 (reqb_iff _ _) (F i Hi)). ring. }
    rewrite El. assert (Hvm := Hv m Hm). assert (Hbm := H m Hm). split.
    + set (x := if Rle_dec (v m - b_hi b m) (b_lo b m - v m) then b_lo b m else b_hi b m).
      exists (vset v m x). rewrite vset_dist by exact Hm. split.
      * split.
        { intros i Hi. destruct (Nat.eq_dec i m) as [->|Hn]; [rewrite vset_same; unfold x; destruct (Rle_dec _ _); lra|].
          rewrite vset_other by exact Hn. apply Hv, Hi. }
        { exists m. split; [exact Hm|]. rewrite vset_same. unfold x. destruct (Rle_dec _ _); tauto. }
      * rewrite (Ea m Hm). unfold x. destruct (Rle_dec _ _); [rewrite Rmax_left by lra|rewrite Rmax_right by lra]; ring.
    + intros q (Hq & d & Hd & Hs). pose proof (dist2_coord D q v d Hd) as Hc. pose proof (Hmax d Hd) as Hx.
      assert (Hvd := Hv d Hd).
      assert (a m <= 0) by (rewrite (Ea m Hm); apply Rmax_lub; lra).
      assert ((a d) ^ 2 <= (q d - v d) ^ 2).
      { rewrite (Ea d Hd). destruct Hs as [-> | ->].
        - pose proof (Rmax_l (b_lo b d - v d) (v d - b_hi b d)).
          assert (Rmax (b_lo b d - v d) (v d - b_hi b d) <= 0) by (apply Rmax_lub; lra). nra.
        - pose proof (Rmax_r (b_lo b d - v d) (v d - b_hi b d)).
          assert (Rmax (b_lo b d - v d) (v d - b_hi b d) <= 0) by (apply Rmax_lub; lra). nra. }
      assert (a m ^ 2 <= a d ^ 2) by nra. lra.
  - assert (Hn : ~ in_box D b v) by (intros Hv; apply (boundary_zero D v b H) in Hv; congruence).
    destruct (vec_box_dist D v b H) as [_ Hall]. rewrite vec_box_closest by exact H. split.
    + exists (closest b v). split; [|reflexivity]. split; [now apply closest_in|].
      assert (W : exists d, (d < D)%nat /\ ~ (b_lo b d <= v d <= b_hi b d)).
      { clear - F H. assert (G : forall ds, (forall d, In d ds -> (d < D)%nat) ->
          forallb (fun d => reqb (vec_box v b d) 0) ds = false -> exists d, (d < D)%nat /\ vec_box v b d <> 0).
        { induction ds as [|d t IH]; intros Hds Hf; [discriminate|]. cbn [forallb] in Hf.
          destruct (reqb (vec_box v b d) 0) eqn:E.
          - apply IH; [intros; apply Hds; now right|exact Hf].
          - exists d. split; [apply Hds; now left|]. intros C. apply reqb_iff in C. congruence. }
        destruct (G (seq 0 D)) as (d & Hd & E); [intros d Hd; apply in_seq in Hd; lia|exact F|].
        exists d. split; [exact Hd|]. intros C. apply E. assert (E2 := vec_box_entry v b d (H d Hd)).
        unfold closest in E2. destruct (Rle_dec _ _); [destruct (Rle_dec _ _)|]; try lra.
        replace ((v d - v d) ^ 2) with 0 in E2 by ring. nra. }
      destruct W as (d & Hd & W). exists d. split; [exact Hd|]. unfold closest.
      destruct (Rle_dec _ _); [destruct (Rle_dec _ _)|]; tauto.
    + intros q [Hq _]. rewrite vec_box_closest in Hall by exact H. now apply Hall.
Qed.

(** makeBoundingBox *)
Lemma enlarge_val : forall D b v d, (d < D)%nat ->
  b_lo (enlarge D b v) d = Rmin (b_lo b d) (v d) /\ b_hi (enlarge D b v) d = Rmax (b_hi b d) (v d).
Proof.
  intros D b v d Hd. unfold enlarge. destruct D as [|D]; [lia|]. clear Hd.
  induction D as [|D IH]; [easy|]. rewrite seq_S, fold_left_app. cbn [fold_left enlarge1 b_lo b_hi]. destruct IH as [-> ->].
  split.
  - unfold Rmin. destruct (Rle_dec (b_lo b d) (v d)); destruct (Rle_dec _ _); lra.
  - unfold Rmax. destruct (Rle_dec (b_hi b d) (v d)); destruct (Rle_dec _ _); lra.
Qed.
Lemma enlarge_fold : forall D d vs b, (d < D)%nat ->
  let r := fold_left (enlarge D) vs b in
  (b_lo r d <= b_lo b d /\ forall v, In v vs -> b_lo r d <= v d) /\
  (b_hi b d <= b_hi r d /\ forall v, In v vs -> v d <= b_hi r d) /\
  (b_lo r d = b_lo b d \/ exists v, In v vs /\ b_lo r d = v d) /\
  (b_hi r d = b_hi b d \/ exists v, In v vs /\ b_hi r d = v d).
Proof.
  intros D d vs. induction vs as [|v t IH]; intros b Hd; cbv zeta; cbn [fold_left].
  - repeat split; try lra; try (intros ? []); now left.
  - destruct (enlarge_val D b v d Hd) as [E1 E2]. destruct (IH (enlarge D b v) Hd) as ((A1 & A2) & (A3 & A4) & A5 & A6).
    cbv zeta in *. set (r := fold_left (enlarge D) t (enlarge D b v)) in *. rewrite E1 in A1, A5. rewrite E2 in A3, A6.
    pose proof (Rmin_l (b_lo b d) (v d)). pose proof (Rmin_r (b_lo b d) (v d)).
    pose proof (Rmax_l (b_hi b d) (v d)). pose proof (Rmax_r (b_hi b d) (v d)).
    split; [|split; [|split]].
    + split; [lra|]. intros w [<-|Hw]; [lra|now apply A2].
    + split; [lra|]. intros w [<-|Hw]; [lra|now apply A4].
    + destruct A5 as [A5|(w & Hw & A5)]; [|right; exists w; split; [now right|exact A5]].
      unfold Rmin in A5. destruct (Rle_dec _ _); [now left|right; exists v; split; [now left|exact A5]].
    + destruct A6 as [A6|(w & Hw & A6)]; [|right; exists w; split; [now right|exact A6]].
      unfold Rmax in A6. destruct (Rle_dec _ _); [right; exists v; split; [now left|exact A6]|now left].
Qed.
Lemma bounding_spec : forall D vs, vs <> nil -> exists b, bounding D vs = Some b /\ box_ok D b /\
  (forall v, In v vs -> in_box D b v) /\
  (forall c, (forall v, In v vs -> in_box D c v) -> forall p, in_box D b p -> in_box D c p).
Proof.
  intros D [|v t] H; [now contradiction H|]. clear H. eexists. split; [reflexivity|]. cbn [fold_left].
  set (r := fold_left _ _ _).
  assert (G : forall w, In w (v :: t)%list -> in_box D r w).
  { intros w Hw d Hd. destruct (enlarge_fold D d t (mkbox v v) Hd) as ((A1 & A2) & (A3 & A4) & _). fold r in A1, A2, A3, A4.
    cbn [b_lo b_hi] in *. destruct Hw as [<-|Hw]; [split; assumption|]. split; [now apply A2|now apply A4]. }
  split; [|split; [exact G|]].
  - intros d Hd. destruct (G v (or_introl eq_refl) d Hd). lra.
  - intros c Hc p Hp d Hd. specialize (Hp d Hd).
    destruct (enlarge_fold D d t (mkbox v v) Hd) as (_ & _ & A5 & A6). fold r in A5, A6. cbn [b_lo b_hi] in *.
    split.
    + destruct A5 as [A5|(w & Hw & A5)]; [destruct (Hc v (or_introl eq_refl) d Hd)|destruct (Hc w (or_intror Hw) d Hd)]; lra.
    + destruct A6 as [A6|(w & Hw & A6)]; [destruct (Hc v (or_introl eq_refl) d Hd)|destruct (Hc w (or_intror Hw) d Hd)]; lra.
Qed.

(** ** Grid *)
Lemma fit_iff : forall w x z, 0 < w -> (fit w x = z <-> IZR z * w <= x < IZR (z + 1) * w).
Proof.
  intros w x z Hw. unfold fit. destruct (base_Int_part (x / w)) as [B1 B2].
  assert (B3 : x / w < IZR (Int_part (x / w) + 1)) by (rewrite plus_IZR; lra).
  assert (Ex : x = x / w * w) by (field; lra).
  split.
  - intros <-. set (q := x / w) in *. clearbody q. rewrite Ex. split; [apply Rmult_le_compat_r; lra|apply Rmult_lt_compat_r; lra].
  - set (q := x / w) in *. clearbody q. rewrite Ex.
    intros [H1 H2]. apply Rmult_le_reg_r in H1; [|exact Hw]. apply Rmult_lt_reg_r in H2; [|exact Hw].
    assert (G1 : IZR z < IZR (Int_part q + 1)) by lra. assert (G2 : IZR (Int_part q) < IZR (z + 1)) by lra.
    apply lt_IZR in G1, G2. lia.
Qed.
Lemma index_at_val : forall D w v i, index_at D w v = Val i -> 0 < w ->
  forall d, (d < D)%nat -> IZR (i d) * w <= v d < IZR (i d + 1) * w.
Proof.
  intros D w v i H Hw d Hd. unfold index_at in H. destruct (forallb _ _); [|discriminate]. injection H as <-.
  now apply fit_iff.
Qed.
Lemma in64_iff : forall z, in64 z = true <-> (- 2 ^ 63 <= z < 2 ^ 63)%Z.
Proof. intros. unfold in64. rewrite Bool.andb_true_iff, Z.leb_le, Z.ltb_lt. reflexivity. Qed.
Lemma index_at_ok : forall D w v i, 0 < w ->
  (forall d, (d < D)%nat -> in64 (i d) = true /\ IZR (i d) * w <= v d < IZR (i d + 1) * w) ->
  exists j, index_at D w v = Val j /\ forall d, (d < D)%nat -> j d = i d.
Proof.
  intros D w v i Hw H. unfold index_at. rewrite (proj2 (forallb_seq _ _)).
  - eexists. split; [reflexivity|]. intros d Hd. apply fit_iff; [exact Hw|]. apply H, Hd.
  - intros d Hd. destruct (H d Hd) as [H1 H2]. apply fit_iff in H2; [|exact Hw]. now rewrite H2.
Qed.
Lemma bounds_of_val : forall D w i b, bounds_of D w i = Val b -> forall d, b_lo b d = IZR (i d) * w /\ b_hi b d = IZR (i d + 1) * w.
Proof. intros D w i b H d. unfold bounds_of in H. destruct (forallb _ _); [|discriminate]. injection H as <-. easy. Qed.
Lemma bounds_of_ok : forall D w i b, bounds_of D w i = Val b -> 0 < w -> box_ok D b.
Proof.
  intros D w i b H Hw d Hd. destruct (bounds_of_val D w i b H d) as [-> ->]. rewrite plus_IZR. nra.
Qed.
Lemma index_in_bounds : forall D w v i b, 0 < w -> index_at D w v = Val i -> bounds_of D w i = Val b -> in_box D b v.
Proof.
  intros D w v i b Hw Hi Hb d Hd. destruct (bounds_of_val D w i b Hb d) as [-> ->].
  pose proof (index_at_val D w v i Hi Hw d Hd). lra.
Qed.
Lemma cells_overlap : forall D w i j bi bj p, 0 < w -> bounds_of D w i = Val bi -> bounds_of D w j = Val bj ->
  (exists d, (d < D)%nat /\ i d <> j d) -> in_box D bi p -> in_box D bj p ->
  exists d, (d < D)%nat /\ (p d = b_lo bi d /\ p d = b_hi bj d \/ p d = b_hi bi d /\ p d = b_lo bj d).
Proof.
  intros D w i j bi bj p Hw Bi Bj (d & Hd & N) Hi Hj. exists d. split; [exact Hd|].
  specialize (Hi d Hd). specialize (Hj d Hd).
  destruct (bounds_of_val D w i bi Bi d) as [Ei1 Ei2]. destruct (bounds_of_val D w j bj Bj d) as [Ej1 Ej2].
  rewrite Ei1, Ei2, Ej1, Ej2 in *.
  assert (M : forall a b, (a <= b)%Z -> IZR a * w <= IZR b * w).
  { intros a b L. apply IZR_le in L. nra. }
  destruct (Z_lt_le_dec (i d) (j d)) as [L|L].
  - right. assert (IZR (i d + 1) * w <= IZR (j d) * w) by (apply M; lia). lra.
  - left. assert (IZR (j d + 1) * w <= IZR (i d) * w) by (apply M; lia). lra.
Qed.
Lemma center_index : forall D w i, 0 < w -> (forall d, (d < D)%nat -> in64 (i d) = true) ->
  exists j, index_at D w (center_of w i) = Val j /\ forall d, (d < D)%nat -> j d = i d.
Proof.
  intros D w i Hw Hi. apply index_at_ok; [exact Hw|]. intros d Hd. split; [now apply Hi|].
  unfold center_of. rewrite plus_IZR. lra.
Qed.
