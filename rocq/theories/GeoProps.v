(** C31, C32, C33, C36, C37, C53, C54: boxes, spheres, simplices and grids over exact real numbers. *)
From Verif Require Import Outcome GeoModel GeoSpec GeoProofs GeoCirc GeoBox.
From Coq Require Import Lia Psatz.
Local Open Scope R_scope.

(** Vectors for the examples. *)
Definition v2 (x y : R) : vec := fun d => match d with O => x | _ => y end.
Definition v3 (x y z : R) : vec := fun d => match d with O => x | S O => y | _ => z end.
Ltac dims := let d := fresh in let H := fresh in intros d H; (destruct d as [|[|[|d]]]; [..|lia]); try lia; cbn; lra.
Ltac dims2 := let d := fresh in let H := fresh in intros d H; (destruct d as [|[|d]]; [..|lia]); cbn; lra.

(** ** C31 *)
Theorem C31_contains_point : forall D b p, box_has D b p = true <-> in_box D b p.
Proof. exact box_has_spec. Qed.
Print Assumptions C31_contains_point.
Theorem C31_contains_box : forall D b c, box_ok D c -> (box_has_box D b c = true <-> forall p, in_box D c p -> in_box D b p).
Proof. exact box_has_box_spec. Qed.
Print Assumptions C31_contains_box.
Theorem C31_contains_sphere : forall D b s, 0 <= sp_r s -> (0 < D)%nat ->
  (box_has_sphere D b s = true <-> forall p, in_ball D s p -> in_box D b p).
Proof. exact box_has_sphere_spec. Qed.
Print Assumptions C31_contains_sphere.
Theorem C31_intersects_sphere : forall D b s, box_ok D b -> (0 < D)%nat ->
  (box_meets D b s = true <-> exists p, in_box D b p /\ in_ball D s p).
Proof. exact box_meets_spec. Qed.
Print Assumptions C31_intersects_sphere.
(** The box [0,2]x[0,1]: the ball of radius 1 around (3, 1/2) touches it, that around (3, 2) does not though its
    bounding box touches it; the ball of radius 1/2 around (1, 1/2) lies in the box, a larger one does not. *)
Definition ex_box := mkbox (v2 0 0) (v2 2 1).
Example C31_hypotheses : box_ok 2 ex_box /\ (0 < 2)%nat /\ 0 <= sp_r (mksph (v2 1 (1 / 2)) (1 / 2)).
Proof. split; [dims2|]. split; [lia|cbn; lra]. Qed.
Example C31_touching : box_meets 2 ex_box (mksph (v2 3 (1 / 2)) 1) = true.
Proof.
  apply C31_intersects_sphere; [apply C31_hypotheses|lia|]. exists (v2 2 (1 / 2)). split; [dims2|].
  split; [cbn; lra|]. rewrite dist2_2. cbn. lra.
Qed.
Example C31_corner : box_meets 2 ex_box (mksph (v2 3 2) 1) = false.
Proof.
  destruct (box_meets 2 ex_box (mksph (v2 3 2) 1)) eqn:E; [|reflexivity].
  apply C31_intersects_sphere in E as (p & Hp & _ & Hd); [|apply C31_hypotheses|lia]. rewrite dist2_2 in Hd. cbn in Hd.
  pose proof (Hp 0%nat ltac:(lia)). pose proof (Hp 1%nat ltac:(lia)). cbn in *. nra.
Qed.
Example C31_contained : box_has_sphere 2 ex_box (mksph (v2 1 (1 / 2)) (1 / 2)) = true /\ box_has_sphere 2 ex_box (mksph (v2 1 (1 / 2)) 1) = false.
Proof.
  split.
  - apply C31_contains_sphere; [cbn; lra|lia|]. intros p [_ H]. rewrite dist2_2 in H. cbn [v2 sp_c sp_r] in H.
    pose proof (sqr_nonneg (p 0%nat - 1)). pose proof (sqr_nonneg (p 1%nat - 1 / 2)).
    assert (A : - (1 / 2) <= p 0%nat - 1 <= 1 / 2) by (apply sqr_le; lra). assert (B : - (1 / 2) <= p 1%nat - 1 / 2 <= 1 / 2) by (apply sqr_le; lra).
    intros [|[|d]] Hd; [cbn; lra|cbn; lra|lia].
  - destruct (box_has_sphere 2 ex_box (mksph (v2 1 (1 / 2)) 1)) eqn:E; [|reflexivity].
    assert (G : in_box 2 ex_box (v2 1 (3 / 2))).
    { apply (proj1 (C31_contains_sphere 2 ex_box (mksph (v2 1 (1 / 2)) 1) ltac:(cbn; lra) ltac:(lia)) E). split; [cbn; lra|]. rewrite dist2_2. cbn. lra. }
    specialize (G 1%nat ltac:(lia)). cbn in G. lra.
Qed.
(** splitBox cuts a box into two that share only the cut; operator- gives the other half. *)
Theorem C31_split : forall D b d x, (d < D)%nat -> b_lo b d <= x <= b_hi b d ->
  forall p, (in_box D b p <-> in_box D (fst (split_box b d x)) p \/ in_box D (snd (split_box b d x)) p).
Proof. exact split_box_spec. Qed.
Print Assumptions C31_split.
Theorem C31_split_border : forall D b d x p, (d < D)%nat ->
  in_box D (fst (split_box b d x)) p -> in_box D (snd (split_box b d x)) p -> p d = x.
Proof. exact split_box_both. Qed.
Print Assumptions C31_split_border.
Theorem C31_minus : forall b d x i, x <> b_hi b d ->
  b_lo (box_minus b (fst (split_box b d x))) i = b_lo (snd (split_box b d x)) i /\
  b_hi (box_minus b (fst (split_box b d x))) i = b_hi (snd (split_box b d x)) i.
Proof. exact box_minus_lower. Qed.
Print Assumptions C31_minus.
Example C31_split_case : (0 < 2)%nat /\ b_lo ex_box 0%nat <= 1 <= b_hi ex_box 0%nat /\ 1 <> b_hi ex_box 0%nat.
Proof. cbn. split; [lia|lra]. Qed.

(** ** C32 *)
Theorem C32_circumsphere_2d : forall s0 s1 s2, independent 2 s0 [s1; s2]%list -> exists s, circum2 s0 s1 s2 = Val s /\
  (forall v, In v [s0; s1; s2]%list -> on_sphere 2 s v) /\
  (forall s', (forall v, In v [s0; s1; s2]%list -> on_sphere 2 s' v) -> sph_eq 2 s' s).
Proof. exact circum2_ok. Qed.
Print Assumptions C32_circumsphere_2d.
Theorem C31_minus_upper : forall b d x i, x <> b_lo b d ->
  b_lo (box_minus b (snd (split_box b d x))) i = b_lo (fst (split_box b d x)) i /\
  b_hi (box_minus b (snd (split_box b d x))) i = b_hi (fst (split_box b d x)) i.
Proof. exact box_minus_upper. Qed.
Print Assumptions C31_minus_upper.
Theorem C32_circumsphere_3d : forall s0 s1 s2 s3, independent 3 s0 [s1; s2; s3]%list -> exists s, circum3 s0 s1 s2 s3 = Val s /\
  (forall v, In v [s0; s1; s2; s3]%list -> on_sphere 3 s v) /\
  (forall s', (forall v, In v [s0; s1; s2; s3]%list -> on_sphere 3 s' v) -> sph_eq 3 s' s).
Proof. exact circum3_ok. Qed.
Print Assumptions C32_circumsphere_3d.
Theorem C32_circumsphere_order_2d : forall s0 s1 s2 t0 t1 t2, independent 2 s0 [s1; s2]%list -> independent 2 t0 [t1; t2]%list ->
  (forall v, In v [s0; s1; s2]%list <-> In v [t0; t1; t2]%list) ->
  exists s t, circum2 s0 s1 s2 = Val s /\ circum2 t0 t1 t2 = Val t /\ sph_eq 2 s t.
Proof. exact circum2_perm. Qed.
Print Assumptions C32_circumsphere_order_2d.
Theorem C32_circumsphere_order_3d : forall s0 s1 s2 s3 t0 t1 t2 t3, independent 3 s0 [s1; s2; s3]%list -> independent 3 t0 [t1; t2; t3]%list ->
  (forall v, In v [s0; s1; s2; s3]%list <-> In v [t0; t1; t2; t3]%list) ->
  exists s t, circum3 s0 s1 s2 s3 = Val s /\ circum3 t0 t1 t2 t3 = Val t /\ sph_eq 3 s t.
Proof. exact circum3_perm. Qed.
Print Assumptions C32_circumsphere_order_3d.
(** inSphere: true exactly for the points of the closed ball; [o] and [i] are the values the predicates return, of which
    only the sign is known.  The claim says "strictly inside", see the refutation below. *)
Theorem C32_in_sphere_2d_partial : forall s0 s1 s2 p o i s, independent 2 s0 [s1; s2]%list ->
  (forall v, In v [s0; s1; s2]%list -> on_sphere 2 s v) ->
  has_sign o (orient2 s0 s1 s2) -> has_sign i (insphere2 s0 s1 s2 p) -> (in_sphere o i = true <-> in_ball 2 s p).
Proof. exact in_sphere2_ok. Qed.
Print Assumptions C32_in_sphere_2d_partial.
Theorem C32_in_sphere_3d_partial : forall s0 s1 s2 s3 p o i s, independent 3 s0 [s1; s2; s3]%list ->
  (forall v, In v [s0; s1; s2; s3]%list -> on_sphere 3 s v) ->
  has_sign o (orient3 s0 s1 s2 s3) -> has_sign i (insphere3 s0 s1 s2 s3 p) -> (in_sphere o i = true <-> in_ball 3 s p).
Proof. exact in_sphere3_ok. Qed.
Print Assumptions C32_in_sphere_3d_partial.
Theorem C32_in_sphere_order_2d : forall s0 s1 s2 t0 t1 t2 p o i o' i', independent 2 s0 [s1; s2]%list -> independent 2 t0 [t1; t2]%list ->
  (forall v, In v [s0; s1; s2]%list <-> In v [t0; t1; t2]%list) ->
  has_sign o (orient2 s0 s1 s2) -> has_sign i (insphere2 s0 s1 s2 p) ->
  has_sign o' (orient2 t0 t1 t2) -> has_sign i' (insphere2 t0 t1 t2 p) -> in_sphere o i = in_sphere o' i'.
Proof. exact in_sphere2_perm. Qed.
Print Assumptions C32_in_sphere_order_2d.
Theorem C32_in_sphere_order_3d : forall s0 s1 s2 s3 t0 t1 t2 t3 p o i o' i', independent 3 s0 [s1; s2; s3]%list -> independent 3 t0 [t1; t2; t3]%list ->
  (forall v, In v [s0; s1; s2; s3]%list <-> In v [t0; t1; t2; t3]%list) ->
  has_sign o (orient3 s0 s1 s2 s3) -> has_sign i (insphere3 s0 s1 s2 s3 p) ->
  has_sign o' (orient3 t0 t1 t2 t3) -> has_sign i' (insphere3 t0 t1 t2 t3 p) -> in_sphere o i = in_sphere o' i'.
Proof. exact in_sphere3_perm. Qed.
Print Assumptions C32_in_sphere_order_3d.
Lemma has_sign_self : forall x, has_sign x x. Proof. intros. split; tauto. Qed.
(** Cases: the triangle (0,0) (2,0) (0,2) and the tetrahedron with a further vertex, in two orders. *)
Example C32_triangle : independent 2 (v2 0 0) [v2 2 0; v2 0 2]%list /\ independent 2 (v2 2 0) [v2 0 0; v2 0 2]%list.
Proof. split; apply indep2; unfold orient2, v2; lra. Qed.
Example C32_tetrahedron : independent 3 (v3 0 0 0) [v3 2 0 0; v3 0 2 0; v3 0 0 2]%list /\ independent 3 (v3 0 0 2) [v3 2 0 0; v3 0 2 0; v3 0 0 0]%list.
Proof. split; apply indep3; unfold orient3, v3; cbv zeta; lra. Qed.
Example C32_orders : forall v, In v [v2 0 0; v2 2 0; v2 0 2]%list <-> In v [v2 2 0; v2 0 0; v2 0 2]%list.
Proof. intros v. cbn. tauto. Qed.
Example C32_signs : forall s0 s1 s2 p, has_sign (orient2 s0 s1 s2) (orient2 s0 s1 s2) /\ has_sign (insphere2 s0 s1 s2 p) (insphere2 s0 s1 s2 p).
Proof. intros. split; apply has_sign_self. Qed.
(** The strict form is false: a vertex counts as inside. *)
Theorem C32_in_sphere_strict_refuted : exists s0 s1 s2 p o i s, independent 2 s0 [s1; s2]%list /\
  circum2 s0 s1 s2 = Val s /\ has_sign o (orient2 s0 s1 s2) /\ has_sign i (insphere2 s0 s1 s2 p) /\
  in_sphere o i = true /\ ~ inside 2 s p.
Proof.
  destruct C32_triangle as [H _]. destruct (circum2_ok _ _ _ H) as (s & Es & Hs & _).
  exists (v2 0 0), (v2 2 0), (v2 0 2), (v2 0 0), (orient2 (v2 0 0) (v2 2 0) (v2 0 2)), (insphere2 (v2 0 0) (v2 2 0) (v2 0 2) (v2 0 0)), s.
  assert (O : on_sphere 2 s (v2 0 0)) by (apply Hs; now left). destruct O as [Hr Ho].
  split; [exact H|]. split; [exact Es|]. split; [apply has_sign_self|]. split; [apply has_sign_self|]. split.
  - apply (C32_in_sphere_2d_partial _ _ _ (v2 0 0) _ _ s H Hs); try apply has_sign_self. split; [exact Hr|lra].
  - intros [_ L]. lra.
Qed.
Print Assumptions C32_in_sphere_strict_refuted.
(** For a degenerate simplex inSphere is true for every point, however far away; circumsphere divides by zero. *)
Theorem C32_degenerate : forall s0 s1 s2 o i, ~ independent 2 s0 [s1; s2]%list -> has_sign o (orient2 s0 s1 s2) ->
  in_sphere o i = true /\ circum2 s0 s1 s2 = Undef.
Proof.
  intros s0 s1 s2 o i H Ho. assert (E : orient2 s0 s1 s2 = 0).
  { destruct (Req_dec (orient2 s0 s1 s2) 0) as [E|E]; [exact E|]. apply indep2 in E. contradiction. }
  split; [|now apply circum2_undef]. apply sign_flat. now rewrite E in Ho.
Qed.
Print Assumptions C32_degenerate.
Example C32_degenerate_case : ~ independent 2 (v2 0 0) [v2 1 1; v2 2 2]%list.
Proof. intros H. apply indep2 in H. apply H. unfold orient2, v2. lra. Qed.

(** ** C53: inSimplex *)
Theorem C53_in_simplex_2d : forall p s0 s1 s2, independent 2 s0 [s1; s2]%list -> exists b, in_simplex2 p s0 s1 s2 = Val b /\
  (b = true <-> in_hull 2 [s0; s1; s2]%list p).
Proof. exact in_simplex2_ok. Qed.
Print Assumptions C53_in_simplex_2d.
Theorem C53_in_simplex_3d : forall p s0 s1 s2 s3, independent 3 s0 [s1; s2; s3]%list -> exists b, in_simplex3 p s0 s1 s2 s3 = Val b /\
  (b = true <-> in_hull 3 [s0; s1; s2; s3]%list p).
Proof. exact in_simplex3_ok. Qed.
Print Assumptions C53_in_simplex_3d.
(** Cases: C32_triangle and C32_tetrahedron; a point inside and one outside. *)
Example C53_inside : in_simplex2 (v2 1 (1 / 2)) (v2 0 0) (v2 2 0) (v2 0 2) = Val true.
Proof.
  destruct (C53_in_simplex_2d (v2 1 (1 / 2)) _ _ _ (proj1 C32_triangle)) as (b & -> & Hb). f_equal. apply Hb.
  apply hull3. exists (1 / 2), (1 / 4). repeat split; try lra. dims2.
Qed.
Example C53_outside : in_simplex2 (v2 2 1) (v2 0 0) (v2 2 0) (v2 0 2) = Val false.
Proof.
  destruct (C53_in_simplex_2d (v2 2 1) _ _ _ (proj1 C32_triangle)) as (b & -> & Hb). f_equal. destruct b; [|reflexivity].
  destruct (proj1 Hb eq_refl) as (ws & M & (P & S) & E). exfalso.
  assert (G : in_hull 2 [v2 0 0; v2 2 0; v2 0 2]%list (v2 2 1)) by (exists ws; repeat split; assumption).
  apply hull3 in G as (u & v & Hu & Hv & Hs & L). pose proof (L 0%nat ltac:(lia)). pose proof (L 1%nat ltac:(lia)). cbn in *. lra.
Qed.

(** ** C54: sqDistanceToFace *)
(** In the plane the returned number is the distance to the line through the face divided by the length of the face. *)
Theorem C54_distance_partial : forall p s0 s1, ~ veq 2 s0 s1 ->
  dist_face2 p s0 s1 = Val (Rabs (orient2 s0 s1 p / dist2 2 s0 s1)).
Proof.
  intros p s0 s1 H. apply dist_face2_val. destruct (Req_dec (s1 0%nat) (s0 0%nat)) as [E0|E0]; [|tauto].
  destruct (Req_dec (s1 1%nat) (s0 1%nat)) as [E1|E1]; [|tauto]. exfalso. apply H, veq_2. now split.
Qed.
Print Assumptions C54_distance_partial.
Example C54_case : ~ veq 2 (v2 0 0) (v2 4 0).
Proof. intros H. apply veq_2 in H. cbn in H. lra. Qed.
(** It is not the squared distance to the face, and its order is not that of the distances: the point (0,3) has
    distance 3 to both faces below; the longer face gets the smaller value. *)
Theorem C54_distance_refuted : exists p s0 s1 t0 t1 x y,
  dist_face2 p s0 s1 = Val x /\ dist_face2 p t0 t1 = Val y /\
  (forall q, in_hull 2 [s0; s1]%list q -> 9 <= dist2 2 q p) /\ (exists q, in_hull 2 [s0; s1]%list q /\ dist2 2 q p = 9) /\
  (forall q, in_hull 2 [t0; t1]%list q -> 1 <= dist2 2 q p) /\ (exists q, in_hull 2 [t0; t1]%list q /\ dist2 2 q p = 1) /\
  x <> 9 /\ x < y.
Proof.
  exists (v2 0 3), (v2 0 0), (v2 4 0), (v2 0 2), (v2 1 2). do 2 eexists.
  assert (H2 : forall s0 s1 q, in_hull 2 [s0; s1]%list q <-> exists u, 0 <= u <= 1 /\ veq 2 q (fun d => s0 d + u * (s1 d - s0 d))).
  { intros s0 s1 q. split.
    - intros (ws & M & (P & S) & E). destruct ws as [|[w a] [|[u b] [|? ?]]]; try discriminate. cbn in M. injection M as -> ->.
      inversion_clear P as [|? ? P0 P']. inversion_clear P' as [|? ? P1 _]. cbn in P0, P1, S. exists u. split; [lra|].
      intros d Hd. rewrite (E d Hd). unfold comb. cbn. replace w with (1 - u) by lra. ring.
    - intros (u & Hu & E). exists [(1 - u, s0); (u, s1)]%list. split; [reflexivity|]. split.
      + split; [repeat (apply Forall_cons; [cbn; lra|]); apply Forall_nil|cbn; lra].
      + intros d Hd. rewrite (E d Hd). unfold comb. cbn. ring. }
  split; [apply C54_distance_partial; intros H; apply veq_2 in H; cbn in H; lra|].
  split; [apply C54_distance_partial; intros H; apply veq_2 in H; cbn in H; lra|].
  assert (Lo : forall a c h q, in_hull 2 [v2 a h; v2 c h]%list q -> q 1%nat = h).
  { intros a c h q Hq. apply H2 in Hq as (u & _ & E). specialize (E 1%nat ltac:(lia)). cbn in E. lra. }
  split; [|split; [|split; [|split]]].
  - intros q Hq. pose proof (Lo _ _ _ _ Hq) as E. rewrite dist2_2, E. cbn. pose proof (sqr_nonneg (q 0%nat - 0)). cbn in *. lra.
  - exists (v2 0 0). split; [|rewrite dist2_2; cbn; lra]. apply H2. exists 0. split; [lra|]. dims2.
  - intros q Hq. pose proof (Lo _ _ _ _ Hq) as E. rewrite dist2_2, E. cbn. pose proof (sqr_nonneg (q 0%nat - 0)). cbn in *. lra.
  - exists (v2 0 2). split; [|rewrite dist2_2; cbn; lra]. apply H2. exists 0. split; [lra|]. dims2.
  - rewrite !dist2_2. unfold orient2. cbn [v2].
    replace (((0 - 0) * (0 - 3) - (0 - 3) * (4 - 0)) / ((0 - 4) ^ 2 + (0 - 0) ^ 2)) with (3 / 4) by field.
    replace (((0 - 0) * (2 - 3) - (2 - 3) * (1 - 0)) / ((0 - 1) ^ 2 + (2 - 2) ^ 2)) with 1 by field.
    rewrite !Rabs_right by lra. lra.
Qed.
Print Assumptions C54_distance_refuted.

(** ** C33 *)
(** A simplex of partition [k] whose circumsphere has no point of its own partition inside and does not intersect the
    bounds of any other partition has no point of any partition inside; the points of the others are not even on it. *)
Theorem C33_keep : forall D (n k : nat) (pts : nat -> vec -> Prop) (bounds : nat -> box) (s : sphere), (0 < D)%nat ->
  (forall i p, (i < n)%nat -> pts i p -> in_box D (bounds i) p) ->
  (forall p, pts k p -> ~ inside D s p) ->
  (forall i, (i < n)%nat -> i <> k -> box_meets D (bounds i) s = false) ->
  forall i p, (i < n)%nat -> pts i p -> ~ inside D s p /\ (i <> k -> ~ in_ball D s p).
Proof.
  intros D n k pts bounds s HD Hin Hk Ho i p Hi Hp.
  assert (G : i <> k -> ~ in_ball D s p).
  { intros Hne Hb. specialize (Ho i Hi Hne). specialize (Hin i p Hi Hp).
    assert (box_meets D (bounds i) s = true); [|congruence]. apply box_meets_spec; [|exact HD|now exists p].
    intros d Hd. specialize (Hin d Hd). lra. }
  split; [|exact G]. destruct (Nat.eq_dec i k) as [->|Hne]; [now apply Hk|]. intros [Hr Hl]. apply (G Hne). split; [exact Hr|lra].
Qed.
Print Assumptions C33_keep.
(** Two partitions: [0,2]x[0,2] with a right triangle, and [3,5]x[0,2]. *)
Example C33_case :
  let pts i p := (i = 0%nat /\ In p [v2 0 0; v2 2 0; v2 0 2]%list) \/ (i = 1%nat /\ p = v2 3 1) in
  let bounds i := if Nat.eqb i 0 then mkbox (v2 0 0) (v2 2 2) else mkbox (v2 3 0) (v2 5 2) in
  let s := mksph (v2 1 1) (sqrt 2) in
  (forall i p, (i < 2)%nat -> pts i p -> in_box 2 (bounds i) p) /\ (forall p, pts 0%nat p -> ~ inside 2 s p) /\
  (forall i, (i < 2)%nat -> i <> 0%nat -> box_meets 2 (bounds i) s = false).
Proof.
  cbv zeta. pose proof (sq_sqrt_sum 2 ltac:(lra)) as [S0 S1]. split; [|split].
  - intros i p Hi [[-> Hp]|[-> ->]]; cbn [Nat.eqb]; [|dims2]. destruct Hp as [<-|[<-|[<-|[]]]]; dims2.
  - intros p [[_ Hp]|[C _]]; [|lia]. intros [_ L]. rewrite dist2_2 in L. cbn [sp_c sp_r] in L. rewrite S1 in L.
    destruct Hp as [<-|[<-|[<-|[]]]]; cbn [v2] in L; lra.
  - intros i Hi Hne. assert (i = 1%nat) by lia. subst i. cbn [Nat.eqb].
    destruct (box_meets 2 (mkbox (v2 3 0) (v2 5 2)) (mksph (v2 1 1) (sqrt 2))) eqn:E; [|reflexivity].
    apply box_meets_spec in E as (p & Hp & _ & Hd); [|dims2|lia]. rewrite dist2_2 in Hd. cbn [sp_c sp_r] in Hd. rewrite S1 in Hd. cbn [v2] in Hd.
    pose proof (Hp 0%nat ltac:(lia)). cbn in *. pose proof (sqr_nonneg (p 1%nat - 1)). cbn in *. nra.
Qed.

(** ** C36 *)
Theorem C36_in_cell : forall D w v i b, 0 < w -> index_at D w v = Val i -> bounds_of D w i = Val b -> in_box D b v.
Proof. exact index_in_bounds. Qed.
Print Assumptions C36_in_cell.
Theorem C36_cells_overlap : forall D w i j bi bj p, 0 < w -> bounds_of D w i = Val bi -> bounds_of D w j = Val bj ->
  (exists d, (d < D)%nat /\ i d <> j d) -> in_box D bi p -> in_box D bj p ->
  exists d, (d < D)%nat /\ (p d = b_lo bi d /\ p d = b_hi bj d \/ p d = b_hi bi d /\ p d = b_lo bj d).
Proof. exact cells_overlap. Qed.
Print Assumptions C36_cells_overlap.
Theorem C36_center : forall D w i, 0 < w -> (forall d, (d < D)%nat -> (- 2 ^ 63 <= i d < 2 ^ 63)%Z) ->
  exists j, index_at D w (center_of w i) = Val j /\ forall d, (d < D)%nat -> j d = i d.
Proof. intros D w i Hw H. apply center_index; [exact Hw|]. intros d Hd. now apply in64_iff, H. Qed.
Print Assumptions C36_center.
(** The cell of a point is the only one with i*w <= x < (i+1)*w in every dimension. *)
Theorem C36_index : forall D w v i, 0 < w -> (forall d, (d < D)%nat -> (- 2 ^ 63 <= i d < 2 ^ 63)%Z) ->
  ((exists j, index_at D w v = Val j /\ forall d, (d < D)%nat -> j d = i d) <->
   forall d, (d < D)%nat -> IZR (i d) * w <= v d < IZR (i d + 1) * w).
Proof.
  intros D w v i Hw Hi. split.
  - intros (j & Hj & E) d Hd. pose proof (index_at_val D w v j Hj Hw d Hd). now rewrite <- (E d Hd).
  - intros H. apply index_at_ok; [exact Hw|]. intros d Hd. split; [now apply in64_iff, Hi|now apply H].
Qed.
Print Assumptions C36_index.
Theorem C36_intersects : forall D w i s b, 0 < w -> (0 < D)%nat -> bounds_of D w i = Val b -> exists r, grid_meets D w s i = Val r /\
  (r = true <-> exists p, (forall d, (d < D)%nat -> IZR (i d) * w <= p d <= IZR (i d + 1) * w) /\ in_ball D s p).
Proof.
  intros D w i s b Hw HD Hb. unfold grid_meets. rewrite Hb. cbn [rmap]. eexists. split; [reflexivity|].
  rewrite (box_meets_spec D b s (bounds_of_ok D w i b Hb Hw) HD).
  assert (E : forall p, in_box D b p <-> forall d, (d < D)%nat -> IZR (i d) * w <= p d <= IZR (i d + 1) * w).
  { intros p. unfold in_box. split; intros H d Hd; specialize (H d Hd); destruct (bounds_of_val D w i b Hb d) as [E1 E2]; rewrite E1, E2 in *; exact H. }
  split; intros (p & H1 & H2); exists p; (split; [now apply E|exact H2]).
Qed.
Print Assumptions C36_intersects.
(** Cell width 1/2, the point (5/4, -1/4) lies in the cell (2, -1). *)
Example C36_case : exists i b, index_at 2 (1 / 2) (v2 (5 / 4) (- 1 / 4)) = Val i /\ i 0%nat = 2%Z /\ i 1%nat = (-1)%Z /\ bounds_of 2 (1 / 2) i = Val b.
Proof.
  destruct (proj2 (C36_index 2 (1 / 2) (v2 (5 / 4) (- 1 / 4)) (fun d => match d with O => 2 | _ => -1 end)%Z ltac:(lra) ltac:(intros [|d] Hd; lia)))
    as (i & Hi & E); [intros [|[|d]] Hd; [cbn; lra|cbn; lra|lia]|].
  exists i. pose proof (E 0%nat ltac:(lia)) as E0. pose proof (E 1%nat ltac:(lia)) as E1. cbn in E0, E1.
  eexists. repeat split; try assumption. unfold bounds_of. cbn [seq forallb]. rewrite E0, E1. reflexivity.
Qed.
Example C36_overlap_case : exists bi bj, bounds_of 2 1 (fun _ => 0%Z) = Val bi /\ bounds_of 2 1 (fun d => if Nat.eqb d 0 then 1%Z else 0%Z) = Val bj /\
  in_box 2 bi (v2 1 (1 / 2)) /\ in_box 2 bj (v2 1 (1 / 2)).
Proof. do 2 eexists. split; [reflexivity|]. split; [reflexivity|]. split; dims2. Qed.

(** ** C37 *)
Theorem C37_distance : forall D v b, box_ok D b ->
  (exists q, in_box D b q /\ dist2 D q v = len2 D (vec_box v b)) /\
  (forall q, in_box D b q -> len2 D (vec_box v b) <= dist2 D q v).
Proof. exact vec_box_dist. Qed.
Print Assumptions C37_distance.
Theorem C37_zero : forall D v b, box_ok D b -> (len2 D (vec_box v b) = 0 <-> in_box D b v).
Proof. exact vec_box_zero. Qed.
Print Assumptions C37_zero.
(** vecToBoxBoundary: the squared distance to the border of the box, also from the inside. *)
Theorem C37_boundary : forall D v b, (0 < D)%nat -> box_ok D b ->
  (exists q, on_border D b q /\ dist2 D q v = len2 D (vec_box_boundary D v b)) /\
  (forall q, on_border D b q -> len2 D (vec_box_boundary D v b) <= dist2 D q v).
Proof. exact vec_box_boundary_dist. Qed.
Print Assumptions C37_boundary.
(** makeBoundingBox: the smallest box with all vectors. *)
Theorem C37_bounding : forall D vs, vs <> nil -> exists b, bounding D vs = Some b /\ box_ok D b /\
  (forall v, In v vs -> in_box D b v) /\
  (forall c, (forall v, In v vs -> in_box D c v) -> forall p, in_box D b p -> in_box D c p).
Proof. exact bounding_spec. Qed.
Print Assumptions C37_bounding.
(** The box [0,2]x[0,1] and the point (5, 5): the closest point is the corner (2, 1). *)
Example C37_case : box_ok 2 ex_box /\ len2 2 (vec_box (v2 5 5) ex_box) = 25.
Proof.
  split; [dims2|]. destruct (C37_distance 2 (v2 5 5) ex_box ltac:(dims2)) as [(q & Hq & E) Hall].
  assert (L : len2 2 (vec_box (v2 5 5) ex_box) <= dist2 2 (v2 2 1) (v2 5 5)) by (apply Hall; dims2).
  rewrite dist2_2 in E, L. cbn in E, L. pose proof (Hq 0%nat ltac:(lia)). pose proof (Hq 1%nat ltac:(lia)). cbn in *. nra.
Qed.
