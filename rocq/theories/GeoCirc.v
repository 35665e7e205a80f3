(** Proofs about circumspheres, inSphere and inSimplex. *)
From Verif Require Import Outcome GeoModel GeoSpec GeoProofs.
From Coq Require Import Lia Psatz.
Local Open Scope R_scope.

Lemma dist2_2 : forall x y, dist2 2 x y = (x 0%nat - y 0%nat) ^ 2 + (x 1%nat - y 1%nat) ^ 2.
Proof. intros. unfold dist2. cbn [sumn]. ring. Qed.
Lemma dist2_3 : forall x y, dist2 3 x y = (x 0%nat - y 0%nat) ^ 2 + (x 1%nat - y 1%nat) ^ 2 + (x 2%nat - y 2%nat) ^ 2.
Proof. intros. unfold dist2. cbn [sumn]. ring. Qed.
Lemma veq_2 : forall x y, veq 2 x y <-> x 0%nat = y 0%nat /\ x 1%nat = y 1%nat.
Proof.
  intros. unfold veq. split; [intros H; split; apply H; lia|].
  intros [H0 H1] [|[|d]] Hd; [exact H0|exact H1|lia].
Qed.
Lemma veq_3 : forall x y, veq 3 x y <-> x 0%nat = y 0%nat /\ x 1%nat = y 1%nat /\ x 2%nat = y 2%nat.
Proof.
  intros. unfold veq. split; [intros H; repeat split; apply H; lia|].
  intros (H0 & H1 & H2) [|[|[|d]]] Hd; [exact H0|exact H1|exact H2|lia].
Qed.
Lemma dist2_veq : forall D x y p, veq D x y -> dist2 D p x = dist2 D p y.
Proof. intros D x y p H. apply sumn_ext. intros. now rewrite H. Qed.

Lemma sq_sqrt_sum : forall x, 0 <= x -> 0 <= sqrt x /\ sqrt x ^ 2 = x.
Proof. intros x H. split; [apply sqrt_pos|]. replace (sqrt x ^ 2) with (sqrt x * sqrt x) by ring. now apply sqrt_sqrt. Qed.

(** ** Dimension 2 *)
Definition den2 (s0 s1 s2 : vec) : R :=
  2 * (s0 0%nat * (s1 1%nat - s2 1%nat) + s1 0%nat * (s2 1%nat - s0 1%nat) + s2 0%nat * (s0 1%nat - s1 1%nat)).
Lemma den2_orient : forall s0 s1 s2, den2 s0 s1 s2 = 2 * orient2 s0 s1 s2.
Proof. intros. unfold den2, orient2. ring. Qed.
Lemma circum2_undef : forall s0 s1 s2, orient2 s0 s1 s2 = 0 -> circum2 s0 s1 s2 = Undef.
Proof.
  intros s0 s1 s2 H. unfold circum2. fold (den2 s0 s1 s2).
  now rewrite (proj2 (reqb_iff _ _)) by (rewrite den2_orient, H; ring).
Qed.
Lemma circum2_on : forall s0 s1 s2, orient2 s0 s1 s2 <> 0 -> exists s, circum2 s0 s1 s2 = Val s /\
  on_sphere 2 s s0 /\ on_sphere 2 s s1 /\ on_sphere 2 s s2.
Proof.
  intros s0 s1 s2 H. unfold circum2. fold (den2 s0 s1 s2).
  assert (Hd : den2 s0 s1 s2 <> 0) by (rewrite den2_orient; lra).
  rewrite reqb_false by exact Hd.
  eexists. split; [reflexivity|]. unfold on_sphere. rewrite !dist2_2. cbn [sp_c sp_r].
  set (n0 := _ + _ + _ : R). set (n1 := (sq (s0 0%nat) + _) * (s2 0%nat - s1 0%nat) + _ + _).
  set (den := den2 s0 s1 s2) in *.
  assert (E : forall s, s = s1 \/ s = s2 ->
    2 * ((s 0%nat - s0 0%nat) * n0 + (s 1%nat - s0 1%nat) * n1) =
    (s 0%nat ^ 2 + s 1%nat ^ 2 - s0 0%nat ^ 2 - s0 1%nat ^ 2) * den).
  { intros s [->| ->]; unfold n0, n1, den, den2, sq; ring. }
  match goal with |- context [sqrt ?x] => destruct (sq_sqrt_sum x) as [Hs0 Hs1]; [unfold sq; repeat apply Rplus_le_le_0_compat; apply Rle_0_sqr|] end.
  rewrite Hs1. unfold sq.
  assert (F : forall s, s = s1 \/ s = s2 ->
    (s 0%nat - n0 / den) ^ 2 + (s 1%nat - n1 / den) ^ 2 = (s0 0%nat - n0 / den) ^ 2 + (s0 1%nat - n1 / den) ^ 2).
  { intros s Hs. specialize (E s Hs). apply (Rmult_eq_reg_r den); [|exact Hd].
    transitivity ((s0 0%nat ^ 2 + s0 1%nat ^ 2) * den + (s 0%nat ^ 2 + s 1%nat ^ 2 - s0 0%nat ^ 2 - s0 1%nat ^ 2) * den
                  - 2 * (s 0%nat * n0 + s 1%nat * n1) + (n0 ^ 2 + n1 ^ 2) / den).
    { field. exact Hd. }
    rewrite <- E. field. exact Hd. }
  split; [split; [exact Hs0|unfold Rdiv; ring]|].
  split; (split; [exact Hs0|]); rewrite F by tauto; unfold Rdiv; ring.
Qed.
Lemma unique2 : forall s0 s1 s2 x y, orient2 s0 s1 s2 <> 0 ->
  on_sphere 2 x s0 -> on_sphere 2 x s1 -> on_sphere 2 x s2 -> on_sphere 2 y s0 -> on_sphere 2 y s1 -> on_sphere 2 y s2 ->
  sph_eq 2 x y.
Proof.
  intros s0 s1 s2 x y H (R1 & X0) (_ & X1) (_ & X2) (R2 & Y0) (_ & Y1) (_ & Y2).
  rewrite dist2_2 in X0, X1, X2, Y0, Y1, Y2.
  assert (L1 : (s1 0%nat - s0 0%nat) * (sp_c x 0%nat - sp_c y 0%nat) + (s1 1%nat - s0 1%nat) * (sp_c x 1%nat - sp_c y 1%nat) = 0) by lra.
  assert (L2 : (s2 0%nat - s0 0%nat) * (sp_c x 0%nat - sp_c y 0%nat) + (s2 1%nat - s0 1%nat) * (sp_c x 1%nat - sp_c y 1%nat) = 0) by lra.
  assert (E0 : orient2 s0 s1 s2 * (sp_c x 0%nat - sp_c y 0%nat) = 0).
  { transitivity ((s2 1%nat - s0 1%nat) * 0 - (s1 1%nat - s0 1%nat) * 0); [|ring].
    rewrite <- L1 at 1. rewrite <- L2. unfold orient2. ring. }
  assert (E1 : orient2 s0 s1 s2 * (sp_c x 1%nat - sp_c y 1%nat) = 0).
  { transitivity ((s1 0%nat - s0 0%nat) * 0 - (s2 0%nat - s0 0%nat) * 0); [|ring].
    rewrite <- L2 at 1. rewrite <- L1. unfold orient2. ring. }
  apply Rmult_integral in E0. apply Rmult_integral in E1.
  assert (V : sp_c x 0%nat = sp_c y 0%nat /\ sp_c x 1%nat = sp_c y 1%nat) by (split; [destruct E0|destruct E1]; lra).
  split; [now apply veq_2|]. destruct V as [V0 V1]. rewrite V0, V1 in X0.
  assert (sp_r x ^ 2 = sp_r y ^ 2) by lra. nra.
Qed.

(** Signs. *)
Lemma sign_rule : forall o i orient k, has_sign o orient -> has_sign i (k * orient) -> orient <> 0 ->
  (in_sphere o i = true <-> 0 <= k).
Proof.
  intros o i t k (O1 & O2) (I1 & I2) H. unfold in_sphere. rewrite rleb_iff.
  destruct (Rtotal_order t 0) as [T|[T|T]]; [|now contradiction H|].
  - apply O2 in T as To. split; intros G.
    + destruct (Rle_dec 0 k) as [|K]; [assumption|]. assert (P : 0 < k * t) by nra. apply I1 in P. nra.
    + destruct (Rle_dec i 0) as [|K]; [nra|]. assert (P : 0 < i) by lra. apply I1 in P. nra.
  - apply O1 in T as To. split; intros G.
    + destruct (Rle_dec 0 k) as [|K]; [assumption|]. assert (P : k * t < 0) by nra. apply I2 in P. nra.
    + destruct (Rle_dec 0 i) as [|K]; [nra|]. assert (P : i < 0) by lra. apply I2 in P. nra.
Qed.
Lemma sign_flat : forall o i, has_sign o 0 -> in_sphere o i = true.
Proof. intros o i (O1 & O2). unfold in_sphere. rewrite rleb_iff. assert (o = 0) by lra. subst. lra. Qed.

Lemma insphere2_det : forall s0 s1 s2 p s, on_sphere 2 s s0 -> on_sphere 2 s s1 -> on_sphere 2 s s2 ->
  insphere2 s0 s1 s2 p = (sp_r s ^ 2 - dist2 2 p (sp_c s)) * orient2 s0 s1 s2.
Proof.
  intros s0 s1 s2 p s (_ & X0) (_ & X1) (_ & X2). rewrite dist2_2 in *. unfold insphere2, orient2. cbv zeta.
  set (o0 := sp_c s 0%nat) in *. set (o1 := sp_c s 1%nat) in *. set (r2 := sp_r s ^ 2) in *.
  assert (L : forall v, (v 0%nat - o0) ^ 2 + (v 1%nat - o1) ^ 2 = r2 ->
    (v 0%nat - p 0%nat) * (v 0%nat - p 0%nat) + (v 1%nat - p 1%nat) * (v 1%nat - p 1%nat) =
    2 * ((v 0%nat - p 0%nat) * (o0 - p 0%nat) + (v 1%nat - p 1%nat) * (o1 - p 1%nat)) + (r2 - ((p 0%nat - o0) ^ 2 + (p 1%nat - o1) ^ 2))).
  { intros v <-. ring. }
  rewrite (L _ X0), (L _ X1), (L _ X2). ring.
Qed.

(** inSimplex *)
Definition lin2 (p s0 s1 s2 : vec) (u v : R) : Prop :=
  veq 2 p (fun d => s0 d + u * (s1 d - s0 d) + v * (s2 d - s0 d)).
Lemma hull3 : forall D s0 s1 s2 p, in_hull D [s0; s1; s2]%list p <->
  exists u v, 0 <= u /\ 0 <= v /\ u + v <= 1 /\ veq D p (fun d => s0 d + u * (s1 d - s0 d) + v * (s2 d - s0 d)).
Proof.
  intros. split.
  - intros (ws & M & (P & S) & E).
    destruct ws as [|[w v0] [|[u v1] [|[v v2] [|? ?]]]]; try discriminate. cbn in M. injection M as -> -> ->.
    cbn in S. inversion_clear P as [|? ? P0 P']. inversion_clear P' as [|? ? P1 P'']. inversion_clear P'' as [|? ? P2 _].
    cbn in P0, P1, P2. exists u, v. repeat split; try lra. intros d Hd. rewrite (E d Hd). unfold comb. cbn.
    replace w with (1 - u - v) by lra. ring.
  - intros (u & v & Hu & Hv & Hs & E). exists [(1 - u - v, s0); (u, s1); (v, s2)]%list.
    split; [reflexivity|]. split; [split; [repeat (apply Forall_cons; [cbn; lra|]); apply Forall_nil|cbn; lra]|].
    intros d Hd. rewrite (E d Hd). unfold comb. cbn. ring.
Qed.
Lemma cdiff_val : forall a b d, cdiff a b d = b d - a d. Proof. reflexivity. Qed.
Lemma dot_2 : forall a b, dot 2 a b = a 0%nat * b 0%nat + a 1%nat * b 1%nat.
Proof. intros. unfold dot, sum_loop. cbn. ring. Qed.
Lemma dot_3 : forall a b, dot 3 a b = a 0%nat * b 0%nat + a 1%nat * b 1%nat + a 2%nat * b 2%nat.
Proof. intros. unfold dot, sum_loop. cbn. ring. Qed.
Lemma in_simplex2_undef : forall p s0 s1 s2, orient2 s0 s1 s2 = 0 -> in_simplex2 p s0 s1 s2 = Undef.
Proof.
  intros p s0 s1 s2 H. unfold in_simplex2. rewrite (proj2 (reqb_iff _ _)); [reflexivity|].
  transitivity (- orient2 s0 s1 s2 * orient2 s0 s1 s2); [|rewrite H; ring].
  rewrite !dot_2, !cdiff_val. unfold orient2. ring.
Qed.
Lemma in_simplex2_spec : forall p s0 s1 s2, orient2 s0 s1 s2 <> 0 -> exists b, in_simplex2 p s0 s1 s2 = Val b /\
  (b = true <-> in_hull 2 [s0; s1; s2]%list p).
Proof.
  intros p s0 s1 s2 H. unfold in_simplex2.
  set (v11 := dot 2 (cdiff s1 s0) (cdiff s1 s0)). set (v12 := dot 2 (cdiff s1 s0) (cdiff s2 s0)).
  set (v22 := dot 2 (cdiff s2 s0) (cdiff s2 s0)).
  set (v1p := dot 2 (cdiff s1 s0) (cdiff p s0)). set (v2p := dot 2 (cdiff s2 s0) (cdiff p s0)).
  assert (Ed : v12 * v12 - v11 * v22 = - (orient2 s0 s1 s2 * orient2 s0 s1 s2)).
  { unfold v12, v11, v22. rewrite !dot_2, !cdiff_val. unfold orient2. ring. }
  assert (Hd : v12 * v12 - v11 * v22 <> 0).
  { rewrite Ed. intros C. apply H. destruct (Rmult_integral (orient2 s0 s1 s2) (orient2 s0 s1 s2)); lra. }
  cbv zeta. rewrite reqb_false by exact Hd. eexists. split; [reflexivity|].
  set (U := - ((v1p * v22 - v12 * v2p) * (1 / (v12 * v12 - v11 * v22)))).
  set (V := - ((- v12 * v1p + v11 * v2p) * (1 / (v12 * v12 - v11 * v22)))).
  assert (Q : forall u v, lin2 p s0 s1 s2 u v -> u = U /\ v = V).
  { intros u v L. apply veq_2 in L. destruct L as [L0 L1]. cbv beta in L0, L1.
    assert (E1 : v1p = u * v11 + v * v12). { unfold v1p, v11, v12. rewrite !dot_2, !cdiff_val, L0, L1. ring. }
    assert (E2 : v2p = u * v12 + v * v22). { unfold v2p, v22, v12. rewrite !dot_2, !cdiff_val, L0, L1. ring. }
    unfold U, V. rewrite E1, E2. split; field; exact Hd. }
  assert (X : exists u v, lin2 p s0 s1 s2 u v).
  { set (t := orient2 s0 s1 s2) in *.
    exists (((p 0%nat - s0 0%nat) * (s2 1%nat - s0 1%nat) - (p 1%nat - s0 1%nat) * (s2 0%nat - s0 0%nat)) / t),
           (((s1 0%nat - s0 0%nat) * (p 1%nat - s0 1%nat) - (s1 1%nat - s0 1%nat) * (p 0%nat - s0 0%nat)) / t).
    apply veq_2. split; apply (Rmult_eq_reg_r t); try exact H.
    - transitivity (s0 0%nat * t + ((p 0%nat - s0 0%nat) * (s2 1%nat - s0 1%nat) - (p 1%nat - s0 1%nat) * (s2 0%nat - s0 0%nat)) * (s1 0%nat - s0 0%nat)
        + ((s1 0%nat - s0 0%nat) * (p 1%nat - s0 1%nat) - (s1 1%nat - s0 1%nat) * (p 0%nat - s0 0%nat)) * (s2 0%nat - s0 0%nat)).
      + unfold t, orient2. ring.
      + field. exact H.
    - transitivity (s0 1%nat * t + ((p 0%nat - s0 0%nat) * (s2 1%nat - s0 1%nat) - (p 1%nat - s0 1%nat) * (s2 0%nat - s0 0%nat)) * (s1 1%nat - s0 1%nat)
        + ((s1 0%nat - s0 0%nat) * (p 1%nat - s0 1%nat) - (s1 1%nat - s0 1%nat) * (p 0%nat - s0 0%nat)) * (s2 1%nat - s0 1%nat)).
      + unfold t, orient2. ring.
      + field. exact H. }
  destruct X as (u & v & L). destruct (Q u v L) as [<- <-].
  rewrite hull3, !Bool.andb_true_iff, !rleb_iff. split.
  - intros ((Hu & Hv) & Hs). exists u, v. repeat split; try assumption.
  - intros (u' & v' & Hu & Hv & Hs & L'). destruct (Q u' v' L') as [-> ->]. repeat split; assumption.
Qed.

(** ** Dimension 3 *)
Lemma den3_orient : forall s0 s1 s2 s3, den3 s0 s1 s2 s3 = 2 * orient3 s0 s1 s2 s3.
Proof. intros. unfold den3, orient3. cbv zeta. ring. Qed.
Lemma circum3_undef : forall s0 s1 s2 s3, orient3 s0 s1 s2 s3 = 0 -> circum3 s0 s1 s2 s3 = Undef.
Proof.
  intros s0 s1 s2 s3 H. unfold circum3. now rewrite (proj2 (reqb_iff _ _)) by (rewrite den3_orient, H; ring).
Qed.
Lemma num3_eq : forall s0 s1 s2 s3 s, s = s1 \/ s = s2 \/ s = s3 ->
  2 * ((s 0%nat - s0 0%nat) * num30 s0 s1 s2 s3 + (s 1%nat - s0 1%nat) * num31 s0 s1 s2 s3 + (s 2%nat - s0 2%nat) * num32 s0 s1 s2 s3) =
  (sq (s 2%nat) + sq (s 1%nat) + sq (s 0%nat) - (sq (s0 2%nat) + sq (s0 1%nat) + sq (s0 0%nat))) * den3 s0 s1 s2 s3.
Proof.
  intros s0 s1 s2 s3 s [->|[->| ->]]; unfold num30, num31, num32, den3; ring.
Qed.
Lemma circum3_on : forall s0 s1 s2 s3, orient3 s0 s1 s2 s3 <> 0 -> exists s, circum3 s0 s1 s2 s3 = Val s /\
  on_sphere 3 s s0 /\ on_sphere 3 s s1 /\ on_sphere 3 s s2 /\ on_sphere 3 s s3.
Proof.
  intros s0 s1 s2 s3 H. unfold circum3.
  assert (Hd : den3 s0 s1 s2 s3 <> 0) by (rewrite den3_orient; lra).
  rewrite reqb_false by exact Hd.
  eexists. split; [reflexivity|]. unfold on_sphere. rewrite !dist2_3. cbn [sp_c sp_r].
  pose proof (num3_eq s0 s1 s2 s3) as E.
  set (n0 := num30 s0 s1 s2 s3) in *. set (n1 := num31 s0 s1 s2 s3) in *. set (n2 := num32 s0 s1 s2 s3) in *.
  set (den := den3 s0 s1 s2 s3) in *.
  match goal with |- context [sqrt ?x] => destruct (sq_sqrt_sum x) as [Hs0 Hs1]; [unfold sq; repeat apply Rplus_le_le_0_compat; apply Rle_0_sqr|] end.
  rewrite Hs1. unfold sq in *.
  assert (F : forall s, s = s1 \/ s = s2 \/ s = s3 ->
    (s 0%nat - n0 / den) ^ 2 + (s 1%nat - n1 / den) ^ 2 + (s 2%nat - n2 / den) ^ 2 =
    (s0 0%nat - n0 / den) ^ 2 + (s0 1%nat - n1 / den) ^ 2 + (s0 2%nat - n2 / den) ^ 2).
  { intros s Hs. specialize (E s Hs). apply (Rmult_eq_reg_r den); [|exact Hd].
    transitivity ((s0 0%nat ^ 2 + s0 1%nat ^ 2 + s0 2%nat ^ 2) * den
                  + (s 2%nat * s 2%nat + s 1%nat * s 1%nat + s 0%nat * s 0%nat
                     - (s0 2%nat * s0 2%nat + s0 1%nat * s0 1%nat + s0 0%nat * s0 0%nat)) * den
                  - 2 * (s 0%nat * n0 + s 1%nat * n1 + s 2%nat * n2) + (n0 ^ 2 + n1 ^ 2 + n2 ^ 2) / den).
    { clear E. field. exact Hd. }
    rewrite <- E. field. exact Hd. }
  split; [split; [exact Hs0|unfold Rdiv; ring]|].
  split; [|split]; (split; [exact Hs0|]); rewrite F by tauto; unfold Rdiv; ring.
Qed.
Lemma unique3 : forall s0 s1 s2 s3 x y, orient3 s0 s1 s2 s3 <> 0 ->
  on_sphere 3 x s0 -> on_sphere 3 x s1 -> on_sphere 3 x s2 -> on_sphere 3 x s3 ->
  on_sphere 3 y s0 -> on_sphere 3 y s1 -> on_sphere 3 y s2 -> on_sphere 3 y s3 ->
  sph_eq 3 x y.
Proof.
  intros s0 s1 s2 s3 x y H (R1 & X0) (_ & X1) (_ & X2) (_ & X3) (R2 & Y0) (_ & Y1) (_ & Y2) (_ & Y3).
  rewrite dist2_3 in X0, X1, X2, X3, Y0, Y1, Y2, Y3.
  set (e0 := sp_c x 0%nat - sp_c y 0%nat). set (e1 := sp_c x 1%nat - sp_c y 1%nat). set (e2 := sp_c x 2%nat - sp_c y 2%nat).
  assert (L : forall a b, a = s0 \/ a = s1 \/ a = s2 \/ a = s3 -> b = s3 ->
              (a 0%nat - b 0%nat) * e0 + (a 1%nat - b 1%nat) * e1 + (a 2%nat - b 2%nat) * e2 = 0).
  { intros a b Ha ->. unfold e0, e1, e2. destruct Ha as [->|[->|[->| ->]]]; lra. }
  pose proof (L s0 s3 ltac:(tauto) eq_refl) as L0. pose proof (L s1 s3 ltac:(tauto) eq_refl) as L1.
  pose proof (L s2 s3 ltac:(tauto) eq_refl) as L2. clear L.
  assert (V : e0 = 0 /\ e1 = 0 /\ e2 = 0).
  { clear X0 X1 X2 X3 Y0 Y1 Y2 Y3. clearbody e0 e1 e2. unfold orient3 in H. cbv zeta in H.
    set (a0 := s0 0%nat - s3 0%nat) in *. set (b0 := s1 0%nat - s3 0%nat) in *. set (c0 := s2 0%nat - s3 0%nat) in *.
    set (a1 := s0 1%nat - s3 1%nat) in *. set (b1 := s1 1%nat - s3 1%nat) in *. set (c1 := s2 1%nat - s3 1%nat) in *.
    set (a2 := s0 2%nat - s3 2%nat) in *. set (b2 := s1 2%nat - s3 2%nat) in *. set (c2 := s2 2%nat - s3 2%nat) in *.
    clearbody a0 a1 a2 b0 b1 b2 c0 c1 c2.
    repeat split; eapply Rmult_eq_reg_l; try exact H; rewrite Rmult_0_r.
    - transitivity ((b1 * c2 - b2 * c1) * (a0 * e0 + a1 * e1 + a2 * e2) + (c1 * a2 - c2 * a1) * (b0 * e0 + b1 * e1 + b2 * e2)
        + (a1 * b2 - a2 * b1) * (c0 * e0 + c1 * e1 + c2 * e2)); [ring|]. rewrite L0, L1, L2. ring.
    - transitivity ((b2 * c0 - b0 * c2) * (a0 * e0 + a1 * e1 + a2 * e2) + (c2 * a0 - c0 * a2) * (b0 * e0 + b1 * e1 + b2 * e2)
        + (a2 * b0 - a0 * b2) * (c0 * e0 + c1 * e1 + c2 * e2)); [ring|]. rewrite L0, L1, L2. ring.
    - transitivity ((b0 * c1 - b1 * c0) * (a0 * e0 + a1 * e1 + a2 * e2) + (c0 * a1 - c1 * a0) * (b0 * e0 + b1 * e1 + b2 * e2)
        + (a0 * b1 - a1 * b0) * (c0 * e0 + c1 * e1 + c2 * e2)); [ring|]. rewrite L0, L1, L2. ring. }
  destruct V as (V0 & V1 & V2). unfold e0 in V0. unfold e1 in V1. unfold e2 in V2.
  assert (W0 : sp_c x 0%nat = sp_c y 0%nat) by lra. assert (W1 : sp_c x 1%nat = sp_c y 1%nat) by lra.
  assert (W2 : sp_c x 2%nat = sp_c y 2%nat) by lra.
  split; [now apply veq_3|]. rewrite W0, W1, W2 in X0. assert (E : sp_r x ^ 2 = sp_r y ^ 2) by lra. clear - E R1 R2. nra.
Qed.
Lemma insphere3_det : forall s0 s1 s2 s3 p s, on_sphere 3 s s0 -> on_sphere 3 s s1 -> on_sphere 3 s s2 -> on_sphere 3 s s3 ->
  insphere3 s0 s1 s2 s3 p = (sp_r s ^ 2 - dist2 3 p (sp_c s)) * orient3 s0 s1 s2 s3.
Proof.
  intros s0 s1 s2 s3 p s (_ & X0) (_ & X1) (_ & X2) (_ & X3). rewrite dist2_3 in *. unfold insphere3, orient3. cbv zeta.
  set (o0 := sp_c s 0%nat) in *. set (o1 := sp_c s 1%nat) in *. set (o2 := sp_c s 2%nat) in *. set (r2 := sp_r s ^ 2) in *.
  assert (L : forall v, (v 0%nat - o0) ^ 2 + (v 1%nat - o1) ^ 2 + (v 2%nat - o2) ^ 2 = r2 ->
    (v 0%nat - p 0%nat) * (v 0%nat - p 0%nat) + (v 1%nat - p 1%nat) * (v 1%nat - p 1%nat) + (v 2%nat - p 2%nat) * (v 2%nat - p 2%nat) =
    2 * ((v 0%nat - p 0%nat) * (o0 - p 0%nat) + (v 1%nat - p 1%nat) * (o1 - p 1%nat) + (v 2%nat - p 2%nat) * (o2 - p 2%nat))
    + (r2 - ((p 0%nat - o0) ^ 2 + (p 1%nat - o1) ^ 2 + (p 2%nat - o2) ^ 2))).
  { intros v <-. ring. }
  rewrite (L _ X0), (L _ X1), (L _ X2), (L _ X3).
  set (K := r2 - _). clearbody K. ring.
Qed.

Definition lin3 (p s0 s1 s2 s3 : vec) (u v z : R) : Prop :=
  veq 3 p (fun d => s0 d + u * (s1 d - s0 d) + v * (s2 d - s0 d) + z * (s3 d - s0 d)).
Lemma hull4 : forall D s0 s1 s2 s3 p, in_hull D [s0; s1; s2; s3]%list p <->
  exists u v z, 0 <= u /\ 0 <= v /\ 0 <= z /\ u + v + z <= 1 /\
    veq D p (fun d => s0 d + u * (s1 d - s0 d) + v * (s2 d - s0 d) + z * (s3 d - s0 d)).
Proof.
  intros. split.
  - intros (ws & M & (P & S) & E).
    destruct ws as [|[w v0] [|[u v1] [|[v v2] [|[z v3] [|? ?]]]]]; try discriminate. cbn in M. injection M as -> -> -> ->.
    cbn in S. inversion_clear P as [|? ? P0 P']. inversion_clear P' as [|? ? P1 P'']. inversion_clear P'' as [|? ? P2 P'].
    inversion_clear P' as [|? ? P3 _].
    cbn in P0, P1, P2, P3. exists u, v, z. repeat split; try lra. intros d Hd. rewrite (E d Hd). unfold comb. cbn.
    replace w with (1 - u - v - z) by lra. ring.
  - intros (u & v & z & Hu & Hv & Hz & Hs & E). exists [(1 - u - v - z, s0); (u, s1); (v, s2); (z, s3)]%list.
    split; [reflexivity|]. split; [split; [repeat (apply Forall_cons; [cbn; lra|]); apply Forall_nil|cbn; lra]|].
    intros d Hd. rewrite (E d Hd). unfold comb. cbn. ring.
Qed.
Lemma gram3 : forall s0 s1 s2 s3,
  let v1 := cdiff s1 s0 in let v2 := cdiff s2 s0 in let v3 := cdiff s3 s0 in
  dot 3 v1 v3 * dot 3 v1 v3 * dot 3 v2 v2 - 2 * dot 3 v1 v2 * dot 3 v1 v3 * dot 3 v2 v3 + dot 3 v1 v1 * dot 3 v2 v3 * dot 3 v2 v3
  + dot 3 v1 v2 * dot 3 v1 v2 * dot 3 v3 v3 - dot 3 v1 v1 * dot 3 v2 v2 * dot 3 v3 v3 = - (orient3 s0 s1 s2 s3 * orient3 s0 s1 s2 s3).
Proof.
  intros. assert (E : orient3 s0 s1 s2 s3 =
    - (v1 0%nat * (v2 1%nat * v3 2%nat - v2 2%nat * v3 1%nat) - v1 1%nat * (v2 0%nat * v3 2%nat - v2 2%nat * v3 0%nat)
     + v1 2%nat * (v2 0%nat * v3 1%nat - v2 1%nat * v3 0%nat)) \/ orient3 s0 s1 s2 s3 =
    (v1 0%nat * (v2 1%nat * v3 2%nat - v2 2%nat * v3 1%nat) - v1 1%nat * (v2 0%nat * v3 2%nat - v2 2%nat * v3 0%nat)
     + v1 2%nat * (v2 0%nat * v3 1%nat - v2 1%nat * v3 0%nat))).
  { unfold orient3, v1, v2, v3, cdiff. cbv zeta. (left; ring) || (right; ring). }
  rewrite !dot_3. destruct E as [-> | ->]; clearbody v1 v2 v3; ring.
Qed.
Lemma in_simplex3_undef : forall p s0 s1 s2 s3, orient3 s0 s1 s2 s3 = 0 -> in_simplex3 p s0 s1 s2 s3 = Undef.
Proof.
  intros p s0 s1 s2 s3 H. unfold in_simplex3. rewrite (proj2 (reqb_iff _ _)); [reflexivity|].
  rewrite gram3, H. ring.
Qed.
Lemma in_simplex3_spec : forall p s0 s1 s2 s3, orient3 s0 s1 s2 s3 <> 0 -> exists b, in_simplex3 p s0 s1 s2 s3 = Val b /\
  (b = true <-> in_hull 3 [s0; s1; s2; s3]%list p).
Proof.
  intros p s0 s1 s2 s3 H. unfold in_simplex3. pose proof (gram3 s0 s1 s2 s3) as Ed. cbv zeta in Ed. cbv zeta.
  set (v11 := dot 3 (cdiff s1 s0) (cdiff s1 s0)) in *. set (v12 := dot 3 (cdiff s1 s0) (cdiff s2 s0)) in *.
  set (v13 := dot 3 (cdiff s1 s0) (cdiff s3 s0)) in *. set (v22 := dot 3 (cdiff s2 s0) (cdiff s2 s0)) in *.
  set (v23 := dot 3 (cdiff s2 s0) (cdiff s3 s0)) in *. set (v33 := dot 3 (cdiff s3 s0) (cdiff s3 s0)) in *.
  set (v1p := dot 3 (cdiff s1 s0) (cdiff p s0)). set (v2p := dot 3 (cdiff s2 s0) (cdiff p s0)).
  set (v3p := dot 3 (cdiff s3 s0) (cdiff p s0)).
  set (den := v13 * v13 * v22 - 2 * v12 * v13 * v23 + v11 * v23 * v23 + v12 * v12 * v33 - v11 * v22 * v33) in *.
  assert (Hd : den <> 0).
  { rewrite Ed. intros C. apply H. destruct (Rmult_integral (orient3 s0 s1 s2 s3) (orient3 s0 s1 s2 s3)); lra. }
  rewrite reqb_false by exact Hd. eexists. split; [reflexivity|].
  set (U := - ((- v1p * v23 * v23 + v13 * v23 * v2p + v1p * v22 * v33 - v12 * v2p * v33 - v13 * v22 * v3p + v12 * v23 * v3p) * (1 / den))).
  set (V := - ((v13 * v1p * v23 - v13 * v13 * v2p - v12 * v1p * v33 + v11 * v2p * v33 + v12 * v13 * v3p - v11 * v23 * v3p) * (1 / den))).
  set (Z := - ((- v13 * v1p * v22 + v12 * v1p * v23 + v12 * v13 * v2p - v11 * v23 * v2p - v12 * v12 * v3p + v11 * v22 * v3p) * (1 / den))).
  assert (Q : forall u v z, lin3 p s0 s1 s2 s3 u v z -> u = U /\ v = V /\ z = Z).
  { intros u v z L. apply veq_3 in L. destruct L as (L0 & L1 & L2). cbv beta in L0, L1, L2.
    assert (E1 : v1p = u * v11 + v * v12 + z * v13).
    { unfold v1p, v11, v12, v13. rewrite !dot_3, !cdiff_val, L0, L1, L2. ring. }
    assert (E2 : v2p = u * v12 + v * v22 + z * v23).
    { unfold v2p, v22, v12, v23. rewrite !dot_3, !cdiff_val, L0, L1, L2. ring. }
    assert (E3 : v3p = u * v13 + v * v23 + z * v33).
    { unfold v3p, v33, v13, v23. rewrite !dot_3, !cdiff_val, L0, L1, L2. ring. }
    assert (A : forall x n, n = - x * den -> x = - (n * (1 / den))) by (intros x n ->; field; exact Hd).
    unfold U, V, Z. rewrite E1, E2, E3. clearbody v11 v12 v13 v22 v23 v33.
    repeat split; apply A; unfold den; ring. }
  assert (X : exists u v z, lin3 p s0 s1 s2 s3 u v z).
  { clear Q Ed Hd. clearbody U V Z. clear - H. unfold lin3.
    set (t := orient3 s0 s1 s2 s3) in *.
    assert (Y : exists nu nv nz, forall d, (d < 3)%nat ->
              (p d - s0 d) * t = nu * (s1 d - s0 d) + nv * (s2 d - s0 d) + nz * (s3 d - s0 d)).
    { set (a := fun d => s1 d - s0 d). set (b := fun d => s2 d - s0 d). set (c := fun d => s3 d - s0 d). set (q := fun d => p d - s0 d).
      set (det := fun x y z : vec => x 0%nat * (y 1%nat * z 2%nat - y 2%nat * z 1%nat) - x 1%nat * (y 0%nat * z 2%nat - y 2%nat * z 0%nat)
                              + x 2%nat * (y 0%nat * z 1%nat - y 1%nat * z 0%nat)).
      assert (T : t = - det a b c) by (unfold t, orient3, det, a, b, c; ring).
      exists (- det q b c), (- det a q c), (- det a b q). intros d Hd. rewrite T.
      change (q d * - det a b c = - det q b c * a d + - det a q c * b d + - det a b q * c d).
      unfold det. clearbody a b c q. destruct d as [|[|[|d]]]; [ring|ring|ring|lia]. }
    destruct Y as (nu & nv & nz & Y). exists (nu / t), (nv / t), (nz / t). intros d Hd. specialize (Y d Hd).
    apply (Rmult_eq_reg_r t); [|exact H]. transitivity (s0 d * t + (p d - s0 d) * t); [ring|]. rewrite Y. field. exact H. }
  destruct X as (u & v & z & L). destruct (Q u v z L) as (<- & <- & <-).
  rewrite hull4, !Bool.andb_true_iff, !rleb_iff. split.
  - intros (((Hu & Hv) & Hz) & Hs). exists u, v, z. repeat split; try assumption.
  - intros (u' & v' & z' & Hu & Hv & Hz & Hs & L'). destruct (Q u' v' z' L') as (-> & -> & ->). repeat split; assumption.
Qed.

(** ** Non-degenerate simplices *)
Lemma indep2 : forall s0 s1 s2, independent 2 s0 [s1; s2]%list <-> orient2 s0 s1 s2 <> 0.
Proof.
  intros s0 s1 s2. set (a := fun d => s1 d - s0 d). set (b := fun d => s2 d - s0 d).
  assert (T : orient2 s0 s1 s2 = a 0%nat * b 1%nat - a 1%nat * b 0%nat) by (unfold orient2, a, b; ring).
  split.
  - intros H E. rewrite T in E.
    assert (G : forall u v, u * a 0%nat + v * b 0%nat = 0 -> u * a 1%nat + v * b 1%nat = 0 -> u = 0 /\ v = 0).
    { intros u v H0 H1. assert (F := H [(u, s1); (v, s2)]%list eq_refl). cbn [fold_right fst snd] in F.
      assert (F2 : Forall (fun wv : R * vec => fst wv = 0) [(u, s1); (v, s2)]%list).
      { apply F. intros [|[|d]] Hd; [unfold a, b in *; lra|unfold a, b in *; lra|lia]. }
      inversion_clear F2 as [|? ? P0 P]. inversion_clear P as [|? ? P1 _]. cbn in P0, P1. now split. }
    destruct (G (b 0%nat) (- a 0%nat)) as [B0 A0]; [ring|lra|]. destruct (G (b 1%nat) (- a 1%nat)) as [B1 A1]; [lra|ring|].
    destruct (G 1 0) as [C _]; lra.
  - intros H ws M E. destruct ws as [|[u v1] [|[v v2] [|? ?]]]; try discriminate. cbn in M. injection M as -> ->.
    pose proof (E 0%nat ltac:(lia)) as E0. pose proof (E 1%nat ltac:(lia)) as E1. cbn [fold_right fst snd] in E0, E1.
    fold (a 0%nat) (b 0%nat) in E0. fold (a 1%nat) (b 1%nat) in E1. rewrite T in H.
    clear T E. clearbody a b.
    assert (U : u * (a 0%nat * b 1%nat - a 1%nat * b 0%nat) = 0).
    { transitivity ((u * a 0%nat + (v * b 0%nat + 0)) * b 1%nat - (u * a 1%nat + (v * b 1%nat + 0)) * b 0%nat); [ring|]. rewrite E0, E1. ring. }
    assert (V : v * (a 0%nat * b 1%nat - a 1%nat * b 0%nat) = 0).
    { transitivity ((u * a 1%nat + (v * b 1%nat + 0)) * a 0%nat - (u * a 0%nat + (v * b 0%nat + 0)) * a 1%nat); [ring|]. rewrite E0, E1. ring. }
    apply Rmult_integral in U as [U|U]; [|contradiction]. apply Rmult_integral in V as [V|V]; [|contradiction].
    repeat (apply Forall_cons; [cbn; assumption|]). apply Forall_nil.
Qed.
Lemma indep3 : forall s0 s1 s2 s3, independent 3 s0 [s1; s2; s3]%list <-> orient3 s0 s1 s2 s3 <> 0.
Proof.
  intros s0 s1 s2 s3. set (a := fun d => s1 d - s0 d). set (b := fun d => s2 d - s0 d). set (c := fun d => s3 d - s0 d).
  set (det := a 0%nat * (b 1%nat * c 2%nat - b 2%nat * c 1%nat) - a 1%nat * (b 0%nat * c 2%nat - b 2%nat * c 0%nat)
              + a 2%nat * (b 0%nat * c 1%nat - b 1%nat * c 0%nat)).
  assert (T : orient3 s0 s1 s2 s3 = - det) by (unfold orient3, det, a, b, c; ring).
  split.
  - intros H E. assert (Ed : det = 0) by lra. clear E T.
    assert (G : forall u v z, u * a 0%nat + v * b 0%nat + z * c 0%nat = 0 -> u * a 1%nat + v * b 1%nat + z * c 1%nat = 0 ->
                u * a 2%nat + v * b 2%nat + z * c 2%nat = 0 -> u = 0 /\ v = 0 /\ z = 0).
    { intros u v z H0 H1 H2. assert (F := H [(u, s1); (v, s2); (z, s3)]%list eq_refl). cbn [fold_right fst snd] in F.
      assert (F2 : Forall (fun wv : R * vec => fst wv = 0) [(u, s1); (v, s2); (z, s3)]%list).
      { apply F. intros [|[|[|d]]] Hd; [unfold a, b, c in *; lra|unfold a, b, c in *; lra|unfold a, b, c in *; lra|lia]. }
      inversion_clear F2 as [|? ? P0 P]. inversion_clear P as [|? ? P1 Q]. inversion_clear Q as [|? ? P2 _]. cbn in P0, P1, P2. tauto. }
    clear H. unfold det in Ed. clearbody a b c.
    destruct (G (b 1%nat * c 2%nat - b 2%nat * c 1%nat) (c 1%nat * a 2%nat - c 2%nat * a 1%nat) (a 1%nat * b 2%nat - a 2%nat * b 1%nat)) as (X0 & _);
      [rewrite <- Ed; ring|ring|ring|].
    destruct (G (b 2%nat * c 0%nat - b 0%nat * c 2%nat) (c 2%nat * a 0%nat - c 0%nat * a 2%nat) (a 2%nat * b 0%nat - a 0%nat * b 2%nat)) as (X1 & _);
      [ring|rewrite <- Ed; ring|ring|].
    destruct (G (b 0%nat * c 1%nat - b 1%nat * c 0%nat) (c 0%nat * a 1%nat - c 1%nat * a 0%nat) (a 0%nat * b 1%nat - a 1%nat * b 0%nat)) as (X2 & _);
      [ring|ring|rewrite <- Ed; ring|].
    destruct (G 0 (c 0%nat) (- b 0%nat)) as (_ & C0 & B0); [lra|lra|lra|].
    destruct (G 0 (c 1%nat) (- b 1%nat)) as (_ & C1 & B1); [lra|lra|lra|].
    destruct (G 0 (c 2%nat) (- b 2%nat)) as (_ & C2 & B2); [lra|lra|lra|].
    destruct (G 0 1 0) as (_ & C & _); lra.
  - intros H ws M E. destruct ws as [|[u v1] [|[v v2] [|[z v3] [|? ?]]]]; try discriminate. cbn in M. injection M as -> -> ->.
    pose proof (E 0%nat ltac:(lia)) as E0. pose proof (E 1%nat ltac:(lia)) as E1. pose proof (E 2%nat ltac:(lia)) as E2. clear E.
    cbn [fold_right fst snd] in E0, E1, E2.
    fold (a 0%nat) (b 0%nat) (c 0%nat) in E0. fold (a 1%nat) (b 1%nat) (c 1%nat) in E1. fold (a 2%nat) (b 2%nat) (c 2%nat) in E2.
    assert (Hd : det <> 0) by lra. clear H T. clearbody a b c.
    assert (U : u * det = 0).
    { transitivity ((u * a 0%nat + (v * b 0%nat + (z * c 0%nat + 0))) * (b 1%nat * c 2%nat - b 2%nat * c 1%nat)
        + (u * a 1%nat + (v * b 1%nat + (z * c 1%nat + 0))) * (b 2%nat * c 0%nat - b 0%nat * c 2%nat)
        + (u * a 2%nat + (v * b 2%nat + (z * c 2%nat + 0))) * (b 0%nat * c 1%nat - b 1%nat * c 0%nat)); [unfold det; ring|]. rewrite E0, E1, E2. ring. }
    assert (V : v * det = 0).
    { transitivity ((u * a 0%nat + (v * b 0%nat + (z * c 0%nat + 0))) * (c 1%nat * a 2%nat - c 2%nat * a 1%nat)
        + (u * a 1%nat + (v * b 1%nat + (z * c 1%nat + 0))) * (c 2%nat * a 0%nat - c 0%nat * a 2%nat)
        + (u * a 2%nat + (v * b 2%nat + (z * c 2%nat + 0))) * (c 0%nat * a 1%nat - c 1%nat * a 0%nat)); [unfold det; ring|]. rewrite E0, E1, E2. ring. }
    assert (Z : z * det = 0).
    { transitivity ((u * a 0%nat + (v * b 0%nat + (z * c 0%nat + 0))) * (a 1%nat * b 2%nat - a 2%nat * b 1%nat)
        + (u * a 1%nat + (v * b 1%nat + (z * c 1%nat + 0))) * (a 2%nat * b 0%nat - a 0%nat * b 2%nat)
        + (u * a 2%nat + (v * b 2%nat + (z * c 2%nat + 0))) * (a 0%nat * b 1%nat - a 1%nat * b 0%nat)); [unfold det; ring|]. rewrite E0, E1, E2. ring. }
    apply Rmult_integral in U as [U|U]; [|contradiction]. apply Rmult_integral in V as [V|V]; [|contradiction].
    apply Rmult_integral in Z as [Z|Z]; [|contradiction].
    repeat (apply Forall_cons; [cbn; assumption|]). apply Forall_nil.
Qed.

(** ** Statements *)
Lemma circum2_ok : forall s0 s1 s2, independent 2 s0 [s1; s2]%list -> exists s, circum2 s0 s1 s2 = Val s /\
  (forall v, In v [s0; s1; s2]%list -> on_sphere 2 s v) /\
  (forall s', (forall v, In v [s0; s1; s2]%list -> on_sphere 2 s' v) -> sph_eq 2 s' s).
Proof.
  intros s0 s1 s2 H. apply indep2 in H. destruct (circum2_on s0 s1 s2 H) as (s & Es & O0 & O1 & O2). exists s. split; [exact Es|]. split.
  - intros v [<-|[<-|[<-|[]]]]; assumption.
  - intros s' H'. apply (unique2 s0 s1 s2); try assumption; apply H'; cbn; tauto.
Qed.
Lemma circum3_ok : forall s0 s1 s2 s3, independent 3 s0 [s1; s2; s3]%list -> exists s, circum3 s0 s1 s2 s3 = Val s /\
  (forall v, In v [s0; s1; s2; s3]%list -> on_sphere 3 s v) /\
  (forall s', (forall v, In v [s0; s1; s2; s3]%list -> on_sphere 3 s' v) -> sph_eq 3 s' s).
Proof.
  intros s0 s1 s2 s3 H. apply indep3 in H. destruct (circum3_on s0 s1 s2 s3 H) as (s & Es & O0 & O1 & O2 & O3). exists s. split; [exact Es|]. split.
  - intros v [<-|[<-|[<-|[<-|[]]]]]; assumption.
  - intros s' H'. apply (unique3 s0 s1 s2 s3); try assumption; apply H'; cbn; tauto.
Qed.
Lemma in_sphere2_ok : forall s0 s1 s2 p o i s, independent 2 s0 [s1; s2]%list ->
  (forall v, In v [s0; s1; s2]%list -> on_sphere 2 s v) ->
  has_sign o (orient2 s0 s1 s2) -> has_sign i (insphere2 s0 s1 s2 p) -> (in_sphere o i = true <-> in_ball 2 s p).
Proof.
  intros s0 s1 s2 p o i s H Hs Ho Hi. apply indep2 in H.
  assert (O0 : on_sphere 2 s s0) by (apply Hs; cbn; tauto). assert (O1 : on_sphere 2 s s1) by (apply Hs; cbn; tauto).
  assert (O2 : on_sphere 2 s s2) by (apply Hs; cbn; tauto).
  rewrite (insphere2_det s0 s1 s2 p s O0 O1 O2) in Hi. rewrite (sign_rule o i _ _ Ho Hi H).
  unfold in_ball. destruct O0 as [Hr _]. split; [intros; split; lra|intros [_ ?]; lra].
Qed.
Lemma in_sphere3_ok : forall s0 s1 s2 s3 p o i s, independent 3 s0 [s1; s2; s3]%list ->
  (forall v, In v [s0; s1; s2; s3]%list -> on_sphere 3 s v) ->
  has_sign o (orient3 s0 s1 s2 s3) -> has_sign i (insphere3 s0 s1 s2 s3 p) -> (in_sphere o i = true <-> in_ball 3 s p).
Proof.
  intros s0 s1 s2 s3 p o i s H Hs Ho Hi. apply indep3 in H.
  assert (O0 : on_sphere 3 s s0) by (apply Hs; cbn; tauto). assert (O1 : on_sphere 3 s s1) by (apply Hs; cbn; tauto).
  assert (O2 : on_sphere 3 s s2) by (apply Hs; cbn; tauto). assert (O3 : on_sphere 3 s s3) by (apply Hs; cbn; tauto).
  rewrite (insphere3_det s0 s1 s2 s3 p s O0 O1 O2 O3) in Hi. rewrite (sign_rule o i _ _ Ho Hi H).
  unfold in_ball. destruct O0 as [Hr _]. split; [intros; split; lra|intros [_ ?]; lra].
Qed.
Lemma in_simplex2_ok : forall p s0 s1 s2, independent 2 s0 [s1; s2]%list -> exists b, in_simplex2 p s0 s1 s2 = Val b /\
  (b = true <-> in_hull 2 [s0; s1; s2]%list p).
Proof. intros p s0 s1 s2 H. apply in_simplex2_spec. now apply indep2. Qed.
Lemma in_simplex3_ok : forall p s0 s1 s2 s3, independent 3 s0 [s1; s2; s3]%list -> exists b, in_simplex3 p s0 s1 s2 s3 = Val b /\
  (b = true <-> in_hull 3 [s0; s1; s2; s3]%list p).
Proof. intros p s0 s1 s2 s3 H. apply in_simplex3_spec. now apply indep3. Qed.
Lemma circum2_perm : forall s0 s1 s2 t0 t1 t2, independent 2 s0 [s1; s2]%list -> independent 2 t0 [t1; t2]%list ->
  (forall v, In v [s0; s1; s2]%list <-> In v [t0; t1; t2]%list) ->
  exists s t, circum2 s0 s1 s2 = Val s /\ circum2 t0 t1 t2 = Val t /\ sph_eq 2 s t.
Proof.
  intros s0 s1 s2 t0 t1 t2 H G P. destruct (circum2_ok s0 s1 s2 H) as (s & Es & Hs & _). destruct (circum2_ok t0 t1 t2 G) as (t & Et & _ & U).
  exists s, t. split; [exact Es|]. split; [exact Et|]. apply U. intros v Hv. apply Hs, P, Hv.
Qed.
Lemma circum3_perm : forall s0 s1 s2 s3 t0 t1 t2 t3, independent 3 s0 [s1; s2; s3]%list -> independent 3 t0 [t1; t2; t3]%list ->
  (forall v, In v [s0; s1; s2; s3]%list <-> In v [t0; t1; t2; t3]%list) ->
  exists s t, circum3 s0 s1 s2 s3 = Val s /\ circum3 t0 t1 t2 t3 = Val t /\ sph_eq 3 s t.
Proof.
  intros s0 s1 s2 s3 t0 t1 t2 t3 H G P. destruct (circum3_ok s0 s1 s2 s3 H) as (s & Es & Hs & _). destruct (circum3_ok t0 t1 t2 t3 G) as (t & Et & _ & U).
  exists s, t. split; [exact Es|]. split; [exact Et|]. apply U. intros v Hv. apply Hs, P, Hv.
Qed.
(** What a simplex with the same vertices in another order gives. *)
Lemma in_sphere2_perm : forall s0 s1 s2 t0 t1 t2 p o i o' i', independent 2 s0 [s1; s2]%list -> independent 2 t0 [t1; t2]%list ->
  (forall v, In v [s0; s1; s2]%list <-> In v [t0; t1; t2]%list) ->
  has_sign o (orient2 s0 s1 s2) -> has_sign i (insphere2 s0 s1 s2 p) ->
  has_sign o' (orient2 t0 t1 t2) -> has_sign i' (insphere2 t0 t1 t2 p) -> in_sphere o i = in_sphere o' i'.
Proof.
  intros s0 s1 s2 t0 t1 t2 p o i o' i' H G P Ho Hi Ho' Hi'. destruct (circum2_ok s0 s1 s2 H) as (s & _ & Hs & _).
  pose proof (in_sphere2_ok s0 s1 s2 p o i s H Hs Ho Hi) as E1.
  pose proof (in_sphere2_ok t0 t1 t2 p o' i' s G (fun v Hv => Hs v (proj2 (P v) Hv)) Ho' Hi') as E2.
  destruct (in_sphere o i), (in_sphere o' i'); try reflexivity; [symmetry|]; tauto.
Qed.
Lemma in_sphere3_perm : forall s0 s1 s2 s3 t0 t1 t2 t3 p o i o' i', independent 3 s0 [s1; s2; s3]%list -> independent 3 t0 [t1; t2; t3]%list ->
  (forall v, In v [s0; s1; s2; s3]%list <-> In v [t0; t1; t2; t3]%list) ->
  has_sign o (orient3 s0 s1 s2 s3) -> has_sign i (insphere3 s0 s1 s2 s3 p) ->
  has_sign o' (orient3 t0 t1 t2 t3) -> has_sign i' (insphere3 t0 t1 t2 t3 p) -> in_sphere o i = in_sphere o' i'.
Proof.
  intros s0 s1 s2 s3 t0 t1 t2 t3 p o i o' i' H G P Ho Hi Ho' Hi'. destruct (circum3_ok s0 s1 s2 s3 H) as (s & _ & Hs & _).
  pose proof (in_sphere3_ok s0 s1 s2 s3 p o i s H Hs Ho Hi) as E1.
  pose proof (in_sphere3_ok t0 t1 t2 t3 p o' i' s G (fun v Hv => Hs v (proj2 (P v) Hv)) Ho' Hi') as E2.
  destruct (in_sphere o i), (in_sphere o' i'); try reflexivity; [symmetry|]; tauto.
Qed.

(** The value of sqDistanceToFace. *)
Lemma dist_face2_val : forall p s0 s1, (s1 0%nat <> s0 0%nat \/ s1 1%nat <> s0 1%nat) ->
  dist_face2 p s0 s1 = Val (Rabs (orient2 s0 s1 p / dist2 2 s0 s1)).
Proof.
  intros p s0 s1 H. unfold dist_face2. rewrite !dot_2, !cdiff_val. rewrite reqb_false.
  - f_equal. rewrite <- Rabs_Ropp. f_equal. rewrite dist2_2. unfold orient2, Rdiv. rewrite Ropp_mult_distr_l. f_equal; [ring|f_equal; ring].
  - intros E. assert (E2 : (s1 0%nat - s0 0%nat) ^ 2 + (s1 1%nat - s0 1%nat) ^ 2 = 0) by (rewrite <- E; ring).
    assert ((s1 0%nat - s0 0%nat) ^ 2 = 0 /\ (s1 1%nat - s0 1%nat) ^ 2 = 0) as [F0 F1] by (pose proof (sqr_nonneg (s1 0%nat - s0 0%nat)); pose proof (sqr_nonneg (s1 1%nat - s0 1%nat)); lra).
    destruct H as [H|H]; apply H; nra.
Qed.
