(** The constructor places the infinite points around the input. *)
From Verif Require Import Outcome ListUtil WordsModel SimplexModel PointModel PointProofs GeoModel GeoSpec PartModel PartProofs PartProps InfModel InfProofs InfProps DelSpec PlaceSpec TopSpec.
From Coq Require Import Classical Lra.
Local Open Scope nat_scope.

Lemma corner_bits (D i d : N) : (D <= 64)%N -> (i < 2 ^ D)%N -> (d < D)%N -> N.testbit (2 ^ 64 - 2 ^ D + i) d = N.testbit i d.
Proof.
  intros HD Hi Hd. replace (2 ^ 64 - 2 ^ D + i)%N with (i + (2 ^ (64 - D) - 1) * 2 ^ D)%N.
  - rewrite <- (N.mod_pow2_bits_low (i + _) D d Hd), N.mod_add by (apply N.pow_nonzero; discriminate). now apply N.mod_pow2_bits_low.
  - rewrite N.mul_sub_distr_r, <- N.pow_add_r, N.mul_1_l. replace (64 - D + D)%N with 64%N by lia. pose proof (N.pow_le_mono_r 2 D 64 ltac:(discriminate) HD). lia.
Qed.

Section Top.
Variable D : nat.
Hypothesis HD : 0 < D /\ D <= 30.
Variables (tiny huge : R) (p : points vec) (c : N -> vec).
Hypothesis HI : input D tiny huge p c.
Variables (work : list (list N)) (st : stats).
Hypothesis Hw : forall i, In i (concat work) <-> is_fin_id p i.
Hypothesis Hst : stats_par D p tiny huge true work = Val st.
Notation DN := (N.of_nat D).
Notation q := (add_infinite D p st).
Definition far (d : nat) : R := (200 * (st_max st d - st_min st d))%R.

Lemma top30 : (DN <= 30)%N. Proof. clear - HD. lia. Qed.
Lemma top_pow : (2 ^ DN <= 2 ^ 30)%N. Proof. apply N.pow_le_mono_r; [discriminate|exact top30]. Qed.
Lemma fin_below i : is_fin_id p i -> (i < 2 ^ 64 - 2 ^ DN)%N /\ (0 < i)%N.
Proof. pose proof (in_ok _ _ _ _ _ HI) as [_ [H _]]. unfold is_fin_id, finite_size in *. lia. Qed.
Lemma fin_small i : is_fin_id p i -> (i < 2 ^ 64)%N.
Proof. intros H. apply fin_below in H. pose proof top_pow. lia. Qed.
Lemma fin_finite i : is_fin_id p i -> p_finite DN i = true.
Proof. intros H. apply (finite_iff D top30); [now apply fin_small|]. unfold is_inf_id. apply fin_below in H. lia. Qed.
Lemma inf_infinite i : is_inf_id DN i -> p_finite DN i = false.
Proof. intros H. destruct (p_finite DN i) eqn:E; [|reflexivity]. apply (finite_iff D top30) in E; [contradiction|apply H]. Qed.

Lemma stat_in i d : is_fin_id p i -> d < D -> (st_min st d <= c i d <= st_max st d)%R.
Proof.
  intros Hi Hd. assert (Hc : coords_are D p (concat work) c) by (intros j [Hj _]; apply (in_get _ _ _ _ _ HI), Hw, Hj).
  assert (Hsm : forall j, In j (concat work) -> (j < 2 ^ 64)%N) by (intros j Hj; apply fin_small, Hw, Hj).
  pose proof (C35_covers D p tiny huge (concat work) c work st top30 Hsm Hc (fun j => iff_refl _) Hst i (proj2 (Hw i) Hi)) as H.
  destruct H as [x [Ex Hx]]; [|rewrite (in_get _ _ _ _ _ HI i Hi) in Ex; injection Ex as <-; now apply Hx]. unfold is_inf_id. apply fin_below in Hi. lia.
Qed.
Lemma far_ext d j k : d < D -> is_fin_id p j -> is_fin_id p k -> (200 * (c j d - c k d) <= far d)%R.
Proof. intros Hd Hj Hk. pose proof (stat_in j d Hj Hd). pose proof (stat_in k d Hk Hd). unfold far. lra. Qed.
Lemma far_tiny d : d < D -> (tiny <= far d)%R.
Proof. intros Hd. destruct (in_extent _ _ _ _ _ HI d Hd) as [j [k [Hj [Hk H]]]]. pose proof (far_ext d j k Hd Hj Hk). lra. Qed.
Lemma far_pos d : d < D -> (0 < far d)%R.
Proof. intros Hd. pose proof (far_tiny d Hd). pose proof (in_tiny _ _ _ _ _ HI). lra. Qed.

Lemma same_ids i : is_fin_id q i <-> is_fin_id p i.
Proof.
  assert (Hl : length (p_infs p) = (2 ^ D)%nat) by (destruct (in_ok _ _ _ _ _ HI) as [_ [_ H]]; rewrite <- pow_of_nat in H; lia).
  destruct (add_infinite_spec D top30 p st Hl) as [A1 [A2 _]]. unfold is_fin_id. now rewrite A1, A2.
Qed.
Lemma q_ok : pts_ok DN q. Proof. apply (add_infinite_ok D top30 p st), HI. Qed.
Lemma q_fin i : is_fin_id p i -> p_get DN q i = Val (c i).
Proof. intros Hi. rewrite (proj1 (proj2 (add_infinite_ok D top30 p st (in_ok _ _ _ _ _ HI))) i Hi). now apply (in_get _ _ _ _ _ HI). Qed.
Lemma q_co i : is_fin_id p i -> co_of D q i = c i.
Proof. intros Hi. unfold co_of. now rewrite (q_fin i Hi). Qed.
Lemma q_inf v : is_inf_id DN v -> veq D (co_of D q v) (corner far v).
Proof.
  intros Hv d Hd. set (i := N.to_nat (v - (2 ^ 64 - 2 ^ DN))). pose proof top_pow as Hp.
  assert (Hi : i < 2 ^ D) by (unfold i, is_inf_id in *; pose proof (pow_of_nat D); lia).
  assert (Ev : v = (2 ^ 64 - 2 ^ DN + N.of_nat i)%N) by (unfold i, is_inf_id in *; lia).
  unfold co_of. rewrite Ev, (proj2 (proj2 (add_infinite_ok D top30 p st (in_ok _ _ _ _ _ HI))) i Hi). unfold corner.
  rewrite corner_bits; [|pose proof top30; lia|pose proof (pow_of_nat D); lia|lia]. unfold inf_coords, far, safety. destruct (N.testbit (N.of_nat i) (N.of_nat d)); ring.
Qed.
Lemma q_keys v : In v (id_keys DN q) <-> is_fin_id p v \/ is_inf_id DN v.
Proof. rewrite (keys_In DN top30 q v q_ok). unfold is_id. now rewrite same_ids. Qed.
Lemma q_nodup : NoDup (id_keys DN q). Proof. apply (keys_NoDup DN top30), q_ok. Qed.
Lemma q_nz : ~ In 0%N (id_keys DN q).
Proof. intros H. apply q_keys in H. pose proof top_pow. destruct H as [H|H]; [apply fin_below in H; lia|unfold is_inf_id in H; lia]. Qed.
Lemma q_fin_in v : In v (id_keys DN q) -> p_finite DN v = true -> is_fin_id p v.
Proof. intros H Hf. apply q_keys in H. destruct H as [H|H]; [exact H|]. rewrite (inf_infinite v H) in Hf. discriminate. Qed.
Lemma q_inf_in v : In v (id_keys DN q) -> p_finite DN v = false -> is_inf_id DN v.
Proof. intros H Hf. apply q_keys in H. destruct H as [H|H]; [|exact H]. rewrite (fin_finite v H) in Hf. discriminate. Qed.
Lemma q_near v d : is_fin_id p v -> d < D -> (Rabs (c v d) < far d)%R.
Proof. intros Hv Hd. destruct (in_near _ _ _ _ _ HI v d Hv Hd) as [j [k [Hj [Hk H]]]]. pose proof (far_ext d j k Hd Hj Hk). lra. Qed.

Lemma corner_far v d : Rabs (corner far v d) = Rabs (far d).
Proof. unfold corner. destruct (N.testbit v (N.of_nat d)); [reflexivity|apply Rabs_Ropp]. Qed.
Lemma fin_not_inf u v : is_fin_id p u -> is_inf_id DN v -> ~ veq D (c u) (corner far v).
Proof.
  intros Hu Hv H. specialize (H 0 (proj1 HD)). pose proof (q_near u 0 Hu (proj1 HD)) as Hn. rewrite H, corner_far, Rabs_pos_eq in Hn; [lra|]. pose proof (far_pos 0 (proj1 HD)). lra.
Qed.

Lemma ctor_placed : placed DN (co_of D q) far (id_keys DN q).
Proof.
  constructor; rewrite ?Nat2N.id.
  - intros v Hv. apply q_keys in Hv. destruct Hv as [Hv|Hv]; [now apply fin_small|apply Hv].
  - intros v Hv. apply q_keys. right. rewrite p_inf_val in Hv by (pose proof top30; lia). exact Hv.
  - exact far_pos.
  - intros v Hv Hf. apply q_inf. now apply q_inf_in.
  - intros v d Hv Hf Hd. pose proof (q_fin_in v Hv Hf) as Hfi. rewrite (q_co v Hfi). pose proof (q_near v d Hfi Hd). lra.
  - intros u v Hu Hv E. apply q_keys in Hu, Hv. destruct Hu as [Hu|Hu], Hv as [Hv|Hv].
    + rewrite (q_co u Hu), (q_co v Hv) in E. now apply (in_distinct _ _ _ _ _ HI).
    + exfalso. apply (fin_not_inf u v Hu Hv). intros d Hd. rewrite <- (q_inf v Hv d Hd), <- (q_co u Hu). now apply E.
    + exfalso. apply (fin_not_inf v u Hv Hu). intros d Hd. rewrite <- (q_inf u Hu d Hd), <- (q_co v Hv). symmetry. now apply E.
    + assert (Hb : forall d, d < D -> N.testbit u (N.of_nat d) = N.testbit v (N.of_nat d)).
      { intros d Hd. specialize (E d Hd). rewrite (q_inf u Hu d Hd), (q_inf v Hv d Hd) in E. unfold corner in E. pose proof (far_pos d Hd).
        destruct (N.testbit u (N.of_nat d)), (N.testbit v (N.of_nat d)); try reflexivity; lra. }
      set (iu := (u - (2 ^ 64 - 2 ^ DN))%N). set (iv := (v - (2 ^ 64 - 2 ^ DN))%N). pose proof top_pow as Hp.
      assert (Hiu : (iu < 2 ^ DN)%N) by (unfold iu, is_inf_id in *; lia). assert (Hiv : (iv < 2 ^ DN)%N) by (unfold iv, is_inf_id in *; lia).
      assert (Eu : u = (2 ^ 64 - 2 ^ DN + iu)%N) by (unfold iu, is_inf_id in *; lia). assert (Ev : v = (2 ^ 64 - 2 ^ DN + iv)%N) by (unfold iv, is_inf_id in *; lia).
      rewrite Eu, Ev. f_equal. apply N.bits_inj. intros b. destruct (N.lt_ge_cases b DN) as [Hlt|Hge].
      * rewrite <- (corner_bits DN iu b), <- (corner_bits DN iv b), <- Eu, <- Ev; try (pose proof top30; lia); try assumption.
        specialize (Hb (N.to_nat b) ltac:(lia)). now rewrite N2Nat.id in Hb.
      * assert (Hhi : forall x, (x < 2 ^ DN)%N -> N.testbit x b = false).
        { intros x Hx. rewrite <- (N.mod_small x (2 ^ DN) Hx). now apply N.mod_pow2_bits_high. }
        now rewrite !Hhi.
Qed.
End Top.
