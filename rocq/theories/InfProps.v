(** C55: do the infinite points enclose the input? *)
From Coq Require Import Reals Lra.
From Verif Require Import Outcome ListUtil WordsModel SimplexModel PointModel PointProofs GeoModel PartModel PartSpec PartProps InfModel InfProofs.
Local Open Scope R_scope.

(** [c] is a convex combination of the infinite points of [q]: it lies in the box (or, were they moved, the polytope) they
    span. *)
Definition enclosed (D : nat) (q : points vec) (c : vec) : Prop :=
  exists v w, (forall i, (i < 2 ^ D)%nat -> p_get (N.of_nat D) q (2 ^ 64 - 2 ^ N.of_nat D + N.of_nat i)%N = Val (v i)) /\
    (forall i, (i < 2 ^ D)%nat -> 0 <= w i) /\ rsum (2 ^ D) w = 1 /\
    forall d, (d < D)%nat -> rsum (2 ^ D) (fun i => w i * v i d) = c d.

Lemma inf_sign st i d : inf_coords st (N.of_nat i) d = if bit i d then 200 * (st_max st d - st_min st d) else - (200 * (st_max st d - st_min st d)).
Proof. unfold inf_coords, safety, bit. destruct (N.testbit (N.of_nat i) (N.of_nat d)); ring. Qed.

(** After the constructor the finite points are as before, and a point is enclosed exactly if none of its coordinates is
    further from zero than 200 times the extent of the input, as the statistics give it. *)
Theorem C55_exact D (p : points vec) st c : (N.of_nat D <= 30)%N -> pts_ok (N.of_nat D) p -> (forall d, (d < D)%nat -> st_min st d <= st_max st d) ->
  (forall i, is_fin_id p i -> p_get (N.of_nat D) (add_infinite D p st) i = p_get (N.of_nat D) p i) /\
  (enclosed D (add_infinite D p st) c <-> forall d, (d < D)%nat -> Rabs (c d) <= 200 * (st_max st d - st_min st d)).
Proof.
  intros HD Hp Hst. destruct (add_infinite_ok D HD p st Hp) as [_ [H1 H2]]. split; [exact H1|]. set (r := fun d => 200 * (st_max st d - st_min st d)). split.
  - intros [v [w [Hv [W1 [W2 W3]]]]] d Hd. rewrite <- (W3 d Hd).
    assert (Hb : forall i, (i < 2 ^ D)%nat -> - r d <= v i d <= r d).
    { intros i Hi. specialize (Hv i Hi). rewrite (H2 i Hi) in Hv. injection Hv as <-. rewrite inf_sign. unfold r. specialize (Hst d Hd). destruct (bit i d); lra. }
    apply Rabs_le. split.
    + replace (- (200 * (st_max st d - st_min st d))) with (rsum (2 ^ D) (fun i => - r d * w i)) by (rewrite rsum_scale, W2; unfold r; ring).
      apply rsum_le. intros i Hi. specialize (Hb i Hi). specialize (W1 i Hi). nra.
    + replace (200 * (st_max st d - st_min st d)) with (rsum (2 ^ D) (fun i => r d * w i)) by (rewrite rsum_scale, W2; unfold r; ring).
      apply rsum_le. intros i Hi. specialize (Hb i Hi). specialize (W1 i Hi). nra.
  - intros Hc. destruct (box_hull r c D Hc) as [w [W1 [W2 W3]]]. exists (fun i => inf_coords st (N.of_nat i)), w.
    split; [exact H2|]. split; [exact W1|]. split; [exact W2|]. intros d Hd. rewrite <- (W3 d Hd). apply rsum_ext. intros i _. now rewrite inf_sign.
Qed.
Print Assumptions C55_exact.

(** Every input point is enclosed, for every way the statistics are computed, if in each dimension no coordinate is further
    from zero than 200 times the distance of some two coordinates of the input.  Missing: inputs far from the origin. *)
Theorem C55_enclosed_partial D (p : points vec) tiny huge ids c work : (N.of_nat D <= 30)%N -> pts_ok (N.of_nat D) p ->
  (forall i, In i ids <-> is_fin_id p i) -> (forall i, In i ids -> p_get (N.of_nat D) p i = Val (c i)) ->
  (forall i, In i (concat work) <-> In i ids) ->
  (forall i d, In i ids -> (d < D)%nat -> exists j k, In j ids /\ In k ids /\ Rabs (c i d) <= 200 * (c j d - c k d)) ->
  exists q, ctor_points D tiny huge p work = Val q /\
    forall i, In i ids -> p_get (N.of_nat D) q i = Val (c i) /\ enclosed D q (c i).
Proof.
  intros HD Hp Hids Hc Hw Hfar.
  assert (Hlt : forall i, In i ids -> (i < 2 ^ 64)%N).
  { intros i Hi. apply Hids in Hi. destruct Hp as [_ [H _]]. unfold is_fin_id in Hi. unfold finite_size in H. lia. }
  assert (Hca : coords_are D p ids c) by (intros i [Hi _]; auto).
  destruct (C35_stats_partial D p tiny huge ids c work HD Hlt Hca Hw) as [s [Es _]].
  pose proof (C35_covers D p tiny huge ids c work s HD Hlt Hca Hw Es) as Hcov.
  assert (Hb : forall i d, In i ids -> (d < D)%nat -> st_min s d <= c i d <= st_max s d).
  { intros i d Hi Hd. destruct (Hcov i Hi) as [c' [Ec Hc']].
    - intros Hinf. apply Hids in Hi. destruct Hp as [_ [H _]]. unfold is_fin_id in Hi. unfold finite_size in H. unfold is_inf_id in Hinf. lia.
    - rewrite (Hc i Hi) in Ec. injection Ec as <-. now apply Hc'. }
  unfold ctor_points. rewrite Es. cbn [rmap]. eexists. split; [reflexivity|]. intros i Hi.
  destruct (C55_exact D p s (c i) HD Hp) as [E1 E2].
  { intros d Hd. specialize (Hb i d Hi Hd). lra. }
  split; [rewrite E1 by (now apply Hids); now apply Hc|]. apply E2. intros d Hd. destruct (Hfar i d Hi Hd) as [j [k [Hj [Hk H]]]].
  pose proof (Hb j d Hj Hd). pose proof (Hb k d Hk Hd). lra.
Qed.
Print Assumptions C55_enclosed_partial.

Definition pv (x y : R) : vec := fun d => match d with O => x | _ => y end.
Definition e_pts : points vec := mkpts [pv 0 0; pv 0 1; pv 3 0; pv 2 4] 0 [pv 0 0; pv 0 0; pv 0 0; pv 0 0].
Definition e_c (i : N) : vec := if (i =? 1)%N then pv 0 1 else if (i =? 2)%N then pv 3 0 else pv 2 4.
Example C55_enclosed_ex : pts_ok 2 e_pts /\ (forall i, In i [1; 2; 3]%N <-> is_fin_id e_pts i) /\ (forall i, In i [1; 2; 3]%N -> p_get 2 e_pts i = Val (e_c i)) /\
  (forall i, In i (concat [[3; 1]; [2]]%N) <-> In i [1; 2; 3]%N) /\
  (forall i d, In i [1; 2; 3]%N -> (d < 2)%nat -> exists j k, In j [1; 2; 3]%N /\ In k [1; 2; 3]%N /\ Rabs (e_c i d) <= 200 * (e_c j d - e_c k d)).
Proof.
  split; [split; [discriminate|split; [vm_compute; discriminate|reflexivity]]|]. split.
  { intros i. unfold is_fin_id. cbn [e_pts p_off p_vec length In]. lia. }
  split; [intros i [<-|[<-|[<-|[]]]]; reflexivity|]. split; [intros i; cbn [concat app In]; tauto|].
  intros i d Hi Hd. assert (Ed : d = 0%nat \/ d = 1%nat) by lia. destruct Ed as [-> | ->].
  - exists 2%N, 1%N. split; [right; left; reflexivity|]. split; [left; reflexivity|]. destruct Hi as [<-|[<-|[<-|[]]]]; cbn; rewrite Rabs_pos_eq; lra.
  - exists 3%N, 2%N. split; [right; right; left; reflexivity|]. split; [right; left; reflexivity|]. destruct Hi as [<-|[<-|[<-|[]]]]; cbn; rewrite Rabs_pos_eq; lra.
Qed.

(** The full statement (every input is enclosed) does not hold: the box is centred at the origin, not at the input.  Two
    points near (1000, 1000), for all values of numeric_limits::min() and max() that are small and large enough. *)
Definition f_pts : points vec := mkpts [pv 0 0; pv 1000 1000; pv 1001 1001] 0 [pv 0 0; pv 0 0; pv 0 0; pv 0 0].
Theorem C55_enclosed_refuted tiny huge : tiny <= 1 -> 2000 <= huge ->
  pts_ok 2 f_pts /\ (forall i, In i [1; 2]%N <-> is_fin_id f_pts i) /\
  exists q, ctor_points 2 tiny huge f_pts [[1; 2]]%N = Val q /\ forall i, In i [1; 2]%N -> exists c, p_get 2 q i = Val c /\ ~ enclosed 2 q c.
Proof.
  intros Ht Hh. assert (Hp : pts_ok 2 f_pts) by (split; [discriminate|split; [vm_compute; discriminate|reflexivity]]).
  assert (Hids : forall i, In i [1; 2]%N <-> is_fin_id f_pts i) by (intros i; unfold is_fin_id; cbn [f_pts p_off p_vec length In]; lia).
  split; [exact Hp|]. split; [exact Hids|].
  set (c := fun i : N => if (i =? 1)%N then pv 1000 1000 else pv 1001 1001).
  assert (Hlt : forall i, In i [1; 2]%N -> (i < 2 ^ 64)%N) by (intros i [<-|[<-|[]]]; reflexivity).
  assert (Hca : coords_are 2 f_pts [1; 2]%N c) by (intros i [[<-|[<-|[]]] _]; reflexivity).
  assert (Hfin : forall i, In i [1; 2]%N -> fin_in 2 [1; 2]%N i) by (intros i Hi; split; [exact Hi|]; destruct Hi as [<-|[<-|[]]]; unfold is_inf_id; vm_compute; intros [H _]; now apply H).
  destruct (C35_stats_partial 2 f_pts tiny huge [1; 2]%N c [[1; 2]]%N ltac:(lia) Hlt Hca) as [s [Es [Smin [Smax _]]]]; [intros i; cbn; tauto|].
  assert (Emin : forall d, (d < 2)%nat -> st_min s d = 1000).
  { intros d Hd. apply Smin; [|lra]. assert (Ed : d = 0%nat \/ d = 1%nat) by lia. split.
    - exists 1%N. split; [apply Hfin; now left|]. destruct Ed as [-> | ->]; reflexivity.
    - intros i [Hi _]. destruct Hi as [<-|[<-|[]]]; destruct Ed as [-> | ->]; cbn; lra. }
  assert (Emax : forall d, (d < 2)%nat -> st_max s d = 1001).
  { intros d Hd. apply Smax; [|lra]. assert (Ed : d = 0%nat \/ d = 1%nat) by lia. split.
    - exists 2%N. split; [apply Hfin; right; now left|]. destruct Ed as [-> | ->]; reflexivity.
    - intros i [Hi _]. destruct Hi as [<-|[<-|[]]]; destruct Ed as [-> | ->]; cbn; lra. }
  unfold ctor_points. rewrite Es. cbn [rmap]. eexists. split; [reflexivity|]. intros i Hi. exists (c i).
  destruct (C55_exact 2 f_pts s (c i) ltac:(lia) Hp) as [E1 E2]; [intros d Hd; rewrite Emin, Emax by exact Hd; lra|].
  change (N.of_nat 2) with 2%N in E1. split.
  - rewrite E1 by (now apply Hids). destruct Hi as [<-|[<-|[]]]; reflexivity.
  - intros Hen0. pose proof (proj1 E2 Hen0 0%nat ltac:(lia)) as Hen. rewrite Emin, Emax in Hen by lia.
    destruct Hi as [<-|[<-|[]]]; cbn in Hen; rewrite Rabs_pos_eq in Hen; lra.
Qed.
Print Assumptions C55_enclosed_refuted.
