(** C61: the assigners of the sample partitioners. *)
From Coq Require Import Reals Lia Lra List.
From Verif Require Import Outcome ListUtil WordsModel LPSetModel SimplexModel PointModel GeoModel GeoSpec GeoProofs GeoCirc GeoBox GeoProps PartModel KWayModel MakerModel MakerProofs AssignModel AssignProofs.
Open Scope list_scope.
Import ListNotations.
Local Open Scope R_scope.

(** [s] is a sample of partition [j]. *)
Definition sample_of (ps : list Z) (ss : list vec) (j : nat) (s : vec) : Prop := exists i, nth_error ps i = Some (Z.of_nat j) /\ nth_error ss i = Some s.
(** [b] is the smallest box around the vectors of [P]. *)
Definition smallest (D : nat) (P : vec -> Prop) (b : box) : Prop := (forall v, P v -> in_box D b v) /\ forall c, (forall v, P v -> in_box D c v) -> forall p, in_box D b p -> in_box D c p.

(** A point goes to a partition such that no other partition's box around its samples is nearer.  Missing: partitions
    without samples. *)
Theorem C61_bounds_partial : forall D k ps ss c, (0 < k)%nat -> (length ps <= length ss)%nat -> (forall p, In p ps -> (0 <= p < Z.of_nat k)%Z) -> (forall j, (j < k)%nat -> exists s, sample_of ps ss j s) ->
  exists bs j, a_boxes D k ps ss = Val bs /\ a_bounds D bs c = Val j /\ (j < k)%nat /\
  forall j' b b', (j' < k)%nat -> smallest D (sample_of ps ss j) b -> smallest D (sample_of ps ss j') b' -> forall q, in_box D b' q -> exists p, in_box D b p /\ dist2 D p c <= dist2 D q c.
Proof.
  intros D k ps ss c Hk L H Hne. destruct (a_boxes_ok D k ps ss L H) as (bs & E & Lb & G).
  assert (B : forall j, (j < k)%nat -> exists b, nth_error bs j = Some (Some b) /\ box_ok D b /\ forall b', smallest D (sample_of ps ss j) b' -> forall p, in_box D b p <-> in_box D b' p).
  { intros j Hj. destruct (Hne j Hj) as [s Hs]. destruct (bounding_spec D (of_part j ps ss)) as (b & Eb & Ok & B1 & B2); [intros X; apply of_part_in in Hs; rewrite X in Hs; destruct Hs|]. exists b. split; [rewrite (G j Hj); now f_equal|]. split; [exact Ok|].
    intros b' [S1 S2] p. split; intros Hp; [apply (B2 b'); [|exact Hp]; intros v Hv; apply S1, of_part_in, Hv|apply (S2 b); [|exact Hp]; intros v Hv; apply B1, of_part_in, Hv]. }
  destruct (a_dists_ok D c bs) as (ds & Ed & Ld & Gd).
  { intros b Hb ->. apply In_nth_error in Hb. destruct Hb as [j Hj]. destruct (B j) as (b & Eb & _); [rewrite <- Lb; eapply nth_error_lt, Hj|]. congruence. }
  destruct (min_idx_spec ds) as [M1 M2]; [intros X; subst ds; cbn in Ld; lia|]. exists bs, (min_idx ds). split; [exact E|]. unfold a_bounds. rewrite Ed. split; [reflexivity|]. rewrite Ld, Lb in M1. split; [exact M1|].
  intros j' b b' Hj' Sb Sb' q Hq. destruct (B _ M1) as (bx & Ex & Okx & Qx). destruct (B j' Hj') as (by' & Ey & Oky & Qy). apply (Qy b' Sb') in Hq.
  destruct (vec_box_dist D c bx Okx) as [(p & Hp & Ep) _]. destruct (vec_box_dist D c by' Oky) as [_ V]. exists p. split; [now apply (Qx b Sb)|]. rewrite Ep. apply Rle_trans with (len2 D (vec_box c by')); [|now apply V].
  pose proof (M2 _ (nth_error_In _ _ (Gd _ _ Ey))) as X. erewrite nth_error_nth in X; [exact X|]. now apply Gd.
Qed.
Print Assumptions C61_bounds_partial.
Definition as_ps : list Z := [0; 1; 0; 1]%Z.
Definition as_ss : list vec := [v2 0 0; v2 5 5; v2 2 2; v2 6 9].
Lemma as_range : forall p, In p as_ps -> (0 <= p < Z.of_nat 2)%Z.
Proof. intros p Hp. cbn in Hp. lia. Qed.
Lemma as_samples : sample_of as_ps as_ss 0 (v2 2 2) /\ sample_of as_ps as_ss 1 (v2 5 5).
Proof. split; [exists 2%nat|exists 1%nat]; split; reflexivity. Qed.
(** The point (2,3) goes to partition 0 with the box [0,2]x[0,2] and not to that with the box [5,6]x[5,9]. *)
Example C61_bounds_case : exists bs, a_boxes 2 2 as_ps as_ss = Val bs /\ a_bounds 2 bs (v2 2 3) = Val 0%nat.
Proof.
  destruct (C61_bounds_partial 2 2 as_ps as_ss (v2 2 3)) as (bs & j & E & Ej & Hj & H); [lia|cbn; lia|exact as_range|intros [|[|j]] Hj; [exists (v2 2 2); apply as_samples|exists (v2 5 5); apply as_samples|lia]|].
  exists bs. split; [exact E|]. rewrite Ej. f_equal. destruct j as [|[|j]]; [reflexivity| |lia]. exfalso.
  assert (S0 : smallest 2 (sample_of as_ps as_ss 0) (mkbox (v2 0 0) (v2 2 2))).
  { split; [intros v ([|[|[|[|i]]]] & A & B); cbn in A, B; try discriminate; [injection B as <-; dims2|injection B as <-; dims2|destruct i; discriminate]|].
    intros c Hc p Hp d Hd. pose proof (Hc (v2 0 0) ltac:(exists 0%nat; split; reflexivity) d Hd). pose proof (Hc (v2 2 2) ltac:(exists 2%nat; split; reflexivity) d Hd). specialize (Hp d Hd). destruct d as [|[|d]]; [| |lia]; cbn in *; lra. }
  assert (S1 : smallest 2 (sample_of as_ps as_ss 1) (mkbox (v2 5 5) (v2 6 9))).
  { split; [intros v ([|[|[|[|i]]]] & A & B); cbn in A, B; try discriminate; [injection B as <-; dims2|injection B as <-; dims2|destruct i; discriminate]|].
    intros c Hc p Hp d Hd. pose proof (Hc (v2 5 5) ltac:(exists 1%nat; split; reflexivity) d Hd). pose proof (Hc (v2 6 9) ltac:(exists 3%nat; split; reflexivity) d Hd). specialize (Hp d Hd). destruct d as [|[|d]]; [| |lia]; cbn in *; lra. }
  destruct (H 0%nat _ _ ltac:(lia) S1 S0 (v2 2 2)) as (p & Hp & Hd); [dims2|]. rewrite !dist2_2 in Hd. pose proof (Hp 0%nat ltac:(lia)) as H0. pose proof (Hp 1%nat ltac:(lia)) as H1. cbn in H0, H1, Hd. nra.
Qed.
(** A partition without samples: its box is not initialised, and every assignment reads it. *)
Theorem C61_empty_refuted : forall D k ps ss j bs c, (length ps <= length ss)%nat -> (forall p, In p ps -> (0 <= p < Z.of_nat k)%Z) -> (j < k)%nat -> ~ In (Z.of_nat j) ps -> a_boxes D k ps ss = Val bs -> a_bounds D bs c = Undef.
Proof.
  intros D k ps ss j bs c L H Hj Hn E. destruct (a_boxes_ok D k ps ss L H) as (bs' & E' & _ & G). assert (bs' = bs) by congruence. subst bs'. unfold a_bounds. rewrite a_dists_none; [reflexivity|].
  apply (nth_error_In bs j). rewrite (G j Hj). f_equal. destruct (of_part j ps ss) as [|s l] eqn:Eo; [reflexivity|]. destruct Hn. assert (X : In s (of_part j ps ss)) by (rewrite Eo; now left). apply of_part_in in X. destruct X as (i & X & _). eapply nth_error_In, X.
Qed.
Print Assumptions C61_empty_refuted.
Example C61_empty_case : exists bs, a_boxes 2 3 as_ps as_ss = Val bs /\ a_bounds 2 bs (v2 2 3) = Undef.
Proof. destruct (a_boxes_ok 2 3 as_ps as_ss) as (bs & E & _); [cbn; lia|intros p Hp; cbn in Hp; lia|]. exists bs. split; [exact E|]. apply (C61_empty_refuted 2 3 as_ps as_ss 2 bs); [cbn; lia|intros p Hp; cbn in Hp; lia|lia|cbn; lia|exact E]. Qed.

(** The centre of a partition with n samples is their sum divided by n + 1, and a point goes to a partition with a nearest
    centre in this sense.  Missing: the mean (sum divided by n); see the refutation. *)
Theorem C61_center_partial : forall D k ps ss c, (0 < k)%nat -> (length ps <= length ss)%nat -> (forall p, In p ps -> (0 <= p < Z.of_nat k)%Z) ->
  exists cs, a_centers k ps ss = Val cs /\ length cs = k /\
  (forall j x, nth_error cs j = Some x -> exists l : list vec, (forall s, In s l <-> sample_of ps ss j s) /\ length l = count_occ Z.eq_dec ps (Z.of_nat j) /\ forall d, x d * (INR (length l) + 1) = fold_right (fun s y => s d + y) 0 l) /\
  (a_center D cs c < k)%nat /\ forall x y j, nth_error cs (a_center D cs c) = Some x -> nth_error cs j = Some y -> dist2 D x c <= dist2 D y c.
Proof.
  intros D k ps ss c Hk L H. destruct (a_centers_ok D k ps ss L H) as (cs & E & Lc & G). exists cs. split; [exact E|]. split; [exact Lc|]. split.
  - intros j x Hx. exists (of_part j ps ss). split; [intros s; apply of_part_in|]. split; [|exact (G j x Hx)].
    clear - L. revert ss L. induction ps as [|p ps IH]; intros [|s ss] L; cbn [length] in L; try lia; [reflexivity|reflexivity|]. cbn [of_part count_occ]. destruct (Z.eqb_spec p (Z.of_nat j)); destruct (Z.eq_dec p (Z.of_nat j)); try contradiction; cbn [length]; rewrite IH by lia; reflexivity.
  - unfold a_center. set (ds := map _ cs). assert (Ld : length ds = k) by (unfold ds; now rewrite map_length). destruct (min_idx_spec ds) as [M1 M2]; [intros X; rewrite X in Ld; cbn in Ld; lia|]. split; [lia|].
    intros x y j Hx Hy. rewrite <- !len2_minus. pose proof (M2 _ (in_map (fun x => len2 D (vminus x c)) cs y (nth_error_In _ _ Hy))) as X. fold ds in X. erewrite nth_error_nth in X; [exact X|]. unfold ds. now apply (map_nth_error (fun x => len2 D (vminus x c))).
Qed.
Print Assumptions C61_center_partial.
Example C61_center_case : exists cs, a_centers 2 as_ps as_ss = Val cs /\ exists x, nth_error cs 0 = Some x /\ x 0%nat = 2 / 3.
Proof.
  destruct (C61_center_partial 2 2 as_ps as_ss (v2 2 3)) as (cs & E & L & G & _); [lia|cbn; lia|exact as_range|]. exists cs. split; [exact E|]. cbn in E. injection E as <-. eexists. split; [reflexivity|]. unfold a_step, vplus, vscale. cbn [fst snd]. cbn. lra.
Qed.
(** One sample each: (4,0) in partition 0 and (8,0) in partition 1.  The point (4,0), which is the mean of the samples of
    partition 0, goes to partition 1. *)
Theorem C61_center_refuted : exists cs, a_centers 2 [0; 1]%Z [v2 4 0; v2 8 0] = Val cs /\ a_center 2 cs (v2 4 0) = 1%nat /\
  sample_of [0; 1]%Z [v2 4 0; v2 8 0] 0 (v2 4 0) /\ (forall s, sample_of [0; 1]%Z [v2 4 0; v2 8 0] 0 s -> s = v2 4 0).
Proof.
  destruct (C61_center_partial 2 2 [0; 1]%Z [v2 4 0; v2 8 0] (v2 4 0)) as (cs & E & L & G & Hlt & Hmin); [lia|cbn; lia|intros p Hp; cbn in Hp; lia|]. exists cs. split; [exact E|]. split; [|split].
  - destruct (a_center 2 cs (v2 4 0)) as [|[|j]] eqn:Ea; [|reflexivity|lia]. exfalso. destruct (nth_error_ex cs 0) as [x Hx]; [lia|]. destruct (nth_error_ex cs 1) as [y Hy]; [lia|]. specialize (Hmin x y 1%nat Hx Hy). rewrite !dist2_2 in Hmin.
    cbn in E. injection E as <-. cbn in Hx, Hy. injection Hx as <-. injection Hy as <-. unfold a_step, vplus, vscale in Hmin. cbn in Hmin. lra.
  - exists 0%nat. split; reflexivity.
  - intros s ([|[|i]] & A & B); cbn in A, B; try discriminate; [congruence|destruct i; discriminate].
Qed.
Print Assumptions C61_center_refuted.

(** With a correct search the nearest sample's partition is taken. *)
Theorem C61_nearest : forall D k ps ss near c, length ps = length ss -> (forall p, In p ps -> (0 <= p < Z.of_nat k)%Z) -> ss <> [] ->
  (exists s, nth_error ss (near c) = Some s /\ forall s', In s' ss -> dist2 D s c <= dist2 D s' c) ->
  exists j s, a_nearest near k ps c = Val j /\ (j < k)%nat /\ sample_of ps ss j s /\ forall j' s', sample_of ps ss j' s' -> dist2 D s c <= dist2 D s' c.
Proof.
  intros D k ps ss near c L H Hne (s & Hs & Hmin). destruct (nth_error_ex ps (near c)) as [p Hp]; [rewrite L; eapply nth_error_lt, Hs|]. pose proof (H p (nth_error_In _ _ Hp)). exists (Z.to_nat p), s. unfold a_nearest. rewrite Hp, (proj2 (a_index_iff k p (Z.to_nat p))) by lia.
  split; [reflexivity|]. split; [lia|]. split; [exists (near c); rewrite Z2Nat.id by lia; auto|]. intros j' s' (i & _ & Hi). apply Hmin. eapply nth_error_In, Hi.
Qed.
Print Assumptions C61_nearest.
Example C61_nearest_case : length as_ps = length as_ss /\ as_ss <> [] /\ (exists s, nth_error as_ss 1 = Some s /\ forall s', In s' as_ss -> dist2 2 s (v2 5 6) <= dist2 2 s' (v2 5 6)) /\ a_nearest (fun _ => 1%nat) 2 as_ps (v2 5 6) = Val 1%nat.
Proof. split; [reflexivity|]. split; [discriminate|]. split; [|reflexivity]. exists (v2 5 5). split; [reflexivity|]. intros s' Hs. rewrite !dist2_2. destruct Hs as [<-|[<-|[<-|[<-|[]]]]]; cbn; lra. Qed.

(** With any of these assigners ([f], which returns for the coordinates of the finite ids) the entries made divide the finite
    ids: each is in the one entry that [f] gives, and in no other. *)
Theorem C61_divides : forall D pts (f : vec -> res nat) ids k co, (N.of_nat D <= 30)%N -> (0 < k <= length ids)%nat -> (forall i, In i ids -> p_finite (N.of_nat D) i = true -> p_get (N.of_nat D) pts i = Val (co i)) ->
  (forall i, In i ids -> p_finite (N.of_nat D) i = true -> exists j, f (co i) = Val j /\ (j < k)%nat) ->
  exists ls, m_ids D (fun i => rbind (p_get (N.of_nat D) pts i) f) ids k = Val ls /\ length ls = k /\
  forall i, In i ids -> p_finite (N.of_nat D) i = true -> exists j l, f (co i) = Val j /\ nth_error ls j = Some l /\ In i l /\ forall j' l', nth_error ls j' = Some l' -> In i l' -> j' = j.
Proof.
  intros D pts f ids k co HD Hk Hg Hf. destruct (m_ids_total D (fun i => rbind (p_get (N.of_nat D) pts i) f) ids k Hk) as [ls E].
  { intros i Hi Hfi. destruct (Hf i Hi Hfi) as (j & Ej & Hj). exists j. split; [exact Hj|]. rewrite (Hg i Hi Hfi). exact Ej. }
  exists ls. split; [exact E|]. destruct (m_ids_ok _ _ _ _ _ E) as (L & _ & Q). split; [exact L|]. intros i Hi Hfi. destruct (Hf i Hi Hfi) as (j & Ej & Hj). destruct (nth_error_ex ls j) as [l Hl]; [lia|]. exists j, l. split; [exact Ej|]. split; [exact Hl|].
  split; [apply (Q j l Hl); right; rewrite (Hg i Hi Hfi); auto|]. intros j' l' Hl' Hin. apply (Q j' l' Hl') in Hin. destruct Hin as [Hin|(_ & _ & X)]; [apply (KWayProofs.inf_not_finite D HD) in Hin; congruence|]. rewrite (Hg i Hi Hfi) in X. cbn [rbind] in X. congruence.
Qed.
Print Assumptions C61_divides.
(** Three points assigned by the bounds of the samples above. *)
Definition ad_co (i : N) : vec := match i with 1%N => v2 2 3 | 2%N => v2 5 7 | _ => v2 0 1 end.
Definition ad_pts : points vec := mkpts [v2 0 0; ad_co 1; ad_co 2; ad_co 3] 0 [].
Example C61_divides_case : exists bs ls, a_boxes 2 2 as_ps as_ss = Val bs /\ m_ids 2 (fun i => rbind (p_get (N.of_nat 2) ad_pts i) (a_bounds 2 bs)) [1; 2; 3]%N 2 = Val ls /\ length ls = 2%nat.
Proof.
  destruct (a_boxes_ok 2 2 as_ps as_ss) as (bs & E & _); [cbn; lia|exact as_range|]. destruct (C61_divides 2 ad_pts (a_bounds 2 bs) [1; 2; 3]%N 2 ad_co) as (ls & El & L & _); [discriminate|cbn; lia|intros i [<-|[<-|[<-|[]]]] _; reflexivity| |exists bs, ls; auto].
  intros i _ _. destruct (C61_bounds_partial 2 2 as_ps as_ss (ad_co i)) as (bs' & j & E' & Ej & Hj & _); [lia|cbn; lia|exact as_range|intros [|[|j]] Hj; [exists (v2 2 2); apply as_samples|exists (v2 5 5); apply as_samples|lia]|]. assert (bs' = bs) by congruence. subst bs'. eauto.
Qed.
