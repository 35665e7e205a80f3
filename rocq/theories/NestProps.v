(** C76: the load balanced triangulator with the sample partitioner that assigns points to the nearest bounding box. *)
From Coq Require Import Permutation Lra.
From Verif Require Import Pool Outcome ListUtil WordsModel WordsProofs LPSetModel LPSetProofs LPSetHistory LPSetIter SimplexModel PointModel PointProofs GeoModel GeoSpec GeoProofs GeoBox GeoCirc PartModel PartProofs PartProps PartTop InfModel InfProofs MergeModel TriSpec DelSpec PlaceSpec DelPlace
  DcModel DcSpec DcBase DcHits DcProofs DcEx MeshSpec MeshProofs TreeModel TreeSpec SplitModel SplitProofs SplitEx StepModel StepPlaced StepCase TopSpec TopProofs TopRuns DcProps LbModel LbSpec LbProofs LbEx LbTrees LbTop LbProps KWayModel KWayProofs KTree WayProps MakerModel MakerProofs MakerProps AssignModel AssignProofs AssignProps SampModel SampProofs NestProofs NestTop.
Local Open Scope nat_scope.

(** The triangle (0, 0), (1, 0), (1/2, 1) with a point inside of it. *)
Definition n_c (i : N) : vec := if (i =? 1)%N then v2 0 0 else if (i =? 2)%N then v2 1 0 else if (i =? 3)%N then v2 (/ 2) 1 else v2 (/ 2) (/ 3).
Definition n_pts : points vec := mkpts [v2 0 0; v2 0 0; v2 1 0; v2 (/ 2) 1; v2 (/ 2) (/ 3)] 0 [v2 0 0; v2 0 0; v2 0 0; v2 0 0].
Lemma n_fin i : is_fin_id n_pts i <-> i = 1%N \/ i = 2%N \/ i = 3%N \/ i = 4%N.
Proof. unfold is_fin_id, n_pts. cbn [p_off p_vec length]. lia. Qed.
Lemma n_input tiny huge : (0 < tiny <= 1)%R -> (1 <= huge)%R -> input 2 tiny huge n_pts n_c.
Proof.
  intros Ht Hh. assert (H2 : forall d, d < 2 -> d = 0 \/ d = 1) by lia. constructor.
  - split; [discriminate|]. split; [vm_compute; discriminate|reflexivity].
  - vm_compute. discriminate.
  - intros i Hi. apply n_fin in Hi as [-> | [-> | [-> | ->]]]; reflexivity.
  - intros i j Hi Hj H. pose proof (H 0 ltac:(lia)) as Hx. pose proof (H 1 ltac:(lia)) as Hy. apply n_fin in Hi as [-> | [-> | [-> | ->]]]; apply n_fin in Hj as [-> | [-> | [-> | ->]]]; try reflexivity; exfalso; cbn in Hx, Hy; lra.
  - lra.
  - intros d Hd. destruct (H2 d Hd) as [-> | ->]; [exists 2%N, 1%N|exists 3%N, 1%N]; rewrite !n_fin; cbn; intuition lra.
  - intros i d Hi Hd. destruct (H2 d Hd) as [-> | ->]; [exists 2%N, 1%N|exists 3%N, 1%N]; (split; [apply n_fin; auto|]; split; [apply n_fin; auto|]); apply n_fin in Hi as [-> | [-> | [-> | ->]]]; cbn; rewrite Rabs_pos_eq; lra.
  - intros i d Hi Hd. destruct (H2 d Hd) as [-> | ->]; apply n_fin in Hi as [-> | [-> | [-> | ->]]]; cbn; lra.
Qed.
(** All points are samples; the inner one is in a partition of its own. *)
Definition n_ps : list Z := [0; 1; 1; 1]%Z.
Definition n_ss : list vec := map n_c [4; 1; 2; 3]%N.
Definition n_part (v : N) : nat := if (v =? 4)%N then 0 else 1.
Lemma n_bounds : exists bs, a_boxes 2 2 n_ps n_ss = Val bs /\ forall v, is_fin_id n_pts v -> a_bounds 2 bs (n_c v) = Val (n_part v).
Proof.
  destruct (bounding_spec 2 [n_c 4]) as (b0 & E0 & K0 & I0 & M0); [discriminate|]. destruct (bounding_spec 2 [n_c 1; n_c 2; n_c 3]) as (b1 & E1 & K1 & I1 & M1); [discriminate|].
  assert (G : a_group n_ps n_ss (repeat [] 2) = Val [[n_c 4]; [n_c 1; n_c 2; n_c 3]]) by reflexivity.
  exists [Some b0; Some b1]. split; [unfold a_boxes; rewrite G; cbn [rmap map]; now rewrite E0, E1|]. intros v Hv. unfold a_bounds. cbn [a_dists rmap min_idx min_go].
  assert (N0 : forall c, (0 <= len2 2 (vec_box c b0))%R /\ (0 <= len2 2 (vec_box c b1))%R) by (intros c; rewrite !vec_box_closest by assumption; split; apply dist2_nonneg).
  destruct (N0 (n_c v)) as [P0 P1].
  assert (Z1 : v <> 4%N -> len2 2 (vec_box (n_c v) b1) = 0%R).
  { intros Hn. apply vec_box_zero; [exact K1|]. apply I1. apply n_fin in Hv as [-> | [-> | [-> | ->]]]; cbn [In]; auto; contradiction. }
  assert (Z0 : len2 2 (vec_box (n_c v) b0) = 0%R <-> v = 4%N).
  { rewrite vec_box_zero by exact K0. split; [|intros ->; apply I0; now left]. intros Hin. injection E0 as <-. pose proof (Hin 0 ltac:(lia)) as A. pose proof (Hin 1 ltac:(lia)) as B. cbn in A, B.
    apply n_fin in Hv as [-> | [-> | [-> | ->]]]; try reflexivity; exfalso; cbn in A, B; lra. }
  unfold n_part. destruct (N.eqb_spec v 4) as [->|Hn].
  - rewrite (proj2 Z0 eq_refl). destruct (rltb (len2 2 (vec_box (n_c 4) b1)) 0) eqn:E; [|reflexivity]. apply rltb_iff in E. lra.
  - rewrite (Z1 Hn). assert (X : rltb 0 (len2 2 (vec_box (n_c v) b0)) = true) by (apply rltb_iff; destruct P0 as [P0|P0]; [exact P0|]; destruct Hn; apply Z0; auto). now rewrite X.
Qed.

(** A circle that has the corners of the triangle outside of it and the inner point not, does not go through a far point. *)
Lemma n_near (o0 o1 r2 w0 w1 : R) : (r2 <= (0 - o0)^2 + (0 - o1)^2 -> r2 <= (1 - o0)^2 + (0 - o1)^2 -> r2 <= (/ 2 - o0)^2 + (1 - o1)^2 -> (/ 2 - o0)^2 + (/ 3 - o1)^2 <= r2 ->
  200 <= Rabs w0 -> 200 <= Rabs w1 -> (w0 - o0)^2 + (w1 - o1)^2 <> r2)%R.
Proof.
  intros A B C P W0 W1 E. assert (H0 : (-1 <= o0 <= 2)%R) by lra. assert (H1 : (-1 <= o1 <= 2)%R) by lra.
  assert (X : forall w o, (200 <= Rabs w -> -1 <= o <= 2 -> 0 < w * (w - 2 * o))%R). { intros w o Hw Ho. unfold Rabs in Hw. destruct (Rcase_abs w) in Hw; nra. }
  pose proof (X w0 o0 W0 H0). pose proof (X w1 o1 W1 H1). lra.
Qed.
Definition n_work : list (list N) := [[1; 2]; [3; 4]]%N.
Lemma n_works i : In i (concat n_work) <-> is_fin_id n_pts i.
Proof. rewrite n_fin. cbn [n_work concat app In]. intuition congruence. Qed.
Lemma n_len tiny huge q : (0 < tiny <= 1)%R -> (1 <= huge)%R -> ctor_points 2 tiny huge n_pts n_work = Val q -> length (id_keys 2 q) = 8.
Proof.
  intros Ht Hh Hq. destruct (ctor_q 2 _ _ _ _ _ Hq) as (st & _ & ->). pose proof (keys_length 2 ltac:(lia) (add_infinite 2 n_pts st) (q_ok 2 ltac:(lia) _ _ _ _ (n_input tiny huge Ht Hh) st)) as H.
  destruct (add_infinite_spec 2 ltac:(lia) n_pts st eq_refl) as [A1 _]. unfold finite_size in H. rewrite A1 in H. cbn [n_pts p_vec length] in H. change (2 ^ 2)%N with 4%N in H. lia.
Qed.
Section Nest.
Variables tiny huge : R.
Hypothesis Ht0 : (0 < tiny <= 1)%R.
Hypothesis Hh0 : (1 <= huge)%R.
Variable q : points vec.
Hypothesis Hq : ctor_points 2 tiny huge n_pts n_work = Val q.
Notation P := (id_keys 2 q).
Notation co := (co_of 2 q).
Notation pt kl := (fun i => snd (nth i kl no_leaf)).
(** An assigner that gives the inner point a partition of its own. *)
Definition nests (part : N -> res nat) : Prop := forall v, is_fin_id n_pts v -> part v = Val (n_part v).
Lemma n_dpart bs v : a_boxes 2 2 n_ps n_ss = Val bs -> is_fin_id n_pts v -> rbind (PointModel.p_get 2 q v) (a_bounds 2 bs) = Val (n_part v).
Proof.
  intros Eb Hv. destruct (top_ex 2 (or_introl eq_refl) tiny huge n_pts n_c (n_input tiny huge Ht0 Hh0) n_work n_works q Hq) as [r0 T]. pose proof T as [T1 T2 T3 T4 T5 T6 T7 T8 T9 _]. change (N.of_nat 2) with 2%N in *.
  destruct n_bounds as (bs' & E & Hb). assert (bs' = bs) by congruence. subst bs'. pose proof (n_input tiny huge Ht0 Hh0) as HI. assert (Fv : p_finite (N.of_nat 2) v = true) by exact (fin_finite 2 ltac:(lia) tiny huge n_pts n_c HI n_work n_works v Hv). rewrite (T6 v); [|apply T8; now left|exact Fv]. cbn [rbind]. rewrite (T9 v Hv). now apply Hb.
Qed.
Lemma n_npart near : (forall c, exists s, nth_error n_ss (near c) = Some s /\ forall s', In s' n_ss -> (dist2 2 s c <= dist2 2 s' c)%R) -> nests (fun v => rbind (PointModel.p_get 2 q v) (a_nearest near 2 n_ps)).
Proof.
  intros Hn v Hv. destruct (top_ex 2 (or_introl eq_refl) tiny huge n_pts n_c (n_input tiny huge Ht0 Hh0) n_work n_works q Hq) as [r0 T]. pose proof T as [T1 T2 T3 T4 T5 T6 T7 T8 T9 _]. change (N.of_nat 2) with 2%N in *.
  pose proof (n_input tiny huge Ht0 Hh0) as HI. assert (Fv : p_finite (N.of_nat 2) v = true) by exact (fin_finite 2 ltac:(lia) tiny huge n_pts n_c HI n_work n_works v Hv). rewrite (T6 v); [|apply T8; now left|exact Fv]. cbn [rbind]. rewrite (T9 v Hv).
  destruct (Hn (n_c v)) as (s & Es & Hs). unfold a_nearest. assert (Hin' : In (n_c v) n_ss) by (apply n_fin in Hv as [-> | [-> | [-> | ->]]]; cbn [n_ss map In]; auto). specialize (Hs _ Hin'). clear - Hv Es Hs.
  destruct (near (n_c v)) as [|[|[|[|m]]]]; cbn in Es; try (destruct m; discriminate); injection Es as <-; rewrite !dist2_2 in Hs; apply n_fin in Hv as [-> | [-> | [-> | ->]]]; cbn in Hs; try reflexivity; exfalso; lra.
Qed.

Hypothesis Hin : input 2 tiny huge n_pts n_c.
Lemma n_keys v : In v P -> p_finite 2 v = true -> is_fin_id n_pts v.
Proof.
  intros Hv Fv. destruct (top_ex 2 (or_introl eq_refl) tiny huge n_pts n_c Hin n_work n_works q Hq) as [r0 T]. pose proof T as [_ _ _ _ _ _ _ T8 _ _]. apply T8 in Hv as [Hv|Hv]; [exact Hv|].
  pose proof (inf_infinite 2 ltac:(lia) v Hv). change (N.of_nat 2) with 2%N in *. congruence.
Qed.
Lemma n_flat part ids b ls fn t : (forall v, In v ids <-> In v P) -> nests part -> maker_tree 2 q part ids 2 b ls fn t -> exists kl ch, t = Tnode (Some b) ch /\
  Forall2 (fun l c => exists s, c = Tleaf (Some (fst l)) s /\ lists s (snd l)) kl ch /\ length kl = 2 /\ (forall v, In v P <-> exists i, i < length kl /\ In v (pt kl i)) /\
  (forall i j v, i < length kl -> j < length kl -> In v (pt kl i) -> In v (pt kl j) -> p_finite 2 v = true -> i = j) /\
  (forall i v, i < length kl -> (p_inf 2 <= v < 2 ^ 64)%N -> In v (pt kl i)) /\
  (forall v, In v (pt kl 1) <-> In v P /\ v <> 4%N) /\ box_ok 2 (fst (nth 0 kl no_leaf)) /\ forall x, in_box 2 (fst (nth 0 kl no_leaf)) x -> veq 2 x (n_c 4).
Proof.
  intros Hids Hpa Ht. destruct (top_ex 2 (or_introl eq_refl) tiny huge n_pts n_c Hin n_work n_works q Hq) as [r0 T]. pose proof T as [T1 T2 T3 T4 T5 T6 T7 T8 T9 _].
  destruct (maker_leaves 2 ltac:(lia) q co P r0 T1 T6 _ ids 2 b ls fn t Hids Ht) as (rs & bx & Lr & Lb & Ebx & (ch & -> & Fch) & Ll & R & L & Tot). change (N.of_nat 2) with 2%N in *.
  assert (Hp : forall v, In v P -> p_finite 2 v = true -> part v = Val (n_part v)) by (intros v Hv Fv; apply Hpa; now apply n_keys).
  destruct rs as [|r0' [|r1 [|? ?]]]; try discriminate Lr. destruct bx as [|x0 [|x1 [|? ?]]]; try discriminate Lb. cbn [combine] in Fch.
  destruct (R 0 r0' eq_refl) as [N0 R0]. destruct (R 1 r1 eq_refl) as [N1 R1].
  exists [(x0, r0'); (x1, r1)], ch. split; [reflexivity|]. split; [exact Fch|]. split; [reflexivity|].
  assert (Q : forall i, i < 2 -> forall v, In v (pt [(x0, r0'); (x1, r1)] i) <-> In v P /\ (p_finite 2 v = true -> n_part v = i)).
  { intros i Hi v. assert (X : In v (pt [(x0, r0'); (x1, r1)] i) <-> In v P /\ (p_finite 2 v = true -> part v = Val i)) by (destruct i as [|[|i]]; [apply R0|apply R1|lia]).
    rewrite X. split; (intros [H1 H2]; split; [exact H1|]; intros Fv; specialize (H2 Fv)); [rewrite (Hp v H1 Fv) in H2; congruence|rewrite (Hp v H1 Fv); congruence]. }
  assert (Np : forall v, n_part v < 2) by (intros v; unfold n_part; destruct (_ =? _)%N; lia).
  change (length [(x0, r0'); (x1, r1)]) with 2.
  assert (X0 : box_ok 2 x0 /\ forall x, in_box 2 x0 x -> veq 2 x (n_c 4)).
  { destruct (nth_error_ex ls 0 ltac:(lia)) as [l0 Hl0]. pose proof (L 0 l0 Hl0) as L0.
    assert (M0 : forall v, In v l0 <-> v = 4%N).
    { intros v. rewrite L0. split; [intros (H1 & H2 & H3); rewrite (Hp v H1 H2) in H3; unfold n_part in H3; destruct (N.eqb_spec v 4); [assumption|discriminate]|]. intros ->.
      assert (H4 : is_fin_id n_pts 4) by (apply n_fin; auto). split; [apply T8; now left|]. split; [reflexivity|]. now apply Hpa. }
    assert (G : forall l i, In l ls -> In i l -> PointModel.p_get 2 q i = Val (co i)). { intros l i Hl Hi. apply In_nth_error in Hl as [j Hl]. apply (L j l Hl) in Hi as (H1 & H2 & _). auto. }
    destruct Ht as (rs' & bs' & _ & _ & _ & He & Hf & _). destruct (boxes_end 2 q ls co G fn He Hf) as [_ B]. destruct (B 0 l0 Hl0) as (pre & tl & E & Hne & Ex). rewrite Ebx in Ex. cbn [nth_error map] in Ex. injection Ex as Ex.
    assert (Htl : map co tl <> []). { destruct tl as [|z tl]; [|discriminate]. destruct (Hne); [|reflexivity]. intros E0. apply (in_nil (a := 4%N)). rewrite <- E0. now apply M0. }
    destruct (bounding_spec 2 (map co tl) Htl) as (x & E' & K & _ & Mi). assert (x = x0) by congruence. subst x. split; [exact K|]. intros x Hx.
    specialize (Mi (mkbox (n_c 4) (n_c 4))). intros d Hd. assert (A : in_box 2 (mkbox (n_c 4) (n_c 4)) x); [|specialize (A d Hd); cbn [b_lo b_hi] in A; lra].
    apply Mi; [|exact Hx]. intros v Hv. apply in_map_iff in Hv as (u & <- & Hu). assert (u = 4%N) by (apply M0; rewrite E; apply in_or_app; now right). subst u. rewrite (T9 4%N) by (apply n_fin; auto). intros d' _. cbn [b_lo b_hi]. lra. }
  split; [|split; [|split; [|split; [|split]]]].
  - intros v. split; [intros Hv; exists (n_part v); split; [apply Np|]; apply Q; auto|]. intros (i & Hi & Hv). now apply (Q i Hi) in Hv.
  - intros i j v Hi Hj Hvi Hvj Fv. apply (Q i Hi) in Hvi as [_ A]. apply (Q j Hj) in Hvj as [_ B]. rewrite <- (A Fv), <- (B Fv). reflexivity.
  - intros i v Hi Hv. apply (Q i Hi). split; [apply T8; right; exact Hv|]. intros Fv. pose proof (inf_infinite 2 ltac:(lia) v Hv) as F. change (N.of_nat 2) with 2%N in F. congruence.
  - intros v. rewrite (Q 1 ltac:(lia)). unfold n_part. split; (intros [H1 H2]; split; [exact H1|]).
    + intros ->. specialize (H2 eq_refl). discriminate.
    + intros _. destruct (N.eqb_spec v 4); [contradiction|reflexivity].
  - exact (proj1 X0).
  - exact (proj2 X0).
Qed.
Lemma n_tree part : nests part -> exists b ls fn t, maker_tree 2 q part P 2 b ls fn t /\ cexec 2 q calm (b_start ls) fn.
Proof.
  intros Hpa. destruct (top_ex 2 (or_introl eq_refl) tiny huge n_pts n_c Hin n_work n_works q Hq) as [r0 T]. pose proof T as [T1 T2 T3 T4 T5 T6 T7 T8 T9 _]. pose proof (n_len tiny huge q Ht0 Hh0 Hq) as Hl.
  exists (mkbox (v2 0 0) (v2 1 1)).
  assert (Np : forall v, n_part v < 2) by (intros v; unfold n_part; destruct (_ =? _)%N; lia).
  apply (maker_ex 2 ltac:(lia) q co P r0 T1 T3 T6 T4).
  - rewrite Hl. split; vm_compute; discriminate.
  - rewrite Hl. lia.
  - intros v Hv Fv. exists (n_part v). split; [apply Np|]. apply Hpa. now apply n_keys.
  - intros j Hj. assert (F4 : is_fin_id n_pts 4) by (apply n_fin; auto). assert (F1 : is_fin_id n_pts 1) by (apply n_fin; auto).
    destruct j as [|[|j]]; [exists 4%N|exists 1%N|lia]; (split; [apply T8; now left|]); (split; [reflexivity|]); now apply Hpa.
  - intros l. apply kway_tree_ex.
Qed.
(** The triangle is Delaunay without the inner point. *)
Lemma n_strict S r : (forall v, In v S <-> In v P /\ v <> 4%N) -> top_facts 2 tiny huge n_pts n_c q r -> strictly_delaunay 2 co S [1; 2; 3]%N.
Proof.
  intros HS T. pose proof T as [T1 T2 T3 T4 T5 T6 T7 T8 T9 T10]. change (N.of_nat 2) with 2%N in *.
  assert (F : forall v, In v [1; 2; 3]%N -> is_fin_id n_pts v) by (intros v [<-|[<-|[<-|[]]]]; apply n_fin; auto).
  split; [|split].
  - intros v Hv. apply HS. split; [apply T8; left; now apply F|]. destruct Hv as [<-|[<-|[<-|[]]]]; discriminate.
  - split; [repeat constructor; cbn; intuition discriminate|]. split; [reflexivity|].
    exists (fun v x => if (v =? 1)%N then 1 - x 0%nat - x 1%nat / 2 else if (v =? 2)%N then x 0%nat - x 1%nat / 2 else x 1%nat)%R.
    split; [|split; [|split]].
    + intros v [<-|[<-|[<-|[]]]]; cbn.
      * exists (fun d => match d with O => -1 | _ => - / 2 end)%R, 1%R. intros x. cbn. field.
      * exists (fun d => match d with O => 1 | _ => - / 2 end)%R, 0%R. intros x. cbn. field.
      * exists (fun d => match d with O => 0 | _ => 1 end)%R, 0%R. intros x. cbn. field.
    + intros v Hv. rewrite (T9 v (F v Hv)). destruct Hv as [<-|[<-|[<-|[]]]]; cbn; lra.
    + intros v w Hv Hw Hn. rewrite (T9 w (F w Hw)). destruct Hv as [<-|[<-|[<-|[]]]], Hw as [<-|[<-|[<-|[]]]]; try (exfalso; now apply Hn); cbn; lra.
    + intros x. split; [cbn; lra|]. intros d Hd. cbn [lsum fold_right map]. rewrite (T9 1%N), (T9 2%N), (T9 3%N) by (apply F; cbn; auto). assert (Hd2 : d = 0 \/ d = 1) by lia. destruct Hd2 as [-> | ->]; cbn; lra.
  - exists (v2 (/ 2) (3 / 8)), (25 / 64)%R. split.
    + intros v Hv. rewrite (T9 v (F v Hv)). destruct Hv as [<-|[<-|[<-|[]]]]; unfold dist2; cbn; lra.
    + intros v Hv Hn. apply HS in Hv as [Hv H4]. apply T8 in Hv as [Hv|Hv]; [apply n_fin in Hv; cbn [In] in Hn; intuition congruence|].
      pose proof (inf_infinite 2 ltac:(lia) v Hv) as Fv. pose proof (pl_corner _ _ _ _ T1 v (proj2 (T8 v) (or_intror Hv)) Fv) as Hc. change (N.to_nat 2) with 2 in Hc. rewrite dist2_2, (Hc 0), (Hc 1) by lia.
      pose proof (T10 0 2%N 1%N ltac:(lia) ltac:(apply n_fin; auto) ltac:(apply n_fin; auto)) as Q. cbn in Q. change (v2 (/ 2) (3 / 8) 0%nat) with (/ 2)%R. change (v2 (/ 2) (3 / 8) 1%nat) with (3 / 8)%R.
      assert (A : (1 <= (corner r v 0%nat - / 2) ^ 2)%R) by (unfold corner; destruct (N.testbit v _); nra). pose proof (pow2_ge_0 (corner r v 1%nat - 3 / 8)). lra.
Qed.
Lemma n_far S r d e x v b hgt over : (forall v, In v S <-> In v P /\ v <> 4%N) -> top_facts 2 tiny huge n_pts n_c q r -> placed 2 co r S -> breaks 2 co hgt P ->
  triangulation over 2 co hgt S d -> shown d e x -> In v (x_verts x) -> p_finite 2 v = false -> box_ok 2 b -> (forall x, in_box 2 b x -> veq 2 x (n_c 4)) ->
  ck_hit 2 co box (box_ck 2) b x = false.
Proof.
  intros HS T Hpl HB Ht Hx Hv Fv Hb Hpt. apply not_true_is_false. intros Hh. pose proof T as [T1 T2 T3 T4 T5 T6 T7 T8 T9 T10]. change (N.of_nat 2) with 2%N in *.
  assert (HBS : breaks 2 co hgt S) by (apply (breaks_sub 2 co hgt P); [exact HB|intros w Hw; now apply HS]).
  destruct (me_delaunay _ _ _ _ _ (tri_mesh over 2 ltac:(lia) co hgt r S Hpl HBS d Ht) e x Hx) as (D1 & D2 & o & r2 & D3 & D4). change (N.to_nat 2) with 2 in *.
  destruct (circum_of_ok over 2 (or_introl eq_refl) co (x_verts x) o r2 D2 D3) as (sp & Es & Eo & Er & Er2). unfold ck_hit in Hh. rewrite Es in Hh. unfold box_ck in Hh. change (N.to_nat 2) with 2 in *.
  apply (box_meets_spec 2 b sp Hb ltac:(lia)) in Hh as (z & Hz & _ & Hd). specialize (Hpt z Hz). rewrite Er2, dist2_2, <- (Eo 0), <- (Eo 1), (Hpt 0), (Hpt 1) in Hd by lia.
  assert (G : forall u, is_fin_id n_pts u -> u <> 4%N -> (r2 <= dist2 2 (n_c u) o)%R). { intros u Hu H4. rewrite <- (T9 u Hu). apply D4. apply HS. split; [apply T8; now left|exact H4]. }
  pose proof (G 1%N ltac:(apply n_fin; auto) ltac:(discriminate)) as A. pose proof (G 2%N ltac:(apply n_fin; auto) ltac:(discriminate)) as B. pose proof (G 3%N ltac:(apply n_fin; auto) ltac:(discriminate)) as C. rewrite dist2_2 in A, B, C.
  pose proof (D3 v Hv) as E. pose proof (D1 v Hv) as Hs. pose proof (pl_corner _ _ _ _ Hpl v Hs Fv) as Hc. change (N.to_nat 2) with 2 in Hc. rewrite dist2_2, (Hc 0), (Hc 1) in E by lia.
  pose proof (T10 0 2%N 1%N ltac:(lia) ltac:(apply n_fin; auto) ltac:(apply n_fin; auto)) as Q0. pose proof (T10 1 3%N 1%N ltac:(lia) ltac:(apply n_fin; auto) ltac:(apply n_fin; auto)) as Q1. cbn in A, B, C, Q0, Q1, Hd.
  apply (n_near (o 0%nat) (o 1%nat) r2 (corner r v 0%nat) (corner r v 1%nat)); try lra; unfold corner; destruct (N.testbit v _); rewrite ?Rabs_Ropp, Rabs_pos_eq; lra.
Qed.

(** Whatever the assigner, if it gives the inner point a partition of its own, the merge takes over the triangle around it. *)
Lemma n_wrong part over hgt cgal depth par_base par_edge ids b ls fn t c0 out takes : nests part ->
  breaks 2 co hgt P -> cgal_right 2 co hgt P cgal -> (forall v, In v ids <-> In v P) -> maker_tree 2 q part ids 2 b ls fn t -> depth <= 42 ->
  lb_run over 2 co cgal (splits 2 q tiny huge Cycle) depth box (fun b => b) (box_ck 2) par_base par_edge [] t out takes ->
  drawn c0 takes -> (c0 + total takes < 2 ^ 64)%N -> (N.of_nat (length takes) < 2 ^ 32)%N ->
  exists e y, shown out e y /\ same [1; 2; 3]%N (x_verts y) /\ ~ delaunay 2 co P (x_verts y).
Proof.
  pose proof Ht0 as Ht. pose proof Hh0 as Hh. pose proof Hin as HI.
  intros Hpa HB Hc Hids Htr Hd Hr Hdr H1 H2. destruct (n_flat part ids b ls fn t Hids Hpa Htr) as (kl & ch & -> & Fch & Lk & Hall & Hone & Hinf & Hp1 & Hb & Hpt).
  destruct (top_ex 2 (or_introl eq_refl) tiny huge n_pts n_c HI n_work n_works q Hq) as [r T]. pose proof (n_len tiny huge q Ht Hh Hq) as Hl.
  pose proof T as [T1 T2 T3 T4 T5 T6 T7 T8 T9 T10]. assert (L2 : 2 <= length kl) by (rewrite Lk; apply le_n).
  assert (Hsm : small 64 (4 * (length kl * length (id_keys 2 q)))) by (rewrite Lk, Hl; split; vm_compute; discriminate).
  destruct (flat_kept over 2 (or_introl eq_refl) (co_of 2 q) hgt r (id_keys 2 q) T1 HB cgal (cgal_placed 2 tiny huge n_pts n_c q hgt cgal Hc r T) (splits 2 q tiny huge Cycle)
    (splits_placed 2 (or_introl eq_refl) tiny huge n_pts n_c q Cycle ltac:(discriminate) r T) depth ltac:(clear - Hd; lia) box (fun b => b) (box_ck 2) no_leaf par_base par_edge b kl ch Fch L2 Hall Hone Hinf) with (out := out) (takes := takes) as (dts & Ld & K).
  { exact Hsm. } { exact Hd. } { exact Hr. } { exact (drawn_ok c0 takes Hdr H1 H2). }
  destruct (K 1 L2) as [Td Kp]. set (dt := nth 1 dts StepModel.no_d) in *.
  assert (Hpl : placed 2 (co_of 2 q) r (snd (nth 1 kl no_leaf))) by (apply (placed_sub 2 (co_of 2 q) r (id_keys 2 q)); [exact T1|intros v Hv; now apply Hp1|intros v Hv; apply Hinf; [exact L2|exact Hv]]).
  assert (HBS : breaks 2 (co_of 2 q) hgt (snd (nth 1 kl no_leaf))) by (apply (breaks_sub 2 (co_of 2 q) hgt (id_keys 2 q)); [exact HB|intros w Hw; now apply Hp1]).
  destruct (me_strict _ _ _ _ _ (tri_mesh over 2 ltac:(lia) (co_of 2 q) hgt r _ Hpl HBS dt Td) [1; 2; 3]%N (n_strict _ r Hp1 T)) as (e & x & Hx & Hsame).
  destruct (Kp) with (e := e) (x := x) as (y & Hy & Ey); [|exact Hx|].
  { intros e' x' v j Hx' Hv Fv Hj Hj1. assert (Hj' : j < 2) by (rewrite <- Lk; exact Hj). assert (j = 0) by lia. subst j. exact (n_far _ r dt e' x' v _ hgt over Hp1 T Hpl HB Td Hx' Hv Fv Hb Hpt). }
  rewrite <- Ey in Hsame. exists e, y. split; [exact Hy|]. split; [exact Hsame|]. intros (_ & _ & o & r2 & D3 & D4).
  assert (C : forall u, In u [1; 2; 3]%N -> dist2 2 (n_c u) o = r2). { intros u Hu. rewrite <- (T9 u) by (apply n_fin; destruct Hu as [<-|[<-|[<-|[]]]]; auto). apply D3. now apply Hsame. }
  pose proof (C 1%N ltac:(cbn; auto)) as A1. pose proof (C 2%N ltac:(cbn; auto)) as A2. pose proof (C 3%N ltac:(cbn; auto)) as A3.
  assert (F4 : is_fin_id n_pts 4%N) by (apply n_fin; auto). pose proof (D4 4%N (proj2 (T8 4%N) (or_introl F4))) as A4. rewrite (T9 4%N F4) in A4. rewrite dist2_2 in A1, A2, A3, A4. cbn in A1, A2, A3, A4. lra.
Qed.
(** Such a run exists. *)
Lemma n_run part hgt par_base par_edge : nests part -> breaks 2 co hgt P -> cgal_right 2 co hgt P (g_cgal hgt co) /\ exists b ls fn t out takes, maker_tree 2 q part P 2 b ls fn t /\ cexec 2 q calm (b_start ls) fn /\
  lb_run (fun x => x) 2 co (g_cgal hgt co) (splits 2 q tiny huge Cycle) 1 box (fun b => b) (box_ck 2) par_base par_edge [] t out takes /\
  drawn 1 takes /\ (1 + total takes < 2 ^ 64)%N /\ (N.of_nat (length takes) < 2 ^ 32)%N.
Proof.
  pose proof Ht0 as Ht. pose proof Hh0 as Hh. pose proof Hin as HI.
  intros Hpa HB. pose proof (n_len tiny huge q Ht Hh Hq) as Hl. destruct (n_tree part Hpa) as (b & ls & fn & t & Htr & Hcalm).
  destruct (n_flat part _ b ls fn t ltac:(reflexivity) Hpa Htr) as (kl & ch & -> & Fch & Lk & Hall & Hone & Hinf & Hp1 & Hb & Hpt).
  destruct (top_ex 2 (or_introl eq_refl) tiny huge n_pts n_c HI n_work n_works q Hq) as [r T]. pose proof T as [T1 T2 T3 T4 T5 T6 T7 T8 T9 T10]. assert (L2 : 2 <= length kl) by (rewrite Lk; apply le_n).
  assert (Hsm : small 64 (4 * (length kl * length (id_keys 2 q)))) by (rewrite Lk, Hl; split; vm_compute; discriminate).
  assert (Hc : cgal_right 2 (co_of 2 q) hgt (id_keys 2 q) (g_cgal hgt (co_of 2 q))) by (intros S last cells _ _ _ [H _]; exact H).
  destruct (flat_ex (fun x => x) 2 (or_introl eq_refl) (co_of 2 q) hgt r (id_keys 2 q) T1 HB (g_cgal hgt (co_of 2 q)) (cgal_placed 2 tiny huge n_pts n_c q hgt _ Hc r T) (splits 2 q tiny huge Cycle)
    (splits_placed 2 (or_introl eq_refl) tiny huge n_pts n_c q Cycle ltac:(discriminate) r T) 1 ltac:(clear; lia) box (fun b => b) (box_ck 2) no_leaf par_base par_edge b kl ch Fch L2 Hall Hone Hinf) with (M := (604 ^ 3)%N) (K := 4%N) (n := 0) (c := 1%N) as (out & takes & R & F & Tt & Lt).
  - exact Hsm.
  - intros S Hn Hs _. destruct (cgal_ex 2 (co_of 2 q) hgt S) as (cells & H & Hlc). pose proof (NoDup_incl_length Hn Hs) as Hl2. rewrite Hl in Hl2.
    assert (Hl3 : (N.of_nat (length cells) <= 604 ^ 3)%N). { pose proof (Nat.pow_le_mono_l (length S) 8 3 Hl2) as X. change (N.to_nat 2 + 1) with 3 in Hlc. change (8 ^ 3) with 512 in X. change (604 ^ 3)%N with 220348864%N. clear - Hlc X. lia. }
    exists (N.of_nat (length cells)), cells. split; [split; [exact H|exact Hl3]|exact Hl3].
  - intros prov S H1 H2 H3 H4. destruct (splits_run 2 (or_introl eq_refl) tiny huge n_pts n_c HI n_work q Hq hgt HB (g_cgal hgt (co_of 2 q)) Hc Cycle ltac:(discriminate) r T prov S H1 H2 H3 H4) as (ps & A & B). exists ps. split; [exact A|exact B].
  - assert (X : (N.of_nat (length kl) <= 4)%N) by (rewrite Lk; discriminate). exact X.
  - apply le_n.
  - reflexivity.
  - reflexivity.
  - lia.
  - split; [exact Hc|]. exists b, ls, fn, (Tnode (Some b) ch), out, takes. split; [exact Htr|]. split; [exact Hcalm|]. split; [exact R|]. split; [now exists takes|]. change ((4 + 1) ^ N.of_nat 1 * 604 ^ 3)%N with 1101744320%N in Tt. change ((4 + 1) ^ N.of_nat 1)%N with 5%N in Lt. split; lia.
Qed.
End Nest.

(** BoundsDistance gives the inner point a partition inside of the other one, and its box meets no circle at the border of that: the merge takes over the triangle that has
    the point inside of its circumcircle.  For every CGAL, tie breaking, schedule of the threads (with or without the race of C60), bounds and order of the ids. *)
Theorem C76_nested_refuted tiny huge : (0 < tiny <= 1)%R -> (1 <= huge)%R -> input 2 tiny huge n_pts n_c /\ (forall i, In i (concat n_work) <-> is_fin_id n_pts i) /\
  exists q, ctor_points 2 tiny huge n_pts n_work = Val q /\
  (exists b ls fn t, dist_tree 2 q n_ps n_ss (id_keys 2 q) 2 b ls fn t /\ cexec 2 q calm (b_start ls) fn) /\
  forall over hgt cgal depth par_base par_edge ids b ls fn t c0 out takes,
  breaks 2 (co_of 2 q) hgt (id_keys 2 q) -> cgal_right 2 (co_of 2 q) hgt (id_keys 2 q) cgal -> (forall v, In v ids <-> In v (id_keys 2 q)) ->
  dist_tree 2 q n_ps n_ss ids 2 b ls fn t -> depth <= 42 ->
  lb_run over 2 (co_of 2 q) cgal (splits 2 q tiny huge Cycle) depth box (fun b => b) (box_ck 2) par_base par_edge [] t out takes ->
  drawn c0 takes -> (c0 + total takes < 2 ^ 64)%N -> (N.of_nat (length takes) < 2 ^ 32)%N ->
  exists e y, shown out e y /\ same [1; 2; 3]%N (x_verts y) /\ ~ delaunay 2 (co_of 2 q) (id_keys 2 q) (x_verts y).
Proof.
  intros Ht Hh. pose proof (n_input tiny huge Ht Hh) as HI. split; [exact HI|]. split; [exact n_works|].
  destruct (ctor_ex 2 tiny huge n_pts n_c _ ltac:(lia) HI n_works) as [q Hq]. exists q. split; [exact Hq|]. destruct n_bounds as (bs & Eb & _). pose proof (fun v => n_dpart tiny huge Ht Hh q Hq bs v Eb) as Hpa. split.
  - destruct (n_tree tiny huge Ht Hh q Hq HI _ Hpa) as (b & ls & fn & t & Htr & Hc). exists b, ls, fn, t. split; [|exact Hc]. exists bs. auto.
  - intros over hgt cgal depth par_base par_edge ids b ls fn t c0 out takes HB Hc Hids (bs' & Eb' & Htr). assert (bs' = bs) by congruence. subst bs'. now apply (n_wrong tiny huge Ht Hh q Hq HI _ over hgt cgal depth par_base par_edge ids b ls fn t c0 out takes Hpa).
Qed.
Print Assumptions C76_nested_refuted.
(** It is no mesh. *)
Corollary C76_no_mesh_refuted tiny huge q over hgt cgal depth par_base par_edge ids b ls fn t c0 out takes r : (0 < tiny <= 1)%R -> (1 <= huge)%R -> ctor_points 2 tiny huge n_pts n_work = Val q ->
  breaks 2 (co_of 2 q) hgt (id_keys 2 q) -> cgal_right 2 (co_of 2 q) hgt (id_keys 2 q) cgal -> (forall v, In v ids <-> In v (id_keys 2 q)) ->
  dist_tree 2 q n_ps n_ss ids 2 b ls fn t -> depth <= 42 ->
  lb_run over 2 (co_of 2 q) cgal (splits 2 q tiny huge Cycle) depth box (fun b => b) (box_ck 2) par_base par_edge [] t out takes ->
  drawn c0 takes -> (c0 + total takes < 2 ^ 64)%N -> (N.of_nat (length takes) < 2 ^ 32)%N -> ~ mesh 2 (co_of 2 q) r (id_keys 2 q) out.
Proof.
  intros Ht Hh Hq HB Hc Hids Htr Hd Hr Hdr H1 H2 Hm. destruct (C76_nested_refuted tiny huge Ht Hh) as (_ & _ & q' & Hq' & _ & H). assert (q' = q) by congruence. subst q'.
  destruct (H over hgt cgal depth par_base par_edge ids b ls fn t c0 out takes HB Hc Hids Htr Hd Hr Hdr H1 H2) as (e & y & Hy & _ & Hn). apply Hn. exact (me_delaunay _ _ _ _ _ Hm e y Hy).
Qed.
Print Assumptions C76_no_mesh_refuted.
(** Such a run exists. *)
Example C76_ex par_base par_edge q : ctor_points 2 1 1 n_pts n_work = Val q -> exists hgt cgal b ls fn t out takes,
  breaks 2 (co_of 2 q) hgt (id_keys 2 q) /\ cgal_right 2 (co_of 2 q) hgt (id_keys 2 q) cgal /\ dist_tree 2 q n_ps n_ss (id_keys 2 q) 2 b ls fn t /\ cexec 2 q calm (b_start ls) fn /\
  lb_run (fun x => x) 2 (co_of 2 q) cgal (splits 2 q 1 1 Cycle) 1 box (fun b => b) (box_ck 2) par_base par_edge [] t out takes /\
  drawn 1 takes /\ (1 + total takes < 2 ^ 64)%N /\ (N.of_nat (length takes) < 2 ^ 32)%N.
Proof.
  intros Hq. assert (Ht : (0 < 1 <= 1)%R) by lra. assert (Hh : (1 <= 1)%R) by lra. pose proof (n_input 1 1 Ht Hh) as HI.
  destruct (heights_ex 2 (co_of 2 q) (id_keys 2 q)) as [hgt HB]. exists hgt, (g_cgal hgt (co_of 2 q)). destruct n_bounds as (bs & Eb & _).
  destruct (n_run 1 1 Ht Hh q Hq HI _ hgt par_base par_edge (fun v => n_dpart 1 1 Ht Hh q Hq bs v Eb) HB) as (Hc & b & ls & fn & t & out & takes & Htr & H). exists b, ls, fn, t, out, takes.
  split; [exact HB|]. split; [exact Hc|]. split; [now exists bs|exact H].
Qed.

(** ** C77: partitions of the nearest sample *)
(** The same happens if every point goes to the partition of the nearest sample, whichever of the nearest the k-d tree finds. *)
Theorem C77_nested_refuted tiny huge near : (forall c, exists s, nth_error n_ss (near c) = Some s /\ forall s', In s' n_ss -> (dist2 2 s c <= dist2 2 s' c)%R) -> (0 < tiny <= 1)%R -> (1 <= huge)%R -> input 2 tiny huge n_pts n_c /\ (forall i, In i (concat n_work) <-> is_fin_id n_pts i) /\
  exists q, ctor_points 2 tiny huge n_pts n_work = Val q /\
  (exists b ls fn t, near_tree 2 q near n_ps (id_keys 2 q) 2 b ls fn t /\ cexec 2 q calm (b_start ls) fn) /\
  forall over hgt cgal depth par_base par_edge ids b ls fn t c0 out takes,
  breaks 2 (co_of 2 q) hgt (id_keys 2 q) -> cgal_right 2 (co_of 2 q) hgt (id_keys 2 q) cgal -> (forall v, In v ids <-> In v (id_keys 2 q)) ->
  near_tree 2 q near n_ps ids 2 b ls fn t -> depth <= 42 ->
  lb_run over 2 (co_of 2 q) cgal (splits 2 q tiny huge Cycle) depth box (fun b => b) (box_ck 2) par_base par_edge [] t out takes ->
  drawn c0 takes -> (c0 + total takes < 2 ^ 64)%N -> (N.of_nat (length takes) < 2 ^ 32)%N ->
  exists e y, shown out e y /\ same [1; 2; 3]%N (x_verts y) /\ ~ delaunay 2 (co_of 2 q) (id_keys 2 q) (x_verts y).
Proof.
  intros Hn Ht Hh. pose proof (n_input tiny huge Ht Hh) as HI. split; [exact HI|]. split; [exact n_works|].
  destruct (ctor_ex 2 tiny huge n_pts n_c _ ltac:(lia) HI n_works) as [q Hq]. exists q. split; [exact Hq|]. pose proof (n_npart tiny huge Ht Hh q Hq near Hn) as Hpa. split; [exact (n_tree tiny huge Ht Hh q Hq HI _ Hpa)|].
  intros over hgt cgal depth par_base par_edge ids b ls fn t c0 out takes HB Hc Hids Htr. now apply (n_wrong tiny huge Ht Hh q Hq HI _ over hgt cgal depth par_base par_edge ids b ls fn t c0 out takes Hpa).
Qed.
Print Assumptions C77_nested_refuted.
(** There is such a search, and such a run. *)
Definition n_near_ix (c : vec) : nat := min_idx (map (fun s => dist2 2 s c) n_ss).
Example C77_near c : exists s, nth_error n_ss (n_near_ix c) = Some s /\ forall s', In s' n_ss -> (dist2 2 s c <= dist2 2 s' c)%R.
Proof.
  unfold n_near_ix. set (ds := map _ n_ss). destruct (min_idx_spec ds) as [M1 M2]; [discriminate|]. assert (L : length ds = length n_ss) by apply map_length. destruct (nth_error_ex n_ss (min_idx ds) ltac:(lia)) as [s Es].
  exists s. split; [exact Es|]. intros s' Hs'. assert (E : nth (min_idx ds) ds 0%R = dist2 2 s c) by (apply nth_error_nth; now apply (map_nth_error (fun s => dist2 2 s c))). rewrite <- E. apply M2. now apply (in_map (fun s => dist2 2 s c)).
Qed.
Example C77_ex par_base par_edge q : ctor_points 2 1 1 n_pts n_work = Val q -> exists hgt cgal b ls fn t out takes,
  breaks 2 (co_of 2 q) hgt (id_keys 2 q) /\ cgal_right 2 (co_of 2 q) hgt (id_keys 2 q) cgal /\ near_tree 2 q n_near_ix n_ps (id_keys 2 q) 2 b ls fn t /\ cexec 2 q calm (b_start ls) fn /\
  lb_run (fun x => x) 2 (co_of 2 q) cgal (splits 2 q 1 1 Cycle) 1 box (fun b => b) (box_ck 2) par_base par_edge [] t out takes /\
  drawn 1 takes /\ (1 + total takes < 2 ^ 64)%N /\ (N.of_nat (length takes) < 2 ^ 32)%N.
Proof.
  intros Hq. assert (Ht : (0 < 1 <= 1)%R) by lra. assert (Hh : (1 <= 1)%R) by lra. pose proof (n_input 1 1 Ht Hh) as HI.
  destruct (heights_ex 2 (co_of 2 q) (id_keys 2 q)) as [hgt HB]. exists hgt, (g_cgal hgt (co_of 2 q)).
  destruct (n_run 1 1 Ht Hh q Hq HI _ hgt par_base par_edge (n_npart 1 1 Ht Hh q Hq n_near_ix C77_near) HB) as (Hc & b & ls & fn & t & out & takes & Htr & H). exists b, ls, fn, t, out, takes.
  split; [exact HB|]. split; [exact Hc|]. split; [exact Htr|exact H].
Qed.
