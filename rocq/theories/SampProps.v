(** C75: the load balanced triangulator with the sample partitioner that assigns points to the nearest centre. *)
From Coq Require Import Permutation Lra.
From Verif Require Import Pool Outcome ListUtil WordsModel WordsProofs LPSetModel LPSetProofs LPSetHistory LPSetIter SimplexModel PointModel PointProofs GeoModel GeoSpec GeoBox GeoCirc PartModel PartProofs PartTop InfModel InfProofs MergeModel TriSpec DelSpec PlaceSpec DelPlace
  DcModel DcSpec DcBase DcProofs DcEx MeshSpec MeshProofs TreeModel TreeSpec SplitModel SplitProofs SplitEx StepCase TopSpec TopProofs TopRuns DcProps LbModel LbSpec LbProofs LbEx LbTrees LbTop LbProps KWayModel KWayProofs KTree WayProps MakerModel MakerProofs MakerProps AssignModel AssignProofs AssignProps SampModel SampProofs.
Local Open Scope nat_scope.

(** Centre [j] is the first of those nearest to [c]. *)
Definition nearest (D : nat) (cs : list vec) (c : vec) (j : nat) : Prop := exists x, nth_error cs j = Some x /\
  forall i y, nth_error cs i = Some y -> (dist2 D x c <= dist2 D y c)%R /\ (i < j -> (dist2 D x c < dist2 D y c)%R).
Lemma nearest_is D cs c j : nearest D cs c j -> a_center D cs c = j.
Proof.
  intros (x & Hx & H). assert (Hlt : a_center D cs c < length cs). { unfold a_center. set (ds := map _ cs). assert (L : length ds = length cs) by apply map_length. destruct (min_idx_spec ds) as [M _]; [intros E; rewrite E in L; destruct cs; [destruct j; discriminate|discriminate]|]. lia. }
  destruct (nth_error_ex cs _ Hlt) as [y Hy]. destruct (H _ y Hy) as [H1 H2]. destruct (near_le D cs c j x y Hx Hy) as [N1 N2].
  destruct (Nat.lt_total (a_center D cs c) j) as [X|[X|X]]; [specialize (H2 X); lra|exact X|specialize (N2 X); lra].
Qed.
Lemma center_lt D cs c : cs <> [] -> a_center D cs c < length cs.
Proof. intros Hne. unfold a_center. set (ds := map _ cs). assert (L : length ds = length cs) by apply map_length. destruct (min_idx_spec ds) as [M _]; [intros E; rewrite E in L; destruct cs; [contradiction|discriminate]|]. lia. Qed.

Lemma centers_len k ps ss cs : a_centers k ps ss = Val cs -> length cs = k.
Proof.
  intros Hcs. unfold a_centers in Hcs. destruct (a_cents ps ss (repeat (0, fun _ => 0%R) k)) as [l| |] eqn:E; try discriminate. injection Hcs as <-. rewrite map_length.
  assert (G : forall ps ss acc l, a_cents ps ss acc = Val l -> length l = length acc). { clear. induction ps as [|z ps IH]; intros ss acc l E; cbn [a_cents] in E; [congruence|]. destruct ss as [|s ss]; [discriminate|]. destruct (a_index _ _); [|discriminate]. destruct (nth_error acc n); [|discriminate]. rewrite (IH _ _ _ E). apply upd_length. }
  rewrite (G _ _ _ _ E). apply repeat_length.
Qed.

(** If each centre is the nearest one of some input point, and the flags of the boxes are not written by two threads at a time (C60_race_refuted), the tree keeps the contract
    of the triangulator. *)
Theorem C75_center D tiny huge p c work q ps ss ids k cs b ls fn t : D = 2 \/ D = 3 -> input D tiny huge p c ->
  (forall i, In i (concat work) <-> is_fin_id p i) -> ctor_points D tiny huge p work = Val q ->
  let P := id_keys (N.of_nat D) q in
  (forall v, In v ids <-> In v P) -> 0 < k -> a_centers k ps ss = Val cs -> (forall j, j < k -> exists v, is_fin_id p v /\ nearest D cs (c v) j) ->
  center_tree D q ps ss ids k b ls fn t -> cexec D q calm (b_start ls) fn ->
  (forall r, placed (N.of_nat D) (co_of D q) r P -> (forall d, d < D -> (tiny <= r d)%R) -> tree_ok (N.of_nat D) (co_of D q) r box (box_ck (N.of_nat D)) t P) /\
  exists l, Leaves t l /\ entries l <= k * length P /\ height t <= 1 /\ width t <= k.
Proof.
  intros HD HI Hw Hq P Hids Hk Hcs Hne (cs' & E & Ht) Hcalm. assert (cs' = cs) by congruence. subst cs'. clear E.
  destruct (top_ex D HD tiny huge p c HI work Hw q Hq) as [r0 T]. pose proof T as [T1 T2 T3 T4 T5 T6 T7 T8 T9 _].
  assert (HD8 : 0 < D <= 8) by lia.
  pose proof (centers_len k ps ss cs Hcs) as Lcs.
  assert (Hpart : forall v, In v P -> p_finite (N.of_nat D) v = true -> rbind (p_get (N.of_nat D) q v) (fun c => Val (a_center D cs c)) = Val (a_center D cs (co_of D q v))) by (intros v Hv Fv; now rewrite (T6 v Hv Fv)).
  split; [|exact (maker_size D HD8 q (co_of D q) P r0 T1 T6 _ ids k b ls fn t Hids Ht)].
  intros r Hr Hrt. apply (maker_ok D HD8 q (co_of D q) P r Hr T3 T6 _ ids k b ls fn t Hids Ht Hk Hcalm).
  - intros j Hj. destruct (Hne j Hj) as (v & Hv & Hn). assert (HvP : In v P) by (apply T8; now left). assert (Fv : p_finite (N.of_nat D) v = true) by (eapply (fin_finite D); eauto; lia). exists v. split; [exact HvP|]. split; [exact Fv|].
    rewrite (Hpart v HvP Fv), (T9 v Hv). f_equal. now apply nearest_is.
  - intros i j v Hi Hj Hij Hv Fv Ev. rewrite (Hpart v Hv Fv) in Ev. injection Ev as Ev. destruct (cells_parted D cs (co_of D q) P i v) as (g & G1 & G2 & G3); [lia|lia|congruence|]. exists g. split; [exact G1|]. split; [exact G2|].
    intros u Hu Fu Eu. rewrite (Hpart u Hu Fu) in Eu. injection Eu as Eu. auto.
Qed.
Print Assumptions C75_center.

(** And the triangulator gives a mesh. *)
Theorem C75_mesh over D tiny huge p c work q hgt cgal depth par_base par_edge ps ss ids k cs b ls fn t c0 out takes : D = 2 \/ D = 3 -> input D tiny huge p c ->
  (forall i, In i (concat work) <-> is_fin_id p i) -> ctor_points D tiny huge p work = Val q ->
  let P := id_keys (N.of_nat D) q in
  breaks D (co_of D q) hgt P -> cgal_right (N.of_nat D) (co_of D q) hgt P cgal ->
  (forall v, In v ids <-> In v P) -> 0 < k -> a_centers k ps ss = Val cs -> (forall j, j < k -> exists v, is_fin_id p v /\ nearest D cs (c v) j) ->
  center_tree D q ps ss ids k b ls fn t -> cexec D q calm (b_start ls) fn ->
  depth <= 42 -> (N.of_nat (4 * (k * length P)) <= 2 ^ 63)%N ->
  lb_run over (N.of_nat D) (co_of D q) cgal (splits D q tiny huge Cycle) depth box (fun b => b) (box_ck (N.of_nat D)) par_base par_edge [] t out takes ->
  drawn c0 takes -> (c0 + total takes < 2 ^ 64)%N -> (N.of_nat (length takes) < 2 ^ 32)%N ->
  exists r, (forall v d, is_fin_id p v -> d < D -> (Rabs (c v d) <= r d)%R) /\ (forall v, is_inf_id (N.of_nat D) v -> veq D (co_of D q v) (corner r v)) /\
    mesh (N.of_nat D) (co_of D q) r P out.
Proof.
  intros HD HI Hw Hq P HB Hc Hids Hk Hcs Hne Ht Hcalm Hd Hsz Hr Htk H1 H2.
  destruct (C75_center D tiny huge p c work q ps ss ids k cs b ls fn t HD HI Hw Hq Hids Hk Hcs Hne Ht Hcalm) as (Hok & l & HL & HE & Hh & _).
  eapply (C72_load_balanced over D tiny huge p c work q hgt cgal depth box (fun b => b) (box_ck (N.of_nat D)) par_base par_edge t l c0 out takes HD HI Hw Hq HB Hc Hok HL); eauto; [|lia].
  fold P in HE. lia.
Qed.
Print Assumptions C75_mesh.

(** There is such a tree: a schedule in which no two threads meet at the flags. *)
Theorem C75_returns D tiny huge p c work q ps ss k cs b : D = 2 \/ D = 3 -> input D tiny huge p c ->
  (forall i, In i (concat work) <-> is_fin_id p i) -> ctor_points D tiny huge p work = Val q ->
  let P := id_keys (N.of_nat D) q in
  0 < k <= length P -> (N.of_nat (4 * (length P + 4)) <= 2 ^ 63)%N -> a_centers k ps ss = Val cs -> (forall j, j < k -> exists v, is_fin_id p v /\ nearest D cs (c v) j) ->
  exists ls fn t, center_tree D q ps ss P k b ls fn t /\ cexec D q calm (b_start ls) fn.
Proof.
  intros HD HI Hw Hq P Hk Hsm Hcs Hne. destruct (top_ex D HD tiny huge p c HI work Hw q Hq) as [r0 T]. pose proof T as [T1 T2 T3 T4 T5 T6 T7 T8 T9 _].
  assert (HD8 : 0 < D <= 8) by lia.
  assert (Hpart : forall v, In v P -> p_finite (N.of_nat D) v = true -> rbind (p_get (N.of_nat D) q v) (fun c => Val (a_center D cs c)) = Val (a_center D cs (co_of D q v))) by (intros v Hv Fv; now rewrite (T6 v Hv Fv)).
  pose proof (centers_len k ps ss cs Hcs) as Lc.
  destruct (maker_ex D HD8 q (co_of D q) P r0 T1 T3 T6 T4) with (part := fun i => rbind (p_get (N.of_nat D) q i) (fun c => Val (a_center D cs c))) (k := k) (b := b) as (ls & fn & t & Ht & Hc).
  - split; [eapply N.le_trans; [exact Hsm|discriminate]|exact Hsm].
  - exact Hk.
  - intros v Hv Fv. exists (a_center D cs (co_of D q v)). split; [|now apply Hpart]. rewrite <- Lc. apply center_lt. intros ->. cbn in Lc. lia.
  - intros j Hj. destruct (Hne j Hj) as (v & Hv & Hn). assert (HvP : In v P) by (apply T8; now left). assert (Fv : p_finite (N.of_nat D) v = true) by (eapply (fin_finite D); eauto; lia). exists v. split; [exact HvP|]. split; [exact Fv|].
    rewrite (Hpart v HvP Fv), (T9 v Hv). f_equal. now apply nearest_is.
  - intros l. apply kway_tree_ex.
  - exists ls, fn, t. split; [|exact Hc]. exists cs. auto.
Qed.
Print Assumptions C75_returns.

(** Two cells of the parabola: the centres are half of the samples, the first and the last point. *)
Definition pb_ss : list vec := [g_c 1; g_c 600].
Lemma g_x i : g_c i 0 = IZR (Z.of_N i).
Proof. reflexivity. Qed.
Lemma g_y i : g_c i 1 = IZR (Z.of_N (i * i)).
Proof. reflexivity. Qed.
Lemma half_at (s : vec) d : snd (a_step (0, fun _ => 0%R) s) d = (s d / 2)%R.
Proof. unfold a_step, vplus, vscale. cbn [fst snd]. replace (INR (1 + 1)) with 2%R by (cbn; lra). lra. Qed.
Lemma pb_cs : exists x y, a_centers 2 [0; 1]%Z pb_ss = Val [x; y] /\ (forall d, x d = g_c 1 d / 2)%R /\ (forall d, y d = g_c 600 d / 2)%R.
Proof. eexists; eexists. split; [reflexivity|]. split; intros d; apply half_at. Qed.
Example C75_ex par_base par_edge : exists work q hgt cs ls fn t out takes, input 2 (1 / 1000) 1000000 g_pts g_c /\ (forall i, In i (concat work) <-> is_fin_id g_pts i) /\
  ctor_points 2 (1 / 1000) 1000000 g_pts work = Val q /\ breaks 2 (co_of 2 q) hgt (id_keys 2 q) /\ cgal_right 2 (co_of 2 q) hgt (id_keys 2 q) (g_cgal hgt (co_of 2 q)) /\
  a_centers 2 [0; 1]%Z pb_ss = Val cs /\ (forall j, j < 2 -> exists v, is_fin_id g_pts v /\ nearest 2 cs (g_c v) j) /\
  center_tree 2 q [0; 1]%Z pb_ss (id_keys 2 q) 2 (mkbox (v2 0 0) (v2 600 360000)) ls fn t /\ cexec 2 q calm (b_start ls) fn /\
  lb_run (fun x => x) 2 (co_of 2 q) (g_cgal hgt (co_of 2 q)) (splits 2 q (1 / 1000) 1000000 Cycle) 1 box (fun b => b) (box_ck 2) par_base par_edge [] t out takes /\
  drawn 1 takes /\ (1 + total takes < 2 ^ 64)%N /\ (N.of_nat (length takes) < 2 ^ 32)%N.
Proof.
  destruct (C67_ex DWay ltac:(discriminate)) as (work & q & hgt & _ & _ & HI & Hw & Hq & HB & Hc & He & _ & _ & _ & _ & Hl).
  assert (Hlen : length (id_keys 2 q) = 604) by (apply N.ltb_lt in Hl; unfold ctor_points in Hq; destruct (stats_par _ _ _ _ _ _) as [st| |]; try discriminate Hq; injection Hq as <-; apply g_len).
  destruct pb_cs as (x & y & Ecs & Hx & Hy).
  assert (Hne : forall j, j < 2 -> exists v, is_fin_id g_pts v /\ nearest 2 [x; y] (g_c v) j).
  { intros j Hj. destruct j as [|[|j]]; [exists 1%N; split; [apply g_fin; lia|]; exists x|exists 600%N; split; [apply g_fin; lia|]; exists y|lia]; (split; [reflexivity|]); intros [|[|i]] z Hz; cbn in Hz; try (destruct i; discriminate); injection Hz as <-; rewrite !dist2_2, ?Hx, ?Hy, !g_x, !g_y; cbn; (split; [lra|]); intros; try lia; lra. }
  destruct (C75_returns 2 _ _ _ _ work q [0; 1]%Z pb_ss 2 [x; y] (mkbox (v2 0 0) (v2 600 360000)) (or_introl eq_refl) HI Hw Hq) as (ls & fn & t & Ht & Hcalm).
  { change (N.of_nat 2) with 2%N. rewrite Hlen. lia. } { change (N.of_nat 2) with 2%N. rewrite Hlen. lia. } { exact Ecs. } { exact Hne. }
  destruct (C75_center 2 _ _ _ _ work q [0; 1]%Z pb_ss (id_keys 2 q) 2 [x; y] _ ls fn t (or_introl eq_refl) HI Hw Hq ltac:(reflexivity) ltac:(lia) Ecs Hne Ht Hcalm) as (Hok & l & HL & HE & Hh & Hwd).
  change (N.of_nat 2) with 2%N in HE. rewrite Hlen in HE.
  destruct (C72_runs (fun x => x) 2 _ _ _ _ work q hgt (g_cgal hgt (co_of 2 q)) 1 box (fun b => b) (box_ck 2) par_base par_edge t l 1 (604 ^ 3) 4 1 (or_introl eq_refl) HI Hw Hq HB Hc He Hok HL) as (out & takes & H).
  - lia.
  - exact Hh.
  - lia.
  - lia.
  - lia.
  - discriminate.
  - reflexivity.
  - reflexivity.
  - exists work, q, hgt, [x; y], ls, fn, t, out, takes. split; [exact HI|]. split; [exact Hw|]. split; [exact Hq|]. auto 15.
Qed.

(** A centre that is nearest to no point leaves a box uninitialised: there is no tree. *)
Theorem C75_empty_refuted D tiny huge p c work q ps ss ids k cs j b ls fn t : D = 2 \/ D = 3 -> input D tiny huge p c ->
  (forall i, In i (concat work) <-> is_fin_id p i) -> ctor_points D tiny huge p work = Val q ->
  (forall v, In v ids <-> In v (id_keys (N.of_nat D) q)) -> a_centers k ps ss = Val cs -> j < k -> (forall v, is_fin_id p v -> ~ nearest D cs (c v) j) ->
  ~ center_tree D q ps ss ids k b ls fn t.
Proof.
  intros HD HI Hw Hq Hids Hcs Hj Hno (cs' & E & Ht). assert (cs' = cs) by congruence. subst cs'. clear E. pose proof (centers_len k ps ss cs Hcs) as Lc. set (P := id_keys (N.of_nat D) q) in *.
  destruct (top_ex D HD tiny huge p c HI work Hw q Hq) as [r0 T]. pose proof T as [T1 T2 T3 T4 T5 T6 T7 T8 T9 _]. assert (HD8 : 0 < D <= 8) by lia.
  destruct (maker_leaves D HD8 q (co_of D q) P r0 T1 T6 _ ids k b ls fn t Hids Ht) as (rs & bs & Lr & Lb & Eb & _ & Ll & R & L & Tot).
  destruct (nth_error_ex ls j ltac:(lia)) as [l Hl].
  assert (l = []).
  { destruct l as [|v l]; [reflexivity|]. exfalso. destruct (proj1 (L j (v :: l) Hl v) ltac:(now left)) as (Hv & Fv & Ev). rewrite (T6 v Hv Fv) in Ev. cbn [rbind] in Ev. injection Ev as Ev.
    assert (Hv' : is_fin_id p v). { apply T8 in Hv as [Hv|Hv]; [exact Hv|]. pose proof (inf_infinite D ltac:(lia) v Hv). congruence. }
    apply (Hno v Hv'). rewrite <- (T9 v Hv'). destruct (nth_error_ex cs j ltac:(lia)) as [x Hx]. exists x. split; [exact Hx|]. intros i y Hy. rewrite <- Ev in Hx. destruct (near_le D cs (co_of D q v) i y x Hy Hx) as [A B]. split; [exact A|]. intros Hij. apply B. lia. }
  subst l. destruct Ht as (rs' & bs' & _ & _ & _ & He & Hf & Eb' & _).
  assert (G : forall l i, In l ls -> In i l -> p_get (N.of_nat D) q i = Val (co_of D q i)). { intros l i Hl' Hi. apply In_nth_error in Hl' as [j' Hl']. apply (L j' l Hl') in Hi as (H1 & H2 & _). auto. }
  destruct (boxes_end D q ls (co_of D q) G fn He Hf) as [_ B]. destruct (B j [] Hl) as (pre & tl & E & _ & Ebx). symmetry in E. apply app_eq_nil in E as [_ ->]. cbn [map bounding] in Ebx. rewrite Eb in Ebx. destruct (nth_error_ex bs j ltac:(lia)) as [bx Hbx]. rewrite (map_nth_error Some j bs Hbx) in Ebx. discriminate.
Qed.
Print Assumptions C75_empty_refuted.
(** The last three points of the parabola as samples, each in its partition: no point is nearest to the second centre. *)
Definition pe_ss : list vec := [g_c 598; g_c 599; g_c 600].
Example C75_empty_ex : exists work q cs, input 2 (1 / 1000) 1000000 g_pts g_c /\ (forall i, In i (concat work) <-> is_fin_id g_pts i) /\ ctor_points 2 (1 / 1000) 1000000 g_pts work = Val q /\
  a_centers 3 [0; 1; 2]%Z pe_ss = Val cs /\ (forall v, is_fin_id g_pts v -> ~ nearest 2 cs (g_c v) 1) /\ forall b ls fn t, ~ center_tree 2 q [0; 1; 2]%Z pe_ss (id_keys 2 q) 3 b ls fn t.
Proof.
  destruct (C67_ex DWay ltac:(discriminate)) as (work & q & hgt & _ & _ & HI & Hw & Hq & _).
  assert (X : exists x y z, a_centers 3 [0; 1; 2]%Z pe_ss = Val [x; y; z] /\ (forall d, x d = g_c 598 d / 2)%R /\ (forall d, y d = g_c 599 d / 2)%R /\ (forall d, z d = g_c 600 d / 2)%R).
  { eexists; eexists; eexists. split; [reflexivity|]. repeat split; intros d; apply half_at. }
  destruct X as (x & y & z & Ecs & Hx & Hy & Hz).
  assert (Hno : forall v, is_fin_id g_pts v -> ~ nearest 2 [x; y; z] (g_c v) 1).
  { intros v Hv (y' & Ey & H). cbn in Ey. injection Ey as <-. apply g_fin in Hv. destruct (H 0 x eq_refl) as [_ A]. specialize (A ltac:(lia)). destruct (H 2 z eq_refl) as [B _]. rewrite !dist2_2, !Hx, !Hy, !g_x, !g_y in A. rewrite !dist2_2, !Hy, !Hz, !g_x, !g_y in B.
    assert (Hu : (1 <= IZR (Z.of_N v) <= 600)%R) by (split; apply IZR_le; lia).
    assert (Hw' : (IZR (Z.of_N (v * v)) <= 178929 \/ 179776 <= IZR (Z.of_N (v * v)))%R).
    { destruct (N.le_gt_cases v 423) as [Hle|Hgt]; [left; apply (IZR_le _ 178929), Z.le_trans with (Z.of_N (423 * 423)); [apply N2Z.inj_le, N.mul_le_mono; lia|discriminate]|].
      right. apply (IZR_le 179776), Z.le_trans with (Z.of_N (424 * 424)); [discriminate|apply N2Z.inj_le, N.mul_le_mono; lia]. }
    revert A B Hu Hw'. generalize (IZR (Z.of_N (v * v))) (IZR (Z.of_N v)). cbn. intros w u A B Hu Hw'. lra. }
  exists work, q, [x; y; z]. split; [exact HI|]. split; [exact Hw|]. split; [exact Hq|]. split; [exact Ecs|]. split; [exact Hno|].
  intros b ls fn t. eapply (C75_empty_refuted 2 _ _ _ _ work q _ _ _ 3 _ 1 b ls fn t (or_introl eq_refl) HI Hw Hq); [reflexivity|exact Ecs|lia|exact Hno].
Qed.
