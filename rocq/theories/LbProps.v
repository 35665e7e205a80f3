(** C72, C73: the load balanced triangulator as a whole. *)
From Coq Require Import Permutation Lra.
From Verif Require Import Outcome ListUtil WordsModel WordsProofs LPSetModel LPSetProofs LPSetHistory LPSetIter SimplexModel PointModel PointProofs GeoModel GeoSpec PartModel PartProofs PartTop InfModel InfProofs MergeModel TriSpec DelSpec PlaceSpec DelPlace
  DcModel DcSpec DcBase DcProofs DcEx MeshSpec MeshProofs TreeModel TreeSpec SplitModel SplitProofs SplitEx StepCase TopSpec TopProofs TopRuns DcProps LbModel LbSpec LbProofs LbEx LbTrees LbTop.
Local Open Scope nat_scope.

(** ** C72: LoadBalancing::DCTriangulator::triangulate *)
(** The partitioner gives a tree that keeps the contract of LbSpec for all points; CGAL keeps its own; the base cases are triangulated by CGAL alone or by a
    DCTriangulator with the cyclic splitter.  Then every execution gives the Delaunay triangulation of the points and the corners, and a mesh of the box. *)
Theorem C72_load_balanced over D tiny huge p c work q hgt cgal depth C cbox meets par_base par_edge (t : tree C) l c0 out takes : D = 2 \/ D = 3 -> input D tiny huge p c ->
  (forall i, In i (concat work) <-> is_fin_id p i) -> ctor_points D tiny huge p work = Val q ->
  let P := id_keys (N.of_nat D) q in
  breaks D (co_of D q) hgt P -> cgal_right (N.of_nat D) (co_of D q) hgt P cgal ->
  (forall r, placed (N.of_nat D) (co_of D q) r P -> (forall d, d < D -> (tiny <= r d)%R) -> tree_ok (N.of_nat D) (co_of D q) r C meets t P) ->
  Leaves t l -> (N.of_nat (4 * entries l) <= 2 ^ 63)%N -> height t <= 42 -> depth <= 42 ->
  lb_run over (N.of_nat D) (co_of D q) cgal (splits D q tiny huge Cycle) depth C cbox meets par_base par_edge [] t out takes ->
  drawn c0 takes -> (c0 + total takes < 2 ^ 64)%N -> (N.of_nat (length takes) < 2 ^ 32)%N ->
  triangulation over (N.of_nat D) (co_of D q) hgt P out /\
  (forall v, In v P <-> is_fin_id p v \/ is_inf_id (N.of_nat D) v) /\ (forall v, is_fin_id p v -> co_of D q v = c v) /\
  exists r, (forall v d, is_fin_id p v -> d < D -> (Rabs (c v d) <= r d)%R) /\ (forall v, is_inf_id (N.of_nat D) v -> veq D (co_of D q v) (corner r v)) /\
    mesh (N.of_nat D) (co_of D q) r P out.
Proof.
  intros HD HI Hw Hq P HB Hc Hok HL Hsm Hh Hd Hr Ht H1 H2.
  assert (Hs : small 64 (4 * entries l)) by (split; [eapply N.le_trans; [exact Hsm|discriminate]|exact Hsm]).
  assert (T : triangulation over (N.of_nat D) (co_of D q) hgt P out).
  { eapply (lb_top_done over D HD tiny huge p c HI work Hw q Hq hgt HB cgal Hc depth C cbox meets par_base par_edge t l 42 Hok HL Hs Hh Hd (le_n _)); [exact Hr|]. exact (drawn_ok c0 takes Ht H1 H2). }
  split; [exact T|]. destruct (top_ex D HD tiny huge p c HI work Hw q Hq) as [r F]. split; [apply F|]. split; [apply F|]. exists r. split; [|split].
  - intros v d Hv Hdd. rewrite <- (tf_fin _ _ _ _ _ _ _ F v Hv). apply (pl_box _ _ _ _ (tf_placed _ _ _ _ _ _ _ F)); [apply (tf_keys _ _ _ _ _ _ _ F); now left| |now rewrite Nat2N.id].
    eapply fin_finite; eauto. lia.
  - intros v Hv. rewrite <- (Nat2N.id D) at 1. apply (pl_corner _ _ _ _ (tf_placed _ _ _ _ _ _ _ F)); [apply (tf_keys _ _ _ _ _ _ _ F); now right|]. eapply inf_infinite; eauto. lia.
  - exact (top_mesh over D HD tiny huge p c q hgt HB out r F T).
Qed.
Print Assumptions C72_load_balanced.
(** If CGAL always answers and the ids suffice, the recursion can be run to its end. *)
Theorem C72_runs over D tiny huge p c work q hgt cgal depth C cbox meets par_base par_edge (t : tree C) l n M K c0 : D = 2 \/ D = 3 -> input D tiny huge p c ->
  (forall i, In i (concat work) <-> is_fin_id p i) -> ctor_points D tiny huge p work = Val q ->
  let P := id_keys (N.of_nat D) q in
  breaks D (co_of D q) hgt P -> cgal_right (N.of_nat D) (co_of D q) hgt P cgal -> cgal_ends (N.of_nat D) P M cgal ->
  (forall r, placed (N.of_nat D) (co_of D q) r P -> (forall d, d < D -> (tiny <= r d)%R) -> tree_ok (N.of_nat D) (co_of D q) r C meets t P) ->
  Leaves t l -> (N.of_nat (4 * entries l) <= 2 ^ 63)%N -> height t <= n -> depth <= n -> n <= 42 ->
  (N.of_nat (width t) <= K)%N -> (2 ^ N.of_nat D <= K)%N -> (c0 + (K + 1) ^ N.of_nat n * M < 2 ^ 64)%N -> ((K + 1) ^ N.of_nat n < 2 ^ 32)%N ->
  exists out takes, lb_run over (N.of_nat D) (co_of D q) cgal (splits D q tiny huge Cycle) depth C cbox meets par_base par_edge [] t out takes /\
    drawn c0 takes /\ (c0 + total takes < 2 ^ 64)%N /\ (N.of_nat (length takes) < 2 ^ 32)%N.
Proof.
  intros HD HI Hw Hq P HB Hc He Hok HL Hsm Hh Hd Hn HK HK2 H1 H2.
  assert (Hs : small 64 (4 * entries l)) by (split; [eapply N.le_trans; [exact Hsm|discriminate]|exact Hsm]).
  destruct (lb_top_run over D HD tiny huge p c HI work Hw q Hq hgt HB cgal Hc depth C cbox meets par_base par_edge t l n Hok HL Hs Hh Hd Hn M K c0 He HK HK2 H1 H2) as (out & takes & R & F & T & L).
  exists out, takes. split; [exact R|]. split; [now exists takes|]. split; lia.
Qed.
Print Assumptions C72_runs.

(** ** C73: the trees of OldPartitionerPartitioner keep the contract *)
(** For the four splitters, every cutoff, number of levels, bounds and schedule: if every node with several children has a finite point below it, the tree keeps the
    contract; and its size is bounded.  Missing: nodes without finite points, which the code splits too if their parent is larger than the cutoff. *)
Theorem C73_old_partial D tiny huge p c work q sp ids cutoff rem b t : D = 2 \/ D = 3 -> input D tiny huge p c ->
  (forall i, In i (concat work) <-> is_fin_id p i) -> ctor_points D tiny huge p work = Val q -> (forall k, sp = OneDim k -> k < D) ->
  let P := id_keys (N.of_nat D) q in
  lists ids P -> built D q tiny huge sp cutoff rem [] b ids t -> filled (N.of_nat D) t ->
  (forall r, placed (N.of_nat D) (co_of D q) r P -> (forall d, d < D -> (tiny <= r d)%R) -> tree_ok (N.of_nat D) (co_of D q) r box (box_ck (N.of_nat D)) t P) /\
  exists l, Leaves t l /\ entries l <= Nat.pow (Nat.pow 2 D) rem * length P /\ height t <= rem /\ width t <= Nat.pow 2 D.
Proof.
  intros HD HI Hw Hq Hsp P Hids Hb Hf. split; [exact (old_tree D HD tiny huge p c HI work Hw q Hq sp Hsp ids cutoff rem b t Hids Hb Hf)|].
  exact (old_size D HD tiny huge p c HI work Hw q Hq sp Hsp ids cutoff rem b t Hids Hb).
Qed.
Print Assumptions C73_old_partial.
(** Then the load balanced triangulator with it gives a mesh.  The nodes have finite points if there is one level, if the cutoff is not below the number of points,
    and for ExtendPartitioner, which has undefined behaviour otherwise. *)
Theorem C73_old_mesh over D tiny huge p c work q hgt cgal depth par_base par_edge sp ids cutoff rem b t c0 out takes : D = 2 \/ D = 3 -> input D tiny huge p c ->
  (forall i, In i (concat work) <-> is_fin_id p i) -> ctor_points D tiny huge p work = Val q -> (forall k, sp = OneDim k -> k < D) ->
  let P := id_keys (N.of_nat D) q in
  breaks D (co_of D q) hgt P -> cgal_right (N.of_nat D) (co_of D q) hgt P cgal ->
  lists ids P -> built D q tiny huge sp cutoff rem [] b ids t -> rem <= 42 -> depth <= 42 -> (N.of_nat (4 * (Nat.pow (Nat.pow 2 D) rem * length P)) <= 2 ^ 63)%N ->
  rem <= 1 \/ set_size ids <= cutoff \/ (sp = Extend /\ (tiny <= huge)%R) ->
  lb_run over (N.of_nat D) (co_of D q) cgal (splits D q tiny huge Cycle) depth box (fun b => b) (box_ck (N.of_nat D)) par_base par_edge [] t out takes ->
  drawn c0 takes -> (c0 + total takes < 2 ^ 64)%N -> (N.of_nat (length takes) < 2 ^ 32)%N ->
  exists r, (forall v d, is_fin_id p v -> d < D -> (Rabs (c v d) <= r d)%R) /\ (forall v, is_inf_id (N.of_nat D) v -> veq D (co_of D q v) (corner r v)) /\
    mesh (N.of_nat D) (co_of D q) r P out.
Proof.
  intros HD HI Hw Hq Hsp P HB Hc Hids Hb Hrem Hd Hsz Hcase Hr Ht H1 H2.
  pose proof (old_filled D HD tiny huge p c HI work Hw q Hq sp Hsp ids cutoff rem b t Hids Hb Hcase) as Hf.
  destruct (C73_old_partial D tiny huge p c work q sp ids cutoff rem b t HD HI Hw Hq Hsp Hids Hb Hf) as (Hok & l & HL & HE & Hh & _).
  eapply (C72_load_balanced over D tiny huge p c work q hgt cgal depth box (fun b => b) (box_ck (N.of_nat D)) par_base par_edge t l c0 out takes HD HI Hw Hq HB Hc Hok HL); eauto; [|lia].
  fold P in HE. lia.
Qed.
Print Assumptions C73_old_mesh.

(** The parabola, split once in each dimension and triangulated in parallel; and in one direction after another. *)
Lemma ids_ex (S : list N) : NoDup S -> ~ In 0%N S -> small 64 (4 * (length S + 4)) -> exists ids, lists ids S.
Proof.
  intros Hn Hz Hs. destruct (init_ok 2 ltac:(lia) (fun _ => 0%N) 0 0) as [R [_ _]]; [discriminate|]. destruct (add_all_ok S (set_new 0 0) [] R Hz) as [s' [_ [R' _]]].
  - eapply small_le; [discriminate| |exact Hs]. cbn [length]. lia.
  - exists s'. split; [exact Hn|]. destruct R' as [Hwf He]. split; [exact Hwf|]. intros x. rewrite He, app_nil_r. symmetry. apply in_rev.
Qed.
Example C73_ex sp par_base par_edge : (forall k, sp = OneDim k -> k < 2) -> exists work q hgt ids t out takes, input 2 (1 / 1000) 1000000 g_pts g_c /\ (forall i, In i (concat work) <-> is_fin_id g_pts i) /\
  ctor_points 2 (1 / 1000) 1000000 g_pts work = Val q /\ breaks 2 (co_of 2 q) hgt (id_keys 2 q) /\ cgal_right 2 (co_of 2 q) hgt (id_keys 2 q) (g_cgal hgt (co_of 2 q)) /\
  cgal_ends 2 (id_keys 2 q) (604 ^ 3) (g_cgal hgt (co_of 2 q)) /\
  lists ids (id_keys 2 q) /\ built 2 q (1 / 1000) 1000000 sp 5000 1 [] (mkbox (v2 0 0) (v2 600 360000)) ids t /\
  lb_run (fun x => x) 2 (co_of 2 q) (g_cgal hgt (co_of 2 q)) (splits 2 q (1 / 1000) 1000000 Cycle) 1 box (fun b => b) (box_ck 2) par_base par_edge [] t out takes /\
  drawn 1 takes /\ (1 + total takes < 2 ^ 64)%N /\ (N.of_nat (length takes) < 2 ^ 32)%N.
Proof.
  intros Hsp. destruct (C67_ex DWay ltac:(discriminate)) as (work & q & hgt & _ & _ & HI & Hw & Hq & HB & Hc & He & _ & _ & _ & _ & Hl).
  destruct (top_ex 2 (or_introl eq_refl) _ _ _ _ HI work Hw q Hq) as [r T]. pose proof T as [T1 T2 T3 T4 T5 T6 T7 _ _ _].
  assert (Hlen : length (id_keys 2 q) = 604) by (apply N.ltb_lt in Hl; unfold ctor_points in Hq; destruct (stats_par _ _ _ _ _ _) as [st| |]; try discriminate Hq; injection Hq as <-; apply g_len).
  destruct (ids_ex (id_keys 2 q) T3 T4) as [ids Hids]; [rewrite Hlen; split; vm_compute; discriminate|].
  assert (H2 : exists u v, In u (id_keys 2 q) /\ In v (id_keys 2 q) /\ p_finite 2 u = true /\ p_finite 2 v = true /\ u <> v).
  { exists 1%N, 2%N. assert (X : forall i, (1 <= i <= 600)%N -> In i (id_keys 2 q)) by (intros i Hi; apply (tf_keys _ _ _ _ _ _ _ T); left; now apply g_fin). split; [apply X; lia|]. split; [apply X; lia|]. repeat split; discriminate. }
  destruct (built_ex 2 ltac:(lia) q (1 / 1000) 1000000 (co_of 2 q) r (id_keys 2 q) T5 T6 T7 T2 sp Hsp 5000 0 [] (mkbox (v2 0 0) (v2 600 360000)) ids (id_keys 2 q) Hids (incl_refl _) T1) as [t Hb].
  { destruct H2 as (u & _ & Hu & _ & Hf & _). eauto. }
  { intros _. exact H2. }
  { rewrite (lists_len ids _ Hids), Hlen. lia. }
  pose proof (old_filled 2 (or_introl eq_refl) _ _ _ _ HI work Hw q Hq sp Hsp ids 5000 1 _ t Hids Hb (or_introl (le_n _))) as Hf.
  destruct (C73_old_partial 2 _ _ _ _ work q sp ids 5000 1 _ t (or_introl eq_refl) HI Hw Hq Hsp Hids Hb Hf) as (Hok & l & HL & HE & Hh & Hwd).
  change (N.of_nat 2) with 2%N in HE. rewrite Hlen in HE. change (Nat.pow (Nat.pow 2 2) 1 * 604) with (4 * 604) in HE. change (Nat.pow 2 2) with 4 in Hwd.
  destruct (C72_runs (fun x => x) 2 _ _ _ _ work q hgt (g_cgal hgt (co_of 2 q)) 1 box (fun b => b) (box_ck 2) par_base par_edge t l 1 (604 ^ 3) 4 1 (or_introl eq_refl) HI Hw Hq HB Hc He Hok HL) as (out & takes & H).
  - lia.
  - exact Hh.
  - lia.
  - lia.
  - lia.
  - discriminate.
  - reflexivity.
  - reflexivity.
  - exists work, q, hgt, ids, t, out, takes. auto 15.
Qed.
