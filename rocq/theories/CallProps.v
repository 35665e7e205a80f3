(** C46: the base cases of DCTriangulator with each splitter. *)
From Coq Require Import Permutation Lra.
From Verif Require Import Outcome ListUtil WordsModel WordsProps LPSetModel BlockModel SimplexModel PointModel PointProofs GeoModel GeoSpec PartModel PartProps InfModel InfProofs MergeModel NbrModel StepModel TriSpec
  DelSpec DelGeo PlaceSpec DelPlace DcModel DcSpec DcBase DcProofs DcEx SplitModel SplitProofs SplitEx TopSpec TopProofs TopRuns TreeProps DcProps CallModel CallSpec CallProofs.
Local Open Scope nat_scope.

(** The list of the base cases is that of a run, and each run has one. *)
Theorem C46_traces over D co cgal split depth par_edge prov S out takes :
  dc_run over D co cgal split depth par_edge prov S out takes <-> exists cs, dc_trace over D co cgal split depth par_edge prov S out takes cs.
Proof.
  split; [intros H; eapply run_trace; eauto|]. intros [cs H]. eapply trace_run; eauto.
Qed.
Print Assumptions C46_traces.

Lemma one_dim_length D pts st mult k f ids ignore ps : one_dim D pts st mult k f ids ignore = Val ps -> length ps = 2.
Proof.
  unfold one_dim. destruct (set_iterate f ids) as [l| |]; cbn [rbind]; try discriminate. destruct (distribute _ _ _ _ _ _) as [q| |] eqn:Eq; cbn [rbind]; try discriminate.
  intros E. rewrite (add_inf_length _ _ _ _ _ E), (distribute_length _ _ _ _ _ _ _ Eq), map_length, seq_length. reflexivity.
Qed.
Lemma half_length D st k f ts ignore ps : half_finish D st k f ts ignore = Val ps -> length ps = 2.
Proof. unfold half_finish. destruct ts as [|s0 [|s1 [|s2 ts]]]; try discriminate. intros E. now rewrite (add_inf_length _ _ _ _ _ E). Qed.
Lemma splits_length D pts tiny huge sp prov S qs : splits D pts tiny huge sp prov S qs -> length qs = ways D sp.
Proof.
  intros (ids & work & st & mult & work' & ps & _ & _ & _ & _ & _ & _ & H & F). assert (L : length ps = length qs) by (clear - F; induction F; cbn; congruence). rewrite <- L. clear F L.
  assert (Hh : forall route k, halved D pts st mult route k ids work' ps -> length ps = 2).
  { intros route k (c & tr & _ & _ & [f Hf]). eapply half_length, Hf, le_n. }
  destruct sp as [|k| |]; cbn [parted_by ways] in *.
  - destruct H as [f Hf]. eapply d_way_length, Hf, le_n.
  - destruct H as [f Hf]. eapply one_dim_length, Hf, le_n.
  - eapply Hh; eauto.
  - destruct H as (k & _ & H). eapply Hh; eauto.
Qed.

(** The base cases of every run on points in general position, whatever the splitter, the order of the threads and the answers of CGAL: different provenances;
    at most 500 points unless the depth is reached or it is an edge triangulation that is not to be split; every base case has the corners, its points are input
    points; each input point is in exactly one base case besides edge triangulations, of which there are at most [ways ^ depth]; one range of ids for each. *)
Theorem C46_base_cases over D tiny huge p c work q hgt cgal sp depth par_edge c0 out takes cs : D = 2 \/ D = 3 -> input D tiny huge p c ->
  (forall i, In i (concat work) <-> is_fin_id p i) -> ctor_points D tiny huge p work = Val q ->
  breaks D (co_of D q) hgt (id_keys (N.of_nat D) q) -> cgal_right (N.of_nat D) (co_of D q) hgt (id_keys (N.of_nat D) q) cgal ->
  (forall k, sp = OneDim k -> k < D) -> depth <= 42 ->
  dc_trace over (N.of_nat D) (co_of D q) cgal (splits D q tiny huge sp) depth par_edge [] (id_keys (N.of_nat D) q) out takes cs ->
  drawn c0 takes -> (c0 + total takes < 2 ^ 64)%N -> (N.of_nat (length takes) < 2 ^ 32)%N ->
  base_cases (N.of_nat D) depth par_edge (ways D sp) (id_keys (N.of_nat D) q) cs /\ length cs = length takes.
Proof.
  intros HD HI Hw Hq HB Hc Hsp Hd Hr Ht H1 H2. destruct (top_ex D HD tiny huge p c HI work Hw q Hq) as [r T].
  assert (HDN : N.of_nat D = 2%N \/ N.of_nat D = 3%N) by (destruct HD as [-> | ->]; [now left|now right]).
  assert (Hk : 1 <= ways D sp) by (destruct sp; cbn [ways]; try lia; pose proof (Nat.pow_nonzero 2 D ltac:(discriminate)); lia).
  destruct (trace_facts over (N.of_nat D) HDN (co_of D q) hgt r (id_keys (N.of_nat D) q)) with (cgal := cgal) (split := splits D q tiny huge sp) (depth := depth) (par_edge := par_edge) (K := ways D sp)
    (n := depth) (prov := @nil (option nat)) (S := id_keys (N.of_nat D) q) (out := out) (takes := takes) (cs := cs) as (A1 & A2 & A3 & A4 & _ & A6); auto.
  - apply T.
  - now rewrite Nat2N.id.
  - eapply cgal_placed; eauto.
  - eapply splits_placed; eauto.
  - lia.
  - intros prov S ps H. rewrite (splits_length _ _ _ _ _ _ _ _ H). lia.
  - cbn. lia.
  - cbn. lia.
  - split; [apply T|]. split; [apply incl_refl|apply T].
  - exact (drawn_ok c0 takes Ht H1 H2).
  - split; [|exact A6]. constructor; auto.
    + intros pv S Hin. destruct (A1 pv S Hin) as (_ & _ & _ & _ & _ & H). exact H.
    + intros pv S Hin. apply (A1 pv S Hin).
    + intros pv S Hin. apply (A1 pv S Hin).
    + intros pv S Hin. apply (A1 pv S Hin).
    + intros pv S v Hin. apply (A1 pv S Hin).
    + intros v Hv Hf. destruct (A3 v Hv Hf) as (pv & S & B1 & B2 & B3 & B4). exists (pv, S). split; [exact B1|]. split; [exact B2|]. split; [exact B3|].
      intros [pv' S'] C1 C2 C3. destruct (B4 pv' S' C1 C2 C3) as [-> ->]. reflexivity.
    + specialize (A4 eq_refl). cbn [length] in A4. now rewrite Nat.sub_0_r in A4.
Qed.
Print Assumptions C46_base_cases.
(** With the depth the constructor computes: not more base cases than threads, besides those of edge triangulations. *)
Theorem C46_all_threads over D tiny huge p c work q hgt cgal sp threads depth par_edge c0 out takes cs : D = 2 \/ D = 3 -> input D tiny huge p c ->
  (forall i, In i (concat work) <-> is_fin_id p i) -> ctor_points D tiny huge p work = Val q ->
  breaks D (co_of D q) hgt (id_keys (N.of_nat D) q) -> cgal_right (N.of_nat D) (co_of D q) hgt (id_keys (N.of_nat D) q) cgal ->
  (forall k, sp = OneDim k -> k < D) -> (1 <= threads < 2 ^ 32)%N -> returns (fun f => recursion_depth f D sp threads) (N.of_nat depth) ->
  dc_trace over (N.of_nat D) (co_of D q) cgal (splits D q tiny huge sp) depth par_edge [] (id_keys (N.of_nat D) q) out takes cs ->
  drawn c0 takes -> (c0 + total takes < 2 ^ 64)%N -> (N.of_nat (length takes) < 2 ^ 32)%N ->
  (N.of_nat (length (filter plain cs)) <= threads)%N /\ (threads < N.of_nat (ways D sp ^ (depth + 1)))%N.
Proof.
  intros HD HI Hw Hq HB Hc Hsp Hth Hdp Hr Ht H1 H2.
  assert (Hb : (N.of_nat (ways D sp ^ depth) <= threads)%N /\ (threads < N.of_nat (ways D sp ^ (depth + 1)))%N).
  { rewrite !Nat2N.inj_pow, Nat2N.inj_add. change (N.of_nat 1) with 1%N.
    assert (G : (sp = DWay -> ((2 ^ N.of_nat D) ^ N.of_nat depth <= threads < (2 ^ N.of_nat D) ^ (N.of_nat depth + 1))%N) /\ (sp <> DWay -> (2 ^ N.of_nat depth <= threads < 2 ^ (N.of_nat depth + 1))%N)).
    { split; intros Hs.
      - rewrite Hs in Hdp. destruct (C27_logN_floor threads (N.of_nat D) ltac:(lia) ltac:(lia)) as [k [Hk Hle]]. cbn [recursion_depth] in Hdp. rewrite (returns_det _ _ _ Hdp Hk). exact Hle.
      - assert (Hl : returns (fun f => log2m f threads) (N.of_nat depth)) by (destruct sp; [contradiction|exact Hdp..]).
        destruct (C27_log2_floor threads ltac:(lia)) as [k [Hk Hle]]. rewrite (returns_det _ _ _ Hl Hk). exact Hle. }
    destruct G as [G1 G2]. destruct sp; cbn [ways]; [rewrite Nat2N.inj_pow; apply G1; reflexivity|apply G2; discriminate..]. }
  destruct Hb as [Hb1 Hb2]. split; [|exact Hb2].
  assert (Hd : depth <= 42).
  { assert (H : (2 ^ N.of_nat depth <= N.of_nat (ways D sp ^ depth))%N).
    { rewrite Nat2N.inj_pow. apply N.pow_le_mono_l. destruct sp; cbn [ways]; try lia. rewrite Nat2N.inj_pow. change (N.of_nat 2) with 2%N. destruct HD as [-> | ->]; cbn; lia. }
    assert (H3 : (2 ^ N.of_nat depth < 2 ^ 32)%N) by lia. apply N.pow_lt_mono_r_iff in H3; lia. }
  destruct (C46_base_cases over D tiny huge p c work q hgt cgal sp depth par_edge c0 out takes cs) as [HC _]; auto. pose proof (bc_count _ _ _ _ _ _ HC). lia.
Qed.
Print Assumptions C46_all_threads.

(** The parabola of 600 points with any splitter: as many threads as the splitter has ways, so one level; the root is split. *)
Example C46_base_cases_ex sp : (forall k, sp = OneDim k -> k < 2) -> exists work q hgt out takes cs, input 2 (1 / 1000) 1000000 g_pts g_c /\ (forall i, In i (concat work) <-> is_fin_id g_pts i) /\
  ctor_points 2 (1 / 1000) 1000000 g_pts work = Val q /\ breaks 2 (co_of 2 q) hgt (id_keys 2 q) /\ cgal_right 2 (co_of 2 q) hgt (id_keys 2 q) (g_cgal hgt (co_of 2 q)) /\
  dc_trace (fun x => x) 2 (co_of 2 q) (g_cgal hgt (co_of 2 q)) (splits 2 q (1 / 1000) 1000000 sp) 1 true [] (id_keys 2 q) out takes cs /\
  drawn 1 takes /\ (1 + total takes < 2 ^ 64)%N /\ (N.of_nat (length takes) < 2 ^ 32)%N /\ returns (fun f => recursion_depth f 2 sp (N.of_nat (ways 2 sp))) 1%N /\ ways 2 sp < length cs.
Proof.
  intros Hsp. destruct (C67_ex sp Hsp) as (work & q & hgt & out & takes & HI & Hw & Hq & Hb & Hc & _ & Hr & Hd & H1 & H2 & Hl).
  destruct (proj1 (C46_traces _ _ _ _ _ _ _ _ _ _ _) Hr) as [cs Ht]. exists work, q, hgt, out, takes, cs. repeat (split; [assumption|]). split.
  { exists 64. intros m Hm. do 64 (destruct m as [|m]; [lia|]). destruct sp; reflexivity. }
  inversion Ht as [? ? ? start last H Hbr|? ? parts ps ps' edge W edgeDT ? tks te css ce H Hs Hlp Hlt Hlc Hsub He Hed Hjr]; subst; [rewrite Hl in H; discriminate|].
  rewrite app_length. assert (Hone : forall i, i < length parts -> 1 <= length (nth i css [])).
  { intros i Hi. specialize (Hsub i Hi). inversion Hsub; subst; [cbn; lia|]. discriminate. }
  assert (Hce : 1 <= length ce).
  { inversion Hed as [? ? ? ? ? ? Hre|]; subst; [|cbn; lia]. inversion Hre; subst; [cbn; lia|]. discriminate. }
  rewrite <- (splits_length _ _ _ _ _ _ _ _ Hs), <- Hlc in *. clear - Hone Hce. assert (G : length css <= length (concat css)); [|lia]. clear Hce. induction css as [|c css IH]; [cbn; lia|]. cbn [concat length]. rewrite app_length.
  pose proof (Hone 0 ltac:(cbn; lia)) as H0. cbn [nth] in H0. specialize (IH (fun i Hi => Hone (Datatypes.S i) ltac:(cbn; lia))). lia.
Qed.
