(** C80 and C81: the load balanced triangulator with flattened trees, and with the trees of NearestSamplePointAssigningSampleBipartitioner. *)
From Coq Require Import Permutation Classical Lra.
From Verif Require Import Pool Outcome ListUtil WordsModel WordsProofs LPSetModel LPSetProofs LPSetHistory LPSetIter SimplexModel PointModel PointProofs GeoModel GeoSpec GeoProofs GeoBox GeoCirc PartModel PartProofs PartProps PartTop InfModel InfProofs MergeModel TriSpec DelSpec PlaceSpec DelPlace
  DcModel DcSpec DcBase DcHits DcProofs DcEx MeshSpec MeshProofs TreeModel TreeSpec TreeProofs SplitModel SplitProofs SplitEx StepModel StepPlaced StepCase TopSpec TopProofs TopRuns DcProps LbModel LbSpec LbProofs LbEx LbTrees LbTop LbProps KWayModel KWayProofs KTree SampleModel MakerModel
  BisectModel BisectSpec BisectProofs BisectBox BisectProps HypSpec BinTree HypProofs EstProofs HypProps EstProps FlatSpec FlatProofs.
Local Open Scope nat_scope.

(** Every tree with the contract of C72 keeps it when FlatPartitioner flattens it; the leaves stay, in one level. *)
Theorem C80_flat D co r C meets (t : tree C) S l : tree_ok D co r C meets t S -> uniform t -> Leaves t l ->
  tree_ok D co r C meets (flatten t) S /\ Leaves (flatten t) l /\ t_ck (flatten t) = t_ck t /\ height (flatten t) <= 1 /\ (forall k ch c, flatten t = Tnode k ch -> In c ch -> is_leaf c = true).
Proof.
  intros H U HL. split; [now apply flat_tree_ok|]. split; [now apply flatten_leaves|]. split; [now destruct t|].
  assert (A : forall k ch c, flatten t = Tnode k ch -> In c ch -> is_leaf c = true).
  { intros k ch c E Hc. destruct t as [ck s|ck ch0]; [discriminate|]. unfold flatten in E. rewrite (flat_leaves _ _ _ HL) in E. injection E as _ <-. apply in_map_iff in Hc as ([ck' s'] & <- & _). reflexivity. }
  split; [|exact A]. destruct (flatten t) as [k s|k ch]; [cbn; lia|]. assert (Z : forall c, In c ch -> height c = 0) by (intros c Hc; specialize (A k ch c eq_refl Hc); now destruct c).
  clear A. destruct ch as [|c1 [|c2 ch]]; [cbn; lia|cbn; lia|]. cbn [height]. apply le_n_S. rewrite (Z c1 ltac:(now left)), (Z c2 ltac:(right; now left)). cbn [Nat.max].
  assert (X : forall q, (forall c, In c q -> height c = 0) -> (fix go (ch : list (tree C)) : nat := match ch with [] => 0 | c :: q => Nat.max (height c) (go q) end) q = 0).
  { clear. induction q as [|c q IH]; intros Hq; [reflexivity|]. rewrite (Hq c ltac:(now left)), IH; [reflexivity|]. intros c' Hc'. apply Hq. now right. }
  rewrite X; [lia|]. intros c Hc. apply Z. right. now right.
Qed.
Print Assumptions C80_flat.
(** So the answer is the Delaunay mesh of the points. *)
Theorem C80_mesh over D tiny huge p c work q hgt cgal depth C cbox meets par_base par_edge (t : tree C) l c0 out takes : D = 2 \/ D = 3 -> input D tiny huge p c ->
  (forall i, In i (concat work) <-> is_fin_id p i) -> ctor_points D tiny huge p work = Val q ->
  let P := id_keys (N.of_nat D) q in
  breaks D (co_of D q) hgt P -> cgal_right (N.of_nat D) (co_of D q) hgt P cgal ->
  (forall r, placed (N.of_nat D) (co_of D q) r P -> (forall d, d < D -> (tiny <= r d)%R) -> tree_ok (N.of_nat D) (co_of D q) r C meets t P) -> uniform t ->
  Leaves t l -> (N.of_nat (4 * entries l) <= 2 ^ 63)%N -> depth <= 42 ->
  lb_run over (N.of_nat D) (co_of D q) cgal (splits D q tiny huge Cycle) depth C cbox meets par_base par_edge [] (flatten t) out takes ->
  drawn c0 takes -> (c0 + total takes < 2 ^ 64)%N -> (N.of_nat (length takes) < 2 ^ 32)%N ->
  triangulation over (N.of_nat D) (co_of D q) hgt P out /\
  exists r, (forall v d, is_fin_id p v -> d < D -> (Rabs (c v d) <= r d)%R) /\ (forall v, is_inf_id (N.of_nat D) v -> veq D (co_of D q v) (corner r v)) /\
    mesh (N.of_nat D) (co_of D q) r P out.
Proof.
  intros HD HI Hw Hq P HB Hc Hok U HL Hsm Hd Hr Ht H1 H2.
  assert (Hok' : forall r, placed (N.of_nat D) (co_of D q) r P -> (forall d, d < D -> (tiny <= r d)%R) -> tree_ok (N.of_nat D) (co_of D q) r C meets (flatten t) P) by (intros r Hp Hr'; apply flat_tree_ok; auto).
  destruct (top_ex D HD tiny huge p c HI work Hw q Hq) as [r0 T]. pose proof T as [T1 T2 _ _ _ _ _ _ _ _].
  destruct (C80_flat _ _ r0 _ meets t P l (Hok r0 T1 T2) U HL) as (_ & HL' & _ & Hh & _).
  destruct (C72_load_balanced over D tiny huge p c work q hgt cgal depth C cbox meets par_base par_edge (flatten t) l c0 out takes HD HI Hw Hq HB Hc Hok' HL' Hsm ltac:(lia) Hd Hr Ht H1 H2) as (A & _ & _ & B). split; [exact A|exact B].
Qed.
Print Assumptions C80_mesh.

(** Trees of the partitioners that split in two, and of OldPartitionerPartitioner, are of that kind. *)
Lemma bin_uniform {C} (t0 : ptree C) t : tree_of t0 t -> uniform t.
Proof. induction 1 as [|ck l r l' r' _ A _ B]; [constructor|]. apply un_node; [cbn; lia|]. repeat constructor; assumption. Qed.
Lemma bin_flat {C} (t0 : ptree C) t : tree_of t0 t -> forall k, (forall q l, leaf_ids t0 q l -> length q <= k) -> length (flat t) <= Nat.pow 2 k.
Proof.
  induction 1 as [ck s ids Hs|ck l r l' r' _ IHl _ IHr]; intros k Hk.
  - cbn [flat length]. pose proof (Nat.pow_nonzero 2 k ltac:(lia)). lia.
  - destruct k as [|k].
    { exfalso. destruct (some_leaf l) as (q & x & Hq). specialize (Hk (false :: q) x). cbn [length] in Hk. assert (X : leaf_ids (PNode ck l r) (false :: q) x) by (apply leaf_node; exists false, q; auto). specialize (Hk X). lia. }
    rewrite flat_node. cbn [map concat]. rewrite app_nil_r, app_length. cbn [Nat.pow].
    assert (A : length (flat l') <= Nat.pow 2 k) by (apply IHl; intros q x Hq; assert (X : leaf_ids (PNode ck l r) (false :: q) x) by (apply leaf_node; exists false, q; auto); specialize (Hk _ _ X); cbn in Hk; lia).
    assert (B : length (flat r') <= Nat.pow 2 k) by (apply IHr; intros q x Hq; assert (X : leaf_ids (PNode ck l r) (true :: q) x) by (apply leaf_node; exists true, q; auto); specialize (Hk _ _ X); cbn in Hk; lia). lia.
Qed.
Theorem C80_old_uniform D tiny huge p c work q sp ids cutoff rem b t : D = 2 \/ D = 3 -> input D tiny huge p c ->
  (forall i, In i (concat work) <-> is_fin_id p i) -> ctor_points D tiny huge p work = Val q -> (forall k, sp = OneDim k -> k < D) ->
  lists ids (id_keys (N.of_nat D) q) -> built D q tiny huge sp cutoff rem [] b ids t -> uniform t.
Proof.
  intros HD HI Hw Hq Hsp Hids Hb. destruct (top_ex D HD tiny huge p c HI work Hw q Hq) as [r [T1 T2 T3 T4 T5 T6 T7 _ _ _]]. set (P := id_keys (N.of_nat D) q) in *.
  assert (G : forall rem prov b ids t, built D q tiny huge sp cutoff rem prov b ids t -> forall S, lists ids S -> incl S P -> placed (N.of_nat D) (co_of D q) r S -> uniform t).
  { clear - HD Hsp T2 T5 T6 T7. induction 1 as [prov b ids|rem prov b ids ps Hc Hs|rem prov b ids ps ch Hc Hs Hl Hb IH]; intros S HS Hi Hp.
    - constructor.
    - destruct (split_facts D ltac:(lia) q tiny huge (co_of D q) r P T5 T6 T7 T2 sp Hsp ids S HS Hi Hp prov ps Hs) as (qs & _ & _ & L & _). apply un_node; [rewrite map_length; lia|]. apply Forall_forall. intros x Hx. apply in_map_iff in Hx as (y & <- & _). constructor.
    - destruct (split_facts D ltac:(lia) q tiny huge (co_of D q) r P T5 T6 T7 T2 sp Hsp ids S HS Hi Hp prov ps Hs) as (qs & _ & _ & L & F). apply un_node; [lia|]. apply Forall_forall. intros x Hx. apply In_nth_error in Hx as [i Ei].
      destruct (nth_error ps i) as [y|] eqn:Ey; [|apply nth_error_None in Ey; assert (i < length ch) by (apply nth_error_Some; congruence); lia]. destruct (F i y Ey) as (A & B & X). apply (IH i y x Ey Ei (pts_at qs i) A); [intros v Hv; apply Hi, B, Hv|exact X]. }
  apply (G rem [] b ids t Hb P Hids (incl_refl _) T1).
Qed.
Print Assumptions C80_old_uniform.
(** The tree of C79, flattened. *)
Example C80_ex par_base par_edge : exists work q hgt t0 t out takes, let b := mkbox (v2 0 0) (v2 600 360000) in input 2 (1 / 1000) 1000000 g_pts g_c /\ (forall i, In i (concat work) <-> is_fin_id g_pts i) /\
  ctor_points 2 (1 / 1000) 1000000 g_pts work = Val q /\ (forall path l, samp_ok (es_smp path l)) /\ (forall path l, drawn_from 2 (co_of 2 q) l (es_smp path l)) /\ sorts isort /\
  breaks 2 (co_of 2 q) hgt (id_keys 2 q) /\ cgal_right 2 (co_of 2 q) hgt (id_keys 2 q) (g_cgal hgt (co_of 2 q)) /\
  (forall i, is_fin_id g_pts i -> in_box 2 b (g_c i)) /\ (forall d, d < 2 -> exists j k, is_fin_id g_pts j /\ is_fin_id g_pts k /\ (Rabs (b_lo b d) <= 200 * (g_c j d - g_c k d))%R /\ (Rabs (b_hi b d) <= 200 * (g_c j d - g_c k d))%R) /\
  NoDup (id_keys 2 q) /\ e_partition 2 q es_smp isort 100 b (id_keys 2 q) = Val t0 /\ tree_of t0 t /\ uniform t /\ is_leaf t = false /\ (forall r, placed 2 (co_of 2 q) r (id_keys 2 q) -> (forall d, d < 2 -> (1 / 1000 <= r d)%R) -> tree_ok 2 (co_of 2 q) r box (box_ck 2) t (id_keys 2 q)) /\
  lb_run (fun x => x) 2 (co_of 2 q) (g_cgal hgt (co_of 2 q)) (splits 2 q (1 / 1000) 1000000 Cycle) 1 box (fun k => k) (box_ck 2) par_base par_edge [] (flatten t) out takes /\
  drawn 1 takes /\ (1 + total takes < 2 ^ 64)%N /\ (N.of_nat (length takes) < 2 ^ 32)%N.
Proof.
  destruct (C67_ex DWay ltac:(discriminate)) as (work & q & hgt & _ & _ & HI & Hw & Hq & HB & Hc & He & _ & _ & _ & _ & Hl).
  destruct (top_ex 2 (or_introl eq_refl) _ _ _ _ HI work Hw q Hq) as [r T]. pose proof T as [T1 T2 T3 T4 T5 T6 T7 T8 T9 T10].
  assert (Hlen : length (id_keys 2 q) = 604) by (apply N.ltb_lt in Hl; unfold ctor_points in Hq; destruct (stats_par _ _ _ _ _ _) as [st| |]; try discriminate Hq; injection Hq as <-; apply g_len).
  set (b := mkbox (v2 0 0) (v2 600 360000)). set (P := id_keys 2 q) in *.
  assert (Hg : forall v, (1 <= v <= 600)%N -> In v P /\ p_finite 2 v = true /\ co_of 2 q v = g_c v).
  { intros v Hv. apply g_fin in Hv. split; [apply T8; now left|]. split; [exact (fin_finite 2 ltac:(lia) _ _ _ _ HI work Hw v Hv)|now apply T9]. }
  assert (Hsm : forall path l, samp_ok (es_smp path l)). { intros path l. unfold es_smp. destruct (existsb (N.eqb 299) l && existsb (N.eqb 301) l); [exact hy_samp_ok|]. exists 0. cbn. repeat split; intros x Hx; [destruct Hx as [<-|[]]; lia|destruct Hx]. }
  assert (Hfrom : forall path l, drawn_from 2 (co_of 2 q) l (es_smp path l)).
  { intros path l s Hs. unfold es_smp in Hs. destruct (existsb (N.eqb 299) l && existsb (N.eqb 301) l) eqn:E; [|destruct Hs]. apply andb_prop in E as [E1 E2]. apply existsb_exists in E1 as (x & X & E1). apply existsb_exists in E2 as (y & Y & E2). apply N.eqb_eq in E1, E2. subst x y.
    destruct Hs as [<-|[<-|[]]]; [exists 299%N; destruct (Hg 299%N ltac:(lia)) as (_ & F & E)|exists 301%N; destruct (Hg 301%N ltac:(lia)) as (_ & F & E)]; (split; [assumption|]; split; [exact F|]; rewrite E; intros d Hd; unfold g_c, v2; destruct d as [|[|d]]; cbn; lra). }
  assert (Hb : forall i, is_fin_id g_pts i -> in_box 2 b (g_c i)).
  { intros i Hi. apply g_fin in Hi. assert (X : (1 <= IZR (Z.of_N i) <= 600)%R) by (split; apply IZR_le; lia). assert (Y : (0 <= IZR (Z.of_N (i * i)) <= 360000)%R) by (split; apply IZR_le; nia). unfold b, g_c, v2. intros [|[|d]] Hd; cbn -[Z.of_N N.mul]; [lra|lra|lia]. }
  assert (Hrange : forall d, d < 2 -> exists j k, is_fin_id g_pts j /\ is_fin_id g_pts k /\ (Rabs (b_lo b d) <= 200 * (g_c j d - g_c k d))%R /\ (Rabs (b_hi b d) <= 200 * (g_c j d - g_c k d))%R).
  { intros d Hd. exists 600%N, 1%N. split; [apply g_fin; lia|]. split; [apply g_fin; lia|]. unfold b, g_c, v2. destruct d as [|[|d]]; [| |clear - Hd; lia]; cbn; unfold Rabs; repeat destruct Rcase_abs; split; lra. }
  destruct (e_build_ok 2 q (co_of 2 q) es_smp isort ltac:(lia) ltac:(lia) Hsm isort_sorts 100 10 [] b P T3 T6) as (t0 & E & [_ Dv] & L & _).
  assert (Hinf : forall v, In v (inf_ids 2) -> In v P) by (intros v Hv; apply (pl_inf _ _ _ _ T1); apply (KTree.inf_in 2) in Hv; [exact Hv|lia]).
  destruct (tree_of_ex t0) as [t Ht].
  { intros qq l Hl'. destruct (Dv qq l Hl') as [D1 _].
    assert (Hin : forall v, In v l -> In v P).
    { intros v Hv. apply (est_in 2 ltac:(lia) q (co_of 2 q) r P es_smp isort 100 Hsm Hfrom isort_sorts ltac:(cbn; lia) T1) with (rem := 10) (path := []) (b := b) (ids := P) (t0 := t0) (q := qq) (l := l); auto.
      - intros u d Hu F Hd. assert (Fu : is_fin_id g_pts u) by (apply T8 in Hu as [Hu|Hu]; [exact Hu|]; pose proof (inf_infinite 2 ltac:(lia) u Hu); change (N.of_nat 2) with 2%N in *; congruence).
        rewrite (T9 u Fu). destruct (in_near _ _ _ _ _ HI u d Fu Hd) as (j & k & Hj & Hk & X). pose proof (T10 d j k Hd Hj Hk). pose proof (Rle_abs (g_c u d)). lra.
      - apply incl_refl.
      - intros u Hu F. assert (Fu : is_fin_id g_pts u) by (apply T8 in Hu as [Hu|Hu]; [exact Hu|]; pose proof (inf_infinite 2 ltac:(lia) u Hu); change (N.of_nat 2) with 2%N in *; congruence). rewrite (T9 u Fu). now apply Hb. }
    split; [exact D1|]. split; [intros H0; exact (T4 (Hin _ H0))|]. assert (Hle : length l <= 604) by (rewrite <- Hlen; apply NoDup_incl_length; [exact D1|exact Hin]). clear - Hle. split; lia. }
  destruct (C79_boxes 2 _ _ _ _ work q es_smp isort 100 b P t0 t (or_introl eq_refl) HI Hw Hq Hsm Hfrom isort_sorts ltac:(cbn; lia) Hb Hrange T3 ltac:(intros v; reflexivity) E Ht) as (Hok & l & HL & HE & Hh & Hwd).
  change (id_keys (N.of_nat 2) q) with P in HE. rewrite Hlen in HE.
  pose proof (bin_uniform t0 t Ht) as U. pose proof (bin_flat t0 t Ht 10 (fun qq l0 H0 => proj1 (L qq l0 H0))) as Hf.
  destruct (C80_flat _ _ r _ (box_ck 2) t P l (Hok r T1 T2) U HL) as (_ & HL' & _ & Hh' & _).
  assert (Wd : width (flatten t) <= 1024).
  { destruct t as [ck s|ck ch]; [cbn; lia|]. unfold flatten. assert (Z : forall x, In x (flat (Tnode ck ch)) -> width x = 0) by (intros x Hx; rewrite (flat_leaves _ _ _ HL) in Hx; apply in_map_iff in Hx as ([a b'] & <- & _); reflexivity).
    change (Nat.pow 2 10) with 1024 in Hf. revert Hf Z. generalize (flat (Tnode ck ch)). clear. intros f Hf Z. cbn [width]. apply Nat.max_lub; [exact Hf|]. clear Hf. induction f as [|x f IH]; [lia|]. rewrite (Z x ltac:(now left)). apply IH. intros y Hy. apply Z. now right. }
  destruct (C72_runs (fun x => x) 2 _ _ _ _ work q hgt (g_cgal hgt (co_of 2 q)) 1 box (fun k => k) (box_ck 2) par_base par_edge (flatten t) l 1 (604 ^ 3) 1024 1 (or_introl eq_refl) HI Hw Hq HB Hc He ltac:(intros; apply flat_tree_ok; auto) HL') as (out & takes & H).
  - lia.
  - exact Hh'.
  - lia.
  - lia.
  - lia.
  - discriminate.
  - reflexivity.
  - reflexivity.
  - exists work, q, hgt, t0, t, out, takes. cbv zeta. split; [exact HI|]. split; [exact Hw|]. split; [exact Hq|]. split; [exact Hsm|]. split; [exact Hfrom|]. split; [exact isort_sorts|]. split; [exact HB|]. split; [exact Hc|]. split; [exact Hb|]. split; [exact Hrange|]. split; [exact T3|]. split; [exact E|]. split; [exact Ht|]. split; [exact U|].
    split; [|split; [exact Hok|exact H]]. destruct t0 as [ck x|ck x y].
    + exfalso. cbn [e_build] in E. fold P in Hlen. rewrite Hlen in E. change (100 <=? 604) with true in E. cbv iota in E.
      repeat match type of E with rbind ?z _ = _ => destruct z; try discriminate E; cbn [rbind] in E | rmap _ ?z = _ => destruct z; discriminate E end.
    + clear - Ht. inversion Ht. reflexivity.
Qed.

(** C81: a tree that NearestSamplePointAssigningSampleBipartitioner has split has no checker at its root, so triangulating it dereferences a null pointer; flattening does not help. *)
Theorem C81_null_refuted D keeps part cutoff ids p t0 t tedge prov : (1 < p)%N -> cutoff < length ids ->
  returns (fun f => n_partition D keeps part f cutoff ids p) t0 -> tree_of t0 t ->
  lb_calls nck tedge prov t = Undef /\ lb_calls nck tedge prov (flatten t) = Undef /\
  forall over co cgal split depth cbox meets par_base par_edge out takes, ~ lb_run over (N.of_nat D) co cgal split depth nck cbox meets par_base par_edge prov t out takes /\ ~ lb_run over (N.of_nat D) co cgal split depth nck cbox meets par_base par_edge prov (flatten t) out takes.
Proof.
  intros Hp Hc [m R] Ht. assert (exists l r, t0 = PNode None l r).
  { specialize (R (Datatypes.S m) ltac:(lia)). unfold n_partition in R. cbn [n_make] in R. rewrite (proj2 (N.ltb_lt 1 p) Hp), (proj2 (Nat.ltb_lt _ _) Hc) in R. cbn [andb] in R.
    destruct (m_ids D (part []) ids 2) as [ls| |]; try discriminate. cbn [rbind] in R. destruct ls as [|l [|r [|x ls]]]; try discriminate. destruct (n_make _ _ _ m cutoff [false] _ l _) as [lt| |]; try discriminate. cbn [rbind] in R. destruct (n_make _ _ _ m cutoff [true] _ r _) as [rt| |]; try discriminate. cbn [rmap] in R. injection R as <-. eauto. }
  destruct H as (l & r & ->). inversion Ht; subst. split; [reflexivity|]. split; [reflexivity|]. intros. split; intros X; inversion X.
Qed.
Print Assumptions C81_null_refuted.
Example C81_null_case : exists t0 t, returns (fun f => n_partition 2 true bn_part f 2 bi_ids 4) t0 /\ tree_of t0 t /\ (1 < 4)%N /\ 2 < length bi_ids.
Proof.
  destruct (C64_tree_partial 2 true bn_part 2 bi_ids 4) as (t0 & R & _); [lia|discriminate|discriminate|exact bi_nodup|cbn; lia|exact bn_part_ok|]. exists t0.
  assert (X : exists t, tree_of t0 t); [|destruct X as [t Ht]; exists t; split; [exact R|]; split; [exact Ht|]; split; [lia|cbn; lia]].
  destruct R as [n R]. specialize (R (3 + n) ltac:(lia)). assert (E : n_partition 2 true bn_part (3 + n) 2 bi_ids 4 = n_partition 2 true bn_part 3 2 bi_ids 4) by (vm_compute; reflexivity). rewrite E in R. vm_compute in R. injection R as <-. clear E.
  apply tree_of_ex. intros qq l Hl. destruct (le_lt_dec (length l) 5) as [L5|L5].
  - assert (X : NoDup l /\ ~ In 0%N l); [|split; [apply X|]; split; [apply X|]; clear - L5; split; lia].
    repeat (let z := fresh "z" in let q' := fresh "q" in apply leaf_node in Hl as (z & q' & -> & Hl); destruct z); apply leaf_leaf in Hl as [_ ->]; (split; [repeat constructor; cbn; intros Y; repeat destruct Y as [Y|Y]; try discriminate Y; exact Y|cbn; intros Y; repeat destruct Y as [Y|Y]; try discriminate Y; exact Y]).
  - exfalso. repeat (let z := fresh "z" in let q' := fresh "q" in apply leaf_node in Hl as (z & q' & -> & Hl); destruct z); apply leaf_leaf in Hl as [_ ->]; cbn in L5; lia.
Qed.
(** Without a split it is one leaf, and the answer the Delaunay mesh. *)
Theorem C81_small_mesh over D tiny huge p c work q hgt cgal depth cbox meets par_base par_edge keeps part cutoff n ids t0 t c0 out takes : D = 2 \/ D = 3 -> input D tiny huge p c ->
  (forall i, In i (concat work) <-> is_fin_id p i) -> ctor_points D tiny huge p work = Val q ->
  let P := id_keys (N.of_nat D) q in
  breaks D (co_of D q) hgt P -> cgal_right (N.of_nat D) (co_of D q) hgt P cgal ->
  NoDup ids -> (forall v, In v ids <-> In v P) -> (n <= 1)%N \/ length ids <= cutoff -> returns (fun f => n_partition D keeps part f cutoff ids n) t0 -> tree_of t0 t -> depth <= 42 ->
  lb_run over (N.of_nat D) (co_of D q) cgal (splits D q tiny huge Cycle) depth nck cbox meets par_base par_edge [] t out takes ->
  drawn c0 takes -> (c0 + total takes < 2 ^ 64)%N -> (N.of_nat (length takes) < 2 ^ 32)%N ->
  exists r, (forall v d, is_fin_id p v -> d < D -> (Rabs (c v d) <= r d)%R) /\ (forall v, is_inf_id (N.of_nat D) v -> veq D (co_of D q v) (corner r v)) /\
    mesh (N.of_nat D) (co_of D q) r P out.
Proof.
  intros HD HI Hw Hq P HB Hc Hn Hin Hno [m R] Ht Hd Hr Htk H1 H2. assert (t0 = PLeaf (Some NBox) ids).
  { specialize (R (Datatypes.S m) ltac:(lia)). unfold n_partition in R. cbn [n_make] in R. assert (E : (1 <? n)%N && (cutoff <? length ids) = false) by (destruct Hno as [X|X]; [rewrite (proj2 (N.ltb_ge 1 n) X); reflexivity|rewrite (proj2 (Nat.ltb_ge _ _) X); apply Bool.andb_false_r]). rewrite E in R. now injection R as <-. }
  subst t0. inversion Ht as [? s ? Hs|]; subst. destruct (top_ex D HD tiny huge p c HI work Hw q Hq) as [r0 T]. pose proof T as [T1 T2 T3 T4 T5 _ _ _ _ _].
  eapply (C72_load_balanced over D tiny huge p c work q hgt cgal depth nck cbox meets par_base par_edge (Tleaf (Some NBox) s) [(Some NBox, s)] c0 out takes HD HI Hw Hq HB Hc); eauto.
  - intros r _ _. apply tk_leaf. destruct Hs as (A1 & A2 & A3). split; [exact T3|]. split; [exact A2|]. intros v. etransitivity; [apply A3|apply Hin].
  - constructor.
  - change (entries [(Some NBox, s)]) with (set_size s + 0). rewrite (lists_len s ids Hs). assert (X : length ids <= length P) by (apply NoDup_incl_length; [exact Hn|intros v Hv; now apply Hin]). fold P in T5. clear - X T5. change (2 ^ 60)%N with 1152921504606846976%N in T5. change (2 ^ 63)%N with 9223372036854775808%N. lia.
  - cbn. lia.
Qed.
Print Assumptions C81_small_mesh.
Example C81_small_case keeps part par_base par_edge : exists work q hgt t0 t out takes, input 2 (1 / 1000) 1000000 g_pts g_c /\ (forall i, In i (concat work) <-> is_fin_id g_pts i) /\
  ctor_points 2 (1 / 1000) 1000000 g_pts work = Val q /\ breaks 2 (co_of 2 q) hgt (id_keys 2 q) /\ cgal_right 2 (co_of 2 q) hgt (id_keys 2 q) (g_cgal hgt (co_of 2 q)) /\
  NoDup (id_keys 2 q) /\ length (id_keys 2 q) <= 1000 /\ returns (fun f => n_partition 2 keeps part f 1000 (id_keys 2 q) 4) t0 /\ tree_of t0 t /\
  lb_run (fun x => x) 2 (co_of 2 q) (g_cgal hgt (co_of 2 q)) (splits 2 q (1 / 1000) 1000000 Cycle) 1 nck (fun k => mkbox (v2 0 0) (v2 600 360000)) (fun _ _ _ => true) par_base par_edge [] t out takes /\
  drawn 1 takes /\ (1 + total takes < 2 ^ 64)%N /\ (N.of_nat (length takes) < 2 ^ 32)%N.
Proof.
  destruct (C67_ex DWay ltac:(discriminate)) as (work & q & hgt & _ & _ & HI & Hw & Hq & HB & Hc & He & _ & _ & _ & _ & Hl).
  destruct (top_ex 2 (or_introl eq_refl) _ _ _ _ HI work Hw q Hq) as [r T]. pose proof T as [T1 T2 T3 T4 T5 T6 T7 T8 T9 T10].
  assert (Hlen : length (id_keys 2 q) = 604) by (apply N.ltb_lt in Hl; unfold ctor_points in Hq; destruct (stats_par _ _ _ _ _ _) as [st| |]; try discriminate Hq; injection Hq as <-; apply g_len).
  set (P := id_keys 2 q) in *. destruct (tree_of_ex (PLeaf (Some NBox) P)) as [t Ht].
  { intros qq l Hl'. apply leaf_leaf in Hl' as [_ ->]. split; [exact T3|]. split; [exact T4|]. rewrite Hlen. clear. split; lia. }
  inversion Ht as [? s ? Hs|]; subst.
  destruct (C72_runs (fun x => x) 2 _ _ _ _ work q hgt (g_cgal hgt (co_of 2 q)) 1 nck (fun k => mkbox (v2 0 0) (v2 600 360000)) (fun _ _ _ => true) par_base par_edge (Tleaf (Some NBox) s) [(Some NBox, s)] 1 (604 ^ 3) 4 1 (or_introl eq_refl) HI Hw Hq HB Hc He) as (out & takes & H).
  - intros. now apply tk_leaf.
  - constructor.
  - change (entries [(Some NBox, s)]) with (set_size s + 0). rewrite (lists_len s P Hs), Hlen. clear. lia.
  - cbn. lia.
  - lia.
  - lia.
  - cbn. lia.
  - discriminate.
  - reflexivity.
  - reflexivity.
  - exists work, q, hgt, (PLeaf (Some NBox) P), (Tleaf (Some NBox) s), out, takes. split; [exact HI|]. split; [exact Hw|]. split; [exact Hq|]. split; [exact HB|]. split; [exact Hc|]. split; [exact T3|]. split; [fold P; rewrite Hlen; clear; lia|]. split; [|split; [exact Ht|exact H]].
    exists 1. intros [|f] Hf; [lia|]. unfold n_partition. cbn [n_make]. fold P. rewrite Hlen. reflexivity.
Qed.
