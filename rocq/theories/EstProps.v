(** C79: the load balanced triangulator with BinaryBoxEstimatingSamplePartitioner. *)
From Coq Require Import Permutation Classical Lra.
From Verif Require Import Pool Outcome ListUtil WordsModel WordsProofs LPSetModel LPSetProofs LPSetHistory LPSetIter SimplexModel PointModel PointProofs GeoModel GeoSpec GeoProofs GeoBox GeoCirc PartModel PartProofs PartProps PartTop InfModel InfProofs MergeModel TriSpec DelSpec PlaceSpec DelPlace
  DcModel DcSpec DcBase DcHits DcProofs DcEx MeshSpec MeshProofs TreeModel TreeSpec SplitModel SplitProofs SplitEx StepModel StepPlaced StepCase TopSpec TopProofs TopRuns DcProps LbModel LbSpec LbProofs LbEx LbTrees LbTop LbProps KWayModel KWayProofs KTree SampleModel MakerModel
  BisectModel BisectSpec BisectProofs BisectBox BisectProps HypSpec BinTree HypProofs EstProofs HypProps.
Local Open Scope nat_scope.

(** The corners are where the constructor put them. *)
Lemma half_uniq D co r r' P d : (0 < N.to_nat D <= 30)%nat -> placed D co r P -> placed D co r' P -> d < N.to_nat D -> r d = r' d.
Proof.
  intros HD H H' Hd. set (v := p_inf D). assert (Hv : (p_inf D <= v < 2 ^ 64)%N). { unfold v. rewrite p_inf_val by lia. pose proof (N.pow_nonzero 2 D). assert (2 ^ D <= 2 ^ 30)%N by (apply N.pow_le_mono_r; lia). change (2 ^ 30)%N with 1073741824%N in *. lia. }
  destruct (DelPlace.inf_out D ltac:(lia) co (fun _ => 0%R) r P H v Hv) as [I F]. pose proof (pl_corner _ _ _ _ H v I F d Hd) as E. pose proof (pl_corner _ _ _ _ H' v I F d Hd) as E'. unfold corner in *. destruct (N.testbit v (N.of_nat d)); lra.
Qed.

(** Bounds that hold the points and do not reach beyond the corners, samples drawn from the points, more than 2^D ids in a set that is split: then the tree keeps the contract of C72, and its size is bounded. *)
Theorem C79_boxes D tiny huge p c work q smp srt cutoff b ids t0 t : D = 2 \/ D = 3 -> input D tiny huge p c ->
  (forall i, In i (concat work) <-> is_fin_id p i) -> ctor_points D tiny huge p work = Val q -> (forall path l, samp_ok (smp path l)) -> (forall path l, drawn_from D (co_of D q) l (smp path l)) -> sorts srt -> Nat.pow 2 D < cutoff ->
  let P := id_keys (N.of_nat D) q in
  (forall i, is_fin_id p i -> in_box D b (c i)) -> (forall d, d < D -> exists j k, is_fin_id p j /\ is_fin_id p k /\ (Rabs (b_lo b d) <= 200 * (c j d - c k d))%R /\ (Rabs (b_hi b d) <= 200 * (c j d - c k d))%R) ->
  NoDup ids -> (forall v, In v ids <-> In v P) -> e_partition D q smp srt cutoff b ids = Val t0 -> tree_of t0 t ->
  (forall r, placed (N.of_nat D) (co_of D q) r P -> (forall d, d < D -> (tiny <= r d)%R) -> tree_ok (N.of_nat D) (co_of D q) r box (box_ck (N.of_nat D)) t P) /\
  exists l, Leaves t l /\ entries l <= 1024 * length P /\ height t <= 10 /\ width t <= 2.
Proof.
  intros HD HI Hw Hq Hsm Hfrom Hs Hcut P Hb Hrange Hn Hin He Ht. destruct (top_ex D HD tiny huge p c HI work Hw q Hq) as [r0 T]. pose proof T as [T1 T2 T3 T4 T5 T6 T7 T8 T9 T10]. fold P in T1, T3, T4, T6, T8.
  assert (Hinf : forall v, In v (inf_ids D) -> In v P) by (intros v Hv; apply (pl_inf _ _ _ _ T1); now apply (inf_in D ltac:(lia))).
  assert (Hfin : forall v, In v P -> p_finite (N.of_nat D) v = true -> is_fin_id p v).
  { intros v Hv F. apply T8 in Hv as [Hv|Hv]; [exact Hv|]. pose proof (inf_infinite D ltac:(lia) v Hv). congruence. }
  split.
  - intros r Hp _. assert (Er : forall d, d < D -> r d = r0 d) by (intros d Hd; apply (half_uniq (N.of_nat D) (co_of D q) r r0 P d); auto; lia).
    apply (est_tree_ok D ltac:(lia) q (co_of D q) r P smp srt cutoff Hsm Hfrom Hs Hcut Hp) with (rem := 10) (path := []) (b := b) (ids := ids) (t0 := t0); auto.
    + intros v d Hv F Hd. rewrite (T9 v (Hfin v Hv F)), (Er d Hd). destruct (in_near _ _ _ _ _ HI v d (Hfin v Hv F) Hd) as (j & k & Hj & Hk & X). pose proof (T10 d j k Hd Hj Hk). pose proof (Rle_abs (c v d)). lra.
    + intros v Hv. now apply Hin.
    + intros v Hv. apply Hin. auto.
    + intros v. symmetry. apply Hin.
    + intros i Hi F. apply Hin in Hi. rewrite (T9 i (Hfin i Hi F)). auto.
    + intros d Hd. rewrite (Er d Hd). destruct (Hrange d Hd) as (j & k & Hj & Hk & X & Y). pose proof (T10 d j k Hd Hj Hk) as Z. assert (X' : (Rabs (b_lo b d) <= r0 d)%R) by lra. assert (Y' : (Rabs (b_hi b d) <= r0 d)%R) by lra. clear - X' Y'. unfold Rabs in *. destruct (Rcase_abs (b_lo b d)), (Rcase_abs (b_hi b d)); lra.
  - destruct (e_build_ok D q (co_of D q) smp srt ltac:(lia) ltac:(lia) Hsm Hs cutoff 10 [] b ids Hn (fun i Hi F => T6 i (proj1 (Hin i) Hi) F)) as (t1 & E & [_ Dv] & L & _). unfold e_partition in He. assert (t1 = t0) by congruence. subst t1.
    change 1024 with (Nat.pow 2 10). apply (bin_size t0 t P Ht). intros qq l Hl. split; [apply (L qq l Hl)|]. split; [apply (Dv qq l Hl)|]. intros v Hv.
    apply (est_in D ltac:(lia) q (co_of D q) r0 P smp srt cutoff Hsm Hfrom Hs Hcut T1) with (rem := 10) (path := []) (b := b) (ids := ids) (t0 := t0) (q := qq) (l := l); auto.
    + intros u d Hu F Hd. rewrite (T9 u (Hfin u Hu F)). destruct (in_near _ _ _ _ _ HI u d (Hfin u Hu F) Hd) as (j & k & Hj & Hk & X). pose proof (T10 d j k Hd Hj Hk). pose proof (Rle_abs (c u d)). lra.
    + intros u Hu. now apply Hin.
    + intros u Hu. apply Hin. auto.
    + intros i Hi F. apply Hin in Hi. rewrite (T9 i (Hfin i Hi F)). auto.
Qed.
Print Assumptions C79_boxes.

(** The answer is the Delaunay mesh of the points. *)
Theorem C79_mesh over D tiny huge p c work q hgt cgal depth cbox par_base par_edge smp srt cutoff b ids t0 t c0 out takes : D = 2 \/ D = 3 -> input D tiny huge p c ->
  (forall i, In i (concat work) <-> is_fin_id p i) -> ctor_points D tiny huge p work = Val q -> (forall path l, samp_ok (smp path l)) -> (forall path l, drawn_from D (co_of D q) l (smp path l)) -> sorts srt -> Nat.pow 2 D < cutoff ->
  let P := id_keys (N.of_nat D) q in
  breaks D (co_of D q) hgt P -> cgal_right (N.of_nat D) (co_of D q) hgt P cgal ->
  (forall i, is_fin_id p i -> in_box D b (c i)) -> (forall d, d < D -> exists j k, is_fin_id p j /\ is_fin_id p k /\ (Rabs (b_lo b d) <= 200 * (c j d - c k d))%R /\ (Rabs (b_hi b d) <= 200 * (c j d - c k d))%R) ->
  NoDup ids -> (forall v, In v ids <-> In v P) -> e_partition D q smp srt cutoff b ids = Val t0 -> tree_of t0 t -> depth <= 42 -> (N.of_nat (length P) <= 2 ^ 51)%N ->
  lb_run over (N.of_nat D) (co_of D q) cgal (splits D q tiny huge Cycle) depth box cbox (box_ck (N.of_nat D)) par_base par_edge [] t out takes ->
  drawn c0 takes -> (c0 + total takes < 2 ^ 64)%N -> (N.of_nat (length takes) < 2 ^ 32)%N ->
  exists r, (forall v d, is_fin_id p v -> d < D -> (Rabs (c v d) <= r d)%R) /\ (forall v, is_inf_id (N.of_nat D) v -> veq D (co_of D q v) (corner r v)) /\
    mesh (N.of_nat D) (co_of D q) r P out.
Proof.
  intros HD HI Hw Hq Hsm Hfrom Hs Hcut P HB Hc Hb Hrange Hn Hin He Ht Hd Hsz Hrun Htk H1 H2.
  destruct (C79_boxes D tiny huge p c work q smp srt cutoff b ids t0 t HD HI Hw Hq Hsm Hfrom Hs Hcut Hb Hrange Hn Hin He Ht) as (Hok & l & HL & HE & Hh & _).
  fold P in HE. eapply (C72_load_balanced over D tiny huge p c work q hgt cgal depth box cbox _ par_base par_edge t l c0 out takes HD HI Hw Hq HB Hc Hok HL); eauto; clear - HE Hh Hsz; lia.
Qed.
Print Assumptions C79_mesh.

(** The parabola again; the sample is of two of the points if the set has these, empty otherwise. *)
Definition es_smp (path : list bool) (l : list N) : samp := if existsb (N.eqb 299) l && existsb (N.eqb 301) l then hy_samp else mksm (mkg [0] [] []) [] [].
Example C79_ex par_base par_edge : exists work q hgt t0 t out takes, let b := mkbox (v2 0 0) (v2 600 360000) in input 2 (1 / 1000) 1000000 g_pts g_c /\ (forall i, In i (concat work) <-> is_fin_id g_pts i) /\
  ctor_points 2 (1 / 1000) 1000000 g_pts work = Val q /\ (forall path l, samp_ok (es_smp path l)) /\ (forall path l, drawn_from 2 (co_of 2 q) l (es_smp path l)) /\ sorts isort /\
  breaks 2 (co_of 2 q) hgt (id_keys 2 q) /\ cgal_right 2 (co_of 2 q) hgt (id_keys 2 q) (g_cgal hgt (co_of 2 q)) /\
  (forall i, is_fin_id g_pts i -> in_box 2 b (g_c i)) /\ (forall d, d < 2 -> exists j k, is_fin_id g_pts j /\ is_fin_id g_pts k /\ (Rabs (b_lo b d) <= 200 * (g_c j d - g_c k d))%R /\ (Rabs (b_hi b d) <= 200 * (g_c j d - g_c k d))%R) /\
  NoDup (id_keys 2 q) /\ e_partition 2 q es_smp isort 100 b (id_keys 2 q) = Val t0 /\ tree_of t0 t /\ width t = 2 /\
  lb_run (fun x => x) 2 (co_of 2 q) (g_cgal hgt (co_of 2 q)) (splits 2 q (1 / 1000) 1000000 Cycle) 1 box (fun k => k) (box_ck 2) par_base par_edge [] t out takes /\
  drawn 1 takes /\ (1 + total takes < 2 ^ 64)%N /\ (N.of_nat (length takes) < 2 ^ 32)%N.
Proof.
  destruct (C67_ex DWay ltac:(discriminate)) as (work & q & hgt & _ & _ & HI & Hw & Hq & HB & Hc & He & _ & _ & _ & _ & Hl).
  destruct (top_ex 2 (or_introl eq_refl) _ _ _ _ HI work Hw q Hq) as [r T]. pose proof T as [T1 T2 T3 T4 T5 T6 T7 T8 T9 T10].
  assert (Hlen : length (id_keys 2 q) = 604) by (apply N.ltb_lt in Hl; unfold ctor_points in Hq; destruct (stats_par _ _ _ _ _ _) as [st| |]; try discriminate Hq; injection Hq as <-; apply g_len).
  set (b := mkbox (v2 0 0) (v2 600 360000)). set (P := id_keys 2 q) in *.
  assert (Hg : forall v, (1 <= v <= 600)%N -> In v P /\ p_finite 2 v = true /\ co_of 2 q v = g_c v).
  { intros v Hv. apply g_fin in Hv. split; [apply T8; now left|]. split; [exact (fin_finite 2 ltac:(lia) _ _ _ _ HI work Hw v Hv)|now apply T9]. }
  assert (Hsm : forall path l, samp_ok (es_smp path l)). { intros path l. unfold es_smp. destruct (existsb (N.eqb 299) l && existsb (N.eqb 301) l); [exact hy_samp_ok|]. exists 0. cbn. repeat split; intros x Hx; [destruct Hx as [<-|[]]; lia|destruct Hx]. }
  assert (Hfrom : forall path l, drawn_from 2 (co_of 2 q) l (es_smp path l)).
  { intros path l s Hs. unfold es_smp in Hs. destruct (existsb (N.eqb 299) l && existsb (N.eqb 301) l) eqn:E; [|destruct Hs]. apply andb_prop in E as [E1 E2]. apply existsb_exists in E1 as (x & X & E1). apply existsb_exists in E2 as (y & Y & E2). apply N.eqb_eq in E1, E2. subst x y.
    destruct Hs as [<-|[<-|[]]]; [exists 299%N; destruct (Hg 299%N ltac:(lia)) as (_ & F & E)|exists 301%N; destruct (Hg 301%N ltac:(lia)) as (_ & F & E)]; (split; [assumption|]; split; [exact F|]; rewrite E; intros d Hd; unfold g_c, v2; destruct d as [|[|d]]; cbn; lra). }
  assert (Hb : forall i, is_fin_id g_pts i -> in_box 2 b (g_c i)).
  { intros i Hi. apply g_fin in Hi. assert (X : (1 <= IZR (Z.of_N i) <= 600)%R) by (split; apply IZR_le; lia). assert (Y : (0 <= IZR (Z.of_N (i * i)) <= 360000)%R) by (split; apply IZR_le; nia). unfold b, g_c, v2. intros [|[|d]] Hd; cbn -[Z.of_N N.mul]; [lra|lra|lia]. }
  assert (Hrange : forall d, d < 2 -> exists j k, is_fin_id g_pts j /\ is_fin_id g_pts k /\ (Rabs (b_lo b d) <= 200 * (g_c j d - g_c k d))%R /\ (Rabs (b_hi b d) <= 200 * (g_c j d - g_c k d))%R).
  { intros d Hd. exists 600%N, 1%N. split; [apply g_fin; lia|]. split; [apply g_fin; lia|]. unfold b, g_c, v2. destruct d as [|[|d]]; [| |clear - Hd; lia]; cbn; unfold Rabs; repeat destruct Rcase_abs; split; lra. }
  destruct (e_build_ok 2 q (co_of 2 q) es_smp isort ltac:(lia) ltac:(lia) Hsm isort_sorts 100 10 [] b P T3 T6) as (t0 & E & [_ Dv] & L & _).
  assert (Hinf : forall v, In v (inf_ids 2) -> In v P) by (intros v Hv; apply (pl_inf _ _ _ _ T1); apply (KTree.inf_in 2) in Hv; [exact Hv|lia]).
  destruct (tree_of_ex t0) as [t Ht].
  { intros qq l Hl'. destruct (Dv qq l Hl') as [D1 _].
    assert (Hin : forall v, In v l -> In v P).
    { intros v Hv. apply (est_in 2 ltac:(lia) q (co_of 2 q) r P es_smp isort 100 Hsm Hfrom isort_sorts ltac:(cbn; lia) T1) with (rem := 10) (path := []) (b := b) (ids := P) (t0 := t0) (q := qq) (l := l); auto.
      - intros u d Hu F Hd. assert (Fu : is_fin_id g_pts u) by (apply T8 in Hu as [Hu|Hu]; [exact Hu|]; pose proof (inf_infinite 2 ltac:(lia) u Hu); change (N.of_nat 2) with 2%N in *; congruence).
        rewrite (T9 u Fu). destruct (in_near _ _ _ _ _ HI u d Fu Hd) as (j & k & Hj & Hk & X). pose proof (T10 d j k Hd Hj Hk). pose proof (Rle_abs (g_c u d)). lra.
      - apply incl_refl.
      - intros u Hu F. assert (Fu : is_fin_id g_pts u) by (apply T8 in Hu as [Hu|Hu]; [exact Hu|]; pose proof (inf_infinite 2 ltac:(lia) u Hu); change (N.of_nat 2) with 2%N in *; congruence). rewrite (T9 u Fu). now apply Hb. }
    split; [exact D1|]. split; [intros H0; exact (T4 (Hin _ H0))|]. assert (Hle : length l <= 604) by (rewrite <- Hlen; apply NoDup_incl_length; [exact D1|exact Hin]). clear - Hle. split; lia. }
  destruct (C79_boxes 2 _ _ _ _ work q es_smp isort 100 b P t0 t (or_introl eq_refl) HI Hw Hq Hsm Hfrom isort_sorts ltac:(cbn; lia) Hb Hrange T3 ltac:(intros v; reflexivity) E Ht) as (Hok & l & HL & HE & Hh & Hwd).
  change (id_keys (N.of_nat 2) q) with P in HE. rewrite Hlen in HE.
  destruct (C72_runs (fun x => x) 2 _ _ _ _ work q hgt (g_cgal hgt (co_of 2 q)) 1 box (fun k => k) (box_ck 2) par_base par_edge t l 10 (604 ^ 3) 4 1 (or_introl eq_refl) HI Hw Hq HB Hc He Hok HL) as (out & takes & H).
  - lia.
  - exact Hh.
  - lia.
  - lia.
  - lia.
  - discriminate.
  - reflexivity.
  - reflexivity.
  - exists work, q, hgt, t0, t, out, takes. cbv zeta. split; [exact HI|]. split; [exact Hw|]. split; [exact Hq|]. split; [exact Hsm|]. split; [exact Hfrom|]. split; [exact isort_sorts|]. split; [exact HB|]. split; [exact Hc|]. split; [exact Hb|]. split; [exact Hrange|]. split; [exact T3|]. split; [exact E|]. split; [exact Ht|].
    split; [|exact H]. destruct t0 as [ck x|ck x y].
    + exfalso. cbn [e_build] in E. fold P in Hlen. rewrite Hlen in E. change (100 <=? 604) with true in E. cbv iota in E.
      repeat match type of E with rbind ?z _ = _ => destruct z; try discriminate E; cbn [rbind] in E | rmap _ ?z = _ => destruct z; discriminate E end.
    + clear - Ht Hwd. inversion Ht as [|? ? ? l1 r1 A B]; subst. cbn [width map length] in *. lia.
Qed.
