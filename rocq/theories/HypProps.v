(** C78: the load balanced triangulator with HyperplaneBipartitioner. *)
From Coq Require Import Permutation Classical Lra.
From Verif Require Import Pool Outcome ListUtil WordsModel WordsProofs LPSetModel LPSetProofs LPSetHistory LPSetIter SimplexModel PointModel PointProofs GeoModel GeoSpec GeoProofs GeoBox GeoCirc PartModel PartProofs PartProps PartTop InfModel InfProofs MergeModel TriSpec DelSpec PlaceSpec DelPlace
  DcModel DcSpec DcBase DcHits DcProofs DcEx MeshSpec MeshProofs TreeModel TreeSpec SplitModel SplitProofs SplitEx StepModel StepPlaced StepCase TopSpec TopProofs TopRuns DcProps LbModel LbSpec LbProofs LbEx LbTrees LbTop LbProps KWayModel KWayProofs KTree SampleModel MakerModel
  BisectModel BisectSpec BisectProofs HypSpec BinTree HypProofs NestProofs NestTop.
Local Open Scope nat_scope.

(** All points can be read after the constructor, the corners too. *)
Lemma top_get D tiny huge p c work q : D = 2 \/ D = 3 -> input D tiny huge p c -> (forall i, In i (concat work) <-> is_fin_id p i) -> ctor_points D tiny huge p work = Val q ->
  forall v, In v (id_keys (N.of_nat D) q) -> PointModel.p_get (N.of_nat D) q v = Val (co_of D q v).
Proof.
  intros HD HI Hw Hq v Hv. destruct (top_ex D HD tiny huge p c HI work Hw q Hq) as [r T]. destruct (p_finite (N.of_nat D) v) eqn:F; [exact (tf_get _ _ _ _ _ _ _ T v Hv F)|].
  apply (tf_keys _ _ _ _ _ _ _ T) in Hv as [Hv|Hv]; [pose proof (fin_finite D ltac:(lia) tiny huge p c HI work Hw v Hv); congruence|].
  destruct (ctor_q D tiny huge p work q Hq) as (st & _ & ->). unfold co_of. set (i := N.to_nat (v - (2 ^ 64 - 2 ^ N.of_nat D))). pose proof (pow_of_nat D) as Hp. pose proof (top_pow D ltac:(lia)) as Hp'.
  assert (Hi : i < 2 ^ D) by (unfold i, is_inf_id in *; lia). assert (Ev : v = (2 ^ 64 - 2 ^ N.of_nat D + N.of_nat i)%N) by (unfold i, is_inf_id in *; lia).
  now rewrite Ev, (proj2 (proj2 (add_infinite_ok D ltac:(lia) p st (in_ok _ _ _ _ _ HI))) i Hi).
Qed.
(** Trees with sets exist. *)
Lemma tree_of_ex {C} (t0 : ptree C) : (forall q l, leaf_ids t0 q l -> NoDup l /\ ~ In 0%N l /\ small 64 (4 * (length l + 4))) -> exists t, tree_of t0 t.
Proof.
  induction t0 as [ck ids|ck l IHl r IHr]; intros H.
  - destruct (H [] ids ltac:(now apply leaf_leaf)) as (H1 & H2 & H3). destruct (ids_ex ids H1 H2 H3) as [s Hs]. exists (Tleaf ck s). now constructor.
  - destruct IHl as [l' Hl]; [intros q x Hq; apply (H (false :: q)), leaf_node; exists false, q; auto|]. destruct IHr as [r' Hr]; [intros q x Hq; apply (H (true :: q)), leaf_node; exists true, q; auto|].
    exists (Tnode ck [l'; r']). now constructor.
Qed.

(** For every sampler, every decomposition, bounds and number of partitions: if every node that is split has a finite point and every plane has input points or corners on either side,
    the tree keeps the contract of C72; and its size is bounded. *)
Theorem C78_hyper_partial D tiny huge p c work q smp svd b ids n t0 t : D = 2 \/ D = 3 -> input D tiny huge p c ->
  (forall i, In i (concat work) <-> is_fin_id p i) -> ctor_points D tiny huge p work = Val q -> (forall path l, samp_ok (smp path l)) ->
  let P := id_keys (N.of_nat D) q in
  NoDup ids -> (forall v, In v ids <-> In v P) -> (1 <= n)%N -> returns (fun f => h_partition D q smp svd f b ids n) t0 -> tree_of t0 t ->
  peopled (N.of_nat D) t0 -> cutting D (co_of D q) P t0 ->
  (forall r, placed (N.of_nat D) (co_of D q) r P -> (forall d, d < D -> (tiny <= r d)%R) -> tree_ok (N.of_nat D) (co_of D q) r hck (fun k sp _ => h_meets D k sp) t P) /\
  exists l, Leaves t l /\ entries l <= Nat.pow 2 (N.to_nat (N.log2 n)) * length P /\ height t <= N.to_nat (N.log2 n) /\ width t <= 2.
Proof.
  intros HD HI Hw Hq Hsm P Hn Hin Hn1 Hr Ht Hpe Hcu. pose proof (top_get D tiny huge p c work q HD HI Hw Hq) as Hget. fold P in Hget.
  destruct (top_ex D HD tiny huge p c HI work Hw q Hq) as [r0 T]. pose proof (tf_nodup _ _ _ _ _ _ _ T) as HnP. fold P in HnP. pose proof (tf_placed _ _ _ _ _ _ _ T) as Hp0. fold P in Hp0.
  assert (Hi : forall v, In v (inf_ids D) -> In v P) by (intros v Hv; apply (pl_inf _ _ _ _ Hp0); now apply (inf_in D ltac:(lia))).
  assert (L2 : 2 <= length ids) by (apply (inf_two D ids ltac:(lia) ltac:(lia)); intros v Hv; apply Hin; auto).
  split.
  - intros r Hp _. destruct Hr as [f Hf]. specialize (Hf f (le_n f)). unfold h_partition in Hf.
    apply (hyp_ok D ltac:(lia) q (co_of D q) r P smp svd Hsm Hp Hget f [] ids (HBox b) n t0 t P Hf Ht Hn L2); auto; [intros v; apply Hin|intros v; symmetry; apply Hin].
  - destruct (h_make_ok D q (co_of D q) smp svd ltac:(lia) ltac:(lia) Hsm (fun i Hi' => Hget i (Hi i Hi')) (N.to_nat (N.log2 n)) n [] ids (HBox b) Hn1 ltac:(lia) Hn (or_introl L2) (fun i Hi' => Hget i (proj1 (Hin i) Hi'))) as (t1 & F & [_ Dv] & L1 & _).
    assert (t1 = t0). { destruct Hr as [m Hm]. specialize (F (m + Datatypes.S (N.to_nat (N.log2 n))) ltac:(lia)). specialize (Hm (m + Datatypes.S (N.to_nat (N.log2 n))) ltac:(lia)). unfold h_partition in Hm. congruence. } subst t1.
    apply (bin_size t0 t P Ht). intros qq l Hl. split; [rewrite (L1 qq l Hl); apply le_n|]. destruct (Dv qq l Hl) as [D1 D2]. split; [exact D1|]. intros v Hv. destruct (D2 v Hv) as [D3|D3]; [now apply Hin|].
    destruct Hr as [m Hm]. specialize (Hm m (le_n m)). destruct (h_make_in D ltac:(lia) q (co_of D q) r0 P smp svd Hsm Hp0 Hget m [] ids (HBox b) n t0 Hn L2 (fun v => proj1 (Hin v)) Hm qq l v Hl Hv) as [X|X]; [now apply Hin|auto].
Qed.
Print Assumptions C78_hyper_partial.
(** Then the load balanced triangulator with it gives a mesh. *)
Theorem C78_mesh_partial over D tiny huge p c work q hgt cgal depth cbox par_base par_edge smp svd b ids n t0 t c0 out takes : D = 2 \/ D = 3 -> input D tiny huge p c ->
  (forall i, In i (concat work) <-> is_fin_id p i) -> ctor_points D tiny huge p work = Val q -> (forall path l, samp_ok (smp path l)) ->
  let P := id_keys (N.of_nat D) q in
  breaks D (co_of D q) hgt P -> cgal_right (N.of_nat D) (co_of D q) hgt P cgal ->
  NoDup ids -> (forall v, In v ids <-> In v P) -> (1 <= n <= 2 ^ 20)%N -> returns (fun f => h_partition D q smp svd f b ids n) t0 -> tree_of t0 t ->
  peopled (N.of_nat D) t0 -> cutting D (co_of D q) P t0 -> depth <= 42 -> (4 * (n * N.of_nat (length P)) <= 2 ^ 63)%N ->
  lb_run over (N.of_nat D) (co_of D q) cgal (splits D q tiny huge Cycle) depth hck cbox (fun k sp _ => h_meets D k sp) par_base par_edge [] t out takes ->
  drawn c0 takes -> (c0 + total takes < 2 ^ 64)%N -> (N.of_nat (length takes) < 2 ^ 32)%N ->
  exists r, (forall v d, is_fin_id p v -> d < D -> (Rabs (c v d) <= r d)%R) /\ (forall v, is_inf_id (N.of_nat D) v -> veq D (co_of D q v) (corner r v)) /\
    mesh (N.of_nat D) (co_of D q) r P out.
Proof.
  intros HD HI Hw Hq Hsm P HB Hc Hn Hin [Hn1 Hn2] Hr Ht Hpe Hcu Hd Hsz Hrun Htk H1 H2.
  destruct (C78_hyper_partial D tiny huge p c work q smp svd b ids n t0 t HD HI Hw Hq Hsm Hn Hin Hn1 Hr Ht Hpe Hcu) as (Hok & l & HL & HE & Hh & _).
  assert (Lg : (N.log2 n <= 20)%N) by (change 20%N with (N.log2 (2 ^ 20)); now apply N.log2_le_mono).
  eapply (C72_load_balanced over D tiny huge p c work q hgt cgal depth hck cbox _ par_base par_edge t l c0 out takes HD HI Hw Hq HB Hc Hok HL); eauto; [|lia].
  fold P in HE.
  assert (B : Nat.pow 2 (N.to_nat (N.log2 n)) <= N.to_nat n).
  { assert (X : (2 ^ N.log2 n <= n)%N) by (apply N.log2_spec; lia). assert (Y : N.of_nat (Nat.pow 2 (N.to_nat (N.log2 n))) = (2 ^ N.log2 n)%N). { clear. induction (N.log2 n) as [|k IH] using N.peano_ind; [reflexivity|]. rewrite N2Nat.inj_succ, N.pow_succ_r', <- IH. cbn [Nat.pow]. lia. } lia. }
  assert (E : entries l <= N.to_nat n * length P) by (eapply Nat.le_trans; [exact HE|]; now apply Nat.mul_le_mono_r). lia.
Qed.
Print Assumptions C78_mesh_partial.

(** A parabola cut in the middle: a sample of two points, whose midpoint is on the plane x = 300. *)
Definition hy_samp : samp := mksm (mkg [0; 1; 2] [1; 0] [1; 1]%Z) [0; 1]%Z [v2 299 89401; v2 301 90601].
Definition hy_svd (ps : list vec) : vec * R := (v2 1 0, (-300)%R).
Lemma hy_samp_ok : samp_ok hy_samp.
Proof. exists 2. cbn. repeat split; intros x H; [destruct H as [<-|[<-|[<-|[]]]]; lia|destruct H as [<-|[<-|[]]]; lia]. Qed.
Example C78_ex par_base par_edge : exists work q hgt t0 t out takes, input 2 (1 / 1000) 1000000 g_pts g_c /\ (forall i, In i (concat work) <-> is_fin_id g_pts i) /\
  ctor_points 2 (1 / 1000) 1000000 g_pts work = Val q /\ (forall path l, samp_ok ((fun (_ : list bool) (_ : list N) => hy_samp) path l)) /\
  breaks 2 (co_of 2 q) hgt (id_keys 2 q) /\ cgal_right 2 (co_of 2 q) hgt (id_keys 2 q) (g_cgal hgt (co_of 2 q)) /\ NoDup (id_keys 2 q) /\
  returns (fun f => h_partition 2 q (fun _ _ => hy_samp) hy_svd f (mkbox (v2 0 0) (v2 600 360000)) (id_keys 2 q) 2) t0 /\ tree_of t0 t /\ peopled 2 t0 /\ cutting 2 (co_of 2 q) (id_keys 2 q) t0 /\ width t = 2 /\
  lb_run (fun x => x) 2 (co_of 2 q) (g_cgal hgt (co_of 2 q)) (splits 2 q (1 / 1000) 1000000 Cycle) 1 hck (fun _ => mkbox (v2 0 0) (v2 600 360000)) (fun k sp _ => h_meets 2 k sp) par_base par_edge [] t out takes /\
  drawn 1 takes /\ (1 + total takes < 2 ^ 64)%N /\ (N.of_nat (length takes) < 2 ^ 32)%N.
Proof.
  destruct (C67_ex DWay ltac:(discriminate)) as (work & q & hgt & _ & _ & HI & Hw & Hq & HB & Hc & He & _ & _ & _ & _ & Hl).
  destruct (top_ex 2 (or_introl eq_refl) _ _ _ _ HI work Hw q Hq) as [r T]. pose proof T as [T1 T2 T3 T4 T5 T6 T7 T8 T9 _].
  assert (Hlen : length (id_keys 2 q) = 604) by (apply N.ltb_lt in Hl; unfold ctor_points in Hq; destruct (stats_par _ _ _ _ _ _) as [st| |]; try discriminate Hq; injection Hq as <-; apply g_len).
  pose proof (top_get 2 _ _ _ _ work q (or_introl eq_refl) HI Hw Hq) as Hget. change (N.of_nat 2) with 2%N in *. set (b := mkbox (v2 0 0) (v2 600 360000)). set (P := id_keys 2 q) in *.
  set (smp := fun (_ : list bool) (_ : list N) => hy_samp). assert (Hsm : forall path l, samp_ok (smp path l)) by (intros; exact hy_samp_ok).
  assert (Hg : forall v, (1 <= v <= 600)%N -> In v P /\ p_finite 2 v = true /\ co_of 2 q v = g_c v).
  { intros v Hv. apply g_fin in Hv. split; [apply T8; now left|]. split; [exact (fin_finite 2 ltac:(lia) _ _ _ _ HI work Hw v Hv)|now apply T9]. }
  assert (Hi : forall v, In v (inf_ids 2) -> In v P) by (intros v Hv; apply (pl_inf _ _ _ _ T1); now apply (inf_in 2 ltac:(lia))).
  destruct (h_make_ok 2 q (co_of 2 q) smp hy_svd ltac:(lia) ltac:(lia) Hsm (fun i Hi' => Hget i (Hi i Hi')) 1 2 [] P (HBox b) ltac:(lia) eq_refl T3 ltac:(left; lia) Hget) as (t0 & F & [Dv1 Dv] & L1 & L2 & _).
  assert (Ht0 : h_make 2 q smp hy_svd 2 [] P (HBox b) 2 = Val t0) by (apply F; lia).
  destruct (h_root 2 q (co_of 2 q) smp hy_svd ltac:(lia) ltac:(lia) Hsm (fun i Hi' => Hget i (Hi i Hi')) 2 [] P (HBox b) 2 t0 ltac:(lia) T3 ltac:(lia) Hget Ht0) as (ps & lt & rt & Et & _ & _ & K1 & K2 & Hs).
  assert (Ret : returns (fun f => h_partition 2 q smp hy_svd f b P 2) t0) by (exists 2; intros f Hf; unfold h_partition; apply F; lia).
  assert (Hin : forall qq l v, leaf_ids t0 qq l -> In v l -> In v P).
  { intros qq l v Hl' Hv. destruct (h_make_in 2 ltac:(lia) q (co_of 2 q) r P smp hy_svd Hsm T1 Hget 2 [] P (HBox b) 2 t0 T3 ltac:(lia) (fun v H => H) Ht0 qq l v Hl' Hv); auto. }
  destruct (tree_of_ex t0) as [t Ht].
  { intros qq l Hl'. destruct (Dv qq l Hl') as [D1 _]. split; [exact D1|]. split; [intros H0; exact (T4 (Hin qq l _ Hl' H0))|]. assert (Hle : length l <= 604) by (rewrite <- Hlen; apply NoDup_incl_length; [exact D1|intros v; now apply Hin with qq]).
    clear - Hle. split; lia. }
  assert (Hroot : forall qq ck l r', at_path t0 qq (PNode ck l r') -> qq = [] /\ l = lt).
  { intros qq ck l r' Ha. destruct qq as [|x qq]; [inversion Ha as [y|y|y]; subst; match goal with E : PNode _ _ _ = PNode _ _ _ |- _ => injection E as _ <- _ end; auto|]. exfalso.
    destruct (some_leaf (PNode ck l r')) as (q' & l' & ck' & Hl'). destruct q' as [|z q']; [inversion Hl'|].
    assert (Y : forall (u : ptree hck) a v, at_path u a v -> forall b' w, at_path v b' w -> at_path u (a ++ b') w) by (clear; induction 1; intros; cbn [app]; auto; constructor; auto).
    pose proof (Y _ _ _ Ha _ _ Hl') as Z. specialize (L1 _ l' (ex_intro _ ck' Z)). cbn [length] in L1. rewrite app_length in L1. cbn [length] in L1. lia. }
  assert (Hpe : peopled 2 t0).
  { intros qq ck l r' Ha. destruct (Hroot qq ck l r' Ha) as [-> _]. assert (Ex : t0 = PNode ck l r') by (inversion Ha; auto). rewrite <- Ex. destruct (Hg 100%N ltac:(lia)) as (G1 & G2 & _). destruct (Dv1 100%N G1 G2) as (q' & l' & A & B & _). exists q', l', 100%N. auto. }
  assert (Hcu : cutting 2 (co_of 2 q) P t0).
  { intros qq ck l r' Ha. destruct (Hroot qq ck l r' Ha) as [_ ->]. destruct (plane_ok 2 (v2 1 0) (-300)) as (n & k & En & Nn & Hd); [unfold dot, v2; cbn; lra|]. cbn [hy_svd fst snd] in K1. rewrite En in K1. cbn [h_left] in K1.
    exists n, k. split; [exact K1|]. split.
    - exists 400%N. destruct (Hg 400%N ltac:(lia)) as (G1 & _ & G3). split; [exact G1|]. rewrite G3. destruct (Hd (g_c 400)) as (z & Hz & E). unfold h_dist in E. rewrite scalar_dot in E. unfold dot at 2, g_c, v2 in E. cbn in E. unfold g_c. cbn. nra.
    - exists 100%N. destruct (Hg 100%N ltac:(lia)) as (G1 & _ & G3). split; [exact G1|]. rewrite G3. destruct (Hd (g_c 100)) as (z & Hz & E). unfold h_dist in E. rewrite scalar_dot in E. unfold dot at 2, g_c, v2 in E. cbn in E. unfold g_c. cbn. nra. }
  destruct (C78_hyper_partial 2 _ _ _ _ work q smp hy_svd b P 2 t0 t (or_introl eq_refl) HI Hw Hq Hsm T3 ltac:(intros v; reflexivity) ltac:(lia) Ret Ht Hpe Hcu) as (Hok & l & HL & HE & Hh & Hwd).
  change (N.of_nat 2) with 2%N in HE. fold P in HE. rewrite Hlen in HE. change (Nat.pow 2 (N.to_nat (N.log2 2))) with 2 in *. change (N.to_nat (N.log2 2)) with 1 in *.
  destruct (C72_runs (fun x => x) 2 _ _ _ _ work q hgt (g_cgal hgt (co_of 2 q)) 1 hck (fun _ => b) (fun k sp _ => h_meets 2 k sp) par_base par_edge t l 1 (604 ^ 3) 4 1 (or_introl eq_refl) HI Hw Hq HB Hc He Hok HL) as (out & takes & H).
  - lia.
  - exact Hh.
  - lia.
  - lia.
  - lia.
  - discriminate.
  - reflexivity.
  - reflexivity.
  - exists work, q, hgt, t0, t, out, takes. split; [exact HI|]. split; [exact Hw|]. split; [exact Hq|]. split; [exact Hsm|]. split; [exact HB|]. split; [exact Hc|]. split; [exact T3|]. split; [exact Ret|]. split; [exact Ht|]. split; [exact Hpe|]. split; [exact Hcu|].
    split; [|auto]. rewrite Et in Ht. inversion Ht; subst. destruct (L2 [true] eq_refl) as (x1 & y1 & X1). destruct (L2 [false] eq_refl) as (x2 & y2 & X2). inversion X1; inversion X2; subst.
    repeat match goal with X : at_path _ [] _ |- _ => inversion X; subst; clear X end. repeat match goal with X : tree_of (PLeaf _ _) _ |- _ => inversion X; subst; clear X end. reflexivity.
Qed.

(** ** If the decomposition gives no normal *)
(** The column of V of the smallest singular value, HyperplaneBipartitioner.h:90-91: a unit vector for which the sum of the squared values at the points, with a one appended, is the least. *)
Definition sq_sum (D : nat) (o : vec) (l : R) (ps : list vec) : R := fold_right (fun m a => ((dot D o m + l) * (dot D o m + l) + a)%R) 0%R ps.
Definition least_at (D : nat) (svd : list vec -> vec * R) (ps : list vec) : Prop := let (o, l) := svd ps in (dot D o o + l * l = 1)%R /\
  forall o' l', (dot D o' o' + l' * l' = 1)%R -> (sq_sum D o l ps <= sq_sum D o' l' ps)%R.

(** The first split without a normal. *)
Lemma h_zero D pts co smp svd f ids ck n t : (0 < D) -> (N.of_nat D <= 30)%N -> (forall path l, samp_ok (smp path l)) -> (forall i, In i ids -> PointModel.p_get (N.of_nat D) pts i = Val (co i)) -> 2 <= length ids ->
  (2 <= n <= 3)%N -> h_find D smp svd [] ids = Val None -> h_make D pts smp svd f [] ids ck n = Val t ->
  exists l r, t = PNode (Some ck) (PLeaf (Some (HPlane None)) l) (PLeaf (Some (HPlane None)) r) /\ NoDup l /\ NoDup r /\ (forall x, In x l <-> In x (inf_ids D)) /\ (forall x, In x r <-> In x (inf_ids D) \/ In x ids).
Proof.
  intros H0 HD Hsm Hg Hl Hn Hf. destruct f as [|f]; [discriminate|]. cbn [h_make]. destruct (N.ltb_spec 1 n) as [_|X]; [|lia]. rewrite Hf. cbn [rbind].
  destruct (h_halves D pts co None ids Hl Hg) as (ss & l & r & E1 & E2 & Nl & Nr & Ql & Qr). rewrite E1. cbn [rbind]. rewrite E2. cbn [rbind h_left h_right].
  destruct f as [|f]; [discriminate|]. cbn [h_make]. assert (E : (n / 2 = 1)%N) by (assert (n = 2 \/ n = 3)%N as [-> | ->] by lia; reflexivity). rewrite E. change (1 <? 1)%N with false. cbn [rbind rmap]. intros [= <-].
  exists l, r. split; [reflexivity|]. split; [exact Nl|]. split; [exact Nr|]. split; intros x; [rewrite Ql|rewrite Qr]; cbn [h_above]; intuition congruence.
Qed.
(** Corners only: the sphere around the origin has all input points inside. *)
Lemma corners_wrong D co r P s q : (2 <= D <= 30)%N -> placed D co r P -> In q P -> p_finite D q = true -> (forall v, In v s -> p_finite D v = false) -> ~ delaunay (N.to_nat D) co P s.
Proof.
  intros HD Hp Hq Fq Hs (Hin & (_ & _ & L & HL) & c & r2 & Hb & Hfr). set (R2 := sumn (N.to_nat D) (fun d => r d * r d)%R).
  assert (Z : forall x, (DelGeo.pow (N.to_nat D) c r2 x - DelGeo.pow (N.to_nat D) (fun _ => 0%R) R2 x = 0)%R).
  { intros x. apply (DelGeo.interp_zero (N.to_nat D) co s L HL (fun x => DelGeo.pow (N.to_nat D) c r2 x - DelGeo.pow (N.to_nat D) (fun _ => 0%R) R2 x)%R); [apply DelGeo.pow_diff|].
    intros w Hw. unfold DelGeo.pow. rewrite (Hb w Hw), (DelPlace.corner_len D co r P Hp w (Hin w Hw) (Hs w Hw)). fold R2. lra. }
  specialize (Z (co q)). unfold DelGeo.pow in Z. pose proof (DelPlace.fin_len D ltac:(lia) co (fun _ => 0%R) r P Hp q Hq Fq) as F. fold R2 in F. specialize (Hfr q Hq). lra.
Qed.

Section Zero.
Variables (D : nat) (tiny huge : R) (p : points vec) (c : N -> vec) (work : list (list N)) (q : points vec).
Hypothesis HD : D = 2 \/ D = 3.
Hypothesis HI : input D tiny huge p c.
Hypothesis Hw : forall i, In i (concat work) <-> is_fin_id p i.
Hypothesis Hq : ctor_points D tiny huge p work = Val q.
Variables (smp : list bool -> list N -> samp) (svd : list vec -> vec * R) (b : box) (ids : list N) (n : N).
Hypothesis Hsm : forall path l, samp_ok (smp path l).
Notation P := (id_keys (N.of_nat D) q).
Notation co := (co_of D q).
Hypothesis Hn : NoDup ids.
Hypothesis Hids : forall v, In v ids <-> In v P.
Hypothesis Hn23 : (2 <= n <= 3)%N.
Hypothesis Hz : h_find D smp svd [] ids = Val None.
Hypothesis Hsz : (8 * N.of_nat (length P) <= 2 ^ 63)%N.

Lemma z_inf v : In v (inf_ids D) -> In v P.
Proof. destruct (top_ex D HD tiny huge p c HI work Hw q Hq) as [r T]. intros Hv. apply (pl_inf _ _ _ _ (tf_placed _ _ _ _ _ _ _ T)). now apply (inf_in D ltac:(lia)). Qed.
Lemma z_two : 2 <= length ids.
Proof. apply (inf_two D ids ltac:(lia) ltac:(lia)). intros v Hv. apply Hids, z_inf, Hv. Qed.
Lemma z_flat t0 t : returns (fun f => h_partition D q smp svd f b ids n) t0 -> tree_of t0 t ->
  exists l r s s', t = Tnode (Some (HBox b)) [Tleaf (Some (HPlane None)) s; Tleaf (Some (HPlane None)) s'] /\ lists s l /\ lists s' r /\
    (forall x, In x l <-> In x (inf_ids D)) /\ (forall x, In x r <-> In x P).
Proof.
  intros [m Hm] Ht. specialize (Hm m (le_n m)). unfold h_partition in Hm. pose proof (top_get D tiny huge p c work q HD HI Hw Hq) as Hget.
  destruct (h_zero D q co smp svd m ids (HBox b) n t0 ltac:(lia) ltac:(lia) Hsm (fun i Hi => Hget i (proj1 (Hids i) Hi)) z_two Hn23 Hz Hm) as (l & r & -> & Nl & Nr & Ql & Qr).
  inversion Ht as [|? ? ? l' r' Hl Hr]; subst. inversion Hl as [? s ? Hs|]; subst. inversion Hr as [? s' ? Hs'|]; subst. exists l, r, s, s'. split; [reflexivity|]. split; [exact Hs|]. split; [exact Hs'|]. split; [exact Ql|].
  intros x. rewrite Qr, Hids. split; [intros [H|H]; [now apply z_inf|exact H]|auto].
Qed.
Section Flat.
Variables (l rr : list N) (s s' : lpset).
Hypothesis Hs : lists s l.
Hypothesis Hs' : lists s' rr.
Hypothesis Ql : forall x, In x l <-> In x (inf_ids D).
Hypothesis Qr : forall x, In x rr <-> In x P.
Notation ck := (HPlane None).
Notation nl := (ck, @nil N).
Notation kl := [(ck, l); (ck, rr)].
Notation ch := [Tleaf (Some ck) s; Tleaf (Some ck) s'].
Lemma zf_ch : Forall2 (fun x c => exists s, c = Tleaf (Some (fst x)) s /\ lists s (snd x)) kl ch.
Proof. constructor; [exists s; auto|]. constructor; [exists s'; auto|constructor]. Qed.
Lemma zf_all v : In v P <-> exists i, i < length kl /\ In v (snd (nth i kl nl)).
Proof.
  split; [intros Hv; exists 1; split; [cbn; lia|now apply Qr]|]. intros (i & Hi & Hv). cbn [length] in Hi. destruct i as [|[|i]]; [apply z_inf, Ql, Hv|apply Qr, Hv|lia].
Qed.
Lemma zf_notl v : In v l -> p_finite (N.of_nat D) v = false.
Proof. intros Hv. apply Ql in Hv. apply (inf_infinite D ltac:(lia)). apply (inf_iff D ltac:(lia)). exact Hv. Qed.
Lemma zf_one i j v : i < length kl -> j < length kl -> In v (snd (nth i kl nl)) -> In v (snd (nth j kl nl)) -> p_finite (N.of_nat D) v = true -> i = j.
Proof.
  cbn [length]. intros Hi Hj Vi Vj F. destruct i as [|[|i]]; [exfalso; rewrite (zf_notl v Vi) in F; discriminate| |lia]. destruct j as [|[|j]]; [exfalso; rewrite (zf_notl v Vj) in F; discriminate|reflexivity|lia].
Qed.
Lemma zf_inf i v : i < length kl -> (p_inf (N.of_nat D) <= v < 2 ^ 64)%N -> In v (snd (nth i kl nl)).
Proof.
  cbn [length]. intros Hi Hv. apply (inf_in D ltac:(lia)) in Hv. destruct i as [|[|i]]; [now apply Ql|apply Qr, z_inf, Hv|lia].
Qed.
Lemma zf_small : small 64 (4 * (length kl * length P)).
Proof. cbn [length]. clear - Hsz. split; lia. Qed.
(** No checker answers yes: the simplices of the corners stay in the result. *)
Lemma zf_kept over hgt cgal depth cbox par_base par_edge c0 out takes i : is_fin_id p i -> breaks D co hgt P -> cgal_right (N.of_nat D) co hgt P cgal -> depth <= 42 ->
  lb_run over (N.of_nat D) co cgal (splits D q tiny huge Cycle) depth hck cbox (fun k sp _ => h_meets D k sp) par_base par_edge [] (Tnode (Some (HBox b)) ch) out takes ->
  drawn c0 takes -> (c0 + total takes < 2 ^ 64)%N -> (N.of_nat (length takes) < 2 ^ 32)%N ->
  exists e y, shown out e y /\ (forall v, In v (x_verts y) -> p_finite (N.of_nat D) v = false) /\ ~ delaunay D co P (x_verts y).
Proof.
  intros Hi HB Hc Hd Hr Hdr H1 H2. destruct (top_ex D HD tiny huge p c HI work Hw q Hq) as [r T]. pose proof (tf_placed _ _ _ _ _ _ _ T) as T1.
  assert (HDN : (N.of_nat D = 2 \/ N.of_nat D = 3)%N) by (destruct HD as [-> | ->]; [left|right]; reflexivity). assert (ED : N.to_nat (N.of_nat D) = D) by lia.
  destruct (flat_kept over (N.of_nat D) HDN co hgt r P T1 ltac:(rewrite ED; exact HB) cgal (cgal_placed D tiny huge p c q hgt cgal Hc r T) (splits D q tiny huge Cycle)
    (splits_placed D HD tiny huge p c q Cycle ltac:(discriminate) r T) depth ltac:(clear - Hd; lia) hck cbox (fun k sp _ => h_meets D k sp) nl par_base par_edge (HBox b) kl ch zf_ch (le_n 2) zf_all zf_one zf_inf zf_small out takes Hd Hr (drawn_ok c0 takes Hdr H1 H2)) as (dts & Ld & K).
  destruct (K 0 ltac:(cbn; lia)) as [Td Kp]. cbn [nth snd] in Td. set (dt := nth 0 dts StepModel.no_d) in *.
  assert (Hpl : placed (N.of_nat D) co r l) by (apply (placed_sub (N.of_nat D) co r P _ T1); [intros v Hv; apply z_inf, Ql, Hv|intros v Hv; exact (zf_inf 0 v ltac:(cbn; lia) Hv)]).
  assert (HBS : breaks (N.to_nat (N.of_nat D)) co hgt l) by (rewrite ED; apply (breaks_sub D co hgt P); [exact HB|intros w Hw'; apply z_inf, Ql, Hw']).
  assert (Hv0 : In (p_inf (N.of_nat D)) l). { apply (zf_inf 0); [cbn; lia|]. rewrite p_inf_val by lia. clear - HD. destruct HD as [-> | ->]; cbn; lia. }
  destruct (me_points _ _ _ _ _ (tri_mesh over (N.of_nat D) ltac:(lia) co hgt r _ Hpl HBS dt Td) _ Hv0) as (e & x & Hx & _).
  destruct (Kp) with (e := e) (x := x) as (y & Hy & Ey); [|exact Hx|].
  { intros e' x' v j _ _ _ Hj Hne. destruct j as [|[|j]]; [lia| |cbn in Hj; lia]. cbn [nth fst]. unfold ck_hit. destruct (circum_of (N.of_nat D) co (x_verts x')); reflexivity. }
  exists e, y. split; [exact Hy|]. assert (F : forall v, In v (x_verts y) -> p_finite (N.of_nat D) v = false).
  { intros v Hv. rewrite Ey in Hv. apply zf_notl. exact (proj1 (tr_sound _ _ _ _ _ _ Td e x Hx) v Hv). }
  split; [exact F|]. rewrite <- ED at 1. apply (corners_wrong (N.of_nat D) co r P (x_verts y) i ltac:(lia) T1); [apply (tf_keys _ _ _ _ _ _ _ T); now left|exact (fin_finite D ltac:(lia) tiny huge p c HI work Hw i Hi)|exact F].
Qed.
End Flat.
End Zero.

(** Whatever the points, the sampler and the answers of CGAL: if the first plane has no normal and there are two or three partitions, the result has a simplex of infinite points only, with all input points inside of its circumsphere. *)
Theorem C78_zero_refuted over D tiny huge p c work q hgt cgal depth cbox par_base par_edge smp svd b ids n t0 t c0 out takes i : D = 2 \/ D = 3 -> input D tiny huge p c ->
  (forall i, In i (concat work) <-> is_fin_id p i) -> ctor_points D tiny huge p work = Val q -> (forall path l, samp_ok (smp path l)) -> is_fin_id p i ->
  let P := id_keys (N.of_nat D) q in
  breaks D (co_of D q) hgt P -> cgal_right (N.of_nat D) (co_of D q) hgt P cgal ->
  NoDup ids -> (forall v, In v ids <-> In v P) -> (2 <= n <= 3)%N -> (8 * N.of_nat (length P) <= 2 ^ 63)%N -> depth <= 42 ->
  (forall ps, (forall m, In m ps -> cut_mid (smp [] ids) (fun a b => a <> b) m) -> (forall m, cut_mid (smp [] ids) (fun a b => a <> b) m -> exists m', In m' ps /\ forall d, m' d = m d) -> dot D (fst (svd ps)) (fst (svd ps)) = 0%R) ->
  returns (fun f => h_partition D q smp svd f b ids n) t0 -> tree_of t0 t ->
  lb_run over (N.of_nat D) (co_of D q) cgal (splits D q tiny huge Cycle) depth hck cbox (fun k sp _ => h_meets D k sp) par_base par_edge [] t out takes ->
  drawn c0 takes -> (c0 + total takes < 2 ^ 64)%N -> (N.of_nat (length takes) < 2 ^ 32)%N ->
  exists e y, shown out e y /\ (forall v, In v (x_verts y) -> p_finite (N.of_nat D) v = false) /\ ~ delaunay D (co_of D q) P (x_verts y).
Proof.
  intros HD HI Hw Hq Hsm Hi P HB Hc Hn Hids Hn23 Hsz Hd Hz0 Hret Ht Hr Hdr H1 H2.
  assert (Hz : h_find D smp svd [] ids = Val None).
  { destruct (h_find_ok D smp svd Hsm [] ids) as (ps & E & M1 & M2). rewrite E. unfold h_plane, len2. rewrite scalar_dot, (Hz0 ps M1 M2). unfold reqb. destruct (Req_EM_T 0 0); [reflexivity|congruence]. }
  destruct (z_flat D tiny huge p c work q HD HI Hw Hq smp svd b ids n Hsm Hids Hn23 Hz Hsz t0 t Hret Ht) as (l & rr & s & s' & -> & Hs & Hs' & Ql & Qr).
  exact (zf_kept D tiny huge p c work q HD HI Hw Hq smp svd b ids n Hsm Hids Hn23 Hz Hsz l rr s s' Hs Hs' Ql Qr over hgt cgal depth cbox par_base par_edge c0 out takes i Hi HB Hc Hd Hr Hdr H1 H2).
Qed.
Print Assumptions C78_zero_refuted.

(** A cross of five points, all of them sampled, the middle in one partition and the others in the other: the midpoints are (5, 0), (-5, 0), (0, 5) and (0, -5), each found from both ends. *)
Definition hz_c (i : N) : vec := if (i =? 1)%N then v2 0 0 else if (i =? 2)%N then v2 10 0 else if (i =? 3)%N then v2 (-10) 0 else if (i =? 4)%N then v2 0 10 else v2 0 (-10).
Definition hz_pts : points vec := mkpts [v2 0 0; v2 0 0; v2 10 0; v2 (-10) 0; v2 0 10; v2 0 (-10)] 0 [v2 0 0; v2 0 0; v2 0 0; v2 0 0].
Definition hz_samp : samp := mksm (mkg [0; 4; 5; 6; 7; 8] [1; 2; 3; 4; 0; 0; 0; 0] [1; 1; 1; 1; 1]%Z) [0; 1; 1; 1; 1]%Z [v2 0 0; v2 10 0; v2 (-10) 0; v2 0 10; v2 0 (-10)].
Definition hz_work : list (list N) := [[1; 2; 3; 4; 5]%N].
Lemma hz_samp_ok : samp_ok hz_samp.
Proof. exists 5. cbn. repeat split; intros x H; repeat (destruct H as [<-|H]; [lia|]); destruct H. Qed.
Lemma hz_fin i : is_fin_id hz_pts i <-> (1 <= i <= 5)%N.
Proof. unfold is_fin_id, hz_pts. cbn [p_off p_vec length]. lia. Qed.
Lemma hz_five i : (1 <= i <= 5)%N -> (i = 1 \/ i = 2 \/ i = 3 \/ i = 4 \/ i = 5)%N.
Proof. lia. Qed.
Lemma hz_works i : In i (concat hz_work) <-> is_fin_id hz_pts i.
Proof. rewrite hz_fin. cbn. lia. Qed.
(** The least squares solution for this sample has no normal. *)
Definition hz_mids : list vec := map (fun e => vscale (vplus (hz_c (fst e)) (hz_c (snd e))) (1 / 2)%R) [(1, 2); (1, 3); (1, 4); (1, 5); (2, 1); (3, 1); (4, 1); (5, 1)]%N.
Lemma hz_none svd path l : least_at 2 svd hz_mids -> h_find 2 (fun _ _ => hz_samp) svd path l = Val None.
Proof.
  intros Hs. unfold h_find. change (cut_edges hz_samp (fun a b => negb (Z.eqb a b))) with (Val [(0, 1); (0, 2); (0, 3); (0, 4); (1, 0); (2, 0); (3, 0); (4, 0)]). cbn [rbind].
  change (mid_points hz_samp _) with (Val hz_mids). cbn [rbind]. unfold least_at in Hs. destruct (svd hz_mids) as [o l']. destruct Hs as [H1 H2]. specialize (H2 (v2 0 0) 1%R).
  unfold dot in H1. cbn [sumn] in H1. unfold hz_mids, sq_sum, dot, vscale, vplus in H2. cbn in H2.
  assert (Z : (o 0%nat * o 0%nat + o 1%nat * o 1%nat = 0)%R). { specialize (H2 ltac:(lra)). nra. }
  unfold h_plane, len2. rewrite scalar_dot. unfold dot. cbn [sumn]. replace (0 + o 0%nat * o 0%nat + o 1%nat * o 1%nat)%R with 0%R by lra. unfold reqb. destruct (Req_EM_T 0 0); [reflexivity|congruence].
Qed.
Lemma hz_input : input 2 1 10 hz_pts hz_c.
Proof.
  assert (H2 : forall d, d < 2 -> d = 0 \/ d = 1) by lia. constructor.
  - split; [discriminate|]. split; [vm_compute; discriminate|reflexivity].
  - vm_compute. discriminate.
  - intros i Hi. apply hz_fin, hz_five in Hi as [-> | [-> | [-> | [-> | ->]]]]; reflexivity.
  - intros i j Hi Hj H. pose proof (H 0 ltac:(lia)) as Hx. pose proof (H 1 ltac:(lia)) as Hy. apply hz_fin, hz_five in Hi as [-> | [-> | [-> | [-> | ->]]]]; apply hz_fin, hz_five in Hj as [-> | [-> | [-> | [-> | ->]]]]; try reflexivity; exfalso; cbn in Hx, Hy; lra.
  - lra.
  - intros d Hd. destruct (H2 d Hd) as [-> | ->]; [exists 2%N, 1%N|exists 4%N, 1%N]; rewrite !hz_fin; cbn; (split; [lia|]; split; [lia|]); lra.
  - intros i d Hi Hd. destruct (H2 d Hd) as [-> | ->]; [exists 2%N, 1%N|exists 4%N, 1%N]; (split; [apply hz_fin; lia|]; split; [apply hz_fin; lia|]); apply hz_fin, hz_five in Hi as [-> | [-> | [-> | [-> | ->]]]]; cbn; unfold Rabs; destruct Rcase_abs; lra.
  - intros i d Hi Hd. destruct (H2 d Hd) as [-> | ->]; apply hz_fin, hz_five in Hi as [-> | [-> | [-> | [-> | ->]]]]; cbn; lra.
Qed.
Lemma hz_len q : ctor_points 2 1 10 hz_pts hz_work = Val q -> length (id_keys 2 q) = 9.
Proof.
  intros Hq. destruct (ctor_q 2 _ _ _ _ _ Hq) as (st & _ & ->). pose proof (keys_length 2 ltac:(lia) (add_infinite 2 hz_pts st) (q_ok 2 ltac:(lia) _ _ _ _ hz_input st)) as H.
  destruct (add_infinite_spec 2 ltac:(lia) hz_pts st eq_refl) as [A1 _]. unfold finite_size in H. rewrite A1 in H. unfold hz_pts in H at 2. cbn [p_vec length] in H. change (2 ^ 2)%N with 4%N in H. lia.
Qed.
(** Whichever decomposition minimises: with this sample the result is no mesh of these points. *)
Corollary C78_centred_refuted svd over q hgt cgal depth cbox par_base par_edge b ids n t0 t c0 out takes r : least_at 2 svd hz_mids -> ctor_points 2 1 10 hz_pts hz_work = Val q ->
  let P := id_keys 2 q in
  breaks 2 (co_of 2 q) hgt P -> cgal_right 2 (co_of 2 q) hgt P cgal -> NoDup ids -> (forall v, In v ids <-> In v P) -> (2 <= n <= 3)%N -> depth <= 42 ->
  returns (fun f => h_partition 2 q (fun _ _ => hz_samp) svd f b ids n) t0 -> tree_of t0 t ->
  lb_run over 2 (co_of 2 q) cgal (splits 2 q 1 10 Cycle) depth hck cbox (fun k sp _ => h_meets 2 k sp) par_base par_edge [] t out takes ->
  drawn c0 takes -> (c0 + total takes < 2 ^ 64)%N -> (N.of_nat (length takes) < 2 ^ 32)%N -> ~ mesh 2 (co_of 2 q) r P out.
Proof.
  intros Hs Hq P HB Hc Hn Hids Hn23 Hd Hret Ht Hr Hdr H1 H2 Hm.
  assert (Hsz : (8 * N.of_nat (length P) <= 2 ^ 63)%N) by (unfold P; rewrite (hz_len q Hq); discriminate).
  destruct (z_flat 2 1 10 hz_pts hz_c hz_work q (or_introl eq_refl) hz_input hz_works Hq (fun _ _ => hz_samp) svd b ids n (fun _ _ => hz_samp_ok) Hids Hn23 (hz_none svd [] ids Hs) Hsz t0 t Hret Ht) as (l & rr & s & s' & -> & Ls & Ls' & Ql & Qr).
  destruct (zf_kept 2 1 10 hz_pts hz_c hz_work q (or_introl eq_refl) hz_input hz_works Hq (fun _ _ => hz_samp) svd b ids n (fun _ _ => hz_samp_ok) Hids Hn23 (hz_none svd [] ids Hs) Hsz l rr s s' Ls Ls' Ql Qr over hgt cgal depth cbox par_base par_edge c0 out takes 1%N) as (e & y & Hy & _ & Hw); auto; [apply hz_fin; lia|].
  apply Hw. exact (me_delaunay _ _ _ _ _ Hm e y Hy).
Qed.
Print Assumptions C78_centred_refuted.
(** There is such a decomposition, the unit vector of the appended coordinate; and such a run. *)
Definition hz_svd (ps : list vec) : vec * R := (v2 0 0, 1%R).
Example C78_centred_svd : least_at 2 hz_svd hz_mids.
Proof.
  unfold least_at, hz_svd. split; [unfold dot, v2; cbn; lra|]. intros o l H. unfold dot in H. cbn [sumn] in H. unfold hz_mids, sq_sum, dot, vscale, vplus. cbn. nra.
Qed.
Example C78_centred_ex par_base par_edge svd q : least_at 2 svd hz_mids -> ctor_points 2 1 10 hz_pts hz_work = Val q -> exists hgt t0 t out takes, breaks 2 (co_of 2 q) hgt (id_keys 2 q) /\ cgal_right 2 (co_of 2 q) hgt (id_keys 2 q) (g_cgal hgt (co_of 2 q)) /\
  NoDup (id_keys 2 q) /\ returns (fun f => h_partition 2 q (fun _ _ => hz_samp) svd f (mkbox (v2 (-10) (-10)) (v2 10 10)) (id_keys 2 q) 2) t0 /\ tree_of t0 t /\
  lb_run (fun x => x) 2 (co_of 2 q) (g_cgal hgt (co_of 2 q)) (splits 2 q 1 10 Cycle) 1 hck (fun _ => mkbox (v2 (-10) (-10)) (v2 10 10)) (fun k sp _ => h_meets 2 k sp) par_base par_edge [] t out takes /\
  drawn 1 takes /\ (1 + total takes < 2 ^ 64)%N /\ (N.of_nat (length takes) < 2 ^ 32)%N.
Proof.
  intros Hs Hq. destruct (heights_ex 2 (co_of 2 q) (id_keys 2 q)) as [hgt HB]. exists hgt. set (b := mkbox (v2 (-10) (-10)) (v2 10 10)). pose proof hz_input as HI. pose proof (hz_len q Hq) as Hl.
  assert (Hc : cgal_right 2 (co_of 2 q) hgt (id_keys 2 q) (g_cgal hgt (co_of 2 q))) by (intros S last cells _ _ _ [H _]; exact H).
  destruct (top_ex 2 (or_introl eq_refl) 1 10 hz_pts hz_c HI hz_work hz_works q Hq) as [r T]. pose proof T as [T1 T2 T3 T4 T5 T6 T7 T8 T9 T10]. change (N.of_nat 2) with 2%N in *.
  pose proof (top_get 2 1 10 hz_pts hz_c hz_work q (or_introl eq_refl) HI hz_works Hq) as Hget. change (N.of_nat 2) with 2%N in *.
  assert (Hi : forall v, In v (inf_ids 2) -> In v (id_keys 2 q)) by (intros v Hv; apply (pl_inf _ _ _ _ T1); now apply (inf_in 2 ltac:(lia))).
  assert (Hsm : forall (path : list bool) (l : list N), samp_ok ((fun _ _ => hz_samp) path l)) by (intros; exact hz_samp_ok).
  destruct (h_make_ok 2 q (co_of 2 q) (fun _ _ => hz_samp) svd ltac:(lia) ltac:(lia) Hsm (fun i Hi' => Hget i (Hi i Hi')) 1 2 [] (id_keys 2 q) (HBox b) ltac:(lia) eq_refl T3 ltac:(left; lia) Hget) as (t0 & F & [_ Dv] & _).
  assert (Ht0 : h_make 2 q (fun _ _ => hz_samp) svd 2 [] (id_keys 2 q) (HBox b) 2 = Val t0) by (apply F; lia).
  assert (Ret : returns (fun f => h_partition 2 q (fun _ _ => hz_samp) svd f b (id_keys 2 q) 2) t0) by (exists 2; intros f Hf; unfold h_partition; apply F; lia).
  destruct (tree_of_ex t0) as [t Ht].
  { intros qq l Hl'. destruct (Dv qq l Hl') as [D1 _]. assert (Hin : incl l (id_keys 2 q)) by (intros v Hv; destruct (h_make_in 2 ltac:(lia) q (co_of 2 q) r (id_keys 2 q) (fun _ _ => hz_samp) svd Hsm T1 Hget 2 [] (id_keys 2 q) (HBox b) 2 t0 T3 ltac:(lia) (fun v H => H) Ht0 qq l v Hl' Hv); auto).
    split; [exact D1|]. split; [intros H0; exact (T4 (Hin _ H0))|]. pose proof (NoDup_incl_length D1 Hin) as Hle. rewrite Hl in Hle. clear - Hle. split; lia. }
  assert (Hsz : (8 * N.of_nat (length (id_keys 2 q)) <= 2 ^ 63)%N) by (rewrite Hl; discriminate).
  assert (H23 : (2 <= 2 <= 3)%N) by lia. pose proof (hz_none svd [] (id_keys 2 q) Hs) as Hz.
  destruct (z_flat 2 1 10 hz_pts hz_c hz_work q (or_introl eq_refl) HI hz_works Hq (fun _ _ => hz_samp) svd b (id_keys 2 q) 2 Hsm (fun v => iff_refl _) H23 Hz Hsz t0 t Ret Ht) as (l & rr & s & s' & E & Ls & Ls' & Ql & Qr).
  set (kl := [(HPlane None, l); (HPlane None, rr)]). set (ch := [Tleaf (Some (HPlane None)) s; Tleaf (Some (HPlane None)) s']) in *.
  destruct (flat_ex (fun x => x) 2 (or_introl eq_refl) (co_of 2 q) hgt r (id_keys 2 q) T1 HB (g_cgal hgt (co_of 2 q)) (cgal_placed 2 1 10 hz_pts hz_c q hgt _ Hc r T) (splits 2 q 1 10 Cycle)
    (splits_placed 2 (or_introl eq_refl) 1 10 hz_pts hz_c q Cycle ltac:(discriminate) r T) 1 ltac:(clear; lia) hck (fun _ => b) (fun k sp _ => h_meets 2 k sp) (HPlane None, []) par_base par_edge (HBox b) kl ch) with (M := (604 ^ 3)%N) (K := 4%N) (n := 0) (c := 1%N) as (out & takes & R & Fe & Tt & Lt).
  - now apply zf_ch.
  - apply le_n.
  - first [eapply (zf_all 2 1 10 hz_pts hz_c hz_work q (or_introl eq_refl) HI hz_works Hq (fun _ _ => hz_samp) svd b (id_keys 2 q) 2%N Hsm (fun v => iff_refl _) H23 Hz Hsz); eassumption | eapply (zf_all 2 1 10 hz_pts hz_c hz_work q (or_introl eq_refl) HI hz_works Hq); eassumption].
  - apply (zf_one 2 hz_pts hz_work q (or_introl eq_refl) hz_works (fun _ _ => hz_samp) (id_keys 2 q) 2%N Hsm (fun v => iff_refl _) H23 Hsz); assumption.
  - first [eapply (zf_inf 2 1 10 hz_pts hz_c hz_work q (or_introl eq_refl) HI hz_works Hq (fun _ _ => hz_samp) svd b (id_keys 2 q) 2%N Hsm (fun v => iff_refl _) H23 Hz Hsz); eassumption | eapply (zf_inf 2 1 10 hz_pts hz_c hz_work q (or_introl eq_refl) HI hz_works Hq); eassumption].
  - cbn [kl length]. rewrite Hl. split; vm_compute; discriminate.
  - intros S Hn' Hs0 _. destruct (cgal_ex 2 (co_of 2 q) hgt S) as (cells & H & Hlc). pose proof (NoDup_incl_length Hn' Hs0) as Hl2. rewrite Hl in Hl2.
    assert (Hl3 : (N.of_nat (length cells) <= 604 ^ 3)%N). { pose proof (Nat.pow_le_mono_l (length S) 9 3 Hl2) as X. change (N.to_nat 2 + 1) with 3 in Hlc. change (9 ^ 3) with 729 in X. change (604 ^ 3)%N with 220348864%N. clear - Hlc X. lia. }
    exists (N.of_nat (length cells)), cells. split; [split; [exact H|exact Hl3]|exact Hl3].
  - intros prov S H1 H2 H3 H4. destruct (splits_run 2 (or_introl eq_refl) 1 10 hz_pts hz_c HI hz_work q Hq hgt HB (g_cgal hgt (co_of 2 q)) Hc Cycle ltac:(discriminate) r T prov S H1 H2 H3 H4) as (ps & A & B). exists ps. split; [exact A|exact B].
  - discriminate.
  - apply le_n.
  - reflexivity.
  - reflexivity.
  - lia.
  - rewrite <- E in R. exists t0, t, out, takes. split; [exact HB|]. split; [exact Hc|]. split; [exact T3|]. split; [exact Ret|]. split; [exact Ht|]. split; [exact R|]. split; [now exists takes|].
    change ((4 + 1) ^ N.of_nat 1 * 604 ^ 3)%N with 1101744320%N in Tt. change ((4 + 1) ^ N.of_nat 1)%N with 5%N in Lt. split; lia.
Qed.
