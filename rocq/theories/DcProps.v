(** C65-C71: the triangulator as a whole. *)
From Coq Require Import Permutation Lra.
From Verif Require Import Outcome ListUtil WordsModel BlockModel SimplexModel PointModel PointProofs GeoModel GeoSpec PartModel PartProps InfModel InfProofs MergeModel MergeSpec MergeProofs NbrModel StepModel TriSpec
  DelSpec DelGeo PlaceSpec DelPlace StepBase StepEdge StepJoin StepProofs StepPlaced StepCase DcModel DcSpec DcBase DcProofs DcEx MeshSpec MeshProofs SplitModel SplitProofs SplitEx TopSpec TopProofs TopRuns.
Local Open Scope nat_scope.

(** ** C65: the base case makes the triangulation of what CGAL gives *)
(** For all points in the box, heights that break ties, and cells that meet CGAL's contract: unsafe_at does not throw, and the result is the Delaunay
    triangulation, with neighbors and hull, in one block with exactly the ids reserved. *)
Theorem C65_base over D co hgt r S start last cells dflt : (0 < D <= 30)%N -> placed D co r S -> breaks (N.to_nat D) co hgt S -> cgal_ok D co hgt S last cells ->
  (start + last < 2 ^ 64)%N -> x_id dflt = s_inf -> x_mark dflt = 0%N ->
  exists out, base_dt over dflt D start last cells = Val (Some out) /\ triangulation over D co hgt S out /\ mesh D co r S out /\ d_mark out = 0%N /\
    forall i, held out i <-> (start <= i < start + last)%N.
Proof.
  intros HD Hp HB Hc Hl Hd1 Hd2. destruct (base_ok over D HD co hgt S (pl_small _ _ _ _ Hp)) with (start := start) (last := last) (cells := cells) (dflt := dflt) as (out & E & T & M & _ & H); auto.
  { apply (placed_dt D HD co hgt r S Hp), HB. }
  exists out. split; [exact E|]. split; [exact T|]. split; [exact (tri_mesh over D HD co hgt r S Hp HB out T)|]. split; [exact M|exact H].
Qed.
Print Assumptions C65_base.

(** Two points and the four corners of a box. *)
Definition v2 (x y : R) : vec := fun d => match d with 0 => x | _ => y end.
Definition e_r : vec := fun _ => 400%R.
Definition e_co (v : N) : vec := if (v =? 1)%N then v2 0 1 else if (v =? 2)%N then v2 3 0 else corner e_r v.
Definition e_inf : list N := [2 ^ 64 - 4; 2 ^ 64 - 3; 2 ^ 64 - 2; 2 ^ 64 - 1]%N.
Definition e_all : list N := 1%N :: 2%N :: e_inf.
Lemma e_inf_iff v : In v e_inf <-> (p_inf 2 <= v < 2 ^ 64)%N.
Proof. change (p_inf 2) with (2 ^ 64 - 4)%N. unfold e_inf. cbn [In]. lia. Qed.
Lemma e_placed : placed 2 e_co e_r e_all.
Proof.
  assert (H2 : forall d, d < N.to_nat 2 -> d = 0 \/ d = 1) by (intros d; change (N.to_nat 2) with 2; lia). constructor.
  - intros v [<-|[<-|H]]; [reflexivity|reflexivity|]. apply e_inf_iff in H. apply H.
  - intros v H. right. right. now apply e_inf_iff.
  - intros d _. unfold e_r. lra.
  - intros v [<-|[<-|H]] Hf; [discriminate|discriminate|]. intros d _. destruct H as [<-|[<-|[<-|[<-|[]]]]]; reflexivity.
  - intros v d [<-|[<-|H]] Hf Hd; [..|destruct H as [<-|[<-|[<-|[<-|[]]]]]; discriminate]; destruct (H2 d Hd) as [-> | ->]; cbn; unfold e_r; rewrite Rabs_pos_eq; lra.
  - change (N.to_nat 2) with 2. intros u v Hu Hv H. pose proof (H 0 ltac:(lia)) as Hx. pose proof (H 1 ltac:(lia)) as Hy.
    destruct Hu as [<-|[<-|[<-|[<-|[<-|[<-|[]]]]]]], Hv as [<-|[<-|[<-|[<-|[<-|[<-|[]]]]]]]; try reflexivity; exfalso; cbn in Hx, Hy; unfold e_r in Hx, Hy; lra.
Qed.
Example C65_ex : exists hgt cells, placed 2 e_co e_r e_all /\ breaks 2 e_co hgt e_all /\ cgal_ok 2 e_co hgt e_all (N.of_nat (length cells)) cells /\ (1 + N.of_nat (length cells) < 2 ^ 64)%N /\ x_id (blank [] [] 0) = s_inf.
Proof.
  destruct (heights_ex 2 e_co e_all) as [hgt Hb]. destruct (cgal_ex 2 e_co hgt e_all) as (cells & Hc & Hl). exists hgt, cells. split; [exact e_placed|]. split; [exact Hb|]. split; [exact Hc|]. split; [|reflexivity].
  change (length e_all ^ (N.to_nat 2 + 1)) with 216 in Hl. lia.
Qed.

(** ** C66: one merge step *)
(** From triangulations of the partitions and of the edge points to the triangulation of all points: for every dimension, every number of partitions,
    every test for intersection that misses none, every schedule of getEdge, mergeTriangulation and updateNeighbors. *)
Theorem C66_step over D co hgt r parts all hits ps ps' edge W edgeDT out : (0 < D <= 30)%N -> (forall k id pts, nth_error parts k = Some (id, pts) -> id = k) ->
  placed D co r all -> breaks (N.to_nat D) co hgt all -> partitioned D co (length parts) (points_of parts) all ->
  length ps = length parts -> (forall i, i < length parts -> triangulation over D co hgt (points_of parts i) (p_at ps i)) ->
  finds D co (length parts) (points_of parts) (p_at ps) hits ->
  two_filled D (length parts) (points_of parts) \/ hull_hit D (length parts) (points_of parts) (p_at ps) hits ->
  (forall i, i < length parts -> (d_mark (p_at ps i) + 6 < 256)%N) -> (d_mark edgeDT + 2 < 256)%N ->
  ForallOrdPairs no_shared (edgeDT :: ps) -> (N.of_nat (blocks (edgeDT :: ps)) < 2 ^ 32)%N ->
  edge_run D hits ps ps' edge W -> triangulation over D co hgt W edgeDT -> join_run over D parts ps' edge edgeDT out ->
  triangulation over D co hgt all out /\ mesh D co r all out.
Proof.
  intros HD Hn Hp HB Hpd Hl Ht Hf Hm Hk Hke Hap Hbl He Hte Hj.
  destruct (step_placed over D HD co hgt r parts Hn all Hp HB Hpd hits ps ps' edge W Hl Ht ltac:(inversion Hap; auto) Hf Hm Hk He edgeDT out Hte Hap Hbl Hke Hj) as (T & _).
  split; [exact T|]. exact (tri_mesh over D HD co hgt r all Hp HB out T).
Qed.
Print Assumptions C66_step.

Definition e_parts : list part := [(0, 1%N :: e_inf); (1, 2%N :: e_inf)].
Example C66_ex : exists hgt ps ps' edge W edgeDT out, placed 2 e_co e_r e_all /\ breaks 2 e_co hgt e_all /\ partitioned 2 e_co (length e_parts) (points_of e_parts) e_all /\
  two_filled 2 (length e_parts) (points_of e_parts) /\ length ps = length e_parts /\
  (forall i, i < length e_parts -> triangulation (fun x => x) 2 e_co hgt (points_of e_parts i) (p_at ps i)) /\
  (forall i, i < length e_parts -> (d_mark (p_at ps i) + 6 < 256)%N) /\
  edge_run 2 (fun _ _ => true) ps ps' edge W /\ triangulation (fun x => x) 2 e_co hgt W edgeDT /\ ForallOrdPairs no_shared (edgeDT :: ps) /\
  (N.of_nat (blocks (edgeDT :: ps)) < 2 ^ 32)%N /\ (d_mark edgeDT + 2 < 256)%N /\ join_run (fun x => x) 2 e_parts ps' edge edgeDT out.
Proof.
  destruct (heights_ex 2 e_co e_all) as [hgt Hb]. exists hgt.
  assert (Hn : forall k id pts, nth_error e_parts k = Some (id, pts) -> id = k) by (intros [|[|[|k]]] id pts H; cbn in H; congruence).
  assert (Hpd : partitioned 2 e_co (length e_parts) (points_of e_parts) e_all).
  { assert (F0 : filter (p_finite 2) (points_of e_parts 0) = [1%N]) by reflexivity. assert (F1 : filter (p_finite 2) (points_of e_parts 1) = [2%N]) by reflexivity.
    constructor; change (length e_parts) with 2.
    - intros v. split.
      + intros [<-|[<-|H]]; [exists 0|exists 1|exists 0]; (split; [lia|]); cbn; auto.
      + intros ([|[|i]] & Hi & H); [..|lia]; cbn in H; destruct H as [<-|H]; cbn; auto.
    - intros [|[|i]] [|[|j]] v Hi Hj H1 H2 Hf; try lia; exfalso; cbn in H1, H2; destruct H1 as [<-|H1]; destruct H2 as [H2|H2]; try discriminate H2; subst;
        repeat match goal with H : _ \/ _ |- _ => destruct H as [H|H] | H : False |- _ => destruct H | H : _ = _ |- _ => (discriminate H || (subst; discriminate Hf)) end.
    - intros [|[|i]] v Hi H; [..|lia]; cbn [points_of e_parts nth snd]; right; now apply e_inf_iff.
    - exists 0, 1%N. cbn. auto.
    - change (N.to_nat 2) with 2. intros [|[|i]] [|[|j]] v Hi Hj Hne Hv Hf; try lia.
      + assert (v = 2%N) as -> by (assert (H : In v (filter (p_finite 2) (points_of e_parts 1))) by (apply filter_In; auto); rewrite F1 in H; destruct H as [<-|[]]; reflexivity).
        rewrite F0. exists (fun x : vec => 1 - x 0%nat)%R. split; [exists (fun d => match d with O => -1 | _ => 0 end)%R, 1%R; intros x; cbn; ring|]. split; [cbn; lra|]. intros u [<-|[]]. cbn. lra.
      + assert (v = 1%N) as -> by (assert (H : In v (filter (p_finite 2) (points_of e_parts 0))) by (apply filter_In; auto); rewrite F0 in H; destruct H as [<-|[]]; reflexivity).
        rewrite F1. exists (fun x : vec => x 0%nat - 1)%R. split; [exists (fun d => match d with O => 1 | _ => 0 end)%R, (-1)%R; intros x; cbn; ring|]. split; [cbn; lra|]. intros u [<-|[]]. cbn. lra. }
  assert (H2 : two_filled 2 (length e_parts) (points_of e_parts)) by (exists 0, 1, 1%N, 2%N; cbn; repeat split; auto).
  destruct (step_case (fun x => x) 2 ltac:(lia) e_co hgt e_r e_parts Hn e_all e_placed Hb Hpd H2) as (ps & ps' & edge & W & edgeDT & out & H).
  - intros [|[|i]] Hi; [..|cbn in Hi; lia]; repeat (constructor; [intros H; cbn in H; repeat destruct H as [H|H]; try discriminate H; exact H|]); constructor.
  - change (length e_all ^ (N.to_nat 2 + 1)) with 216. reflexivity.
  - reflexivity.
  - exists ps, ps', edge, W, edgeDT, out. split; [exact e_placed|]. split; [exact Hb|]. split; [exact Hpd|]. split; [exact H2|]. exact H.
Qed.

(** ** C67, C68: DCTriangulator::triangulate *)
(** The input is good (TopSpec); the constructor computed its statistics with some schedule; CGAL keeps its contract; the splitter is one of the four, with
    the code of PartModel; the ids are drawn from the counter, which does not wrap.  Then the result of every execution, to every depth up to 42, is the Delaunay
    triangulation of the points and the corners. *)
Theorem C67_triangulate over D tiny huge p c work q hgt cgal sp depth par_edge c0 out takes : D = 2 \/ D = 3 -> input D tiny huge p c ->
  (forall i, In i (concat work) <-> is_fin_id p i) -> ctor_points D tiny huge p work = Val q ->
  breaks D (co_of D q) hgt (id_keys (N.of_nat D) q) -> cgal_right (N.of_nat D) (co_of D q) hgt (id_keys (N.of_nat D) q) cgal ->
  (forall k, sp = OneDim k -> k < D) -> depth <= 42 ->
  dc_run over (N.of_nat D) (co_of D q) cgal (splits D q tiny huge sp) depth par_edge [] (id_keys (N.of_nat D) q) out takes ->
  drawn c0 takes -> (c0 + total takes < 2 ^ 64)%N -> (N.of_nat (length takes) < 2 ^ 32)%N ->
  triangulation over (N.of_nat D) (co_of D q) hgt (id_keys (N.of_nat D) q) out.
Proof.
  intros HD HI Hw Hq HB Hc Hsp Hd Hr Ht H1 H2. eapply (top_done over D HD tiny huge p c HI work Hw q Hq hgt HB cgal Hc sp Hsp depth); [lia|exact Hr|]. exact (drawn_ok c0 takes Ht H1 H2).
Qed.
Print Assumptions C67_triangulate.

(** What this means, without heights: each simplex is Delaunay; simplices without ties are there; each input point is a vertex; the simplices cover the box, which
    has all input points in it; they meet in faces; none is there twice; neighbors are right. *)
Theorem C68_mesh over D tiny huge p c work q hgt cgal sp depth par_edge c0 out takes : D = 2 \/ D = 3 -> input D tiny huge p c ->
  (forall i, In i (concat work) <-> is_fin_id p i) -> ctor_points D tiny huge p work = Val q ->
  breaks D (co_of D q) hgt (id_keys (N.of_nat D) q) -> cgal_right (N.of_nat D) (co_of D q) hgt (id_keys (N.of_nat D) q) cgal ->
  (forall k, sp = OneDim k -> k < D) -> depth <= 42 ->
  dc_run over (N.of_nat D) (co_of D q) cgal (splits D q tiny huge sp) depth par_edge [] (id_keys (N.of_nat D) q) out takes ->
  drawn c0 takes -> (c0 + total takes < 2 ^ 64)%N -> (N.of_nat (length takes) < 2 ^ 32)%N ->
  (forall v, In v (id_keys (N.of_nat D) q) <-> is_fin_id p v \/ is_inf_id (N.of_nat D) v) /\ (forall v, is_fin_id p v -> co_of D q v = c v) /\
  exists r, (forall v d, is_fin_id p v -> d < D -> (Rabs (c v d) <= r d)%R) /\ (forall v, is_inf_id (N.of_nat D) v -> veq D (co_of D q v) (corner r v)) /\
    mesh (N.of_nat D) (co_of D q) r (id_keys (N.of_nat D) q) out.
Proof.
  intros HD HI Hw Hq HB Hc Hsp Hd Hr Ht H1 H2. destruct (top_ex D HD tiny huge p c HI work Hw q Hq) as [r T]. split; [apply T|]. split; [apply T|]. exists r. split; [|split].
  - intros v d Hv Hdd. rewrite <- (tf_fin _ _ _ _ _ _ _ T v Hv). apply (pl_box _ _ _ _ (tf_placed _ _ _ _ _ _ _ T)); [apply (tf_keys _ _ _ _ _ _ _ T); now left| |now rewrite Nat2N.id].
    eapply fin_finite; eauto. lia.
  - intros v Hv. rewrite <- (Nat2N.id D) at 1. apply (pl_corner _ _ _ _ (tf_placed _ _ _ _ _ _ _ T)); [apply (tf_keys _ _ _ _ _ _ _ T); now right|]. eapply inf_infinite; eauto. lia.
  - eapply (top_mesh over D HD tiny huge p c q hgt HB out r T). eapply C67_triangulate; eauto.
Qed.
Print Assumptions C68_mesh.

(** ** C70: the splitters keep what the recursion relies on *)
(** For every set with a finite point: the partitions are a partitioning, their boxes have their points, and some simplex of the hull of a partition will be
    found to meet another partition.  ExtendPartitioner needs two finite points, or it has no dimension to split. *)
Theorem C70_split D pts tiny huge co r S sp prov : 0 < D <= 8 -> placed (N.of_nat D) co r S -> NoDup S -> ~ In 0%N S ->
  (exists u, In u S /\ p_finite (N.of_nat D) u = true) -> (N.of_nat (length S) <= 2 ^ 60)%N ->
  (forall v, In v S -> p_finite (N.of_nat D) v = true -> PointModel.p_get (N.of_nat D) pts v = Val (co v)) ->
  (forall v k, In v S -> p_finite (N.of_nat D) v = true -> k < D -> (co v k <= huge)%R) -> (forall k, k < D -> (tiny <= r k)%R) -> (forall k, sp = OneDim k -> k < D) ->
  (forall qs, splits D pts tiny huge sp prov S qs -> split_ok (N.of_nat D) co r S qs) /\
  ((sp = Extend -> exists u v, In u S /\ In v S /\ p_finite (N.of_nat D) u = true /\ p_finite (N.of_nat D) v = true /\ u <> v) ->
   exists qs, splits D pts tiny huge sp prov S qs /\ length qs <= Nat.pow 2 D).
Proof.
  intros HD Hp Hn Hz Hl Hs Hg Hh Ht Hsp. split; [intros qs H; exact (splits_ok D HD pts tiny huge co r S Hp Hn Hs Hg Hh Ht sp prov Hsp Hl qs H)|].
  exact (splits_ex D HD pts tiny huge co r S Hp Hn Hs Hg Hh Ht sp prov Hsp Hl Hz).
Qed.
(** For more than 500 points, as the recursion calls it, there are two finite ones. *)
Theorem C70_many D pts tiny huge co r S sp prov : 0 < D <= 8 -> placed (N.of_nat D) co r S -> NoDup S -> ~ In 0%N S -> 500 < length S -> (N.of_nat (length S) <= 2 ^ 60)%N ->
  (forall v, In v S -> p_finite (N.of_nat D) v = true -> PointModel.p_get (N.of_nat D) pts v = Val (co v)) ->
  (forall v k, In v S -> p_finite (N.of_nat D) v = true -> k < D -> (co v k <= huge)%R) -> (forall k, k < D -> (tiny <= r k)%R) -> (forall k, sp = OneDim k -> k < D) ->
  (forall qs, splits D pts tiny huge sp prov S qs -> split_ok (N.of_nat D) co r S qs) /\
  exists qs, splits D pts tiny huge sp prov S qs /\ length qs <= Nat.pow 2 D.
Proof.
  intros HD Hp Hn Hz Hl Hs Hg Hh Ht Hsp. destruct (two_fin D HD pts tiny huge co r S Hp Hn Hg Hh Ht Hl) as (u & v & Hu & Hv & Hfu & Hfv & Hne).
  destruct (C70_split D pts tiny huge co r S sp prov) as [A B]; eauto. split; [exact A|]. apply B. intros _. exists u, v. auto.
Qed.
Print Assumptions C70_many.
Print Assumptions C70_split.

(** ** C71: there is a result *)
(** The constructor returns. *)
Theorem C71_ctor D tiny huge p c work : 0 < D <= 30 -> input D tiny huge p c -> (forall i, In i (concat work) <-> is_fin_id p i) -> exists q, ctor_points D tiny huge p work = Val q.
Proof. exact (ctor_ex D tiny huge p c work). Qed.
Print Assumptions C71_ctor.
(** If CGAL always answers and the ids suffice, the recursion can be run to its end with ids drawn one after another. *)
Theorem C71_runs over D tiny huge p c work q hgt cgal sp depth par_edge M c0 : D = 2 \/ D = 3 -> input D tiny huge p c ->
  (forall i, In i (concat work) <-> is_fin_id p i) -> ctor_points D tiny huge p work = Val q ->
  breaks D (co_of D q) hgt (id_keys (N.of_nat D) q) -> cgal_right (N.of_nat D) (co_of D q) hgt (id_keys (N.of_nat D) q) cgal ->
  cgal_ends (N.of_nat D) (id_keys (N.of_nat D) q) M cgal -> (forall k, sp = OneDim k -> k < D) -> depth <= 42 ->
  (c0 + (2 ^ N.of_nat D + 1) ^ N.of_nat depth * M < 2 ^ 64)%N -> ((2 ^ N.of_nat D + 1) ^ N.of_nat depth < 2 ^ 32)%N ->
  exists out takes, dc_run over (N.of_nat D) (co_of D q) cgal (splits D q tiny huge sp) depth par_edge [] (id_keys (N.of_nat D) q) out takes /\
    drawn c0 takes /\ (c0 + total takes < 2 ^ 64)%N /\ (N.of_nat (length takes) < 2 ^ 32)%N.
Proof.
  intros HD HI Hw Hq HB Hc He Hsp Hd H1 H2.
  destruct (top_run over D HD tiny huge p c HI work Hw q Hq hgt HB cgal Hc sp Hsp depth ltac:(lia) par_edge M He c0 H1 H2) as (out & takes & R & F & T & L).
  exists out, takes. split; [exact R|]. split; [now exists takes|]. split; lia.
Qed.
Print Assumptions C71_runs.

(** A parabola of 600 points, so that the recursion splits once; CGAL gives any cells that meet its contract, not too many. *)
Definition g_c (i : N) : vec := v2 (IZR (Z.of_N i)) (IZR (Z.of_N (i * i))).
Definition g_pts : points vec := mkpts (map (fun n => g_c (N.of_nat n)) (seq 0 601)) 0 [v2 0 0; v2 0 0; v2 0 0; v2 0 0].
Lemma g_fin i : is_fin_id g_pts i <-> (1 <= i <= 600)%N.
Proof. unfold is_fin_id, g_pts. cbn [p_off p_vec]. rewrite map_length, seq_length. lia. Qed.
Lemma g_input : input 2 (1 / 1000) 1000000 g_pts g_c.
Proof.
  assert (H2 : forall d, d < 2 -> d = 0 \/ d = 1) by lia.
  assert (Hc : forall i, (1 <= i <= 600)%N -> (1 <= g_c i 0%nat <= 600 /\ 1 <= g_c i 1%nat <= 360000)%R).
  { intros i Hi. unfold g_c, v2. split; split; apply IZR_le; nia. }
  constructor.
  - split; [discriminate|]. split; [vm_compute; discriminate|reflexivity].
  - unfold g_pts. cbn [p_vec]. rewrite map_length, seq_length. vm_compute. discriminate.
  - intros i Hi. apply g_fin in Hi. unfold PointModel.p_get. replace (p_finite (N.of_nat 2) i) with true by (symmetry; apply p_finite_spec; [vm_compute; discriminate|lia|change (2 ^ N.of_nat 2)%N with 4%N; lia]).
    replace (fin_idx g_pts i) with i by (unfold fin_idx, wrap; cbn [g_pts p_off]; rewrite N.sub_0_r; replace (i + 2 ^ 64)%N with (i + 1 * 2 ^ 64)%N by lia; rewrite N.mod_add by discriminate; symmetry; apply N.mod_small; lia). unfold g_pts. cbn [p_vec]. rewrite nth_error_map.
    rewrite (nth_error_nth' _ 0) by (rewrite seq_length; lia). rewrite seq_nth by lia. cbn [option_map]. rewrite Nat.add_0_l, N2Nat.id. reflexivity.
  - intros i j Hi Hj H. specialize (H 0 ltac:(lia)). cbn in H. apply eq_IZR in H. lia.
  - lra.
  - intros d Hd. exists 600%N, 1%N. split; [apply g_fin; lia|]. split; [apply g_fin; lia|]. destruct (H2 d Hd) as [-> | ->]; cbn; lra.
  - intros i d Hi Hd. exists 600%N, 1%N. split; [apply g_fin; lia|]. split; [apply g_fin; lia|]. apply g_fin, Hc in Hi. destruct (H2 d Hd) as [-> | ->]; rewrite Rabs_pos_eq; cbn in *; lra.
  - intros i d Hi Hd. apply g_fin, Hc in Hi. destruct (H2 d Hd) as [-> | ->]; lra.
Qed.

Lemma g_len st : length (id_keys 2 (add_infinite 2 g_pts st)) = 604.
Proof.
  pose proof (keys_length 2 ltac:(lia) (add_infinite 2 g_pts st) (q_ok 2 ltac:(lia) _ _ _ _ g_input st)) as H.
  destruct (add_infinite_spec 2 ltac:(lia) g_pts st eq_refl) as [A1 _]. unfold finite_size in H. rewrite A1 in H. unfold g_pts in H at 2. cbn [p_vec] in H. rewrite map_length, seq_length in H. change (2 ^ 2)%N with 4%N in H. lia.
Qed.
Definition g_cgal (hgt : N -> R) (co : N -> vec) (S : list N) (last : N) (cells : list cell) : Prop := cgal_ok 2 co hgt S last cells /\ (last <= 604 ^ 3)%N.
(** All hypotheses of C67, C68 and C71 for it; and those of C70 for its points. *)
Example C67_ex sp : (forall k, sp = OneDim k -> k < 2) -> exists work q hgt out takes, input 2 (1 / 1000) 1000000 g_pts g_c /\ (forall i, In i (concat work) <-> is_fin_id g_pts i) /\
  ctor_points 2 (1 / 1000) 1000000 g_pts work = Val q /\ breaks 2 (co_of 2 q) hgt (id_keys 2 q) /\ cgal_right 2 (co_of 2 q) hgt (id_keys 2 q) (g_cgal hgt (co_of 2 q)) /\
  cgal_ends 2 (id_keys 2 q) (604 ^ 3) (g_cgal hgt (co_of 2 q)) /\
  dc_run (fun x => x) 2 (co_of 2 q) (g_cgal hgt (co_of 2 q)) (splits 2 q (1 / 1000) 1000000 sp) 1 true [] (id_keys 2 q) out takes /\
  drawn 1 takes /\ (1 + total takes < 2 ^ 64)%N /\ (N.of_nat (length takes) < 2 ^ 32)%N /\ (500 <? N.of_nat (length (id_keys 2 q)))%N = true.
Proof.
  intros Hsp. set (work := [map N.of_nat (seq 1 300); map N.of_nat (seq 301 300)]).
  assert (Hw : forall i, In i (concat work) <-> is_fin_id g_pts i).
  { intros i. rewrite g_fin. unfold work. cbn [concat]. rewrite app_nil_r, in_app_iff, !in_map_iff. setoid_rewrite in_seq. split; [intros [(n & <- & H)|(n & <- & H)]; lia|].
    intros H. destruct (N.le_gt_cases i 300); [left|right]; exists (N.to_nat i); lia. }
  destruct (ctor_ex 2 _ _ _ _ work ltac:(lia) g_input Hw) as [q Hq]. destruct (ctor_q 2 _ _ g_pts work q Hq) as (st & Est & Eq).
  assert (Hlen : length (id_keys 2 q) = 604) by (rewrite Eq; apply g_len).
  destruct (heights_ex 2 (co_of 2 q) (id_keys 2 q)) as [hgt Hb].
  assert (Hc : cgal_right 2 (co_of 2 q) hgt (id_keys 2 q) (g_cgal hgt (co_of 2 q))) by (intros S last cells _ _ _ [H _]; exact H).
  assert (He : cgal_ends 2 (id_keys 2 q) (604 ^ 3) (g_cgal hgt (co_of 2 q))).
  { intros S Hn Hs _. destruct (cgal_ex 2 (co_of 2 q) hgt S) as (cells & H & Hl). pose proof (NoDup_incl_length Hn Hs) as Hl2. rewrite Hlen in Hl2.
    assert (Hl3 : (N.of_nat (length cells) <= 604 ^ 3)%N).
    { change (N.to_nat 2 + 1) with 3 in Hl. cbn [Nat.pow] in Hl. change (604 ^ 3)%N with (604 * (604 * 604))%N. nia. }
    exists (N.of_nat (length cells)), cells. split; [split; [exact H|exact Hl3]|exact Hl3]. }
  destruct (C71_runs (fun x => x) 2 _ _ _ _ work q hgt _ sp 1 true (604 ^ 3) 1 (or_introl eq_refl) g_input Hw Hq Hb Hc He Hsp ltac:(lia) ltac:(reflexivity) ltac:(reflexivity)) as (out & takes & H1 & H2 & H3 & H4).
  exists work, q, hgt, out, takes. split; [exact g_input|]. split; [exact Hw|]. split; [exact Hq|]. split; [exact Hb|]. split; [exact Hc|]. split; [exact He|]. split; [exact H1|]. split; [exact H2|]. split; [exact H3|]. split; [exact H4|]. rewrite Hlen. reflexivity.
Qed.
Example C70_ex : exists q r, let S := id_keys 2 q in placed 2 (co_of 2 q) r S /\ NoDup S /\ ~ In 0%N S /\ 500 < length S /\ (N.of_nat (length S) <= 2 ^ 60)%N /\
  (forall v, In v S -> p_finite 2 v = true -> PointModel.p_get 2 q v = Val (co_of 2 q v)) /\
  (forall v k, In v S -> p_finite 2 v = true -> k < 2 -> (co_of 2 q v k <= 1000000)%R) /\ (forall k, k < 2 -> (1 / 1000 <= r k)%R).
Proof.
  destruct (C67_ex DWay ltac:(discriminate)) as (work & q & hgt & out & takes & HI & Hw & Hq & _ & _ & _ & _ & _ & _ & _ & Hl). destruct (top_ex 2 (or_introl eq_refl) _ _ _ _ HI work Hw q Hq) as [r [T1 T2 T3 T4 T5 T6 T7 _ _ _]].
  exists q, r. cbv zeta. split; [exact T1|]. split; [exact T3|]. split; [exact T4|]. apply N.ltb_lt in Hl. split; [lia|]. split; [exact T5|]. split; [exact T6|]. split; [exact T7|exact T2].
Qed.

(** ** C69: do the finite simplices fill the convex hull of the input? *)
(** Only in part: the finite simplices of the result are Delaunay simplices of the input, and one that has no tie and whose circumsphere has the corners
    outside is there, so the points in it are covered.  Missing: simplices whose circumsphere reaches to a corner, which is only 200 times the extent away. *)
Theorem C69_hull_partial over D tiny huge p c work q hgt cgal sp depth par_edge c0 out takes : D = 2 \/ D = 3 -> input D tiny huge p c ->
  (forall i, In i (concat work) <-> is_fin_id p i) -> ctor_points D tiny huge p work = Val q ->
  breaks D (co_of D q) hgt (id_keys (N.of_nat D) q) -> cgal_right (N.of_nat D) (co_of D q) hgt (id_keys (N.of_nat D) q) cgal ->
  (forall k, sp = OneDim k -> k < D) -> depth <= 42 ->
  dc_run over (N.of_nat D) (co_of D q) cgal (splits D q tiny huge sp) depth par_edge [] (id_keys (N.of_nat D) q) out takes ->
  drawn c0 takes -> (c0 + total takes < 2 ^ 64)%N -> (N.of_nat (length takes) < 2 ^ 32)%N ->
  let input_ids := filter (p_finite (N.of_nat D)) (id_keys (N.of_nat D) q) in
  (forall i s, shown out i s -> (forall v, In v (x_verts s) -> p_finite (N.of_nat D) v = true) -> delaunay D c input_ids (x_verts s)) /\
  (forall s o r2, (forall v, In v s -> is_fin_id p v) -> full D c s -> on_ball D c s o r2 -> (forall v, is_fin_id p v -> ~ In v s -> (r2 < dist2 D (c v) o)%R) ->
    (forall v, is_inf_id (N.of_nat D) v -> (r2 < dist2 D (co_of D q v) o)%R) ->
    exists i x, shown out i x /\ same s (x_verts x)).
Proof.
  intros HD HI Hw Hq HB Hc Hsp Hd Hr Ht H1 H2 ids.
  destruct (C68_mesh over D tiny huge p c work q hgt cgal sp depth par_edge c0 out takes HD HI Hw Hq HB Hc Hsp Hd Hr Ht H1 H2) as (K & C & r & _ & _ & M).
  assert (Hff : forall v, is_fin_id p v -> p_finite (N.of_nat D) v = true) by (intros v Hv; eapply fin_finite; eauto; lia).
  assert (Hif : forall v, is_inf_id (N.of_nat D) v -> p_finite (N.of_nat D) v = false) by (intros v Hv; eapply inf_infinite; eauto; lia).
  assert (Hk : forall v, In v (id_keys (N.of_nat D) q) -> p_finite (N.of_nat D) v = true -> is_fin_id p v) by (intros v Hv Hf; apply K in Hv as [Hv|Hv]; [exact Hv|]; rewrite (Hif v Hv) in Hf; discriminate).
  assert (Hfull : forall s, (forall v, In v s -> is_fin_id p v) -> full D (co_of D q) s <-> full D c s).
  { intros s Hs. assert (X : forall L, coords D (co_of D q) s L <-> coords D c s L).
    { intros L. assert (Y : forall x d, (lsum (fun v => L v x * co_of D q v d) s = lsum (fun v => L v x * c v d) s)%R).
      { intros x d. clear - Hs C. induction s as [|a s IH]; [reflexivity|]. cbn [lsum fold_right map]. cbn. rewrite (C a) by (apply Hs; now left). f_equal. apply IH. intros v Hv. apply Hs. now right. }
      unfold coords. split; intros (A1 & A2 & A3 & A4); (split; [exact A1|]; split; [intros v Hv; specialize (A2 v Hv); rewrite (C v (Hs v Hv)) in *; exact A2|]; split;
        [intros v w Hv Hw' Hne; specialize (A3 v w Hv Hw' Hne); rewrite (C w (Hs w Hw')) in *; exact A3|]; intros x; destruct (A4 x) as [B1 B2]; split; [exact B1|]; intros d Hdd; rewrite <- (B2 d Hdd), Y; reflexivity). }
    unfold full. setoid_rewrite X. reflexivity. }
  assert (Hball : forall s o r2, (forall v, In v s -> is_fin_id p v) -> on_ball D (co_of D q) s o r2 <-> on_ball D c s o r2).
  { intros s o r2 Hs. unfold on_ball. split; intros H v Hv; specialize (H v Hv); rewrite (C v (Hs v Hv)) in *; exact H. }
  split.
  - intros i s Hs Hf. pose proof (me_delaunay _ _ _ _ _ M i s Hs) as Hdel. rewrite Nat2N.id in Hdel. destruct Hdel as (D1 & D2 & o & r2 & D3 & D4).
    assert (Hvf : forall v, In v (x_verts s) -> is_fin_id p v) by (intros v Hv; apply Hk; auto).
    split; [intros v Hv; apply filter_In; auto|]. split; [now apply Hfull|]. exists o, r2. split; [now apply Hball|].
    intros v Hv. apply filter_In in Hv as [Hv Hvf']. rewrite <- (C v) by auto. auto.
  - intros s o r2 Hs Hfu Hb Hfin Hinf. apply (me_strict _ _ _ _ _ M). rewrite Nat2N.id. split; [intros v Hv; apply K; left; auto|]. split; [now apply Hfull|]. exists o, r2. split; [now apply Hball|].
    intros v Hv Hn. apply K in Hv as [Hv|Hv]; [rewrite (C v Hv); auto|auto].
Qed.
Print Assumptions C69_hull_partial.
(** In the parabola, the first three points are such a simplex (and C67_ex meets the other hypotheses). *)
Example C69_ex work q : (forall i, In i (concat work) <-> is_fin_id g_pts i) -> ctor_points 2 (1 / 1000) 1000000 g_pts work = Val q ->
  let s := [1; 2; 3]%N in let o := v2 (-30) 13 in (forall v, In v s -> is_fin_id g_pts v) /\ full 2 g_c s /\ on_ball 2 g_c s o 1105 /\
  (forall v, is_fin_id g_pts v -> ~ In v s -> (1105 < dist2 2 (g_c v) o)%R) /\ (forall v, is_inf_id 2 v -> (1105 < dist2 2 (co_of 2 q v) o)%R).
Proof.
  intros Hw Hq s o. destruct (top_ex 2 (or_introl eq_refl) _ _ _ _ g_input work Hw q Hq) as [r T].
  split; [intros v [<-|[<-|[<-|[]]]]; apply g_fin; lia|]. split; [|split; [|split]].
  - split; [repeat constructor; cbn; intuition discriminate|]. split; [reflexivity|].
    exists (fun v x => if (v =? 1)%N then 1 - (4 * (x 0%nat - 1) - (x 1%nat - 1)) - (x 1%nat - 1 - 3 * (x 0%nat - 1)) / 2 else if (v =? 2)%N then 4 * (x 0%nat - 1) - (x 1%nat - 1) else (x 1%nat - 1 - 3 * (x 0%nat - 1)) / 2)%R.
    split; [|split; [|split]].
    + intros v [<-|[<-|[<-|[]]]]; cbn.
      * exists (fun d => match d with O => -4 + 3 / 2 | _ => 1 - / 2 end)%R, (1 + 4 - 1 + / 2 - 3 / 2)%R. intros x. cbn. field.
      * exists (fun d => match d with O => 4 | _ => -1 end)%R, (-3)%R. intros x. cbn. ring.
      * exists (fun d => match d with O => -3 / 2 | _ => / 2 end)%R, 1%R. intros x. cbn. field.
    + intros v [<-|[<-|[<-|[]]]]; cbn; lra.
    + intros v w [<-|[<-|[<-|[]]]] [<-|[<-|[<-|[]]]] Hn; try (exfalso; now apply Hn); cbn; lra.
    + intros x. split; [cbn; lra|]. intros d Hd. assert (Hd2 : d = 0 \/ d = 1) by lia. destruct Hd2 as [-> | ->]; cbn; lra.
  - intros v [<-|[<-|[<-|[]]]]; unfold dist2, o; cbn; lra.
  - intros v Hv Hn. apply g_fin in Hv. assert (H4 : (4 <= v)%N) by (unfold s in Hn; cbn [In] in Hn; lia). unfold dist2, o, g_c. cbn [sumn v2]. rewrite N2Z.inj_mul, mult_IZR.
    set (x := IZR (Z.of_N v)). assert (Hx : (4 <= x)%R) by (unfold x; apply IZR_le; lia).
    assert (0 < (x - 1) * (x - 2) * (x - 3) * (x + 6))%R by (repeat apply Rmult_lt_0_compat; lra). nra.
  - intros v Hv. pose proof (tf_far _ _ _ _ _ _ _ T 0 600%N 1%N ltac:(lia) ltac:(apply g_fin; lia) ltac:(apply g_fin; lia)) as Hf.
    pose proof (pl_corner _ _ _ _ (tf_placed _ _ _ _ _ _ _ T) v) as Hc. specialize (Hc ltac:(apply (tf_keys _ _ _ _ _ _ _ T); now right) ltac:(eapply (inf_infinite 2); eauto; try lia; exact g_input)).
    unfold dist2. cbn [sumn]. rewrite (Hc 0 ltac:(cbn; lia)). unfold corner. cbn in Hf. unfold o, v2. set (y := co_of 2 q v 1). pose proof (pow2_ge_0 (y - 13)) as Hy. set (a := r 0) in *. assert (Ha : (1000 <= a)%R) by lra. clear - Ha Hy.
    destruct (N.testbit v (N.of_nat 0)); [assert (1000 * 1000 <= (a - -30) ^ 2)%R by nra|assert (900 * 900 <= (- a - -30) ^ 2)%R by nra]; lra.
Qed.

(** In general they do not.  The triangle (0, 0), (1, 0), (1/2, 1) with the point (1/2, 1/10000): the point (1/2, 1/20000) between it and the edge below is in no finite
    simplex, in any result. *)
Definition h_e : R := / 10000.
Definition h_c (i : N) : vec := if (i =? 1)%N then v2 0 0 else if (i =? 2)%N then v2 1 0 else if (i =? 3)%N then v2 (/ 2) h_e else v2 (/ 2) 1.
Definition h_pts : points vec := mkpts [v2 0 0; v2 0 0; v2 1 0; v2 (/ 2) h_e; v2 (/ 2) 1] 0 [v2 0 0; v2 0 0; v2 0 0; v2 0 0].
Lemma h_fin i : is_fin_id h_pts i <-> i = 1%N \/ i = 2%N \/ i = 3%N \/ i = 4%N.
Proof. unfold is_fin_id, h_pts. cbn [p_off p_vec length]. lia. Qed.
Lemma h_input tiny huge : (0 < tiny <= 1)%R -> (1 <= huge)%R -> input 2 tiny huge h_pts h_c.
Proof.
  intros Ht Hh. assert (H2 : forall d, d < 2 -> d = 0 \/ d = 1) by lia. assert (He : (0 < h_e < / 2)%R) by (unfold h_e; lra). constructor.
  - split; [discriminate|]. split; [vm_compute; discriminate|reflexivity].
  - vm_compute. discriminate.
  - intros i Hi. apply h_fin in Hi as [-> | [-> | [-> | ->]]]; reflexivity.
  - intros i j Hi Hj H. pose proof (H 0 ltac:(lia)) as Hx. pose proof (H 1 ltac:(lia)) as Hy. apply h_fin in Hi as [-> | [-> | [-> | ->]]]; apply h_fin in Hj as [-> | [-> | [-> | ->]]]; try reflexivity; exfalso; cbn in Hx, Hy; lra.
  - lra.
  - intros d Hd. destruct (H2 d Hd) as [-> | ->]; [exists 2%N, 1%N|exists 4%N, 1%N]; rewrite !h_fin; cbn; intuition lra.
  - intros i d Hi Hd. destruct (H2 d Hd) as [-> | ->]; [exists 2%N, 1%N|exists 4%N, 1%N]; (split; [apply h_fin; auto|]; split; [apply h_fin; auto|]); apply h_fin in Hi as [-> | [-> | [-> | ->]]]; cbn; rewrite Rabs_pos_eq; lra.
  - intros i d Hi Hd. destruct (H2 d Hd) as [-> | ->]; apply h_fin in Hi as [-> | [-> | [-> | ->]]]; cbn; lra.
Qed.

Lemma hull_side D (co : N -> vec) s g x : affine D g -> (forall v, In v s -> 0 <= g (co v))%R -> in_hull D (map co s) x -> (0 <= g x)%R.
Proof.
  intros (a & b & Hg) Hs (ws & Em & [Hw1 Hw2] & Hx). assert (E : g x = fold_right (fun wv t => fst wv * g (snd wv) + t)%R 0%R ws).
  { rewrite Hg. transitivity (sumn D (fun d => a d * comb ws d) + b * fold_right (fun wv t => fst wv + t) 0 ws)%R.
    { rewrite Hw2, Rmult_1_r. f_equal. clear - Hx. induction D as [|D IH]; [reflexivity|]. cbn [sumn]. rewrite IH by (intros d Hd; apply Hx; lia). now rewrite (Hx D) by lia. }
    clear - Hg. induction ws as [|[w v] ws IH]; cbn [fold_right fst snd].
    - assert (sumn D (fun d => a d * comb [] d) = 0)%R as -> by (clear; induction D as [|D IH]; [reflexivity|]; cbn [sumn]; rewrite IH; cbn; ring). ring.
    - rewrite <- IH, Hg. assert (sumn D (fun d => a d * comb ((w, v) :: ws) d) = w * sumn D (fun d => a d * v d) + sumn D (fun d => a d * comb ws d))%R as ->; [|ring].
      clear. induction D as [|D IH]; cbn [sumn]; [ring|]. rewrite IH. change (comb ((w, v) :: ws) D) with (w * v D + comb ws D)%R. ring. }
  rewrite E. clear E. assert (Hin : forall v, In v (map snd ws) -> (0 <= g v)%R) by (rewrite Em; intros v Hv; apply in_map_iff in Hv as (u & <- & Hu); auto).
  clear - Hw1 Hin. induction ws as [|[w v] ws IH]; cbn; [lra|]. inversion Hw1; subst. cbn in *. pose proof (Hin v (or_introl eq_refl)). assert (0 <= fold_right (fun wv t => fst wv * g (snd wv) + t) 0 ws)%R by (apply IH; auto). nra.
Qed.
Theorem C69_hull_refuted tiny huge : (0 < tiny <= 1)%R -> (1 <= huge)%R -> input 2 tiny huge h_pts h_c /\
  exists q, ctor_points 2 tiny huge h_pts [[1; 2]; [3; 4]]%N = Val q /\ exists x, in_hull 2 (map h_c [1; 2; 3; 4]%N) x /\
  forall over hgt cgal sp depth par_edge c0 out takes,
  breaks 2 (co_of 2 q) hgt (id_keys 2 q) -> cgal_right 2 (co_of 2 q) hgt (id_keys 2 q) cgal -> (forall k, sp = OneDim k -> k < 2) -> depth <= 42 ->
  dc_run over 2 (co_of 2 q) cgal (splits 2 q tiny huge sp) depth par_edge [] (id_keys 2 q) out takes -> drawn c0 takes -> (c0 + total takes < 2 ^ 64)%N -> (N.of_nat (length takes) < 2 ^ 32)%N ->
  forall i s, shown out i s -> (forall v, In v (x_verts s) -> p_finite 2 v = true) -> ~ in_hull 2 (map (co_of 2 q) (x_verts s)) x.
Proof.
  intros Ht Hh. pose proof (h_input tiny huge Ht Hh) as HI. split; [exact HI|].
  assert (Hw : forall i, In i (concat [[1; 2]; [3; 4]]%N) <-> is_fin_id h_pts i) by (intros i; rewrite h_fin; cbn [concat app In]; intuition congruence).
  assert (He : (0 < h_e < / 2)%R) by (unfold h_e; lra).
  destruct (ctor_ex 2 tiny huge h_pts h_c _ ltac:(lia) HI Hw) as [q Hq]. exists q. split; [exact Hq|].
  destruct (ctor_q 2 _ _ _ _ _ Hq) as (st & Est & Eq). exists (v2 (/ 2) (h_e / 2)). split.
  { exists [(/ 4, v2 0 0); (/ 4, v2 1 0); (/ 2, v2 (/ 2) h_e); (0, v2 (/ 2) 1)]%R. split; [reflexivity|]. split; [split; [repeat constructor; cbn; lra|cbn; lra]|].
    intros d Hd. assert (Hd2 : d = 0 \/ d = 1) by lia. destruct Hd2 as [-> | ->]; cbn; lra. }
  intros over hgt cgal sp depth par_edge c0 out takes HB Hc Hsp Hd Hr Hdr H1 H2 i s Hs Hf Hin.
  assert (Hids : forall i, In i [1; 2; 3; 4]%N <-> is_fin_id h_pts i) by (intros j; rewrite h_fin; cbn [In]; intuition congruence).
  assert (Hfi : forall i, In i [1; 2; 3; 4]%N -> fin_in 2 [1; 2; 3; 4]%N i) by (intros j Hj; split; [exact Hj|]; destruct Hj as [<-|[<-|[<-|[<-|[]]]]]; unfold is_inf_id; vm_compute; intros [H _]; now apply H).
  destruct (C35_stats_partial 2 h_pts tiny huge [1; 2; 3; 4]%N h_c [[1; 2]; [3; 4]]%N ltac:(lia)) as (st' & Est' & Smin & Smax & _).
  { intros j Hj. destruct Hj as [<-|[<-|[<-|[<-|[]]]]]; reflexivity. }
  { intros j [Hj _]. destruct Hj as [<-|[<-|[<-|[<-|[]]]]]; reflexivity. }
  { intros j. rewrite Hw, Hids. reflexivity. }
  rewrite Est in Est'. injection Est' as <-.
  assert (Hfar : forall d, d < 2 -> far st d = 200%R).
  { intros d Hd'. assert (Hd2 : d = 0 \/ d = 1) by lia. unfold far. rewrite (Smin d 0%R), (Smax d 1%R); [ring|..|lra].
    - split; [destruct Hd2 as [-> | ->]; [exists 2%N|exists 4%N]; (split; [apply Hfi; cbn; auto|reflexivity])|]. intros j [Hj _]. destruct Hd2 as [-> | ->], Hj as [<-|[<-|[<-|[<-|[]]]]]; cbn; lra.
    - lra.
    - split; [exists 1%N; split; [apply Hfi; cbn; auto|destruct Hd2 as [-> | ->]; reflexivity]|]. intros j [Hj _]. destruct Hd2 as [-> | ->], Hj as [<-|[<-|[<-|[<-|[]]]]]; cbn; lra. }
  pose proof (ctor_placed 2 ltac:(lia) tiny huge h_pts h_c HI _ st Hw Est) as Hpl. rewrite <- Eq in Hpl. change (N.of_nat 2) with 2%N in Hpl.
  pose proof (C67_triangulate over 2 tiny huge h_pts h_c _ q hgt cgal sp depth par_edge c0 out takes (or_introl eq_refl) HI Hw Hq HB Hc Hsp Hd Hr Hdr H1 H2) as T.
  destruct (me_delaunay _ _ _ _ _ (tri_mesh over 2 ltac:(lia) (co_of 2 q) hgt (far st) (id_keys 2 q) Hpl HB out T) i s Hs) as (D1 & D2 & o & r2 & D3 & D4). change (N.to_nat 2) with 2 in *.
  assert (K : forall v, In v (id_keys 2 q) <-> is_fin_id h_pts v \/ is_inf_id 2 v) by (intros v; rewrite Eq; eapply (q_keys 2); eauto; lia).
  assert (C : forall v, is_fin_id h_pts v -> co_of 2 q v = h_c v) by (intros v Hv; rewrite Eq; eapply (q_co 2); eauto; lia).
  assert (Hv4 : forall v, In v (x_verts s) -> v = 1%N \/ v = 2%N \/ v = 3%N \/ v = 4%N).
  { intros v Hv. apply h_fin. destruct (proj1 (K v) (D1 v Hv)) as [H|H]; [exact H|]. pose proof (Hf v Hv) as Hfv. assert (Hfv' : p_finite 2 v = false) by (eapply (inf_infinite 2); eauto; lia). congruence. }
  assert (A1 : affine 2 (fun x : vec => x 1%nat - 2 * h_e * x 0%nat)%R) by (exists (fun d => match d with O => - (2 * h_e) | _ => 1 end)%R, 0%R; intros x; cbn; ring).
  assert (A2 : affine 2 (fun x : vec => x 1%nat - 2 * h_e * (1 - x 0%nat))%R) by (exists (fun d => match d with O => 2 * h_e | _ => 1 end)%R, (- (2 * h_e))%R; intros x; cbn; ring).
  destruct (in_dec N.eq_dec 1%N (x_verts s)) as [I1|I1].
  2:{ pose proof (fun A => hull_side 2 (co_of 2 q) (x_verts s) _ _ A2 A Hin) as H. cbn beta in H. cbn in H. assert (0 <= h_e / 2 - 2 * h_e * (1 - / 2))%R; [|lra]. apply H. intros v Hv.
      assert (Hvf : is_fin_id h_pts v) by (apply h_fin; auto). rewrite (C v Hvf). destruct (Hv4 v Hv) as [-> | [-> | [-> | ->]]]; [contradiction|..]; cbn; nra. }
  destruct (in_dec N.eq_dec 2%N (x_verts s)) as [I2|I2].
  2:{ pose proof (fun A => hull_side 2 (co_of 2 q) (x_verts s) _ _ A1 A Hin) as H. cbn beta in H. cbn in H. assert (0 <= h_e / 2 - 2 * h_e * / 2)%R; [|lra]. apply H. intros v Hv.
      assert (Hvf : is_fin_id h_pts v) by (apply h_fin; auto). rewrite (C v Hvf). destruct (Hv4 v Hv) as [-> | [-> | [-> | ->]]]; [|contradiction|..]; cbn; nra. }
  pose proof (D3 1%N I1) as E1. pose proof (D3 2%N I2) as E2. rewrite C in E1 by (apply h_fin; auto). rewrite C in E2 by (apply h_fin; auto). unfold dist2 in E1, E2. cbn in E1, E2.
  assert (Ho : (o 0%nat = / 2)%R) by nra.
  destruct (in_dec N.eq_dec 3%N (x_verts s)) as [I3|I3].
  - pose proof (D3 3%N I3) as E3. rewrite C in E3 by (apply h_fin; auto). unfold dist2 in E3. cbn in E3. rewrite Ho in *.
    set (k := (2 ^ 64 - 4)%N). assert (Hk : is_inf_id 2 k) by (split; vm_compute; congruence). pose proof (D4 k (proj2 (K k) (or_intror Hk))) as E4.
    pose proof (pl_corner _ _ _ _ Hpl k (proj2 (K k) (or_intror Hk)) eq_refl) as Hco. change (N.to_nat 2) with 2 in Hco. unfold dist2 in E4. cbn [sumn] in E4. rewrite (Hco 0), (Hco 1) in E4 by lia.
    unfold corner in E4. change (N.testbit k (N.of_nat 0)) with false in E4. change (N.testbit k (N.of_nat 1)) with false in E4. cbv iota in E4. rewrite !Hfar, Ho in E4 by lia. unfold h_e in *. nra.
  - assert (I4 : In 4%N (x_verts s)).
    { destruct (in_dec N.eq_dec 4%N (x_verts s)) as [I4|I4]; [exact I4|]. exfalso. destruct D2 as (Nd & Le & _). assert (incl (x_verts s) [1; 2]%N) by (intros v Hv; destruct (Hv4 v Hv) as [-> | [-> | [-> | ->]]]; cbn; auto; contradiction).
      pose proof (NoDup_incl_length Nd H) as Hl. cbn in Hl. lia. }
    pose proof (D3 4%N I4) as E3. rewrite C in E3 by (apply h_fin; auto). unfold dist2 in E3. cbn in E3. rewrite Ho in *.
    assert (F3 : is_fin_id h_pts 3%N) by (apply h_fin; auto). pose proof (D4 3%N (proj2 (K 3%N) (or_introl F3))) as E4. rewrite (C 3%N F3) in E4. unfold dist2 in E4. cbn in E4. rewrite Ho in E4. unfold h_e in *. nra.
Qed.
Print Assumptions C69_hull_refuted.
(** Such a run exists. *)
Example C69_refuted_ex q : ctor_points 2 1 1 h_pts [[1; 2]; [3; 4]]%N = Val q -> exists hgt cgal out takes,
  breaks 2 (co_of 2 q) hgt (id_keys 2 q) /\ cgal_right 2 (co_of 2 q) hgt (id_keys 2 q) cgal /\ dc_run (fun x => x) 2 (co_of 2 q) cgal (splits 2 q 1 1 DWay) 1 true [] (id_keys 2 q) out takes /\
  drawn 1 takes /\ (1 + total takes < 2 ^ 64)%N /\ (N.of_nat (length takes) < 2 ^ 32)%N.
Proof.
  intros Hq. pose proof (h_input 1 1 ltac:(lra) ltac:(lra)) as HI.
  assert (Hw : forall i, In i (concat [[1; 2]; [3; 4]]%N) <-> is_fin_id h_pts i) by (intros i; rewrite h_fin; cbn [concat app In]; intuition congruence).
  destruct (heights_ex 2 (co_of 2 q) (id_keys 2 q)) as [hgt Hb]. set (m := N.of_nat (Nat.pow (length (id_keys 2 q)) 3)).
  exists hgt, (fun S last cells => cgal_ok 2 (co_of 2 q) hgt S last cells /\ (last <= m)%N).
  assert (Hlen : length (id_keys 2 q) = 8).
  { destruct (ctor_q 2 _ _ _ _ _ Hq) as (st & _ & ->). pose proof (keys_length 2 ltac:(lia) (add_infinite 2 h_pts st) (q_ok 2 ltac:(lia) _ _ _ _ HI st)) as H.
    destruct (add_infinite_spec 2 ltac:(lia) h_pts st eq_refl) as [A1 _]. unfold finite_size in H. rewrite A1 in H. cbn [h_pts p_vec length] in H. change (2 ^ 2)%N with 4%N in H. lia. }
  assert (Hc : cgal_right 2 (co_of 2 q) hgt (id_keys 2 q) (fun S last cells => cgal_ok 2 (co_of 2 q) hgt S last cells /\ (last <= m)%N)) by (intros S last cells _ _ _ [H _]; exact H).
  assert (He : cgal_ends 2 (id_keys 2 q) m (fun S last cells => cgal_ok 2 (co_of 2 q) hgt S last cells /\ (last <= m)%N)).
  { intros S Hn Hs _. destruct (cgal_ex 2 (co_of 2 q) hgt S) as (cells & H & Hl). pose proof (NoDup_incl_length Hn Hs) as Hl2.
    assert (Hl3 : (N.of_nat (length cells) <= m)%N) by (unfold m; pose proof (Nat.pow_le_mono_l (length S) (length (id_keys 2 q)) 3 Hl2); change (N.to_nat 2 + 1) with 3 in Hl; lia).
    exists (N.of_nat (length cells)), cells. split; [split; [exact H|exact Hl3]|exact Hl3]. }
  destruct (C71_runs (fun x => x) 2 1 1 h_pts h_c _ q hgt _ DWay 1 true m 1 (or_introl eq_refl) HI Hw Hq Hb Hc He ltac:(discriminate) ltac:(lia)) as (out & takes & R1 & R2 & R3 & R4).
  { unfold m. rewrite Hlen. reflexivity. }
  { reflexivity. }
  exists out, takes. split; [exact Hb|]. split; [exact Hc|]. auto.
Qed.
