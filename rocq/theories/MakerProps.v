(** C60: the partition makers. *)
From Coq Require Import Reals Lia Lra List.
From Verif Require Import Outcome ListUtil WordsModel LPSetModel SimplexModel PointModel GeoModel GeoSpec GeoProofs GeoCirc GeoBox GeoProps PartModel PartProofs AABBModel AABBTop KWayModel KWayProofs Pool MakerModel MakerProofs MakerCheck.
Open Scope list_scope.
Import ListNotations.
Local Open Scope R_scope.

(** The id sets: entry j has the infinite ids and the finite ids assigned to j, and no id twice.  They are made if there are
    at least as many ids as partitions and the assigner returns numbers of partitions.  Missing: fewer ids than partitions,
    see the refutation. *)
Theorem C60_ids_partial : forall D part ids k, (0 < k <= length ids)%nat -> (forall i, In i ids -> p_finite (N.of_nat D) i = true -> exists j, (j < k)%nat /\ part i = Val j) ->
  exists ls, m_ids D part ids k = Val ls /\ length ls = k /\
  forall j l, nth_error ls j = Some l -> NoDup l /\ forall i, In i l <-> In i (inf_ids D) \/ (In i ids /\ p_finite (N.of_nat D) i = true /\ part i = Val j).
Proof. intros D part ids k Hk Hp. destruct (m_ids_total D part ids k Hk Hp) as [ls E]. exists ls. split; [exact E|]. destruct (m_ids_ok D part ids k ls E) as (A & _ & B). auto. Qed.
Print Assumptions C60_ids_partial.
Theorem C60_few_refuted : forall D part ids k ls, (length ids < k)%nat -> m_ids D part ids k <> Val ls.
Proof. intros. now apply m_ids_few. Qed.
Print Assumptions C60_few_refuted.

(** Four points in two partitions: 1 and 2 go to partition 0, 3 and 4 to partition 1. *)
Definition mk_co (i : N) : vec := match i with 1%N => v2 0 0 | 2%N => v2 1 1 | 3%N => v2 5 5 | _ => v2 6 7 end.
Definition mk_pts : points vec := mkpts [v2 0 0; mk_co 1; mk_co 2; mk_co 3; mk_co 4] 0 [].
Definition mk_part (i : N) : res nat := if (i <=? 2)%N then Val 0%nat else Val 1%nat.
Example C60_ids_case : exists ls, m_ids 2 mk_part [1; 2; 3; 4; 18446744073709551612]%N 2 = Val ls /\ exists a b, ls = [a; b] /\ In 1%N a /\ In 2%N a /\ ~ In 3%N a /\ In 3%N b /\ In 4%N b /\ In 18446744073709551615%N b.
Proof. eexists. split; [vm_compute; reflexivity|]. eexists. eexists. split; [reflexivity|]. cbn [In]. intuition discriminate. Qed.
Example C60_few_case : forall ls, m_ids 2 mk_part [1; 2; 3]%N 4 <> Val ls.
Proof. intros ls. apply C60_few_refuted. cbn. lia. Qed.

(** The loop over the boxes: no execution is undefined or endless, and when it ends the box of every partition is the smallest
    box around some last part of the partition's ids, not empty if there are ids.  Missing: all of the ids; see the refutation. *)
Theorem C60_boxes_partial : forall D pts ls co, (forall l i, In l ls -> In i l -> p_get (N.of_nat D) pts i = Val (co i)) ->
  psafe (b_step D pts) (b_start ls) /\ pterminates (b_step D pts) (b_start ls) /\
  forall b, pexec (b_step D pts) (b_start ls) b -> p_tasks b = [] -> length (s_box (p_sh b)) = length ls /\
  forall j l, nth_error ls j = Some l -> l <> [] -> exists pre tl bx, l = pre ++ tl /\ tl <> [] /\ nth_error (s_box (p_sh b)) j = Some (Some bx) /\
    (forall i, In i tl -> in_box D bx (co i)) /\ (forall c, (forall i, In i tl -> in_box D c (co i)) -> forall p, in_box D bx p -> in_box D c p).
Proof.
  intros D pts ls co Hg. split; [now apply (boxes_safe D pts ls co)|]. split; [apply boxes_term|]. intros b Hb Ht. destruct (boxes_end D pts ls co Hg b Hb Ht) as [L H]. split; [exact L|].
  intros j l Hl Hne. destruct (H j l Hl) as (pre & tl & E & Ntl & Eb). specialize (Ntl Hne). destruct (bounding_spec D (map co tl)) as (bx & Ebx & _ & B1 & B2); [intros X; now destruct tl|]. exists pre, tl, bx. rewrite Ebx in Eb. split; [exact E|]. split; [exact Ntl|]. split; [exact Eb|].
  split; [intros i Hi; now apply B1, in_map|]. intros c Hc p Hp. apply (B2 c); [|exact Hp]. intros v Hv. apply in_map_iff in Hv. destruct Hv as (i & <- & Hi). now apply Hc.
Qed.
Print Assumptions C60_boxes_partial.
(** If at no time two threads are between reading a word of the vector of flags and writing it, the box of every partition is
    the smallest box around all its points. *)
Theorem C60_calm_partial : forall D pts ls co, (forall l i, In l ls -> In i l -> p_get (N.of_nat D) pts i = Val (co i)) ->
  forall b, cexec D pts calm (b_start ls) b -> p_tasks b = [] ->
  forall j l, nth_error ls j = Some l -> l <> [] -> exists bx, nth_error (s_box (p_sh b)) j = Some (Some bx) /\
    (forall i, In i l -> in_box D bx (co i)) /\ (forall c, (forall i, In i l -> in_box D c (co i)) -> forall p, in_box D bx p -> in_box D c p).
Proof.
  intros D pts ls co Hg b Hb Ht j l Hl Hne. pose proof (boxes_calm D pts ls co Hg b Hb Ht j l Hl) as Eb. destruct (bounding_spec D (map co l)) as (bx & Ebx & _ & B1 & B2); [intros X; now destruct l|]. exists bx. rewrite Ebx in Eb. split; [exact Eb|].
  split; [intros i Hi; now apply B1, in_map|]. intros c Hc p Hp. apply (B2 c); [|exact Hp]. intros v Hv. apply in_map_iff in Hv. destruct Hv as (i & <- & Hi). now apply Hc.
Qed.
Print Assumptions C60_calm_partial.

(** An explicit schedule all of whose pools are calm. *)
Definition calmb (p : pool bsh btask) : bool := Nat.leb (length (filter is_put (p_tasks p))) 1.
Fixpoint crun (D : nat) (pts : points vec) (a : pool bsh btask) (s : list nat) : option (pool bsh btask) :=
  match s with
  | [] => Some a
  | i :: s' => match prun (b_step D pts) a [i] with Some b => if calmb b then crun D pts b s' else None | None => None end
  end.
Lemma crun_cexec D pts a0 s : forall a b, cexec D pts calm a0 a -> crun D pts a s = Some b -> cexec D pts calm a0 b.
Proof.
  induction s as [|i s IH]; intros a b H E; cbn [crun] in E; [injection E as <-; exact H|]. destruct (prun (b_step D pts) a [i]) as [c|] eqn:Ec; [|discriminate]. destruct (calmb c) eqn:Eq; [|discriminate].
  apply (IH c b); [|exact E]. econstructor; [exact H| |now apply Nat.leb_le]. cbn [prun] in Ec. destruct (nth_error (p_tasks a) i) as [t|] eqn:Et; [|discriminate]. destruct (b_step D pts (p_sh a) t) as [sh' next|] eqn:Es; [|discriminate].
  injection Ec as <-. exists (firstn i (p_tasks a)), t, (skipn (S i) (p_tasks a)), sh', next. split; [|auto].
  rewrite <- (firstn_skipn i (p_tasks a)) at 1. f_equal. clear - Et. revert i Et. induction (p_tasks a) as [|x l IH]; intros [|i] Et; cbn in *; try discriminate; [congruence|]. auto.
Qed.
Definition mk_ls : list (list N) := [[1; 2]; [3; 4]]%N.
Lemma mk_get : forall l i, In l mk_ls -> In i l -> p_get (N.of_nat 2) mk_pts i = Val (mk_co i).
Proof. intros l i [<-|[<-|[]]] [<-|[<-|[]]]; reflexivity. Qed.
(** The partitions one after the other, with some steps of the other in between. *)
Example C60_calm_case : exists b, cexec 2 mk_pts calm (b_start mk_ls) b /\ p_tasks b = [] /\ exists b0, nth_error (s_box (p_sh b)) 0 = Some (Some b0) /\ in_box 2 b0 (v2 0 0) /\ in_box 2 b0 (v2 1 1).
Proof.
  destruct (crun 2 mk_pts (b_start mk_ls) [0; 1; 0; 0; 1; 1; 0; 1; 0; 0]%nat) as [b|] eqn:E; [|vm_compute in E; discriminate].
  assert (T : p_tasks b = []) by (vm_compute in E; injection E as <-; reflexivity).
  assert (C : cexec 2 mk_pts calm (b_start mk_ls) b) by (eapply crun_cexec; [apply ce_start; vm_compute; lia|exact E]).
  exists b. split; [exact C|]. split; [exact T|]. destruct (C60_calm_partial 2 mk_pts mk_ls mk_co mk_get b C T 0 [1; 2]%N eq_refl ltac:(discriminate)) as (b0 & E0 & B & _). exists b0. split; [exact E0|]. split; [apply (B 1%N)|apply (B 2%N)]; cbn; auto.
Qed.

(** Two partitions race for a word of the vector of flags: the flag of partition 0 is lost and its box forgets its first point.
    The checker then denies that partition 0 meets a ball around that point. *)
Theorem C60_race_refuted : exists D pts ls co b bx i s, (forall l i, In l ls -> In i l -> p_get (N.of_nat D) pts i = Val (co i)) /\
  pexec (b_step D pts) (b_start ls) b /\ p_tasks b = [] /\ nth_error (s_box (p_sh b)) 0 = Some (Some bx) /\
  (exists l, nth_error ls 0 = Some l /\ In i l) /\ ~ in_box D bx (co i) /\ in_ball D s (co i) /\ bounds_meets D (Some bx) s = Val false.
Proof.
  assert (X : exists b, pexec (b_step 2 mk_pts) (b_start mk_ls) b /\ p_tasks b = [] /\ nth_error (s_box (p_sh b)) 0 = Some (Some (mkbox (mk_co 2) (mk_co 2)))).
  { destruct (prun (b_step 2 mk_pts) (b_start mk_ls) [1; 1; 0; 0; 0; 1; 0; 0; 0; 0; 0; 0]%nat) as [b|] eqn:E; [|vm_compute in E; discriminate].
    exists b. split; [eapply prun_exec; [apply pexec_start|exact E]|]. vm_compute in E. injection E as <-. split; [reflexivity|]. vm_compute. reflexivity. }
  destruct X as (b & Hb & Ht & Eb). exists 2%nat, mk_pts, mk_ls, mk_co, b, (mkbox (mk_co 2) (mk_co 2)), 1%N, (mksph (v2 0 0) (1 / 2)).
  split; [exact mk_get|]. split; [exact Hb|]. split; [exact Ht|]. split; [exact Eb|]. split; [exists [1; 2]%N; split; [reflexivity|now left]|].
  split; [intros H; specialize (H 0%nat ltac:(lia)); cbn in H; lra|]. split; [split; [cbn; lra|rewrite dist2_2; cbn; lra]|].
  unfold bounds_meets. f_equal. destruct (box_meets 2 _ _) eqn:E; [|reflexivity]. apply box_meets_spec in E as (p & Hp & _ & Hd); [|dims2|lia]. rewrite dist2_2 in Hd. cbn [sp_c sp_r v2] in Hd.
  pose proof (Hp 0%nat ltac:(lia)) as H0. pose proof (Hp 1%nat ltac:(lia)) as H1. cbn in H0, H1, Hd. nra.
Qed.
Print Assumptions C60_race_refuted.

(** A partition without points: its box is never set, and building the checker on the grid or asking the other is undefined. *)
Theorem C60_empty_refuted : forall D pts ls co w j, (forall l i, In l ls -> In i l -> p_get (N.of_nat D) pts i = Val (co i)) -> nth_error ls j = Some [] ->
  forall b, pexec (b_step D pts) (b_start ls) b -> p_tasks b = [] -> exists ob, nth_error (s_box (p_sh b)) j = Some ob /\
  (forall s, bounds_meets D ob s = Undef) /\ forall f, grid_checker D pts w f ob [] = Undef.
Proof.
  intros D pts ls co w j Hg Hj b Hb Ht. destruct (boxes_end D pts ls co Hg b Hb Ht) as [_ H]. destruct (H j [] Hj) as (pre & tl & E & _ & Eb). symmetry in E. apply app_eq_nil in E. destruct E as [_ ->]. exists None. split; [exact Eb|]. split; reflexivity.
Qed.
Print Assumptions C60_empty_refuted.
(** All four points in the first of two partitions. *)
Example C60_empty_case : (forall l i, In l [[1; 2; 3; 4]; []]%N -> In i l -> p_get (N.of_nat 2) mk_pts i = Val (mk_co i)) /\ nth_error [[1; 2; 3; 4]; []]%N 1 = Some [] /\
  m_ids 2 (fun _ => Val 0%nat) [1; 2; 3; 4]%N 2 = Val [[1; 2; 3; 4; 18446744073709551612; 18446744073709551613; 18446744073709551614; 18446744073709551615]; [18446744073709551612; 18446744073709551613; 18446744073709551614; 18446744073709551615]]%N.
Proof. split; [intros l i [<-|[<-|[]]] Hi; [|destruct Hi]; destruct Hi as [<-|[<-|[<-|[<-|[]]]]]; reflexivity|]. split; [reflexivity|]. vm_compute. reflexivity. Qed.

(** Ids, boxes and checkers together, for an execution in which no flag is lost: [ls] lists the finite ids of the sets in the
    order in which they are visited.  Every ball with a finite point of an entry is reported by the entry's checker. *)
Theorem C60_bounds_partial : forall D pts part ids k co rs ls b, (0 < D)%nat -> (N.of_nat D <= 30)%N -> m_ids D part ids k = Val rs ->
  (forall i, In i ids -> p_finite (N.of_nat D) i = true -> p_get (N.of_nat D) pts i = Val (co i)) ->
  length ls = k -> (forall j l r, nth_error ls j = Some l -> nth_error rs j = Some r -> forall i, In i l <-> In i r /\ p_finite (N.of_nat D) i = true) ->
  cexec D pts calm (b_start ls) b -> p_tasks b = [] ->
  forall j r i s, nth_error rs j = Some r -> In i r -> p_finite (N.of_nat D) i = true -> in_ball D s (co i) ->
  exists ob, nth_error (s_box (p_sh b)) j = Some ob /\ bounds_meets D ob s = Val true.
Proof.
  intros D pts part ids k co rs ls b HD HD2 Hm Hco Hk Hls Hb Ht j r i s Hr Hi Hf Hs. destruct (m_ids_ok D part ids k rs Hm) as (Lr & _ & Q).
  assert (Hget : forall l i, In l ls -> In i l -> p_get (N.of_nat D) pts i = Val (co i)).
  { intros l x Hl Hx. apply In_nth_error in Hl. destruct Hl as [j' Hl]. destruct (nth_error_ex rs j') as [r' Hr']; [rewrite Lr, <- Hk; eapply nth_error_lt, Hl|]. apply (Hls j' l r' Hl Hr') in Hx. destruct Hx as [Hx Hxf].
    apply (Q j' r' Hr') in Hx. destruct Hx as [Hx|[Hx _]]; [apply (inf_not_finite D HD2) in Hx; congruence|now apply Hco]. }
  destruct (nth_error_ex ls j) as [l Hl]; [rewrite Hk, <- Lr; eapply nth_error_lt, Hr|]. assert (Hil : In i l) by (apply (Hls j l r Hl Hr); auto).
  pose proof (boxes_calm D pts ls co Hget b Hb Ht j l Hl) as Eb. destruct (bounding D (map co l)) as [bx|] eqn:E; [|destruct l; [destruct Hil|discriminate]]. exists (Some bx). split; [exact Eb|]. eapply bounds_meets_ok; eauto.
Qed.
Print Assumptions C60_bounds_partial.
Example C60_bounds_case : exists rs b, m_ids 2 mk_part [1; 2; 3; 4]%N 2 = Val rs /\ cexec 2 mk_pts calm (b_start mk_ls) b /\ p_tasks b = [] /\
  (forall j l r, nth_error mk_ls j = Some l -> nth_error rs j = Some r -> forall i, In i l <-> In i r /\ p_finite (N.of_nat 2) i = true) /\
  exists ob, nth_error (s_box (p_sh b)) 1 = Some ob /\ bounds_meets 2 ob (mksph (v2 6 8) 1) = Val true.
Proof.
  destruct C60_calm_case as (b & Hb & Ht & _).
  assert (Em : m_ids 2 mk_part [1; 2; 3; 4]%N 2 = Val [[1; 2; 18446744073709551612; 18446744073709551613; 18446744073709551614; 18446744073709551615]; [3; 4; 18446744073709551612; 18446744073709551613; 18446744073709551614; 18446744073709551615]]%N) by (vm_compute; reflexivity).
  assert (Hls : forall j l r, nth_error mk_ls j = Some l -> nth_error [[1; 2; 18446744073709551612; 18446744073709551613; 18446744073709551614; 18446744073709551615]; [3; 4; 18446744073709551612; 18446744073709551613; 18446744073709551614; 18446744073709551615]]%N j = Some r -> forall i, In i l <-> In i r /\ p_finite (N.of_nat 2) i = true).
  { intros [|[|j]] l r El Er; cbn [mk_ls nth_error] in El, Er; [| |destruct j; discriminate]; injection El as <-; injection Er as <-; intros i; split.
    - intros [<-|[<-|[]]]; split; try reflexivity; cbn; auto.
    - intros [Hi H]. destruct Hi as [Hi|[Hi|Hi]]; [now left|right; now left|]. exfalso. revert H. destruct Hi as [<-|[<-|[<-|[<-|[]]]]]; vm_compute; discriminate.
    - intros [<-|[<-|[]]]; split; try reflexivity; cbn; auto.
    - intros [Hi H]. destruct Hi as [Hi|[Hi|Hi]]; [now left|right; now left|]. exfalso. revert H. destruct Hi as [<-|[<-|[<-|[<-|[]]]]]; vm_compute; discriminate. }
  eexists. exists b. split; [exact Em|]. split; [exact Hb|]. split; [exact Ht|]. split; [exact Hls|].
  eapply (C60_bounds_partial 2 mk_pts mk_part [1; 2; 3; 4]%N 2 mk_co _ mk_ls b ltac:(lia) ltac:(discriminate) Em) with (i := 4%N); [|reflexivity|exact Hls|exact Hb|exact Ht|reflexivity|cbn; auto|reflexivity|].
  - intros i Hi _. destruct Hi as [<-|[<-|[<-|[<-|[]]]]]; reflexivity.
  - split; [cbn; lra|]. rewrite dist2_2. cbn. lra.
Qed.

(** The checker on the grid: with the smallest box around the points [l] of the partition, building it returns, and it
    reports every ball that contains a point of the partition, if that point is not on the upper border of the box and on
    a line of the grid in the same dimension.  Missing: those points (next theorem), and cells at the end of the range of int64. *)
Theorem C60_grid_partial : forall D pts co w zi l b, (0 < D)%nat -> 0 < w -> (forall i, In i l -> p_get (N.of_nat D) pts i = Val (co i) /\ index_at D w (co i) = Val (zi i)) ->
  (forall i d, In i l -> (d < D)%nat -> (- 2 ^ 63 <= zi i d < 2 ^ 63 - 1)%Z) -> bounding D (map co l) = Some b ->
  exists t, returns (fun f => grid_checker D pts w f (Some b) l) t /\
  forall s i, In i l -> in_ball D s (co i) -> (forall d z, (d < D)%nat -> ~ (co i d = b_hi b d /\ co i d = IZR z * w)) -> node_meets D t s = true.
Proof.
  intros D pts co w zi l b HD Hw Hco Hz Hb. destruct (grid_ok D pts co w zi HD Hw l Hco Hz b) as (t & Ht & Hm & _). exists t. split; [exact Ht|]. intros s i Hi Hs Hg. apply Hm. exists i. split; [exact Hi|]. eapply own_cell; eauto.
Qed.
Print Assumptions C60_grid_partial.

(** Two points at opposite corners, the cells of width 1; the second point is on the upper border and on the lines of the grid:
    its cell is dropped, and a ball around it is not reported. *)
Definition gr_co (i : N) : vec := match i with 1%N => v2 (1 / 2) (1 / 2) | _ => v2 2 2 end.
Definition gr_pts : points vec := mkpts [v2 0 0; gr_co 1; gr_co 2] 0 [].
Definition gr_zi (i : N) : nat -> Z := fun d => fit 1 (gr_co i d).
Lemma gr_fit : fit 1 (1 / 2) = 0%Z /\ fit 1 2 = 2%Z.
Proof. split; apply fit_iff; cbn; lra. Qed.
Lemma gr_z i d : (gr_zi i d = 0 \/ gr_zi i d = 2)%Z.
Proof. destruct gr_fit as [F1 F2]. unfold gr_zi, gr_co. destruct i as [|[p|p|]]; destruct d as [|[|d]]; cbn [v2]; auto. Qed.
Lemma gr_get : forall i, In i [1; 2]%N -> p_get (N.of_nat 2) gr_pts i = Val (gr_co i) /\ index_at 2 1 (gr_co i) = Val (gr_zi i).
Proof.
  intros i Hi. split; [destruct Hi as [<-|[<-|[]]]; reflexivity|]. unfold index_at. rewrite (proj2 (forallb_seq _ _)); [reflexivity|]. intros d Hd. apply in64_iff. change (fit 1 (gr_co i d)) with (gr_zi i d). destruct (gr_z i d) as [-> | ->]; lia.
Qed.
Theorem C60_grid_refuted : exists D pts co w zi l b t s i, (0 < D)%nat /\ 0 < w /\ (forall i, In i l -> p_get (N.of_nat D) pts i = Val (co i) /\ index_at D w (co i) = Val (zi i)) /\
  bounding D (map co l) = Some b /\ returns (fun f => grid_checker D pts w f (Some b) l) t /\ In i l /\ in_ball D s (co i) /\ node_meets D t s = false.
Proof.
  destruct (bounding_spec 2 (map gr_co [1; 2]%N)) as (b & Eb & Hok & Hin & Hmin); [discriminate|].
  destruct (grid_ok 2 gr_pts gr_co 1 gr_zi ltac:(lia) ltac:(lra) [1; 2]%N gr_get) with (b := b) as (t & Ht & Hm & _).
  { intros i d Hi Hd. destruct (gr_z i d) as [-> | ->]; lia. }
  exists 2%nat, gr_pts, gr_co, 1, gr_zi, [1; 2]%N, b, t, (mksph (v2 2 2) (1 / 2)), 2%N. split; [lia|]. split; [lra|]. split; [exact gr_get|]. split; [exact Eb|]. split; [exact Ht|]. split; [now right; left|].
  split; [split; [cbn; lra|rewrite dist2_2; cbn; lra]|]. destruct (node_meets 2 t _) eqn:E; [|reflexivity]. exfalso. apply Hm in E. destruct E as (i & Hi & Hr & p & Hp & _ & Hd). destruct gr_fit as [F1 F2]. destruct Hi as [<-|[<-|[]]].
  - pose proof (Hp 0%nat ltac:(lia)) as H0. pose proof (Hp 1%nat ltac:(lia)) as H1. unfold gr_zi in H0, H1. cbn [gr_co v2] in H0, H1. rewrite F1 in H0, H1. rewrite dist2_2 in Hd. cbn in H0, H1, Hd. nra.
  - specialize (Hr 0%nat ltac:(lia)). unfold gr_zi in Hr. cbn [gr_co v2] in Hr. rewrite F2 in Hr.
    assert (Hb2 : in_box 2 (mkbox (v2 (1 / 2) (1 / 2)) (v2 2 2)) (b_hi b)).
    { apply Hmin; [|intros d Hd2; specialize (Hok d Hd2); lra]. intros v Hv. cbn [map] in Hv. destruct Hv as [<-|[<-|[]]]; dims2. }
    specialize (Hb2 0%nat ltac:(lia)). cbn in Hb2, Hr. lra.
Qed.
Print Assumptions C60_grid_refuted.
(** The first of these points is away from the border. *)
Example C60_grid_case : exists b t, bounding 2 (map gr_co [1; 2]%N) = Some b /\ returns (fun f => grid_checker 2 gr_pts 1 f (Some b) [1; 2]%N) t /\ node_meets 2 t (mksph (v2 (1 / 2) (1 / 4)) (1 / 4)) = true.
Proof.
  destruct (bounding_spec 2 (map gr_co [1; 2]%N)) as (b & Eb & Hok & Hin & Hmin); [discriminate|].
  destruct (C60_grid_partial 2 gr_pts gr_co 1 gr_zi [1; 2]%N b ltac:(lia) ltac:(lra) gr_get) as (t & Ht & H).
  { intros i d Hi Hd. destruct (gr_z i d) as [-> | ->]; lia. } { exact Eb. }
  exists b, t. split; [exact Eb|]. split; [exact Ht|]. apply (H _ 1%N); [now left| |].
  - split; [cbn; lra|]. rewrite dist2_2. cbn. lra.
  - intros d z Hd [E _]. pose proof (Hin (gr_co 2) ltac:(cbn; auto) d Hd) as [_ X]. rewrite <- E in X. destruct d as [|[|d]]; [| |lia]; cbn in X; lra.
Qed.

(** The accurate checker: [ids] are all ids given to the maker, [l] the points of one partition, [hit j] says what
    checkCircumsphereContainsPoint answers for point j.  The answer is yes exactly if some id of the maker's set that is hit lies
    in a cell of the partition that was kept and meets the ball; in particular for every point of the partition that is in the
    ball, is hit and is away from the upper border.  The id found may belong to another partition. *)
Theorem C60_accurate_partial : forall D pts co w zi l ids b, (0 < D)%nat -> 0 < w -> (forall i, In i l -> In i ids) ->
  (forall i, In i ids -> p_get (N.of_nat D) pts i = Val (co i) /\ index_at D w (co i) = Val (zi i)) ->
  (forall i d, In i l -> (d < D)%nat -> (- 2 ^ 63 <= zi i d < 2 ^ 63 - 1)%Z) -> bounding D (map co l) = Some b ->
  exists t m, returns (fun f => grid_checker D pts w f (Some b) l) t /\ cm_build D pts w ids [] = Val m /\
  forall hit s, exists v, acc_meets D w t hit ids m s = Val v /\
    (v = true <-> exists i j, In i l /\ (forall d, (d < D)%nat -> b_lo b d < IZR (zi i d + 1) * w /\ IZR (zi i d) * w < b_hi b d) /\
       (exists p, (forall d, (d < D)%nat -> IZR (zi i d) * w <= p d <= IZR (zi i d + 1) * w) /\ in_ball D s p) /\
       In j ids /\ (forall d, (d < D)%nat -> zi j d = zi i d) /\ hit j = true) /\
    (forall i, In i l -> in_ball D s (co i) -> hit i = true -> (forall d z, (d < D)%nat -> ~ (co i d = b_hi b d /\ co i d = IZR z * w)) -> v = true).
Proof.
  intros D pts co w zi l ids b HD Hw Hsub Hall Hz Hb.
  assert (Hco : forall i, In i l -> p_get (N.of_nat D) pts i = Val (co i) /\ index_at D w (co i) = Val (zi i)) by auto.
  destruct (acc_ok D pts co w zi HD Hw l Hco Hz b ids Hsub Hall) as (t & m & Ht & Em & H). exists t, m. split; [exact Ht|]. split; [exact Em|]. intros hit s. destruct (H hit s) as (v & Ev & Hv). exists v. split; [exact Ev|]. split; [exact Hv|].
  intros i Hi Hs Hh Hg. apply Hv. exists i, i. destruct (own_cell D pts co w zi HD Hw l Hco b s i Hb Hi Hs Hg) as [A B]. split; [exact Hi|]. split; [exact A|]. split; [exact B|]. split; [auto|]. split; [intros d Hd; reflexivity|exact Hh].
Qed.
Print Assumptions C60_accurate_partial.
(** Partition [1;2] of the ids 1, 2, 3 = (1/4, 3/4): a hit of point 3 in the cell of point 1 counts for the partition of 1 and 2. *)
Definition ac_co (i : N) : vec := match i with 1%N => v2 (1 / 2) (1 / 2) | 2%N => v2 2 2 | _ => v2 (1 / 4) (3 / 4) end.
Definition ac_pts : points vec := mkpts [v2 0 0; ac_co 1; ac_co 2; ac_co 3] 0 [].
Example C60_accurate_case : exists b t m, bounding 2 (map ac_co [1; 2]%N) = Some b /\ returns (fun f => grid_checker 2 ac_pts 1 f (Some b) [1; 2]%N) t /\ cm_build 2 ac_pts 1 [1; 2; 3]%N [] = Val m /\
  acc_meets 2 1 t (fun i => (i =? 3)%N) [1; 2; 3]%N m (mksph (v2 (1 / 4) (3 / 4)) (1 / 4)) = Val true.
Proof.
  destruct gr_fit as [F1 F2]. assert (F3 : fit 1 (1 / 4) = 0%Z) by (apply fit_iff; cbn; lra). assert (F4 : fit 1 (3 / 4) = 0%Z) by (apply fit_iff; cbn; lra).
  pose (zi := fun i d => fit 1 (ac_co i d)). assert (Z : forall i d, (zi i d = 0 \/ zi i d = 2)%Z) by (intros i d; unfold zi, ac_co; destruct i as [|[[p|p|]|[p|p|]|]]; destruct d as [|[|d]]; cbn [v2]; auto).
  destruct (bounding_spec 2 (map ac_co [1; 2]%N)) as (b & Eb & Hok & Hin & Hmin); [discriminate|].
  destruct (C60_accurate_partial 2 ac_pts ac_co 1 zi [1; 2]%N [1; 2; 3]%N b ltac:(lia) ltac:(lra)) as (t & m & Ht & Em & H).
  - cbn [In]. tauto.
  - intros i Hi. split; [destruct Hi as [<-|[<-|[<-|[]]]]; reflexivity|]. unfold index_at. rewrite (proj2 (forallb_seq _ _)); [reflexivity|]. intros d Hd. apply in64_iff. change (fit 1 (ac_co i d)) with (zi i d). destruct (Z i d) as [-> | ->]; lia.
  - intros i d _ _. destruct (Z i d) as [-> | ->]; lia.
  - exact Eb.
  - exists b, t, m. split; [exact Eb|]. split; [exact Ht|]. split; [exact Em|]. destruct (H (fun i => (i =? 3)%N) (mksph (v2 (1 / 4) (3 / 4)) (1 / 4))) as (v & Ev & Hv & _). rewrite Ev. f_equal. apply Hv. exists 1%N, 3%N.
    split; [now left|]. pose proof (Hin (ac_co 1) ltac:(cbn; auto)) as X1. pose proof (Hin (ac_co 2) ltac:(cbn; auto)) as X2. split; [|split; [|split; [cbn; auto|split; [|reflexivity]]]].
    + intros d Hd. specialize (X1 d Hd). specialize (X2 d Hd). unfold zi. destruct d as [|[|d]]; [| |lia]; cbn [ac_co v2] in *; rewrite F1; cbn; lra.
    + exists (v2 (1 / 4) (3 / 4)). split; [intros d Hd; unfold zi; destruct d as [|[|d]]; [| |lia]; cbn [ac_co v2]; rewrite F1; cbn; lra|]. split; [cbn; lra|]. rewrite dist2_2. cbn. lra.
    + intros d Hd. unfold zi. destruct d as [|[|d]]; [| |lia]; cbn [ac_co v2]; congruence.
Qed.
