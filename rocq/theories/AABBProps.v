(** C38: the tree of grid cells. *)
From Verif Require Import Outcome ListUtil GeoModel GeoSpec GeoProofs GeoCirc GeoBox AABBModel AABBProofs AABBTop.
From Coq Require Import Lia Psatz.
Local Open Scope R_scope.

(** [in_cell D w i p]: i*w <= p <= (i+1)*w in every dimension; [meets_cell D w s i]: the ball and the cell share a point;
    [same D i j]: i = j in every dimension (AABBTop.v). *)

(** The checker built from the bounds [b] and the grid cells [cells]: building returns, and a sphere is said to intersect
    exactly if it shares a point with one of the cells that are not cut off by [b].  Missing: cells that only touch the
    upper or lower border of [b] are dropped, and boxes other than grid cells are not covered; see the refutations. *)
Theorem C38_grid_partial : forall D w b cells, (0 < D)%nat -> 0 < w ->
  (forall i, In i cells -> forall d, (d < D)%nat -> (- 2 ^ 63 <= i d < 2 ^ 63 - 1)%Z) ->
  exists t, returns (fun f => checker_new D w f b cells) t /\
  (forall s, node_meets D t s = true <-> exists i, In i cells /\
     (forall d, (d < D)%nat -> b_lo b d < IZR (i d + 1) * w /\ IZR (i d) * w < b_hi b d) /\ meets_cell D w s i) /\
  (forall s, exists l, node_cells D w t s = Val l /\
     (forall j, In j l -> exists i, In i cells /\ same D j i /\
        (forall d, (d < D)%nat -> b_lo b d < IZR (i d + 1) * w /\ IZR (i d) * w < b_hi b d) /\ meets_cell D w s i) /\
     (forall i, In i cells -> (forall d, (d < D)%nat -> b_lo b d < IZR (i d + 1) * w /\ IZR (i d) * w < b_hi b d) ->
        meets_cell D w s i -> exists j, In j l /\ same D j i)).
Proof. intros D w b cells HD Hw. exact (checker_spec D w HD Hw b cells). Qed.
Print Assumptions C38_grid_partial.

(** The use in the triangulator: [b] contains the points, the cells are those of the points, and no point has a
    coordinate that is both the upper bound and a grid line.  Then the answer is exact for the cells. *)
Theorem C38_points_partial : forall D w b ps cells, (0 < D)%nat -> 0 < w ->
  (forall p, In p ps -> in_box D b p) -> Forall2 (fun p i => index_at D w p = Val i) ps cells ->
  (forall i, In i cells -> forall d, (d < D)%nat -> (i d < 2 ^ 63 - 1)%Z) ->
  (forall p, In p ps -> forall d z, (d < D)%nat -> ~ (p d = b_hi b d /\ p d = IZR z * w)) ->
  exists t, returns (fun f => checker_new D w f b cells) t /\
  forall s, node_meets D t s = true <-> exists i, In i cells /\ meets_cell D w s i.
Proof.
  intros D w b ps cells HD Hw Hb Hc Hi Hg.
  assert (HI : forall i, In i cells -> exists p, In p ps /\ index_at D w p = Val i).
  { clear - Hc. induction Hc as [|p i ps cells E _ IH]; intros j Hj; [easy|]. destruct Hj as [<-|Hj]; [exists p; split; [now left|exact E]|].
    destruct (IH j Hj) as (q & Hq & Eq). exists q. split; [now right|exact Eq]. }
  destruct (C38_grid_partial D w b cells HD Hw) as (t & Ht & Hm & _).
  { intros i Hin d Hd. destruct (HI i Hin) as (p & _ & E). specialize (Hi i Hin d Hd). unfold index_at in E.
    destruct (forallb (fun d => in64 (fit w (p d))) (seq 0 D)) eqn:F; [|discriminate]. injection E as <-.
    rewrite forallb_seq in F. pose proof (proj1 (in64_iff _) (F d Hd)). lia. }
  exists t. split; [exact Ht|]. intros s. rewrite Hm. split; [intros (i & H1 & _ & H2); now exists i|].
  intros (i & H1 & H2). exists i. split; [exact H1|]. split; [|exact H2].
  destruct (HI i H1) as (p & Hp & E). apply (proj2 (points_reach D w b p i (Hb p Hp) (index_at_val D w p i E Hw))).
  intros d Hd. now apply Hg.
Qed.
Print Assumptions C38_points_partial.

Definition w2 (x y : R) : vec := fun d => match d with O => x | _ => y end.
Definition z2 (x y : Z) : nat -> Z := fun d => match d with O => x | _ => y end.
Lemma fit_val : forall w x z, 0 < w -> IZR z * w <= x < IZR (z + 1) * w -> fit w x = z.
Proof. intros. now apply fit_iff. Qed.
(** Three points in the box [1/2,5/2]x[1/2,5/2] with cell width 1. *)
Example C38_case :
  let b := mkbox (w2 (1 / 2) (1 / 2)) (w2 (5 / 2) (5 / 2)) in
  let ps := [w2 (1 / 2) 1; w2 (3 / 2) (1 / 2); w2 (5 / 2) (5 / 2)]%list in
  exists cells, (forall p, In p ps -> in_box 2 b p) /\ Forall2 (fun p i => index_at 2 1 p = Val i) ps cells /\
  (forall i, In i cells -> forall d, (d < 2)%nat -> (i d < 2 ^ 63 - 1)%Z) /\
  (forall p, In p ps -> forall d z, (d < 2)%nat -> ~ (p d = b_hi b d /\ p d = IZR z * 1)).
Proof.
  cbv zeta.
  assert (HI : forall x y a b, IZR a * 1 <= x < IZR (a + 1) * 1 -> IZR b * 1 <= y < IZR (b + 1) * 1 -> (0 <= a < 10)%Z -> (0 <= b < 10)%Z ->
            exists i, index_at 2 1 (w2 x y) = Val i /\ forall d, (i d < 2 ^ 63 - 1)%Z).
  { intros x y a b Ha Hb A B. unfold index_at. cbn [seq forallb w2].
    rewrite (fit_val 1 x a ltac:(lra) Ha), (fit_val 1 y b ltac:(lra) Hb).
    rewrite (proj2 (in64_iff a)), (proj2 (in64_iff b)) by lia. cbn [andb]. eexists. split; [reflexivity|].
    intros [|d]; cbn [w2]; [rewrite (fit_val 1 x a ltac:(lra) Ha)|rewrite (fit_val 1 y b ltac:(lra) Hb)]; lia. }
  destruct (HI (1 / 2) 1 0%Z 1%Z) as (i0 & E0 & L0); [cbn; lra|cbn; lra|lia|lia|].
  destruct (HI (3 / 2) (1 / 2) 1%Z 0%Z) as (i1 & E1 & L1); [cbn; lra|cbn; lra|lia|lia|].
  destruct (HI (5 / 2) (5 / 2) 2%Z 2%Z) as (i2 & E2 & L2); [cbn; lra|cbn; lra|lia|lia|].
  exists [i0; i1; i2]%list. split; [|split; [|split]].
  - intros p [<-|[<-|[<-|[]]]] [|[|d]] Hd; cbn; try lra; lia.
  - repeat (apply Forall2_cons; [assumption|]). apply Forall2_nil.
  - intros i [<-|[<-|[<-|[]]]] d _; auto.
  - intros p [<-|[<-|[<-|[]]]] [|[|d]] z Hd [H1 H2]; cbn in H1, H2; try lra; try lia.
    + assert (H3 : IZR (2 * z) = 5) by (rewrite mult_IZR; lra). apply eq_IZR in H3. lia.
    + assert (H3 : IZR (2 * z) = 5) by (rewrite mult_IZR; lra). apply eq_IZR in H3. lia.
Qed.

(** The full claim is false for grid cells: the box [0,1]x[0,1], the cells of its corners (0,0) and (1,1), and a ball
    inside the cell of the point (1,1). *)
Theorem C38_grid_refuted : exists D w b ps cells t s, (0 < D)%nat /\ 0 < w /\ (forall p, In p ps -> in_box D b p) /\
  Forall2 (fun p i => forall d, (d < D)%nat -> IZR (i d) * w <= p d < IZR (i d + 1) * w) ps cells /\
  returns (fun f => checker_new D w f b cells) t /\
  (exists i, In i cells /\ meets_cell D w s i) /\ node_meets D t s = false /\ node_cells D w t s = Val []%list.
Proof.
  set (b := mkbox (w2 0 0) (w2 1 1)). set (cells := [z2 0 0; z2 1 1]%list).
  destruct (C38_grid_partial 2 1 b cells ltac:(lia) ltac:(lra)) as (t & Ht & Hm & Hl).
  { intros i [<-|[<-|[]]] [|[|d]] Hd; cbn; lia. }
  set (s := mksph (w2 (3 / 2) (3 / 2)) (1 / 4)).
  assert (No : ~ exists i, In i cells /\ (forall d, (d < 2)%nat -> b_lo b d < IZR (i d + 1) * 1 /\ IZR (i d) * 1 < b_hi b d) /\ meets_cell 2 1 s i).
  { intros (i & [<-|[<-|[]]] & Hr & p & Hp & _ & Hb).
    - specialize (Hp 0%nat ltac:(lia)). rewrite dist2_2 in Hb. cbn [s sp_c sp_r w2] in Hb. cbn in Hp.
      pose proof (sqr_nonneg (p 1%nat - 3 / 2)). assert (A : - (1 / 4) <= p 0%nat - 3 / 2 <= 1 / 4) by (apply sqr_le; lra). lra.
    - specialize (Hr 0%nat ltac:(lia)). cbn in Hr. lra. }
  exists 2%nat, 1, b, [w2 0 0; w2 1 1]%list, cells, t, s. split; [lia|]. split; [lra|]. split; [|split; [|split; [exact Ht|split; [|split]]]].
  - intros p [<-|[<-|[]]] [|[|d]] Hd; cbn; lra.
  - repeat apply Forall2_cons; [intros [|[|d]] Hd; cbn; lra|intros [|[|d]] Hd; cbn; lra|apply Forall2_nil].
  - exists (z2 1 1). split; [right; now left|]. exists (w2 (3 / 2) (3 / 2)). split; [intros [|[|d]] Hd; cbn; lra|].
    split; [cbn; lra|]. rewrite dist2_2. cbn. lra.
  - destruct (node_meets 2 t s) eqn:E; [|reflexivity]. apply Hm in E. contradiction.
  - destruct (Hl s) as (l & -> & H & _). destruct l as [|j l]; [reflexivity|]. exfalso.
    destruct (H j (or_introl eq_refl)) as (i & H1 & _ & H2 & H3). apply No. now exists i.
Qed.
Print Assumptions C38_grid_refuted.

(** Boxes other than grid cells: inserting a box inside an inserted box writes children[-1]. *)
Theorem C38_nested_refuted : exists D w b c1 c2 t1, (0 < D)%nat /\ 0 < w /\ box_ok D c1 /\ box_ok D c2 /\
  (forall p, in_box D c2 p -> in_box D c1 p) /\ (forall p, in_box D c1 p -> in_box D b p) /\
  returns (fun f => tree_insert D w f (tree_new w b) c1) (t1, true) /\
  undefined (fun f => tree_insert D w f t1 c2).
Proof.
  set (b := mkbox (w2 0 0) (w2 4 4)). set (c1 := mkbox (w2 0 0) (w2 2 2)). set (c2 := mkbox (w2 0 0) (w2 1 1)).
  assert (Eb : box_has_box 2 (round_box 1 b) c1 = true /\ box_eqb 2 (round_box 1 b) c1 = false).
  { assert (F0 : Int_part (0 / 1) = 0%Z) by (change (fit 1 0 = 0%Z); apply fit_val; cbn; lra).
    assert (F4 : Int_part (- (4 / 1)) = (-4)%Z). { replace (- (4 / 1)) with (-4 / 1) by field. change (fit 1 (-4) = (-4)%Z). apply fit_val; cbn; lra. }
    assert (E : forall d, b_lo (round_box 1 b) d = 0 /\ b_hi (round_box 1 b) d = 4).
    { intros [|d]; unfold round_box; cbn [b_lo b_hi b w2]; rewrite F0, F4; cbn; lra. }
    split.
    - apply box_has_box_spec; [intros [|[|d]] Hd; cbn; lra|]. intros p Hp d Hd. destruct (E d) as [-> ->]. specialize (Hp d Hd). destruct d; cbn in Hp; lra.
    - unfold box_eqb. cbn [seq forallb]. destruct (E 0%nat) as [_ ->]. rewrite (reqb_false 4 (b_hi c1 0%nat)) by (cbn; lra). cbn [andb]. now rewrite Bool.andb_false_r. }
  destruct Eb as [Eb1 Eb2].
  exists 2%nat, 1, b, c1, c2, (Node (round_box 1 b) false [Node c1 true []])%list. split; [lia|]. split; [lra|].
  split; [intros [|[|d]] Hd; cbn; lra|]. split; [intros [|[|d]] Hd; cbn; lra|].
  split; [intros p Hp d Hd; specialize (Hp d Hd); destruct d; cbn in *; lra|].
  split; [intros p Hp d Hd; specialize (Hp d Hd); destruct d; cbn in *; lra|].
  assert (H2 : box_has_box 2 c1 c2 = true).
  { apply box_has_box_spec; [intros [|[|d]] Hd; cbn; lra|]. intros p Hp d Hd. specialize (Hp d Hd). destruct d; cbn in *; lra. }
  assert (H3 : box_eqb 2 c1 c2 = false).
  { unfold box_eqb. cbn [seq forallb]. rewrite (reqb_false (b_hi c1 0%nat) (b_hi c2 0%nat)) by (cbn; lra). cbn [andb]. now rewrite Bool.andb_false_r. }
  assert (H4 : box_has_box 2 (round_box 1 b) c2 = true).
  { pose proof (proj1 (box_has_box_spec 2 _ c1 ltac:(intros [|[|d]] Hd; cbn; lra)) Eb1) as G1.
    apply box_has_box_spec; [intros [|[|d]] Hd; cbn; lra|]. intros p Hp. apply G1.
    exact (proj1 (box_has_box_spec 2 _ c2 ltac:(intros [|[|d]] Hd; cbn; lra)) H2 p Hp). }
  assert (H5 : box_eqb 2 (round_box 1 b) c2 = false).
  { destruct (box_eqb 2 (round_box 1 b) c2) eqn:E; [|reflexivity]. exfalso. unfold box_eqb in E. apply Bool.andb_true_iff in E as [_ E].
    rewrite forallb_seq in E. specialize (E 0%nat ltac:(lia)). apply reqb_iff in E.
    pose proof (proj1 (box_has_box_spec 2 _ c1 ltac:(intros [|[|d]] Hd; cbn; lra)) Eb1 (w2 2 2)) as G.
    assert (G2 : in_box 2 c1 (w2 2 2)) by (intros [|[|d]] Hd; cbn; lra). specialize (G G2 0%nat ltac:(lia)). rewrite E in G. cbn in G. lra. }
  split.
  - exists 1%nat. intros f Hf. destruct f as [|f]; [lia|]. unfold tree_insert, tree_new. cbn [node_insert n_box n_leaf n_ch List.length].
    rewrite Eb1, Eb2. cbn [negb first_child app]. reflexivity.
  - exists 2%nat. intros f Hf. destruct f as [|[|f]]; [lia|lia|]. pose proof (insert_in_leaf 2 1 (Node c1 true []) c2 f eq_refl eq_refl H2 H3) as I.
    unfold tree_insert in *. set (g := S f) in *. clearbody g. cbn [node_insert n_box n_leaf n_ch]. rewrite H4, H5.
    cbn [negb first_child]. unfold node_has. cbn [n_box]. rewrite H2. cbn [orb nth_error]. rewrite I. reflexivity.
Qed.
Print Assumptions C38_nested_refuted.
