(** The grid intersection checker: the tree over the boxes of grid cells. *)
From Verif Require Import Outcome ListUtil GeoModel GeoSpec GeoProofs GeoBox AABBModel AABBProofs.
From Coq Require Import Lia Psatz.
Local Open Scope R_scope.

Section Tree.
Variables (D : nat) (w : R).
Hypothesis HD : (0 < D)%nat.
Hypothesis Hw : 0 < w.

(** The box [c] lies in the box [b]. *)
Definition sub_box (c b : box) : Prop := forall p, in_box D c p -> in_box D b p.
Definition same (i j : nat -> Z) : Prop := forall d, (d < D)%nat -> i d = j d.
Definition rlo (b : box) (d : nat) : Z := Int_part (b_lo b d / w).
Definition rhi (b : box) (d : nat) : Z := (- Int_part (- (b_hi b d / w)))%Z.
Lemma round_al : forall b, al D w (round_box w b) (rlo b) (rhi b).
Proof. intros b d Hd. split; reflexivity. Qed.
Lemma new_wf : forall b, wf D w (rlo b) (rhi b) (tree_new w b).
Proof. intros b. apply wf_few; [apply round_al|intros ? []|cbn; lia]. Qed.
Lemma bounds_cellb : forall i c, bounds_of D w i = Val c -> cellb D w c i.
Proof. intros i c H d Hd. exact (bounds_of_val D w i c H d). Qed.
Lemma cellb_ok : forall i c, cellb D w c i -> box_ok D c.
Proof. intros i c H. apply (al_ok D w Hw c i _ H). intros; cbv beta; lia. Qed.
Lemma within_sub : forall b i c, cellb D w c i -> (within D (rlo b) (rhi b) i <-> sub_box c (round_box w b)).
Proof.
  intros b i c Hc. rewrite <- (cell_in D w Hw _ _ _ c i (round_al b) Hc). apply box_has_box_spec. exact (cellb_ok i c Hc).
Qed.
Lemma within_dec : forall a b i, within D a b i \/ ~ within D a b i.
Proof.
  intros a b i. destruct (forallb (fun d => ((a d <=? i d) && (i d <? b d))%Z) (seq 0 D)) eqn:E.
  - left. rewrite forallb_seq in E. intros d Hd. specialize (E d Hd). lia.
  - right. intros H. assert (forallb (fun d => ((a d <=? i d) && (i d <? b d))%Z) (seq 0 D) = true); [|congruence].
    apply forallb_seq. intros d Hd. specialize (H d Hd). lia.
Qed.

(** One insertion of a cell into a tree over cells. *)
Lemma insert_cell : forall a b t i c, wf D w a b t -> bounds_of D w i = Val c -> exists t' ok,
  (forall f, (2 * size D a b + 2 <= f)%nat -> tree_insert D w f t c = Val (t', ok)) /\ wf D w a b t' /\
  (ok = true <-> within D a b i) /\
  forall j, has D w t' j <-> has D w t j \/ (within D a b i /\ same j i).
Proof.
  intros a b t i c Ht Hc. apply bounds_cellb in Hc. destruct (within_dec a b i) as [Hin|Hout].
  - destruct (insert_inside D w Hw a b t c i (2 * size D a b + 2) Ht Hc Hin (le_n _)) as (t' & Hr & Ht' & _ & Hh).
    exists t', true. split.
    + intros f Hf. unfold tree_insert. destruct (insert_inside D w Hw a b t c i f Ht Hc Hin Hf) as (t2 & Hr2 & _).
      (* more fuel gives the same answer *)
      rewrite Hr2. assert (M : forall f n x v, node_insert D w f n x = Val v -> forall g, (f <= g)%nat -> node_insert D w g n x = Val v); [|].
      { clear. assert (Fold : forall f g (cs : list node) m v, (forall n x v, node_insert D w f n x = Val v -> node_insert D w g n x = Val v) ->
           fold_left (fun r o => rbind r (fun m => rmap fst (node_insert D w f m o))) cs m = Val v ->
           fold_left (fun r o => rbind r (fun m => rmap fst (node_insert D w g m o))) cs m = Val v).
        { intros f g cs. induction cs as [|c t IH]; intros m v H E; [exact E|]. cbn [fold_left] in *.
          destruct m as [m| |]; cbn [rbind] in *.
          - destruct (node_insert D w f m c) as [x| |] eqn:E1; cbn [rmap] in *.
            + rewrite (H _ _ _ E1). cbn [rmap]. now apply IH.
            + exfalso. clear - E. induction t; [discriminate|now apply IHt].
            + exfalso. clear - E. induction t; [discriminate|now apply IHt].
          - exfalso. clear - E. induction t; [discriminate|now apply IHt].
          - exfalso. clear - E. induction t; [discriminate|now apply IHt]. }
        induction f as [|f IH]; intros n x v H g Hg; [discriminate|]. destruct g as [|g]; [lia|].
        assert (IHg : forall n x v, node_insert D w f n x = Val v -> node_insert D w g n x = Val v).
        { intros n2 x2 v2 H2. now apply (IH n2 x2 v2 H2 g ltac:(lia)). }
        cbn [node_insert] in H |- *. destruct (negb _); [exact H|]. destruct (box_eqb _ _ _); [exact H|].
        destruct (first_child _ _ _) as [k|].
        - destruct (nth_error _ _) as [c|]; [|discriminate]. destruct (node_insert D w f c x) as [[c' ok]| |] eqn:E1; try discriminate.
          rewrite (IHg _ _ _ E1). cbn [rbind] in *. destruct ok; [exact H|].
          destruct (Nat.eqb _ _); [|discriminate].
          destruct (fold_left _ (n_ch c') _) as [m| |] eqn:E2; try discriminate.
          rewrite (Fold f g _ _ _ IHg E2). cbn [rbind] in *. destruct (node_insert D w f m x) as [r| |] eqn:E3; try discriminate.
          now rewrite (IHg _ _ _ E3).
        - destruct (n_leaf n); [exact H|]. destruct (Nat.ltb _ _); [exact H|]. destruct (Nat.eqb _ _); [|discriminate].
          destruct (fold_left _ (n_ch n) _) as [m| |] eqn:E2; try discriminate.
          rewrite (Fold f g _ _ _ IHg E2). cbn [rbind] in *. now apply IHg. }
      rewrite (M _ _ _ _ Hr f Hf) in Hr2. congruence.
    + split; [exact Ht'|]. split; [tauto|]. intros j. rewrite Hh. unfold same. tauto.
  - exists t, false. split.
    + intros f Hf. destruct f as [|f]; [lia|]. exact (insert_outside D w Hw a b t c i f Ht Hc Hout).
    + split; [exact Ht|]. split; [split; [discriminate|tauto]|]. intros j. tauto.
Qed.

Lemma checker_wf : forall a b cells t0, wf D w a b t0 -> (forall i, In i cells -> exists c, bounds_of D w i = Val c) ->
  exists t, (forall f, (2 * size D a b + 2 <= f)%nat ->
    fold_left (fun r i => rbind r (fun t => rbind (bounds_of D w i) (fun c => rmap fst (tree_insert D w f t c)))) cells (Val t0) = Val t) /\
  wf D w a b t /\ forall j, has D w t j <-> has D w t0 j \/ exists i, In i cells /\ within D a b i /\ same j i.
Proof.
  intros a b cells. induction cells as [|i u IH]; intros t0 H0 Hc.
  - exists t0. split; [reflexivity|]. split; [exact H0|]. intros j. split; [tauto|]. intros [H|(i & [] & _)]; exact H.
  - destruct (Hc i (or_introl eq_refl)) as (c & Ec). destruct (insert_cell a b t0 i c H0 Ec) as (t1 & ok & Hr & H1 & _ & Hh1).
    destruct (IH t1 H1) as (t & Hr2 & H2 & Hh2); [intros k Hk; apply Hc; now right|].
    exists t. split; [|split; [exact H2|]].
    + intros f Hf. cbn [fold_left rbind]. rewrite Ec. cbn [rbind]. rewrite (Hr f Hf). cbn [rmap fst]. now apply Hr2.
    + intros j. rewrite Hh2, Hh1. split.
      * intros [[H|[H3 H4]]|(k & Hk & H)]; [now left| |].
        { right. exists i. split; [now left|]. split; assumption. }
        { right. exists k. split; [now right|exact H]. }
      * intros [H|(k & [<-|Hk] & H)]; [tauto|tauto|]. right. now exists k.
Qed.

Lemma has_meets : forall t s a b, wf D w a b t -> (node_meets D t s = true <->
  exists i c, has D w t i /\ cellb D w c i /\ exists p, in_box D c p /\ in_ball D s p).
Proof.
  intros t s a b H. rewrite (meets_leaves D w Hw HD a b t s H). split.
  - intros (y & Hy & Hm). destruct (wf_leaves D w a b t H y Hy) as (i & Hi & _). exists i, y. split; [now exists y|]. split; [exact Hi|].
    now apply box_meets_spec; [apply (cellb_ok i y Hi)| |].
  - intros (i & c & (y & Hy & Hyi) & Hc & p & Hp & Hb). exists y. split; [exact Hy|].
    apply box_meets_spec; [apply (cellb_ok i y Hyi)|exact HD|]. exists p. split; [|exact Hb].
    intros d Hd. specialize (Hp d Hd). destruct (Hc d Hd) as [E1 E2]. destruct (Hyi d Hd) as [E3 E4]. rewrite E3, E4. now rewrite E1, E2 in Hp.
Qed.

(** intersectingCells *)
Lemma fold_cells : forall s (ch : list node) (P : node -> list (nat -> Z) -> Prop) l0,
  (forall c, In c ch -> exists l, node_cells D w c s = Val l /\ P c l) ->
  exists l, fold_left (fun r c => rbind r (fun l => rmap (fun l2 => (l ++ l2)%list) (node_cells D w c s))) ch (Val l0) = Val l /\
  (forall j, In j l -> In j l0 \/ exists c lc, In c ch /\ P c lc /\ In j lc) /\
  (forall j, In j l0 -> In j l) /\
  (forall c, In c ch -> exists lc, P c lc /\ forall j, In j lc -> In j l).
Proof.
  intros s ch P. induction ch as [|c t IH]; intros l0 H.
  - exists l0. split; [reflexivity|]. split; [tauto|]. split; [tauto|]. intros c [].
  - destruct (H c (or_introl eq_refl)) as (lc & Ec & HP). destruct (IH (l0 ++ lc)%list) as (l & El & H1 & H2 & H3); [intros e He; apply H; now right|].
    exists l. cbn [fold_left rbind]. rewrite Ec. cbn [rmap]. split; [exact El|]. split; [|split].
    + intros j Hj. apply H1 in Hj as [Hj|(e & le & He & HPe & Hj)].
      * apply in_app_or in Hj as [Hj|Hj]; [now left|]. right. exists c, lc. split; [now left|]. split; assumption.
      * right. exists e, le. split; [now right|]. split; assumption.
    + intros j Hj. apply H2, in_or_app. now left.
    + intros e [<-|He].
      * exists lc. split; [exact HP|]. intros j Hj. apply H2, in_or_app. now right.
      * now apply H3.
Qed.
Lemma leaf_cell : forall y i (s : sphere), cellb D w y i -> (forall d, (d < D)%nat -> in64 (i d) = true) ->
  exists j, index_at D w (fun d => 1 / 2 * (b_lo y d + b_hi y d)) = Val j /\ cellb D w y j.
Proof.
  intros y i s Hy Hi. destruct (index_at_ok D w (fun d => 1 / 2 * (b_lo y d + b_hi y d)) i Hw) as (j & Hj & Ej).
  - intros d Hd. split; [now apply Hi|]. destruct (Hy d Hd) as [-> ->]. rewrite plus_IZR. lra.
  - exists j. split; [exact Hj|]. apply (cellb_ext D w y i j Hy). intros d Hd. symmetry. now apply Ej.
Qed.
Lemma cells_ok : forall s a b t, wf D w a b t -> (forall j, has D w t j -> forall d, (d < D)%nat -> in64 (j d) = true) ->
  exists l, node_cells D w t s = Val l /\
  (forall j, In j l -> exists y, In y (leaves t) /\ cellb D w y j /\ box_meets D y s = true) /\
  (forall y, In y (leaves t) -> box_meets D y s = true -> exists j, In j l /\ cellb D w y j).
Proof.
  intros s a b t H. assert (Hup : forall y, In y (leaves t) -> box_meets D y s = true -> box_meets D (n_box t) s = true).
  { intros y Hy Hm. destruct (wf_leaves D w a b t H y Hy) as (i & Hi & Hin). exact (meets_up D w Hw HD _ a b y i s (wf_al D w _ _ _ H) Hi Hin Hm). }
  set (P := fun c l => (forall j, In j l -> exists y, In y (leaves c) /\ cellb D w y j /\ box_meets D y s = true) /\
                       (forall y, In y (leaves c) -> box_meets D y s = true -> exists j, In j l /\ cellb D w y j)).
  assert (Leaf : forall x a, cellb D w x a -> (forall d, (d < D)%nat -> in64 (a d) = true) -> exists l, node_cells D w (Node x true []) s = Val l /\ P (Node x true []) l).
  { intros x a0 Hx Ha. cbn [node_cells]. destruct (box_meets D x s) eqn:E.
    - destruct (leaf_cell x a0 s Hx Ha) as (j & Hj & Hc). rewrite Hj. exists [j]. split; [reflexivity|]. split.
      + intros k [<-|[]]. exists x. repeat split; [now left|now apply Hc|now apply Hc|exact E].
      + intros y [<-|[]] _. exists j. split; [now left|exact Hc].
    - exists []. split; [reflexivity|]. split; [intros j []|]. intros y [<-|[]] Hm. congruence. }
  assert (Inner : forall x ch, (forall y, In y (flat_map leaves ch) -> box_meets D y s = true -> box_meets D x s = true) ->
    (forall c, In c ch -> exists l, node_cells D w c s = Val l /\ P c l) -> exists l, node_cells D w (Node x false ch) s = Val l /\ P (Node x false ch) l).
  { intros x ch Hx Hch. cbn [node_cells]. destruct (box_meets D x s) eqn:E.
    - destruct (fold_cells s ch P [] Hch) as (l & El & H1 & _ & H3). exists l. split; [exact El|]. split.
      + intros j Hj. apply H1 in Hj as [[]|(c & lc & Hc & [HP _] & Hj)]. destruct (HP j Hj) as (y & Hy & Hcy & Hm).
        exists y. split; [cbn [leaves]; apply in_flat_map; now exists c|]. split; assumption.
      + intros y Hy Hm. cbn [leaves] in Hy. apply in_flat_map in Hy as (c & Hc & Hy). destruct (H3 c Hc) as (lc & [_ HP] & Hl).
        destruct (HP y Hy Hm) as (j & Hj & Hcy). exists j. split; [now apply Hl|exact Hcy].
    - exists []. split; [reflexivity|]. split; [intros j []|]. intros y Hy Hm. cbn [leaves] in Hy. specialize (Hx y Hy Hm). congruence. }
  change ((forall j, has D w t j -> forall d, (d < D)%nat -> in64 (j d) = true) -> exists l, node_cells D w t s = Val l /\ P t l).
  induction H as [a b x Hx Hb|a b x ch Hx Hch Hl|a b x ch Hx Hex Hlt Hl Hch IH]; intros Hj.
  - apply (Leaf x a Hx). apply Hj. now apply has_leaf.
  - apply Inner; [exact Hup|]. intros c Hc. destruct (Hch c Hc) as (i & y & -> & Hy & _). apply (Leaf y i Hy).
    apply Hj. apply has_inner. exists (Node y true []). split; [exact Hc|]. now apply has_leaf.
  - apply Inner; [exact Hup|]. intros c Hc. apply In_nth_error in Hc as (k & Hk). apply (IH k c Hk).
    + intros y Hy Hm. destruct (wf_leaves D w _ _ c (Hch k c Hk) y Hy) as (i & Hi & Hin).
      exact (meets_up D w Hw HD _ _ _ y i s (wf_al D w _ _ _ (Hch k c Hk)) Hi Hin Hm).
    + intros j Hhj. apply Hj. apply has_inner. exists c. split; [now apply (nth_error_In _ k)|exact Hhj].
Qed.

(** ** Statements without the helpers above *)
Lemma within_iff : forall b i, within D (rlo b) (rhi b) i <->
  forall d, (d < D)%nat -> b_lo b d < IZR (i d + 1) * w /\ IZR (i d) * w < b_hi b d.
Proof.
  assert (Q : forall x z, (Int_part (x / w) <= z)%Z <-> x < IZR (z + 1) * w).
  { intros x z. destruct (base_Int_part (x / w)) as [B1 B2]. assert (Ex : x = x / w * w) by (field; lra). split; intros H.
    - apply IZR_le in H. rewrite plus_IZR. set (q := x / w) in *. clearbody q. rewrite Ex. apply Rmult_lt_compat_r; lra.
    - set (q := x / w) in *. clearbody q. rewrite Ex in H. apply Rmult_lt_reg_r in H; [|exact Hw].
      assert (L : IZR (Int_part q) < IZR (z + 1)) by lra. apply lt_IZR in L. lia. }
  intros b i. unfold within, rlo, rhi.
  assert (Q2 : forall x z, (z < - Int_part (- (x / w)))%Z <-> IZR z * w < x).
  { intros x z. replace (- (x / w)) with (- x / w) by (field; lra). specialize (Q (- x) (- z - 1)%Z).
    replace (- z - 1 + 1)%Z with (- z)%Z in Q by lia. rewrite opp_IZR in Q. split; intros H.
    - assert (- x < - IZR z * w) by (apply Q; lia). lra.
    - assert (Int_part (- x / w) <= - z - 1)%Z by (apply Q; lra). lia. }
  split; intros H d Hd; specialize (H d Hd); [split; [apply Q|apply Q2]; lia|]. destruct H as [H1 H2]. apply Q in H1. apply Q2 in H2. lia.
Qed.

(** The points of the cell [i]. *)
Definition in_cell (i : nat -> Z) (p : vec) : Prop := forall d, (d < D)%nat -> IZR (i d) * w <= p d <= IZR (i d + 1) * w.
Definition meets_cell (s : sphere) (i : nat -> Z) : Prop := exists p, in_cell i p /\ in_ball D s p.
(** The cell reaches into the inside of the box in every dimension. *)
Definition reaches (b : box) (i : nat -> Z) : Prop :=
  forall d, (d < D)%nat -> b_lo b d < IZR (i d + 1) * w /\ IZR (i d) * w < b_hi b d.
Definition index_ok (i : nat -> Z) : Prop := forall d, (d < D)%nat -> (- 2 ^ 63 <= i d < 2 ^ 63 - 1)%Z.
Lemma index_ok_bounds : forall i, index_ok i -> exists c, bounds_of D w i = Val c.
Proof.
  intros i H. unfold bounds_of. rewrite (proj2 (forallb_seq _ _)); [eexists; reflexivity|].
  intros d Hd. specialize (H d Hd). apply in64_iff. lia.
Qed.
Lemma cellb_in : forall c i p, cellb D w c i -> (in_box D c p <-> in_cell i p).
Proof.
  intros c i p Hc. unfold in_box, in_cell. split; intros H d Hd; specialize (H d Hd); destruct (Hc d Hd) as [E1 E2]; cbv beta in *;
    rewrite E1, E2 in *; exact H.
Qed.
Lemma cellb_exists : forall i, cellb D w (mkbox (fun d => IZR (i d) * w) (fun d => IZR (i d + 1) * w)) i.
Proof. intros i d Hd. easy. Qed.
Lemma same_in : forall i j p, same i j -> (in_cell i p <-> in_cell j p).
Proof. intros i j p E. unfold in_cell. split; intros H d Hd; specialize (H d Hd); specialize (E d Hd); rewrite E in *; exact H. Qed.
Lemma same_sym : forall i j, same i j -> same j i. Proof. intros i j H d Hd. symmetry. now apply H. Qed.

Lemma checker_spec : forall b cells, (forall i, In i cells -> index_ok i) ->
  exists t, returns (fun f => checker_new D w f b cells) t /\
  (forall s, node_meets D t s = true <-> exists i, In i cells /\ reaches b i /\ meets_cell s i) /\
  (forall s, exists l, node_cells D w t s = Val l /\
     (forall j, In j l -> exists i, In i cells /\ same j i /\ reaches b i /\ meets_cell s i) /\
     (forall i, In i cells -> reaches b i -> meets_cell s i -> exists j, In j l /\ same j i)).
Proof.
  intros b cells Hc. destruct (checker_wf (rlo b) (rhi b) cells (tree_new w b) (new_wf b)) as (t & Hr & Ht & Hh).
  { intros i Hi. apply index_ok_bounds, Hc, Hi. }
  assert (Hhas : forall j, has D w t j <-> exists i, In i cells /\ reaches b i /\ same j i).
  { intros j. rewrite Hh. unfold tree_new. rewrite has_inner. split.
    - intros [(c & [] & _)|(i & Hi & Hw1 & Hs)]. exists i. split; [exact Hi|]. split; [exact (proj1 (within_iff b i) Hw1)|exact Hs].
    - intros (i & Hi & Hw1 & Hs). right. exists i. split; [exact Hi|]. split; [exact (proj2 (within_iff b i) Hw1)|exact Hs]. }
  exists t. split; [exists (2 * size D (rlo b) (rhi b) + 2)%nat; exact Hr|]. split.
  - intros s. rewrite (has_meets t s _ _ Ht). split.
    + intros (j & c & Hj & Hcj & p & Hp & Hb). apply Hhas in Hj as (i & Hi & Hre & Hs). exists i. split; [exact Hi|]. split; [exact Hre|].
      exists p. split; [|exact Hb]. apply (same_in j i p Hs). now apply (cellb_in c j p Hcj).
    + intros (i & Hi & Hre & p & Hp & Hb). exists i, (mkbox (fun d => IZR (i d) * w) (fun d => IZR (i d + 1) * w)).
      split; [apply Hhas; exists i; split; [exact Hi|]; split; [exact Hre|intros d Hd; reflexivity]|]. split; [apply cellb_exists|].
      exists p. split; [|exact Hb]. now apply (cellb_in _ i p (cellb_exists i)).
  - intros s. destruct (cells_ok s _ _ t Ht) as (l & El & H1 & H2).
    { intros j Hj d Hd. apply Hhas in Hj as (i & Hi & _ & Hs). rewrite (Hs d Hd). specialize (Hc i Hi d Hd). apply in64_iff. lia. }
    exists l. split; [exact El|]. split.
    + intros j Hj. destruct (H1 j Hj) as (y & Hy & Hyj & Hm). assert (Hj2 : has D w t j) by now exists y.
      apply Hhas in Hj2 as (i & Hi & Hre & Hs). exists i. split; [exact Hi|]. split; [exact Hs|]. split; [exact Hre|].
      apply box_meets_spec in Hm as (p & Hp & Hb); [|exact (cellb_ok j y Hyj)|exact HD]. exists p. split; [|exact Hb].
      apply (same_in j i p Hs). now apply (cellb_in y j p Hyj).
    + intros i Hi Hre (p & Hp & Hb). assert (Hhi : has D w t i) by (apply Hhas; exists i; split; [exact Hi|]; split; [exact Hre|intros d Hd; reflexivity]).
      destruct Hhi as (y & Hy & Hyi). destruct (H2 y Hy) as (j & Hj & Hyj).
      * apply box_meets_spec; [exact (cellb_ok i y Hyi)|exact HD|]. exists p. split; [|exact Hb]. now apply (cellb_in y i p Hyi).
      * exists j. split; [exact Hj|]. intros d Hd. exact (cellb_unique D w Hw y j i Hyj Hyi d Hd).
Qed.

(** The checker is built from the bounding box of points and the cells of these points (GridIntersectionChecker.h:124-155). *)
Lemma points_reach : forall b p i, in_box D b p -> (forall d, (d < D)%nat -> IZR (i d) * w <= p d < IZR (i d + 1) * w) ->
  (reaches b i <-> forall d, (d < D)%nat -> ~ (p d = b_hi b d /\ p d = IZR (i d) * w)).
Proof.
  intros b p i Hb Hi. unfold reaches. split; intros H d Hd; specialize (H d Hd); specialize (Hb d Hd); specialize (Hi d Hd).
  - lra.
  - split; [lra|]. destruct (Req_dec (p d) (b_hi b d)); [|lra]. destruct (Req_dec (p d) (IZR (i d) * w)); [tauto|lra].
Qed.
End Tree.

(** A box inside a leaf: insert writes children[-1]. *)
Lemma insert_in_leaf : forall D w n b f, n_leaf n = true -> n_ch n = [] -> box_has_box D (n_box n) b = true -> box_eqb D (n_box n) b = false ->
  tree_insert D w (S f) n b = Undef.
Proof.
  intros D w n b f Hl Hc Hh He. unfold tree_insert. rewrite one_step. cbv zeta. rewrite Hh, He, Hc, Hl. reflexivity.
Qed.
