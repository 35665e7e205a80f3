(** One level of divide and conquer with any test for circumspheres, as the recursions use it. *)
From Coq Require Import Permutation Classical.
From Verif Require Import Outcome ListUtil WordsModel BlockModel BlockProofs BlockSpec SimplexModel Pool NbrModel MergeModel MergeSpec MergeProofs MergeUpdate GeoModel GeoSpec DelSpec DelGeo PlaceSpec DelPlace StepModel TriSpec StepBase StepEdge StepJoin StepProofs StepPlaced StepEx DcModel DcSpec DcBase DcHits DcProofs DcEx.
Local Open Scope nat_scope.

Section Level.
Variable over : N -> N.
Variable D : N.
Hypothesis HD : D = 2%N \/ D = 3%N.
Variable co : N -> vec.
Variable hgt : N -> R.
Variable r : vec.
Variable S : list N.
Hypothesis Hpl : placed D co r S.
Hypothesis Hbs : breaks (N.to_nat D) co hgt S.
Variable parts : list (list N * box).
Hypothesis Hpd : partitioned D co (length parts) (pts_at parts) S.
Variable n : nat.
Hypothesis H6 : 6 * Datatypes.S n < 256.
Variable ps : list dsims.
Variable tks : list (list (N * N)).
Hypothesis Hlp : length ps = length parts.
Hypothesis Hlt : length tks = length parts.
Hypothesis Di : forall i, i < length parts -> done over D co hgt n (pts_at parts i) (nth i ps no_d) (nth i tks []).
Hypothesis Ta : ForallOrdPairs ranges_apart (concat tks).
Variable hits : nat -> simplex -> bool.
Hypothesis Hfi : finds D co (length parts) (pts_at parts) (p_at ps) hits.
Hypothesis Hme : two_filled D (length parts) (pts_at parts) \/ hull_hit D (length parts) (pts_at parts) (p_at ps) hits.
Let HDb : (0 < D <= 30)%N. Proof. destruct HD as [-> | ->]; lia. Qed.
Let HDc : (D <= 30)%N. Proof. destruct HD as [-> | ->]; lia. Qed.

Lemma lv_apart : ForallOrdPairs no_shared ps.
Proof.
  destruct (fop_concat _ _ Ta) as (Ti & Tij).
  apply apart_at. intros i j Hi Hj Hne k a b Ha Hb. rewrite Hlp in Hi, Hj.
  destruct (Di i Hi) as (_ & _ & H1 & _). destruct (Di j Hj) as (_ & _ & H2 & _). destruct (proj1 (H1 k) ltac:(now exists a)) as (t1 & I1 & R1). destruct (proj1 (H2 k) ltac:(now exists b)) as (t2 & I2 & R2).
  destruct (Nat.lt_ge_cases i j) as [L|L]; [apply (Tij i j t1 t2 L ltac:(lia) I1 I2 k); auto|]. apply (Tij j i t2 t1 ltac:(lia) ltac:(lia) I2 I1 k); auto.
Qed.
Lemma lv_parts : partitioned D co (length (numbered parts)) (points_of (numbered parts)) S.
Proof. rewrite numbered_len. destruct Hpd as [A1 A2 A3 A4 A5]. constructor; setoid_rewrite numbered_points; auto. Qed.
Lemma lv_tri i : i < length (numbered parts) -> triangulation over D co hgt (points_of (numbered parts) i) (p_at ps i).
Proof. intros Hi. rewrite numbered_len in Hi. rewrite numbered_points. apply (Di i Hi). Qed.
Lemma lv_finds : finds D co (length (numbered parts)) (points_of (numbered parts)) (p_at ps) hits.
Proof. intros i j id x p c r2. rewrite !numbered_len, numbered_points. apply Hfi. Qed.
Lemma lv_meet : two_filled D (length (numbered parts)) (points_of (numbered parts)) \/ hull_hit D (length (numbered parts)) (points_of (numbered parts)) (p_at ps) hits.
Proof.
  rewrite numbered_len. assert (Hnb : forall i, points_of (numbered parts) i = pts_at parts i) by apply numbered_points. destruct Hme as [Hpm|Hh]; [left|right].
  - destruct Hpm as (i & j & u & v & H). exists i, j, u, v. rewrite !Hnb. exact H.
  - destruct Hh as (i & j & u & id & x & v & H). exists i, j, u, id, x, v. rewrite Hnb. exact H.
Qed.
Lemma lv_marks i : i < length (numbered parts) -> (d_mark (p_at ps i) + 6 < 256)%N.
Proof. intros Hi. rewrite numbered_len in Hi. destruct (Di i Hi) as (_ & _ & _ & M & _). unfold p_at. lia. Qed.
Lemma lv_len : length ps = length (numbered parts).
Proof. rewrite numbered_len. exact Hlp. Qed.

Lemma lv_edge ps' edge W : edge_run D hits ps ps' edge W -> NoDup W /\ incl W S /\ placed D co r W.
Proof.
  intros He. destruct (edge_pts over D HDb co hgt r (numbered parts) (numbered_num parts) S Hpl Hbs lv_parts _ ps ps' edge W lv_len lv_tri lv_apart lv_finds lv_meet lv_marks He) as (Nw & Wa & Pw & _).
  split; [exact Nw|]. split; [exact Wa|exact Pw].
Qed.
Lemma lv_edge_ex : exists ps' edge W, edge_run D hits ps ps' edge W.
Proof. apply (edge_run_ex over D HDc co hgt (length (numbered parts)) (points_of (numbered parts)) hits ps lv_len lv_tri). intros i Hi. pose proof (lv_marks i Hi). lia. Qed.

Section Edge_.
Variables ps' : list dsims.
Variables edge W : list N.
Hypothesis He : edge_run D hits ps ps' edge W.
Variable edgeDT : dsims.
Variable te : list (N * N).
Hypothesis De : done over D co hgt n W edgeDT te.
Hypothesis Htk : takes_ok (concat tks ++ te).

Lemma lv_blocks : blocks (edgeDT :: ps) = length te + length (concat tks).
Proof.
  destruct De as (_ & Lw & _). change (blocks (edgeDT :: ps)) with (length (d_arr edgeDT) + blocks ps). rewrite (blocks_concat ps tks); [lia|lia|]. intros i Hi. rewrite Hlp in Hi. apply (Di i Hi).
Qed.
Lemma lv_apart_e : ForallOrdPairs no_shared (edgeDT :: ps).
Proof.
  destruct Htk as (Hta & _). destruct (fop_app _ _ _ Hta) as (_ & _ & Tx). destruct De as (_ & _ & Hw' & _).
  constructor; [|exact lv_apart]. apply Forall_forall. intros p Hp k a b Ha Hb. apply (In_nth _ _ no_d) in Hp as (i & Hi & <-). rewrite Hlp in Hi.
  destruct (Di i Hi) as (_ & _ & H1 & _). destruct (proj1 (H1 k) ltac:(now exists b)) as (t1 & I1 & R1). destruct (proj1 (Hw' k) ltac:(now exists a)) as (t2 & I2 & R2).
  apply (Tx t1 t2 (in_concat_nth _ _ _ I1) I2 k); auto.
Qed.
Lemma lv_few : (N.of_nat (blocks (edgeDT :: ps)) < 2 ^ 32)%N.
Proof. destruct Htk as (_ & _ & Htl). rewrite app_length in Htl. rewrite lv_blocks. lia. Qed.

Lemma lv_done out : join_run over D (numbered parts) ps' edge edgeDT out -> done over D co hgt (Datatypes.S n) S out (concat tks ++ te).
Proof.
  intros Hjr. pose proof lv_few as Hfew. destruct De as (Tw & Lw & Hw' & Mw & _).
  destruct (step_placed over D HDb co hgt r (numbered parts) (numbered_num parts) S Hpl Hbs lv_parts _ ps ps' edge W lv_len lv_tri lv_apart lv_finds lv_meet lv_marks He edgeDT out) as (To & Lo & Ho & Ko & p & Hp & Mo); auto.
  { exact lv_apart_e. }
  { lia. }
  split; [exact To|]. split; [rewrite Lo, lv_blocks, app_length; lia|]. split.
  + intros i. split.
    { intros Hi. apply Ho in Hi as [Hi|(q & Hq & Hi)].
    * destruct (proj1 (Hw' i) Hi) as (t & It & Rt). exists t. split; [apply in_or_app; now right|exact Rt].
    * apply (In_nth _ _ no_d) in Hq as (j & Hj & <-). rewrite Hlp in Hj. destruct (Di j Hj) as (_ & _ & H1 & _). destruct (proj1 (H1 i) Hi) as (t & It & Rt). exists t.
      split; [apply in_or_app; left; eapply in_concat_nth; eauto|exact Rt]. }
    { intros (t & It & Rt). apply Ho. apply in_app_or in It as [It|It]; [right|left; apply Hw'; now exists t]. apply in_concat in It as (l & Hl & It).
      apply (In_nth _ _ []) in Hl as (j & Hj & <-). rewrite Hlt in Hj. exists (nth j ps no_d). split; [apply nth_In; lia|]. destruct (Di j Hj) as (_ & _ & H1 & _). apply H1. now exists t. }
  + split; [|intros _; exact Ko]. apply (In_nth _ _ no_d) in Hp as (j & Hj & <-). rewrite Hlp in Hj. destruct (Di j Hj) as (_ & _ & _ & M & _). lia.
Qed.
Lemma lv_join_ex : exists out, join_run over D (numbered parts) ps' edge edgeDT out.
Proof.
  pose proof (placed_division D HDb co hgt r _ _ _ Hpl Hbs lv_parts) as Hdiv. pose proof lv_len as Hln. pose proof lv_few as Hfew. pose proof lv_apart_e as Hap2. destruct De as (Tw & _ & _ & Mw & _).
  assert (Hnp : 0 < length (numbered parts)) by (destruct (pd_some _ _ _ _ _ lv_parts) as (i & _ & H & _); lia).
  destruct (edge_run_ok over D HDc co hgt (length (numbered parts)) (points_of (numbered parts)) S Hdiv Hnp (pl_inf _ _ _ _ Hpl) (pl_small _ _ _ _ Hpl) hits ps Hln lv_tri) with (ps' := ps') (edge := edge) (W := W) as (L' & T' & E' & _); auto.
  { intros i j Hi Hj Hne. pose proof lv_apart as Hap. rewrite apart_at in Hap. apply Hap; lia. }
  { exact lv_finds. }
  { intros i Hi. pose proof (lv_marks i Hi). lia. }
  assert (Hh : forall i, i < length (numbered parts) -> forall x, held (p_at ps' i) x <-> held (p_at ps i) x) by (intros i Hi; apply T', Hi).
  assert (Hbb : blocks ps' = blocks ps).
  { assert (X : forall a b : list dsims, length a = length b -> (forall i, i < length a -> length (d_arr (p_at a i)) = length (d_arr (p_at b i))) -> blocks a = blocks b).
    { clear. induction a as [|x a IH]; intros [|y b] Hl Hi; try discriminate; [reflexivity|]. rewrite !blocks_cons. rewrite (IH b); [|now injection Hl|intros i H; apply (Hi (Datatypes.S i)); cbn; lia].
      pose proof (Hi 0 ltac:(cbn; lia)) as H. cbn in H. lia. }
    apply X; [lia|]. intros i Hi. destruct (T' i ltac:(lia)) as (_ & _ & H & _). exact H. }
  apply (join_run_ex over D HDc co hgt (numbered parts) (numbered_num parts) Hnp S Hdiv ps' edge W edgeDT L'); auto.
  { intros i Hi. apply T', Hi. }
  { apply apart_at. rewrite apart_at in Hap2. cbn [length]. intros i j Hi Hj' Hne x a b Hxa Hxb.
    assert (Y : forall i, i < Datatypes.S (length (numbered parts)) -> held (nth i (edgeDT :: ps') no_d) x -> held (nth i (edgeDT :: ps) no_d) x) by (intros [|k] Hkk; cbn [nth]; [auto|apply Hh; lia]).
    destruct (Y i ltac:(lia) ltac:(eexists; eauto)) as [a' Ha']. destruct (Y j ltac:(lia) ltac:(eexists; eauto)) as [b' Hb']. refine (Hap2 i j _ _ Hne x a' b' Ha' Hb'); cbn [length]; lia. }
  { rewrite blocks_cons in *. now rewrite Hbb. }
  { intros i Hi. destruct (T' i Hi) as (_ & -> & _). pose proof (lv_marks i Hi). lia. }
  { lia. }
Qed.
End Edge_.
End Level.
