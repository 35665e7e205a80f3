(** The hypotheses of the theorem about one merge step can be met for every partitioning. *)
From Coq Require Import Permutation Classical.
From Verif Require Import Outcome ListUtil WordsModel BlockModel BlockProofs BlockSpec SimplexModel Pool NbrModel MergeModel MergeSpec MergeProofs MergeUpdate GeoModel GeoSpec DelSpec DelGeo PlaceSpec DelPlace StepModel TriSpec StepBase StepEdge StepJoin StepProofs StepPlaced StepEx DcModel DcSpec DcBase DcHits DcProofs DcEx MeshProofs.
Local Open Scope nat_scope.

Section Case.
Variable over : N -> N.
Variable D : N.
Hypothesis HD : (0 < D <= 30)%N.
Variables (co : N -> vec) (hgt : N -> R) (r : vec) (parts : list part).
Hypothesis Hnum : forall k id pts, nth_error parts k = Some (id, pts) -> id = k.
Variable all : list N.
Hypothesis Hpl : placed D co r all.
Hypothesis HB : breaks (N.to_nat D) co hgt all.
Hypothesis Hpd : partitioned D co (length parts) (points_of parts) all.
Hypothesis Htwo : two_filled D (length parts) (points_of parts).
Hypothesis Hnd : forall i, i < length parts -> NoDup (points_of parts i).
Hypothesis Hall : NoDup all.
Let M := N.of_nat (Nat.pow (length all) (N.to_nat D + 1)).
Hypothesis Hsize : ((N.of_nat (length parts) + 1) * M < 2 ^ 64)%N.
Hypothesis Hparts : (N.of_nat (length parts) + 1 < 2 ^ 32)%N.
Let HDc : (D <= 30)%N. Proof. lia. Qed.

Lemma base_case S c : NoDup S -> incl S all -> placed D co r S -> (c + M < 2 ^ 64)%N -> exists out, triangulation over D co hgt S out /\ d_mark out = 0%N /\ length (d_arr out) = 1 /\
  forall i, held out i -> (c <= i < c + M)%N.
Proof.
  intros Hn Hs Hp Hc. destruct (cgal_ex D co hgt S) as (cells & Hcg & Hl).
  assert (Hle : (N.of_nat (length cells) <= M)%N).
  { unfold M. assert (length cells <= Nat.pow (length all) (N.to_nat D + 1)); [|lia]. eapply Nat.le_trans; [exact Hl|]. apply Nat.pow_le_mono_l. now apply NoDup_incl_length. }
  destruct (base_ok over D HD co hgt S (pl_small _ _ _ _ Hp)) with (start := c) (last := N.of_nat (length cells)) (cells := cells) (dflt := blank [] [] 0) as (out & E & T & Mk & L & He); auto.
  { apply (placed_dt D HD co hgt r S Hp). exact (generic_sub _ _ _ _ _ (proj2 HB) Hs). }
  { lia. }
  exists out. split; [exact T|]. split; [exact Mk|]. split; [exact L|]. intros i Hi. apply He in Hi. lia.
Qed.

Lemma step_case : exists ps ps' edge W edgeDT out, length ps = length parts /\
  (forall i, i < length parts -> triangulation over D co hgt (points_of parts i) (p_at ps i)) /\
  (forall i, i < length parts -> (d_mark (p_at ps i) + 6 < 256)%N) /\
  edge_run D (fun _ _ => true) ps ps' edge W /\ triangulation over D co hgt W edgeDT /\ ForallOrdPairs no_shared (edgeDT :: ps) /\
  (N.of_nat (blocks (edgeDT :: ps)) < 2 ^ 32)%N /\ (d_mark edgeDT + 2 < 256)%N /\ join_run over D parts ps' edge edgeDT out.
Proof.
  assert (Sub : forall i, i < length parts -> incl (points_of parts i) all) by (intros i Hi v Hv; apply (pd_all _ _ _ _ _ Hpd); eauto).
  destruct (choose_list no_d (fun i d => triangulation over D co hgt (points_of parts i) d /\ d_mark d = 0%N /\ length (d_arr d) = 1 /\
    forall k, held d k -> (N.of_nat i * M <= k < N.of_nat i * M + M)%N) (length parts)) as (ps & Hlen & Hps).
  { intros i Hi. apply base_case; [now apply Hnd|now apply Sub| |].
    - apply (placed_sub D co r all _ Hpl); [exact (Sub i Hi)|intros v Hv; now apply (pd_inf _ _ _ _ _ Hpd)].
    - eapply N.le_lt_trans; [|exact Hsize]. nia. }
  assert (Htri : forall i, i < length parts -> triangulation over D co hgt (points_of parts i) (p_at ps i)) by (intros i Hi; apply Hps, Hi).
  assert (Hmk : forall i, i < length parts -> (d_mark (p_at ps i) + 6 < 256)%N) by (intros i Hi; unfold p_at; destruct (Hps i Hi) as (_ & -> & _); reflexivity).
  assert (Hap : ForallOrdPairs no_shared ps).
  { apply apart_at. intros i j Hi Hj Hne k a b Ha Hb. rewrite Hlen in Hi, Hj. destruct (Hps i Hi) as (_ & _ & _ & H1). destruct (Hps j Hj) as (_ & _ & _ & H2).
    specialize (H1 k ltac:(now exists a)). specialize (H2 k ltac:(now exists b)). destruct (Nat.lt_ge_cases i j); [assert (N.of_nat i * M + M <= N.of_nat j * M)%N by nia|assert (N.of_nat j * M + M <= N.of_nat i * M)%N by nia]; lia. }
  assert (Hf : finds D co (length parts) (points_of parts) (p_at ps) (fun _ _ => true)) by (intros i j id x p c r2 _ _ _ _ _ _ _ _; reflexivity).
  destruct (edge_run_ex over D HDc co hgt (length parts) (points_of parts) (fun _ _ => true) ps Hlen Htri) as (ps' & edge & W & Her); [intros i Hi; specialize (Hmk i Hi); lia|].
  destruct (edge_pts over D HD co hgt r parts Hnum all Hpl HB Hpd _ ps ps' edge W Hlen Htri Hap Hf (or_introl Htwo) Hmk Her) as (Nw & Wa & Pw & _).
  destruct (base_case W (N.of_nat (length parts) * M) Nw Wa Pw) as (edgeDT & Te & Me & Le & He); [eapply N.le_lt_trans; [|exact Hsize]; nia|].
  assert (Hap2 : ForallOrdPairs no_shared (edgeDT :: ps)).
  { constructor; [|exact Hap]. apply Forall_forall. intros p Hp k a b Ha Hb. apply (In_nth _ _ no_d) in Hp as (i & Hi & <-). rewrite Hlen in Hi. destruct (Hps i Hi) as (_ & _ & _ & H1).
    specialize (H1 k ltac:(now exists b)). specialize (He k ltac:(now exists a)). assert (N.of_nat i * M + M <= N.of_nat (length parts) * M)%N by nia. lia. }
  assert (Hbs : blocks ps = length parts).
  { rewrite <- Hlen. assert (X : forall l : list dsims, (forall i, i < length l -> length (d_arr (nth i l no_d)) = 1) -> blocks l = length l).
    { clear. induction l as [|x l IH]; intros H; [reflexivity|]. rewrite blocks_cons. rewrite IH by (intros i Hi; apply (H (Datatypes.S i)); cbn; lia). pose proof (H 0 ltac:(cbn; lia)) as H0. cbn in H0. cbn [length]. lia. }
    apply X. intros i Hi. rewrite Hlen in Hi. apply Hps, Hi. }
  assert (Hbl : (N.of_nat (blocks (edgeDT :: ps)) < 2 ^ 32)%N) by (rewrite blocks_cons, Le, Hbs; lia).
  pose proof (placed_division D HD co hgt r _ _ _ Hpl HB Hpd) as Hdiv.
  assert (Hnp : 0 < length parts) by (destruct (pd_some _ _ _ _ _ Hpd) as (i & _ & H & _); lia).
  destruct (edge_run_ok over D HDc co hgt (length parts) (points_of parts) all Hdiv Hnp (pl_inf _ _ _ _ Hpl) (pl_small _ _ _ _ Hpl) (fun _ _ => true) ps Hlen Htri) with (ps' := ps') (edge := edge) (W := W) as (L' & T' & E' & _); auto.
  { intros i j Hi Hj Hne. rewrite apart_at in Hap. apply Hap; lia. }
  { intros i Hi. pose proof (Hmk i Hi). lia. }
  assert (Hh : forall i, i < length parts -> forall x, held (p_at ps' i) x <-> held (p_at ps i) x) by (intros i Hi; apply T', Hi).
  assert (Hbb : blocks ps' = blocks ps).
  { assert (X : forall a b : list dsims, length a = length b -> (forall i, i < length a -> length (d_arr (p_at a i)) = length (d_arr (p_at b i))) -> blocks a = blocks b).
    { clear. induction a as [|x a IH]; intros [|y b] Hl Hi; try discriminate; [reflexivity|]. rewrite !blocks_cons. rewrite (IH b); [|now injection Hl|intros i H; apply (Hi (Datatypes.S i)); cbn; lia].
      pose proof (Hi 0 ltac:(cbn; lia)) as H. cbn in H. lia. }
    apply X; [lia|]. intros i Hi. destruct (T' i ltac:(lia)) as (_ & _ & H & _). exact H. }
  destruct (join_run_ex over D HDc co hgt parts Hnum Hnp all Hdiv ps' edge W edgeDT L') as [out Hj]; auto.
  { intros i Hi. apply T', Hi. }
  { apply apart_at. rewrite apart_at in Hap2. cbn [length]. intros i j Hi Hj' Hne x a b Hxa Hxb.
    assert (Y : forall i, i < Datatypes.S (length parts) -> held (nth i (edgeDT :: ps') no_d) x -> held (nth i (edgeDT :: ps) no_d) x) by (intros [|k] Hkk; cbn [nth]; [auto|apply Hh; lia]).
    destruct (Y i ltac:(lia) ltac:(eexists; eauto)) as [a' Ha']. destruct (Y j ltac:(lia) ltac:(eexists; eauto)) as [b' Hb']. refine (Hap2 i j _ _ Hne x a' b' Ha' Hb'); cbn [length]; lia. }
  { rewrite blocks_cons in *. rewrite Hbb. exact Hbl. }
  { intros i Hi. destruct (T' i Hi) as (_ & -> & _). pose proof (Hmk i Hi). lia. }
  { rewrite Me. reflexivity. }
  exists ps, ps', edge, W, edgeDT, out. split; [exact Hlen|]. split; [exact Htri|]. split; [exact Hmk|]. split; [exact Her|]. split; [exact Te|]. split; [exact Hap2|]. split; [exact Hbl|]. split; [rewrite Me; reflexivity|exact Hj].
Qed.
End Case.
