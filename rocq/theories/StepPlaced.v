(** One level of divide and conquer for points in a box. *)
From Coq Require Import Permutation Classical.
From Verif Require Import Outcome ListUtil WordsModel BlockModel BlockProofs BlockSpec SimplexModel Pool NbrModel MergeModel MergeSpec MergeUpdate GeoModel GeoSpec DelSpec DelGeo PlaceSpec DelPlace StepModel TriSpec StepBase StepEdge StepJoin StepProofs.
Local Open Scope nat_scope.

Lemma breaks_sub D co hgt S S' : breaks D co hgt S -> (forall v, In v S' -> In v S) -> breaks D co hgt S'.
Proof. intros [T G] H. split; [eapply ties_sub; eauto|eapply generic_sub; eauto]. Qed.

Section Placed.
Variable over : N -> N.
Variable D : N.
Hypothesis HD : (0 < D <= 30)%N.
Variable co : N -> vec.
Variable hgt : N -> R.
Variable r : vec.
Notation Dn := (N.to_nat D).
Notation tri := (triangulation over D co hgt).
Variable parts : list part.
Hypothesis Hnum : forall k id pts, nth_error parts k = Some (id, pts) -> id = k.
Variable all : list N.
Hypothesis Hp : placed D co r all.
Hypothesis Hb : breaks Dn co hgt all.
Hypothesis Hpt : partitioned D co (length parts) (points_of parts) all.
Let HD' : (D <= 30)%N. Proof. lia. Qed.
Let Hdiv : division Dn co hgt (p_finite D) (length parts) (points_of parts) all. Proof. exact (placed_division D HD co hgt r _ _ _ Hp Hb Hpt). Qed.
Lemma np_pos : 0 < length parts.
Proof. destruct (pd_some _ _ _ _ _ Hpt) as (i & _ & H & _). lia. Qed.

Variable hits : nat -> simplex -> bool.
Variables ps ps' : list dsims.
Variables edge W : list N.
Hypothesis Hlen : length ps = length parts.
Hypothesis Htri : forall i, i < length parts -> tri (points_of parts i) (p_at ps i).
Hypothesis Hap : ForallOrdPairs no_shared ps.
Hypothesis Hf : finds D co (length parts) (points_of parts) (p_at ps) hits.
Hypothesis Hmeet : two_filled D (length parts) (points_of parts) \/ hull_hit D (length parts) (points_of parts) (p_at ps) hits.
Hypothesis Hr : forall i, i < length parts -> (d_mark (p_at ps i) + 6 < 256)%N.
Hypothesis He : edge_run D hits ps ps' edge W.

Lemma edge_pts : NoDup W /\ (forall v, In v W -> In v all) /\ placed D co r W /\ exists v, In v W /\ p_finite D v = true.
Proof.
  destruct (edge_run_ok over D HD' co hgt (length parts) (points_of parts) all Hdiv np_pos (pl_inf _ _ _ _ Hp) (pl_small _ _ _ _ Hp) hits ps Hlen Htri) with (ps' := ps') (edge := edge) (W := W) as (L' & T' & E' & _ & Nw); auto.
  { intros i j Hi Hj Hne. rewrite apart_at in Hap. apply Hap; lia. }
  { intros i Hi. pose proof (Hr i Hi). lia. }
  assert (T : forall i, i < length parts -> tri (points_of parts i) (p_at ps' i)) by (intros i Hi; apply T', Hi).
  assert (Wa : forall v, In v W -> In v all) by (exact (W_all over D co hgt parts all Hdiv ps' T edge W E')).
  split; [exact Nw|]. split; [exact Wa|]. split.
  - apply (placed_sub D co r all W Hp Wa). intros v Hv. destruct (inf_out D HD co hgt r all Hp v Hv) as [H1 H2]. exact (W_inf D co hgt parts all ps' edge W E' v H1 H2).
  - assert (Sub : forall i w, i < length parts -> In w (points_of parts i) -> In w all) by (intros i w Hi Hw; apply (pd_all _ _ _ _ _ Hpt); eauto).
    assert (Out : forall i u, i < length parts -> In u (points_of parts i) -> p_finite D u = true -> outer Dn co hgt (p_finite D) (points_of parts i)).
    { intros i u Hi Hu Hfu. apply (placed_outer D HD co hgt r (points_of parts i)) with (q := u); auto.
      + apply (placed_sub D co r all _ Hp); [intros w Hw; eapply Sub; eauto|]. intros w Hw. now apply (pd_inf _ _ _ _ _ Hpt).
      + eapply ties_sub; [exact (proj1 Hb)|intros w Hw; eapply Sub; eauto]. }
    destruct Hmeet as [(i & j & u & v & Hi & Hj & Hij & Hu & Hfu & Hv & Hfv)|(i & j & u & id & x & v & Hi & Hj & Hij & Hu & Hfu & Hx & Hv & Hfv & Hh)].
    + apply (w_some over D co hgt parts all Hdiv ps' T edge W E' i j v Hi Hj Hij); eauto.
    + assert (Hin : forall w, In w (x_verts x) -> In w W).
      { apply (hull_vertices over D HD' co hgt (length parts) (points_of parts) all np_pos (pl_inf _ _ _ _ Hp) (pl_small _ _ _ _ Hp) hits ps Hlen Htri) with (ps' := ps') (edge := edge) (i := i) (j := j) (id := id) (v := v); auto.
        { intros a b Ha Hb' Hne. rewrite apart_at in Hap. apply Hap; lia. }
        { intros a Ha. pose proof (Hr a Ha). lia. } }
      pose proof (tr_sound _ _ _ _ _ _ (Htri i Hi) id x Hx) as Hdx. destruct (Out i u Hi Hu Hfu (x_verts x) Hdx) as (g & Ga & Gz & _ & q & _ & Gq).
      apply NNPP. intros Hno. destruct Hdx as (_ & (_ & _ & L & HL) & _).
      assert (g (co q) = 0%R); [|lra]. apply (interp_zero Dn co (x_verts x) L HL g Ga). intros w Hw. apply Gz; [exact Hw|]. destruct (p_finite D w) eqn:E; [|reflexivity]. exfalso. apply Hno. exists w. auto.
Qed.

Variable edgeDT out : dsims.
Lemma step_placed : tri W edgeDT -> ForallOrdPairs no_shared (edgeDT :: ps) -> (N.of_nat (blocks (edgeDT :: ps)) < 2 ^ 32)%N -> (d_mark edgeDT + 2 < 256)%N ->
  join_run over D parts ps' edge edgeDT out ->
  tri all out /\ length (d_arr out) = blocks (edgeDT :: ps) /\ (forall i, held out i <-> held edgeDT i \/ exists p, In p ps /\ held p i) /\
  (exists e, held out e /\ forall s, ~ shown out e s) /\
  exists p, In p ps /\ d_mark out = (N.max (d_mark p + 4) (d_mark edgeDT) + 2)%N.
Proof.
  intros Hw Ha Hbl Hr' Hj. destruct edge_pts as (_ & Wa & Pw & v & Hv & Hfv). destruct (step_ok over D HD' co hgt parts Hnum np_pos all Hdiv hits ps ps' edge W edgeDT out) as (R1 & R2 & R3 & R4 & R5); auto.
  - exact (pl_inf _ _ _ _ Hp).
  - exact (pl_small _ _ _ _ Hp).
  - eapply generic_general; [exact (proj2 Hb)|exact Wa].
  - apply (placed_outer D HD co hgt r W Pw v Hv Hfv). eapply ties_sub; [exact (proj1 Hb)|exact Wa].
  - split; [exact R1|]. split; [exact R2|]. split; [exact R3|]. split; [apply R4; eauto|exact R5].
Qed.
End Placed.
