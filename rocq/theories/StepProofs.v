(** One level of divide and conquer: the edge and the merge together. *)
From Coq Require Import Permutation Classical.
From Verif Require Import Outcome ListUtil WordsModel BlockModel BlockProofs BlockSpec SimplexModel Pool NbrModel MergeModel MergeSpec MergeProofs MergeUpdate GeoModel GeoSpec DelSpec StepModel TriSpec StepBase StepEdge StepJoin.
Local Open Scope nat_scope.

Definition held (d : dsims) (i : N) : Prop := exists x, holds (d_arr d) i x.
Lemma apart_at l : ForallOrdPairs no_shared l <-> forall i j, i < length l -> j < length l -> i <> j -> no_shared (nth i l no_d) (nth j l no_d).
Proof.
  assert (Sy : forall a b, no_shared a b -> no_shared b a) by (intros a b H i x y Hx Hy; exact (H i y x Hy Hx)).
  induction l as [|a l IH]; [split; [intros _ i j H; cbn in H; lia|constructor]|]. split.
  - intros H. inversion H as [|? ? Ha Hl]; subst. rewrite Forall_forall in Ha. intros [|i] [|j] Hi Hj Hne; cbn [nth length] in *; try lia.
    + apply Ha, nth_In. lia.
    + apply Sy, Ha, nth_In. lia.
    + apply IH; auto; lia.
  - intros H. constructor.
    + apply Forall_forall. intros b Hb. apply (In_nth _ _ no_d) in Hb as [k [Hk <-]]. apply (H 0 (Datatypes.S k)); cbn [length]; lia.
    + apply IH. intros i j Hi Hj Hne. apply (H (Datatypes.S i) (Datatypes.S j)); cbn [length]; lia.
Qed.

Section Join.
Variable over : N -> N.
Variable D : N.
Hypothesis HD : (D <= 30)%N.
Variable co : N -> vec.
Variable hgt : N -> R.
Notation Dn := (N.to_nat D).
Notation tri := (triangulation over D co hgt).
Variable parts : list part.
Hypothesis Hnum : forall k id pts, nth_error parts k = Some (id, pts) -> id = k.
Hypothesis Hnp : 0 < length parts.
Variable all : list N.
Hypothesis Hdiv : division Dn co hgt (p_finite D) (length parts) (points_of parts) all.

Lemma join_ok ps edge W edgeDT out : length ps = length parts -> (forall i, i < length parts -> tri (points_of parts i) (p_at ps i)) ->
  edge_ok D co hgt (length parts) (points_of parts) all (p_at ps) edge W -> tri W edgeDT -> general Dn co hgt W -> outer Dn co hgt (p_finite D) W -> ForallOrdPairs no_shared (edgeDT :: ps) ->
  (N.of_nat (blocks (edgeDT :: ps)) < 2 ^ 32)%N -> (forall i, i < length parts -> (d_mark (p_at ps i) + 4 < 256)%N) -> (d_mark edgeDT + 2 < 256)%N ->
  join_run over D parts ps edge edgeDT out ->
  tri all out /\ length (d_arr out) = blocks (edgeDT :: ps) /\ (forall i, held out i <-> held edgeDT i \/ exists p, In p ps /\ held p i) /\
  ((exists v, In v W /\ p_finite D v = true) -> exists e, held out e /\ forall s, ~ shown out e s) /\
  exists p, In p ps /\ d_mark out = (N.max (d_mark p + 2) (d_mark edgeDT) + 2)%N.
Proof.
  intros Hlen Htri He Hw Hgw Hwo Hap Hbl Hr Hr' [m inserted table marks tbl order sh cells R Htbl Hord Hu Hc ->].
  pose proof (j_input over D HD co hgt parts Hnum all Hdiv ps Hlen Hnp Htri edge W He edgeDT Hw Hap Hbl Hr Hr') as Hin.
  split; [eapply join_tri; eauto|]. destruct (rewritten_spec _ _ _ (out_wf over D parts ps edge edgeDT Hin m inserted table marks R) Hc) as (_ & L & Hc').
  split; [cbn [d_arr]; rewrite L; exact (run_len over D parts ps edge edgeDT Hin m inserted table marks R)|]. split.
  - intros i. assert (E : held (mkd cells (d_hull m) (ud_mark (d_mark m))) i <-> held m i).
    { unfold held. cbn [d_arr]. split; [intros [y Hy]; apply Hc' in Hy as [x [Hx _]]; eauto|intros [x Hx]; eexists; apply Hc'; eauto]. }
    rewrite E. unfold held at 1. rewrite (run_held over D parts ps edge edgeDT Hin m inserted table marks R i). unfold stored, held. split.
    + intros [[x [p [Hp Hx]]]|H]; [right; eauto|now left].
    + intros [H|[p [Hp [x Hx]]]]; [now right|left; eauto].
  - split.
    { intros (v & Hv & Hf). apply (eo_points _ _ _ _ _ _ _ _ _ He) in Hv as [[_ Hv]|(i & e & x & Hi & Hee & Hx & _)]; [congruence|]. exists e.
      assert (Hie : In (p_at ps i) ps) by (apply nth_In; lia). split.
      - assert (held m e) as [y Hy] by (apply (run_held over D parts ps edge edgeDT Hin m inserted table marks R e); left; exists x, (p_at ps i); split; [exact Hie|exact (proj1 Hx)]).
        eexists. cbn [d_arr]. apply Hc'. eauto.
      - intros s [Hs Hne]. cbn [d_arr] in Hs. apply Hc' in Hs as [y [Hy ->]]. cbn [with_mark with_nbrs x_id] in Hne.
        destruct (proj1 (run_content over D parts ps edge edgeDT Hin m inserted table marks R e y) (conj Hy Hne)) as [(_ & _ & H)|(H & _)]; [exact (H Hee)|].
        inversion Hap as [|? ? Ha _]; subst. rewrite Forall_forall in Ha. exact (Ha _ Hie e y x H (proj1 Hx)). }
    assert (Hm : forall p, In p ps -> (d_mark p + 4 < 256)%N) by (intros p Hp; apply (In_nth _ _ no_d) in Hp as [k [Hk Ek]]; rewrite Hlen in Hk; pose proof (Hr k Hk) as H; unfold p_at in H; now rewrite Ek in H).
    destruct (run_marks over D parts ps edge edgeDT Hin m inserted table marks R (fun p Hp => ltac:(pose proof (Hm p Hp); lia)) 0%N) as (_ & p & Hp & E). exists p. split; [exact Hp|].
    cbn [d_mark]. pose proof (Hm p Hp). unfold ud_mark, wrap. rewrite N.mod_small; lia.
Qed.

Lemma step_ok hits ps ps' edge W edgeDT out : length ps = length parts -> (forall i, i < length parts -> tri (points_of parts i) (p_at ps i)) ->
  (forall v, (p_inf D <= v < 2 ^ 64)%N -> In v all) -> (forall v, In v all -> (v < 2 ^ 64)%N) -> finds D co (length parts) (points_of parts) (p_at ps) hits ->
  edge_run D hits ps ps' edge W -> tri W edgeDT -> general Dn co hgt W -> outer Dn co hgt (p_finite D) W -> ForallOrdPairs no_shared (edgeDT :: ps) ->
  (N.of_nat (blocks (edgeDT :: ps)) < 2 ^ 32)%N -> (forall i, i < length parts -> (d_mark (p_at ps i) + 6 < 256)%N) -> (d_mark edgeDT + 2 < 256)%N ->
  join_run over D parts ps' edge edgeDT out ->
  tri all out /\ length (d_arr out) = blocks (edgeDT :: ps) /\ (forall i, held out i <-> held edgeDT i \/ exists p, In p ps /\ held p i) /\
  ((exists v, In v W /\ p_finite D v = true) -> exists e, held out e /\ forall s, ~ shown out e s) /\
  exists p, In p ps /\ d_mark out = (N.max (d_mark p + 4) (d_mark edgeDT) + 2)%N.
Proof.
  intros Hlen Htri Hinf Hsm Hf He Hw Hgw Hwo Hap Hbl Hr Hr' Hj. pose proof Hap as Hap'. inversion Hap' as [|? ? Ha Hps]; subst.
  destruct (edge_run_ok over D HD co hgt (length parts) (points_of parts) all Hdiv Hnp Hinf Hsm hits ps Hlen Htri) with (ps' := ps') (edge := edge) (W := W) as (L' & T' & E' & _); auto.
  { intros i j Hi Hj' Hne. rewrite apart_at in Hps. apply Hps; lia. }
  { intros i Hi. pose proof (Hr i Hi). lia. }
  assert (Hh : forall i, i < length parts -> forall e, held (p_at ps' i) e <-> held (p_at ps i) e) by (intros i Hi; apply T', Hi).
  assert (Hb : blocks ps' = blocks ps).
  { assert (X : forall a b : list dsims, length a = length b -> (forall i, i < length a -> length (d_arr (p_at a i)) = length (d_arr (p_at b i))) -> blocks a = blocks b).
    { induction a as [|x a IH]; intros [|y b] Hl Hi; try discriminate; [reflexivity|]. rewrite !blocks_cons. rewrite (IH b); [|now injection Hl|intros i H; apply (Hi (Datatypes.S i)); cbn; lia].
      pose proof (Hi 0 ltac:(cbn; lia)) as H. cbn in H. lia. }
    apply X; [lia|]. intros i Hi. destruct (T' i ltac:(lia)) as (_ & _ & H & _). exact H. }
  destruct (join_ok ps' edge W edgeDT out) as (R1 & R2 & R3 & R5 & p & Hp & R4); auto.
  - intros i Hi. apply T', Hi.
  - apply apart_at. rewrite apart_at in Hap. cbn [length]. intros i j Hi Hj' Hne x a b Hxa Hxb.
    assert (Y : forall i, i < Datatypes.S (length parts) -> held (nth i (edgeDT :: ps') no_d) x -> held (nth i (edgeDT :: ps) no_d) x) by (intros [|k] Hk; cbn [nth]; [auto|apply Hh; lia]).
    destruct (Y i ltac:(lia) ltac:(eexists; eauto)) as [a' Ha']. destruct (Y j ltac:(lia) ltac:(eexists; eauto)) as [b' Hb']. refine (Hap i j _ _ Hne x a' b' Ha' Hb'); cbn [length]; lia.
  - rewrite blocks_cons in *. lia.
  - intros i Hi. destruct (T' i Hi) as (_ & -> & _). pose proof (Hr i Hi). lia.
  - split; [exact R1|]. split; [rewrite R2, !blocks_cons; lia|]. split.
    + intros i. rewrite R3. split; (intros [H|[q [Hq H]]]; [now left|right]).
      * apply (In_nth _ _ no_d) in Hq as [k [Hk <-]]. exists (p_at ps k). split; [apply nth_In; lia|]. apply Hh; [lia|exact H].
      * apply (In_nth _ _ no_d) in Hq as [k [Hk <-]]. exists (p_at ps' k). split; [apply nth_In; lia|]. apply Hh; [lia|exact H].
    + split; [exact R5|]. apply (In_nth _ _ no_d) in Hp as [k [Hk <-]]. exists (p_at ps k). split; [apply nth_In; lia|]. rewrite R4. destruct (T' k ltac:(lia)) as (_ & E & _). unfold p_at in E. rewrite E. unfold p_at. f_equal. f_equal. lia.
Qed.
End Join.
