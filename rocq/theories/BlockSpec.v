(** Block arrays reachable through the interface, and what is said about them. *)
From Verif Require Import Outcome ListUtil WordsModel RangeModel RangeProofs BlockModel BlockProofs BlockIter.
From Coq Require Import Permutation Sorted.
Local Open Scope N_scope.

Section A.
Context {A : Type}.
Notation blk := (block A).

(** [id l i a]: the array holds [a] under the id [i]. *)
Definition holds (l : list blk) (i : N) (a : A) : Prop :=
  exists k b, nth_error l k = Some b /\ b_min b <= i < b_max b /\ nth_error (b_data b) (N.to_nat (i - b_min b)) = Some a.

(** No id in common. *)
Definition no_common (l1 l2 : list blk) : Prop := forall i a b, holds l1 i a -> holds l2 i b -> False.

(** The arrays obtained from non-empty, disjoint blocks, fewer than 2^32 of them. *)
Inductive made (d : A) : list blk -> Prop :=
| made_new min max : min < max -> max < 2 ^ 64 -> made d (ba_new d min max)
| made_add l min max l' : made d l -> min < max -> max < 2 ^ 64 -> no_common l (ba_new d min max) ->
    N.of_nat (S (length l)) < 2 ^ 32 -> ba_addBlock d l min max l' -> made d l'
| made_merge l1 l2 l' : made d l1 -> made d l2 -> no_common l1 l2 ->
    N.of_nat (length l1 + length l2) < 2 ^ 32 -> ba_merge l1 l2 l' -> made d l'
| made_write l i hint v l' h : made d l -> ba_set l i hint v = Val (Some (l', h)) -> made d l'.

Lemma holds_cell l i a : holds l i a <-> cell l i a.
Proof.
  split.
  - intros [k [b [E H]]]. exists b. split; [eapply nth_error_In; eauto|exact H].
  - intros [b [Hb H]]. apply In_nth_error in Hb. destruct Hb as [k E]. exists k, b. auto.
Qed.

Lemma no_common_disjoint l1 l2 : wf l1 -> wf l2 -> no_common l1 l2 -> disjoint l1 l2.
Proof.
  intros W1 W2 H b1 b2 H1 H2. destruct (wf_bok _ _ W1 H1) as [A1 _], (wf_bok _ _ W2 H2) as [A2 _].
  destruct (N.le_gt_cases (b_max b1) (b_min b2)) as [|L1]; [auto|]. destruct (N.le_gt_cases (b_max b2) (b_min b1)) as [|L2]; [auto|].
  exfalso. destruct (cell_ex l1 (N.max (b_min b1) (b_min b2)) b1 W1 H1) as [a Ha]; [lia|].
  destruct (cell_ex l2 (N.max (b_min b1) (b_min b2)) b2 W2 H2) as [c Hc]; [lia|].
  apply holds_cell in Ha, Hc. exact (H _ _ _ Ha Hc).
Qed.

Lemma set_inv (l : list blk) i hint v l' h : ba_set l i hint v = Val (Some (l', h)) -> wf l -> (hint < length l)%nat /\ exists a, cell l i a.
Proof.
  unfold ba_set, ba_seek. intros H W. destruct (nth_error l hint) as [bh|] eqn:Eh; [|discriminate].
  split; [apply nth_error_Some; congruence|].
  assert (H' : exists k b a, nth_error l k = Some b /\ blk_at b i = Some a).
  { destruct (if blk_contains bh i then Val (Some hint) else find_block l i true) as [[k|]| |]; cbn [rbind] in H; try discriminate.
    destruct (nth_error l k) as [b|] eqn:E; [|discriminate]. destruct (blk_at b i) as [a|] eqn:Ea; [|discriminate]. eauto. }
  destruct H' as [k [b [a [E Ea]]]]. unfold blk_at in Ea. destruct (N.leb_spec (b_min b) i); [|discriminate].
  exists a, b. pose proof (nth_error_In _ _ E) as Hb. split; [exact Hb|]. split; [|exact Ea].
  destruct (wf_bok l b W Hb) as [B1 [B2 B3]]. assert (N.to_nat (i - b_min b) < length (b_data b))%nat by (apply nth_error_Some; congruence). lia.
Qed.

Lemma made_wf d l : made d l -> wf l.
Proof.
  induction 1 as [min max H1 H2|l min max l' Hm IH H1 H2 H3 H4 H5|l1 l2 l' Hm1 IH1 Hm2 IH2 H3 H4 H5|l i hint v l' h Hm IH H].
  - apply block_new_ok; assumption.
  - destruct (block_new_ok d min max H1 H2) as [W _]. eapply (merge_wf l (ba_new d min max)); [exact IH|exact W| |cbn [ba_new length]; lia|exact H5].
    apply no_common_disjoint; assumption.
  - eapply (merge_wf l1 l2); eauto. apply no_common_disjoint; assumption.
  - destruct (set_inv l i hint v l' h H IH) as [Hh [a Ha]]. destruct (set_spec l i a v hint IH Ha Hh) as [l2 [h2 [E [_ [W _]]]]].
    rewrite E in H. injection H as <- <-. exact W.
Qed.

Section D.
Variable d : A.

Lemma made_at l i a hint : made d l -> holds l i a -> (hint < length l)%nat ->
  exists h, ba_at l i hint = Val (Some (a, h)) /\ (h < length l)%nat.
Proof. intros H Hh. apply made_wf in H. apply holds_cell in Hh. now apply at_spec. Qed.

Lemma made_set l i a v hint : made d l -> holds l i a -> (hint < length l)%nat ->
  exists l' h, ba_set l i hint v = Val (Some (l', h)) /\ (h < length l')%nat /\ length l' = length l /\ made d l' /\
    forall j x, holds l' j x <-> (j = i /\ x = v) \/ (j <> i /\ holds l j x).
Proof.
  intros H Hh Hl. apply holds_cell in Hh. destruct (set_spec l i a v hint (made_wf d l H) Hh Hl) as [l' [h [E [L1 [_ [L2 S]]]]]].
  exists l', h. split; [exact E|]. split; [exact L1|]. split; [exact L2|]. split; [eapply made_write; eauto|].
  intros j x. rewrite !holds_cell. apply S.
Qed.

Lemma made_contains l i hint : made d l -> (hint < length l)%nat ->
  exists r h, ba_contains l i hint = Val (r, h) /\ (h < length l)%nat /\ (r = true <-> exists a, holds l i a).
Proof.
  intros H Hl. destruct (contains_spec l i hint (made_wf d l H) Hl) as [r [h [E [L S]]]]. exists r, h. split; [exact E|]. split; [exact L|].
  rewrite S. split; intros [a Ha]; exists a; now apply holds_cell.
Qed.

Lemma made_fun l i a b : made d l -> holds l i a -> holds l i b -> a = b.
Proof. intros H H1 H2. apply holds_cell in H1, H2. eapply cell_fun; eauto using made_wf. Qed.

Lemma made_out l i hint : made d l -> (hint < length l)%nat -> (forall a, ~ holds l i a) ->
  ba_at l i hint = (if forallb (fun b => b_max b <=? i) l then Val None else Undef).
Proof. intros H Hl Ho. apply at_out; auto. { eapply made_wf; eauto. } intros a Ha. apply (Ho a), holds_cell, Ha. Qed.

Lemma made_add_holds l min max l' : made d l -> min < max -> max < 2 ^ 64 -> no_common l (ba_new d min max) ->
  N.of_nat (S (length l)) < 2 ^ 32 -> ba_addBlock d l min max l' ->
  forall i a, holds l' i a <-> holds l i a \/ (min <= i < max /\ a = d).
Proof.
  intros H H1 H2 H3 H4 H5. destruct (block_new_ok d min max H1 H2) as [W S]. pose proof (made_wf d l H) as W'.
  destruct (merge_wf l (ba_new d min max) l') as [_ [_ M]]; [exact W'|exact W| |cbn [ba_new length]; lia|exact H5|].
  { apply no_common_disjoint; assumption. }
  intros i a. rewrite !holds_cell, M, S. reflexivity.
Qed.

Lemma made_merge_holds l1 l2 l' : made d l1 -> made d l2 -> no_common l1 l2 ->
  N.of_nat (length l1 + length l2) < 2 ^ 32 -> ba_merge l1 l2 l' ->
  forall i a, holds l' i a <-> holds l1 i a \/ holds l2 i a.
Proof.
  intros H1 H2 H3 H4 H5. destruct (merge_wf l1 l2 l') as [_ [_ M]]; [eapply made_wf; eauto|eapply made_wf; eauto| |exact H4|exact H5|].
  { apply no_common_disjoint; try assumption; eapply made_wf; eauto. }
  intros i a. rewrite !holds_cell. apply M.
Qed.

Lemma made_exact_size l : made d l -> exists ids, NoDup ids /\ (forall i, In i ids <-> exists a, holds l i a) /\
  ba_exact_size l = N.of_nat (length ids).
Proof.
  intros H. destruct (exact_size_spec l (made_wf d l H)) as [ids [N1 [N2 N3]]]. exists ids. split; [exact N1|]. split; [|exact N3].
  intros i. rewrite N2. split; intros [a Ha]; exists a; now apply holds_cell.
Qed.

Lemma made_bounds l : made d l -> exists lo up, ba_lower l = Val lo /\ ba_upper l = Val up /\
  (exists a, holds l lo a) /\ (exists a, holds l (up - 1) a) /\ forall i a, holds l i a -> lo <= i < up.
Proof.
  intros H. pose proof (made_wf d l H) as W. pose proof (n_pos l W) as Hn.
  destruct (lower_loc l W) as [L1 _], (upper_loc l W) as [L2 _].
  exists (i_idx (locate l 0)), (i_idx (locate l (total l))). split; [exact L1|]. split; [exact L2|]. split; [|split].
  - destruct (deref_loc l W 0%nat Hn) as [a [_ Ha]]. exists a. now apply holds_cell.
  - unfold ba_upper in L2. destruct (nth_error l (length l - 1)) as [b|] eqn:E; [|discriminate]. injection L2 as <-.
    pose proof (nth_error_In _ _ E) as Hb. destruct (wf_bok l b W Hb) as [B1 _].
    destruct (cell_ex l (b_max b - 1) b W Hb) as [a Ha]; [lia|]. exists a. now apply holds_cell.
  - intros i a Ha. apply holds_cell in Ha. destruct (cell_loc l i a W Ha) as [p [Hp <-]].
    pose proof (idx_lt_p l W p (total l) ltac:(lia) ltac:(lia)). pose proof (idx_lt_p l W p 0%nat ltac:(lia) ltac:(lia)). lia.
Qed.

(** Iteration. *)
Definition is_live (flt : option (A -> bool)) (l : list blk) (i : N) : Prop :=
  exists a, holds l i a /\ match flt with None => True | Some v => v a = true end.

Lemma nth_sorted : forall l : list N,
  (forall i j x y, (i < j)%nat -> nth_error l i = Some x -> nth_error l j = Some y -> x < y) -> StronglySorted N.lt l.
Proof.
  induction l as [|a l IH]; intros H; constructor.
  - apply IH. intros i j x y Hij Ei Ej. apply (H (S i) (S j)); [lia|exact Ei|exact Ej].
  - rewrite Forall_forall. intros x Hx. apply In_nth_error in Hx. destruct Hx as [k E]. apply (H 0%nat (S k)); [lia|reflexivity|exact E].
Qed.

Lemma made_iterate flt l : made d l ->
  exists ids, returns (fun f => ba_iterate flt f l) ids /\ StronglySorted N.lt ids /\ (forall i, In i ids <-> is_live flt l i) /\
    forall grain t, returns (fun f => ba_parallel flt f l grain t) (Some ids).
Proof.
  intros H. pose proof (made_wf d l H) as W. exists (live_ids flt l). split; [|split; [|split]].
  - exists (S (total l)). intros m Hm. apply iterate_spec; [exact W|lia].
  - apply nth_sorted. apply live_ids_sorted. exact W.
  - intros i. rewrite live_ids_In by exact W. unfold lives, is_live. split; intros [a [Ha Hv]]; exists a; (split; [now apply holds_cell|exact Hv]).
  - intros grain t. exists (S (total l)). intros m Hm. apply parallel_spec; [exact W|lia].
Qed.

(** An iterator standing on the cell of [i]. *)
Definition stands (l : list blk) (i : N) (it : iter) : Prop :=
  exists b, nth_error l (i_block it) = Some b /\ b_min b <= i < b_max b /\ i_idx it = i.

Lemma stands_loc l i it : wf l -> stands l i it -> exists p, (p < total l)%nat /\ it = locate l p.
Proof.
  intros W [b [E [Hi Ei]]]. destruct (set_idx_loc l i (i_block it) b) as [p [P1 [P2 _]]]; [apply W| |exact E|].
  - eapply first_beyond_contains; [apply W|exact E|]. now apply contains_iff.
  - exists p. split; [exact P1|]. rewrite <- P2. destruct it as [k j]. cbn [i_block i_idx] in *. subst j. f_equal. lia.
Qed.

Lemma loc_stands l p : wf l -> (p < total l)%nat -> stands l (i_idx (locate l p)) (locate l p).
Proof. intros W Hp. destruct (locate_valid l p) as [b [E H]]; [apply W|exact Hp|]. exists b. auto. Qed.

Lemma prev_gen flt l p : wf l -> (0 < p <= total l)%nat -> (exists j, is_live flt l j /\ j < i_idx (locate l p)) ->
  exists j it', returns (fun f => it_prev flt f l (locate l p)) it' /\ stands l j it' /\ is_live flt l j /\ j < i_idx (locate l p) /\
    forall k, is_live flt l k -> k < i_idx (locate l p) -> k <= j.
Proof.
  intros W Hp [j [[a [Ha Hv]] Hj]].
  assert (HL : forall k, is_live flt l k -> k < i_idx (locate l p) -> exists q, (q < p)%nat /\ k = i_idx (locate l q) /\ live flt l q = true).
  { intros k [c [Hc Vc]] Hk. apply holds_cell in Hc. destruct (cell_loc l k c W Hc) as [q [Q1 Q2]]. exists q.
    assert (q < p)%nat by (apply (idx_lt_p l W q p); [lia|lia|rewrite Q2; exact Hk]). split; [assumption|]. split; [auto|].
    apply live_lives; [exact W|exact Q1|]. exists c. rewrite Q2. auto. }
  assert (HE : exists q, (q < p)%nat /\ live flt l q = true).
  { destruct (HL j) as [q [Q1 [_ Q2]]]; [exists a; auto|exact Hj|]. exists q. auto. }
  assert (HP : forall f, (p <= f)%nat -> _) by (intros f Hf; exact (prev_live flt l W p f Hp Hf HE)).
  destruct (HP p (le_n p)) as [q [E [Hq [Lq Mq]]]].
  exists (i_idx (locate l q)), (locate l q). split; [|split; [|split; [|split]]].
  - exists p. intros f Hf. destruct (HP f Hf) as [q' [E' [Hq' [Lq' Mq']]]]. rewrite E'. do 2 f_equal.
    destruct (Nat.lt_trichotomy q q') as [X|[X|X]]; [|auto|].
    + rewrite Mq in Lq' by lia. discriminate.
    + rewrite Mq' in Lq by lia. discriminate.
  - apply loc_stands; [exact W|lia].
  - apply live_lives in Lq; [|exact W|lia]. destruct Lq as [c [Hc Vc]]. exists c. split; [now apply holds_cell|exact Vc].
  - apply (idx_lt_p l W q p); lia.
  - intros k Hk1 Hk2. destruct (HL k Hk1 Hk2) as [r [R1 [-> R2]]].
    destruct (Nat.le_gt_cases r q) as [Hle|Hgt]; [|rewrite Mq in R2 by lia; discriminate].
    pose proof (idx_lt_p l W q r ltac:(lia) ltac:(lia)). lia.
Qed.

Lemma made_prev flt l i it : made d l -> stands l i it -> (exists j, is_live flt l j /\ j < i) ->
  exists j it', returns (fun f => it_prev flt f l it) it' /\ stands l j it' /\ is_live flt l j /\ j < i /\
    forall k, is_live flt l k -> k < i -> k <= j.
Proof.
  intros H Hs HE. pose proof (made_wf d l H) as W. destruct (stands_loc l i it W Hs) as [p [Hp ->]].
  assert (Ei : i = i_idx (locate l p)) by (destruct Hs as [b [_ [_ ?]]]; auto). subst i. apply prev_gen; [exact W| |exact HE].
  destruct HE as [j [[a [Ha _]] Hj]]. apply holds_cell in Ha. destruct (cell_loc l j a W Ha) as [q [Q1 Q2]].
  assert (q < p)%nat by (apply (idx_lt_p l W q p); [lia|lia|rewrite Q2; exact Hj]). lia.
Qed.

Lemma made_prev_end flt l e : made d l -> ba_end l = Val e -> (exists j, is_live flt l j) ->
  exists j it', returns (fun f => it_prev flt f l e) it' /\ stands l j it' /\ is_live flt l j /\
    forall k, is_live flt l k -> k <= j.
Proof.
  intros H He HE. pose proof (made_wf d l H) as W. rewrite (end_spec l W) in He. injection He as <-.
  assert (HB : forall k, is_live flt l k -> k < i_idx (locate l (total l))).
  { intros k [a [Ha _]]. apply holds_cell in Ha. destruct (cell_loc l k a W Ha) as [q [Q1 <-]]. apply (idx_lt_p l W q); lia. }
  pose proof (n_pos l W). destruct (prev_gen flt l (total l) W) as [j [it' [R1 [R2 [R3 [R4 R5]]]]]]; [lia| |].
  - destruct HE as [j Hj]. exists j. auto.
  - exists j, it'. split; [exact R1|]. split; [exact R2|]. split; [exact R3|]. auto.
Qed.
End D.
End A.
