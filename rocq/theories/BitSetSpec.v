(** Vocabulary for the statements about Bit_Set, and the lemmas in that form. *)
From Coq Require Import Sorted.
From Verif Require Import Outcome ListUtil WordsModel WordsProofs RangeModel RangeProofs BitSetModel BitSetProofs BitSetMore.
Local Open Scope N_scope.

(** The mathematical set driven by the same calls; a set is a duplicate-free list.  [cap] is
    the number of indices within the bounds. *)
Definition memb (S : list N) (i : N) : bool := existsb (N.eqb i) S.
Fixpoint bspec (cap : N) (S : list N) (l : list bop) : list bout :=
  match l with
  | [] => []
  | BInsert i :: t => BB (negb (memb S i)) :: bspec cap (if memb S i then S else i :: S) t
  | BErase i :: t => BB (memb S i) :: bspec cap (filter (fun j => negb (N.eqb j i)) S) t
  | BContains i :: t => BB (memb S i) :: bspec cap S t
  | BOnes :: t => BN (N.of_nat (length S)) :: bspec cap S t
  | BZeros :: t => BN (cap - N.of_nat (length S)) :: bspec cap S t
  | BEmpty :: t => BB (match S with [] => true | _ => false end) :: bspec cap S t
  end.
(** insert and erase must be called with indices within the bounds of the constructor. *)
Definition bop_ok (lower upper : N) (o : bop) : Prop :=
  match o with BInsert i | BErase i => lower <= i < upper | _ => True end.
Definition no_zeros (o : bop) : Prop := match o with BZeros => False | _ => True end.

Lemma memb_In S i : memb S i = true <-> In i S.
Proof.
  unfold memb. rewrite existsb_exists. split; [intros [x [H E]]; apply N.eqb_eq in E; now subst|intros H; exists i; split; [exact H|apply N.eqb_refl]].
Qed.

Lemma run_spec lower upper cap : forall l s S,
  bs_wf s -> counted s -> b_lo s <= lower -> upper <= b_up s -> NoDup S -> (forall i, memb S i = has s i) ->
  Forall (bop_ok lower upper) l -> (Forall no_zeros l \/ cap = b_up s - b_lo s) ->
  exists s', bs_run s l = Val (s', bspec cap S l).
Proof.
  induction l as [|o l IH]; intros s S Hwf Hc Hlo Hup Hnd Hm Hok Hz; [exists s; reflexivity|].
  inversion Hok as [|? ? Ho Hok']; subst. 
  assert (Hz' : Forall no_zeros l \/ cap = b_up s - b_lo s) by (destruct Hz as [Hz|Hz]; [left; now inversion Hz|now right]).
  assert (HlenS : N.of_nat (length S) = b_ones s).
  { rewrite Hc. f_equal. symmetry. apply count_of; auto. intros i. rewrite <- memb_In, Hm. reflexivity. }
  cbn [bs_run bspec]. destruct o as [i|i|i| | |]; cbn [bs_step].
  - cbn [bop_ok] in Ho. destruct (testAndSet_spec s i Hwf) as [s1 [E [W1 [L1 [U1 [H1 C1]]]]]]; [lia|lia|].
    unfold bs_insert. rewrite E. cbn [rmap rbind fst snd]. rewrite Hm.
    assert (Hz1 : Forall no_zeros l \/ cap = b_up s1 - b_lo s1) by (now rewrite L1, U1).
    destruct (IH s1 (if has s i then S else i :: S) W1 (C1 Hc)) as [s' E']; rewrite ?L1, ?U1; auto.
    + destruct (has s i) eqn:Ei; [exact Hnd|]. constructor; [|exact Hnd]. rewrite <- memb_In, Hm. congruence.
    + intros j. rewrite H1. destruct (has s i) eqn:Ei; [rewrite Hm; destruct (N.eqb_spec j i) as [->|]; [now rewrite Ei|reflexivity]|].
      change (memb (i :: S) j) with ((j =? i) || memb S j). now rewrite Hm.
    + exists s'. rewrite E'. reflexivity.
  - cbn [bop_ok] in Ho. destruct (testAndUnset_spec s i Hwf) as [s1 [E [W1 [L1 [U1 [H1 C1]]]]]]; [lia|lia|].
    unfold bs_erase. rewrite E. cbn [rmap rbind fst snd]. rewrite Hm.
    assert (Hz1 : Forall no_zeros l \/ cap = b_up s1 - b_lo s1) by (now rewrite L1, U1).
    destruct (IH s1 (filter (fun j => negb (N.eqb j i)) S) W1 (C1 Hc)) as [s' E']; rewrite ?L1, ?U1; auto.
    + now apply NoDup_filter.
    + intros j. rewrite H1, <- Hm. apply eq_true_iff_eq. rewrite memb_In, filter_In, andb_true_iff, memb_In. tauto.
    + exists s'. rewrite E'. reflexivity.
  - unfold bs_contains. rewrite isSet_has by exact Hwf. cbn [rmap rbind fst snd]. rewrite Hm.
    destruct (IH s S Hwf Hc) as [s' E']; auto. exists s'. rewrite E'. reflexivity.
  - cbn [rbind fst snd]. rewrite HlenS. unfold bs_count. destruct (IH s S Hwf Hc) as [s' E']; auto. exists s'. rewrite E'. reflexivity.
  - cbn [rbind fst snd]. destruct (IH s S Hwf Hc) as [s' E']; auto. exists s'. rewrite E'. cbn [rmap fst snd].
    destruct Hz as [Hz|Hz]; [inversion Hz; contradiction|]. rewrite HlenS, Hz. do 3 f_equal.
    unfold bs_zeros, wrap. pose proof (elems_small s Hwf). rewrite <- Hc in H.
    replace (b_up s - b_lo s + 2 ^ 64 - b_ones s) with (b_up s - b_lo s - b_ones s + 1 * 2 ^ 64) by lia.
    rewrite N.mod_add by discriminate. f_equal. apply N.mod_small. assert (b_up s <= 2 ^ 32) by apply Hwf. lia.
  - cbn [rbind fst snd]. destruct (IH s S Hwf Hc) as [s' E']; auto. exists s'. rewrite E'. cbn [rmap fst snd].
    do 3 f_equal. unfold bs_zero. rewrite <- HlenS. destruct S; reflexivity.
Qed.

Lemma history lower upper cap l : lower <= upper -> upper <= 2 ^ 32 -> Forall (bop_ok lower upper) l ->
  Forall no_zeros l \/ cap = 32 * ((upper + 31) / 32) - 32 * (lower / 32) ->
  rbind (bs_new lower upper) (fun s => rmap snd (bs_run s l)) = Val (bspec cap [] l).
Proof.
  intros H1 H2 Hok Hz. destruct (bs_new_spec lower upper H1 H2) as [s [E [W [Hh [C [Lo [Up [L1 U1]]]]]]]].
  rewrite E. cbn [rbind]. rewrite <- Lo, <- Up in Hz.
  destruct (run_spec lower upper cap l s [] W C L1 U1) as [s' E']; auto; [constructor|]. rewrite E'. reflexivity.
Qed.

(** Every way of obtaining a bit set: constructor and all modifying calls, with the
    arguments for which the code asserts its preconditions. *)
Inductive made : bitset -> Prop :=
| made_new lower upper s : lower <= upper -> upper <= 2 ^ 32 -> bs_new lower upper = Val s -> made s
| made_insert s i s' b : made s -> b_lo s <= i < b_up s -> bs_insert s i = Val (s', b) -> made s'
| made_erase s i s' b : made s -> b_lo s <= i < b_up s -> bs_erase s i = Val (s', b) -> made s'
| made_batchSet s from to s' : made s -> b_lo s <= from < b_up s -> from <= to <= b_up s -> bs_batchSet s from to = Val s' -> made s'
| made_resize s lower upper s' : made s -> lower <= 2 ^ 32 -> upper <= 2 ^ 32 -> bs_resize s lower upper = Val s' -> made s'
| made_merge s o s' : made s -> made o -> bs_merge s o = Val s' -> made s'
| made_filter s f s' : made s -> made f -> bs_filter s f = Val s' -> made s'
| made_mergeFilter s o f s' : made s -> made o -> made f -> bs_mergeFilter s o f = Val s' -> made s'
| made_copy s : made s -> made (bs_copy s)
| made_load s : made s -> made (bs_load (bs_save s)).

Lemma copy_id s : bs_copy s = s.
Proof. unfold bs_copy. rewrite map_id. now destruct s. Qed.
Lemma load_save_id s : bs_load (bs_save s) = s.
Proof. unfold bs_load, bs_save. rewrite Nat2N.id, firstn_all. now destruct s. Qed.

Lemma made_wf s : made s -> bs_wf s.
Proof.
  induction 1.
  - destruct (bs_new_spec lower upper H H0) as [s1 [E [W _]]]. congruence.
  - destruct H0. destruct (testAndSet_spec s i IHmade) as [s1 [E [W _]]]; auto. unfold bs_insert in H1. rewrite E in H1. cbn in H1. congruence.
  - destruct H0. destruct (testAndUnset_spec s i IHmade) as [s1 [E [W _]]]; auto. unfold bs_erase in H1. congruence.
  - destruct (N.eq_dec (to mod 32) 0) as [E0|E0]; [rewrite (batchSet_aligned_undef _ _ _ E0) in H2; discriminate|].
    destruct (batchSet_spec s from to IHmade) as [r [E [W _]]]; try tauto. congruence.
  - destruct (resize_spec s lower upper IHmade) as [r [E [W _]]]; auto. congruence.
  - destruct (merge_spec s o IHmade1 IHmade2) as [r [E [W _]]]; auto. congruence.
  - destruct (filter_spec s f IHmade1 IHmade2) as [r [E [W _]]]; auto. congruence.
  - destruct (mergeFilter_spec s o f IHmade1 IHmade2 IHmade3) as [r [E [W _]]]; auto. congruence.
  - now rewrite copy_id.
  - now rewrite load_save_id.
Qed.

(** Membership and the number of elements, as seen through contains(). *)
Definition mem (s : bitset) (i : N) : Prop := bs_contains s i = Val true.
Definition cardinal (s : bitset) (n : N) : Prop :=
  exists l, NoDup l /\ (forall i, In i l <-> mem s i) /\ N.of_nat (length l) = n.
Definition exact (s : bitset) : Prop := cardinal s (bs_count s).

Lemma mem_has s i : bs_wf s -> (mem s i <-> has s i = true).
Proof. intros Hwf. unfold mem, bs_contains. rewrite isSet_has by exact Hwf. split; congruence. Qed.

Lemma exact_counted s : bs_wf s -> (exact s <-> counted s).
Proof.
  intros Hwf. split.
  - intros [l [Hn [Hl Hc]]]. unfold counted. unfold bs_count in Hc. rewrite <- Hc. f_equal. symmetry. apply count_of; auto.
    intros i. rewrite Hl. now apply mem_has.
  - intros Hc. exists (elems s). split; [apply elems_NoDup|]. split; [|symmetry; exact Hc]. intros i. rewrite elems_In, mem_has by exact Hwf. reflexivity.
Qed.

Lemma cardinal_fun s n m : cardinal s n -> cardinal s m -> n = m.
Proof.
  intros [l [H1 [H2 <-]]] [l' [H1' [H2' <-]]]. f_equal. apply NoDup_same_length; auto. intros x. rewrite H2, H2'. reflexivity.
Qed.

Lemma cardinal_elems s n : bs_wf s -> cardinal s n -> n = N.of_nat (length (elems s)).
Proof.
  intros Hwf H. eapply cardinal_fun; [exact H|]. exists (elems s). split; [apply elems_NoDup|]. split; [|reflexivity].
  intros i. rewrite elems_In, mem_has by exact Hwf. reflexivity.
Qed.

Lemma made_contains s i : made s -> (exists b, bs_contains s i = Val b) /\ (mem s i -> b_lo s <= i < b_up s).
Proof.
  intros H. apply made_wf in H. split; [eexists; now apply isSet_has|]. intros Hm. apply mem_has in Hm; [|exact H]. now apply has_bounds.
Qed.

Lemma orb_prop_iff x y : x || y = true <-> x = true \/ y = true. Proof. apply orb_true_iff. Qed.

Lemma made_insert_mem s i : made s -> b_lo s <= i < b_up s ->
  exists s' b, bs_insert s i = Val (s', b) /\ (b = true <-> ~ mem s i) /\ (forall j, mem s' j <-> j = i \/ mem s j) /\ (exact s -> exact s').
Proof.
  intros H Hi. pose proof (made_wf s H) as Hwf. destruct Hi as [H1 H2]. destruct (testAndSet_spec s i Hwf H1 H2) as [s1 [E [W1 [_ [_ [Hh C1]]]]]].
  exists s1, (negb (has s i)). unfold bs_insert. rewrite E. split; [reflexivity|]. split.
  - rewrite mem_has by exact Hwf. rewrite negb_true_iff. destruct (has s i); split; congruence.
  - split; [|now rewrite !exact_counted]. intros j. rewrite !mem_has, Hh, orb_true_iff, N.eqb_eq by assumption. reflexivity.
Qed.

Lemma made_erase_mem s i : made s -> b_lo s <= i < b_up s ->
  exists s' b, bs_erase s i = Val (s', b) /\ (b = true <-> mem s i) /\ (forall j, mem s' j <-> j <> i /\ mem s j) /\ (exact s -> exact s').
Proof.
  intros H Hi. pose proof (made_wf s H) as Hwf. destruct Hi as [H1 H2]. destruct (testAndUnset_spec s i Hwf H1 H2) as [s1 [E [W1 [_ [_ [Hh C1]]]]]].
  exists s1, (has s i). unfold bs_erase. rewrite E. split; [reflexivity|]. split.
  - rewrite mem_has by exact Hwf. reflexivity.
  - split; [|now rewrite !exact_counted]. intros j. rewrite !mem_has, Hh, andb_true_iff, negb_true_iff, N.eqb_neq by assumption. reflexivity.
Qed.

Lemma made_merge_mem s o : made s -> made o ->
  exists r, bs_merge s o = Val r /\ (forall i, mem r i <-> mem s i \/ mem o i) /\ exact r /\
    b_lo r = N.min (b_lo s) (b_lo o) /\ b_up r = N.max (b_up s) (b_up o).
Proof.
  intros Hs Ho. apply made_wf in Hs, Ho. destruct (merge_spec s o Hs Ho) as [r [E [W [C [Hh B]]]]]. exists r. split; [exact E|].
  split; [intros i; rewrite !mem_has, Hh, orb_true_iff by assumption; reflexivity|]. split; [now apply exact_counted|exact B].
Qed.

Lemma made_mergeFilter_mem s o f : made s -> made o -> made f ->
  exists r, bs_mergeFilter s o f = Val r /\ (forall i, mem r i <-> (mem s i \/ mem o i) /\ ~ mem f i) /\ exact r /\
    b_lo r = N.min (b_lo s) (b_lo o) /\ b_up r = N.max (b_up s) (b_up o).
Proof.
  intros Hs Ho Hf. apply made_wf in Hs, Ho, Hf. destruct (mergeFilter_spec s o f Hs Ho Hf) as [r [E [W [C [Hh B]]]]]. exists r. split; [exact E|].
  split; [|split; [now apply exact_counted|exact B]]. intros i. rewrite !mem_has, Hh, andb_true_iff, orb_true_iff, negb_true_iff by assumption.
  destruct (has f i); intuition congruence.
Qed.

Lemma made_resize_mem s lower upper : made s -> lower <= 2 ^ 32 -> upper <= 2 ^ 32 ->
  exists r, bs_resize s lower upper = Val r /\ (forall i, mem r i <-> mem s i) /\ bs_count r = bs_count s /\ (exact s -> exact r) /\
    b_lo r <= b_lo s /\ b_lo r <= lower /\ b_up s <= b_up r /\ upper <= b_up r.
Proof.
  intros Hs Hl Hu. apply made_wf in Hs. destruct (resize_spec s lower upper Hs Hl Hu) as [r [E [W [Hh [O [C [B1 B2]]]]]]]. exists r. split; [exact E|].
  split; [intros i; rewrite !mem_has, Hh by assumption; reflexivity|]. split; [exact O|]. split; [now rewrite !exact_counted|].
  rewrite B1, B2. pose proof (div32 lower). pose proof (div32 (upper + 31)). pose proof (mod32 (upper + 31)). lia.
Qed.

Lemma made_filter_mem s f : made s -> made f ->
  exists r, bs_filter s f = Val r /\ (forall i, mem r i <-> mem s i /\ ~ mem f i) /\
    (b_lo f <= b_lo s -> b_up s <= b_up f -> exact r) /\
    (forall i, mem s i -> ~ (b_lo f <= i < b_up f) -> exists n, cardinal r n /\ bs_count r < n).
Proof.
  intros Hs Hf. apply made_wf in Hs, Hf. destruct (filter_spec s f Hs Hf) as [r [E [W [Hh [_ [_ [O C]]]]]]]. exists r. split; [exact E|].
  assert (M : forall i, mem r i <-> mem s i /\ ~ mem f i).
  { intros i. rewrite !mem_has, Hh, andb_true_iff, negb_true_iff by assumption. destruct (has f i); intuition congruence. }
  split; [exact M|]. split; [intros; apply exact_counted; auto|]. intros i Hi Ho. exists (N.of_nat (length (elems r))). split.
  - exists (elems r). split; [apply elems_NoDup|]. split; [|reflexivity]. intros j. rewrite elems_In, mem_has by exact W. reflexivity.
  - unfold bs_count. rewrite O.
    assert (In i (elems r)).
    { apply elems_In; [exact W|]. apply mem_has; [exact W|]. apply M. split; [exact Hi|]. intros Hm. apply mem_has in Hm; [|exact Hf]. now apply has_bounds in Hm. }
    assert (G : forall l, In i l -> (length (filter (fun i => (b_lo f <=? i)%N && (i <? b_up f)%N) l) < length l)%nat).
    { assert (L : forall l : list N, (length (filter (fun i => (b_lo f <=? i)%N && (i <? b_up f)%N) l) <= length l)%nat).
      { induction l as [|y l IH]; cbn; [lia|]. destruct (_ && _); cbn; lia. }
      induction l as [|y l IH]; intros Hin; [destruct Hin|]. cbn [filter length]. destruct Hin as [->|Hin].
      - replace ((b_lo f <=? i) && (i <? b_up f)) with false by (clear - Ho; lia). specialize (L l). lia.
      - specialize (IH Hin). destruct (_ && _); cbn [length]; lia. }
    specialize (G _ H). lia.
Qed.

Lemma made_batchSet_mem s from to : made s -> b_lo s <= from < b_up s -> from <= to <= b_up s -> to mod 32 <> 0 ->
  exists r, bs_batchSet s from to = Val r /\ bs_count r = to - from /\
    forall i, mem r i <-> (if (from / 32 <=? i / 32) && (i / 32 <=? (to - 1) / 32) then from <= i < to else mem s i).
Proof.
  intros Hs [H1 H2] [H3 H4] H5. apply made_wf in Hs. destruct (batchSet_spec s from to Hs H1 H2 H3 H4 H5) as [r [E [W [_ [_ [O Hh]]]]]].
  exists r. split; [exact E|]. split; [exact O|]. intros i. rewrite (mem_has r) by assumption. rewrite Hh. destruct (_ && _); [|symmetry; now apply mem_has].
  rewrite andb_true_iff, N.leb_le, N.ltb_lt. reflexivity.
Qed.

Lemma made_iterate s : made s ->
  exists l, returns (fun f => bs_iterate f s) l /\ StronglySorted N.lt l /\ (forall i, In i l <-> mem s i) /\
    forall grain t, returns (fun f => bs_parallel f s grain t) l.
Proof.
  intros Hs. apply made_wf in Hs. exists (elems s). split; [exists (S (bs_end s)); intros; apply bs_iterate_spec; [exact Hs|lia]|].
  split; [apply elems_sorted|]. split; [intros i; rewrite elems_In, mem_has by exact Hs; reflexivity|].
  intros. exists (S (bs_end s)). intros. apply bs_parallel_spec; [exact Hs|lia].
Qed.

(** Stepping back from a position. *)
Lemma made_prev s i : made s -> (i <= bs_end s)%nat ->
  match bs_prev s i with
  | Val j => (j < i)%nat /\ mem s (bs_deref s j) /\ forall k, bs_deref s j < k < bs_deref s i -> ~ mem s k
  | NoFuel => False
  | Undef => forall k, mem s k -> bs_deref s i <= k
  end.
Proof.
  intros Hs Hi. apply made_wf in Hs. destruct (bs_end_len s Hs) as [El Hm]. unfold bs_prev.
  pose proof (dec_spec (fun j => negb (bit_rel (b_words s) j)) i) as D.
  assert (K : forall j, (j < bs_end s)%nat -> bit_rel (b_words s) j = has s (bs_deref s j)).
  { intros j Hj. rewrite bit_rel_bitn by lia. apply eq_true_iff_eq. rewrite <- elems_In by exact Hs. unfold elems, bs_deref. rewrite in_map_iff. split.
    - intros Hb. exists j. split; [reflexivity|]. apply filter_In. split; [apply in_seq; lia|exact Hb].
    - intros [x [Ex Hx]]. apply filter_In in Hx. replace j with x by lia. apply Hx. }
  destruct (dec _ i) as [j| |].
  - destruct D as [D1 [D2 D3]]. split; [exact D1|]. rewrite negb_false_iff in D2. rewrite K in D2 by lia. split; [now apply mem_has|].
    intros k [K1 K2] Hk. apply mem_has in Hk; [|exact Hs]. unfold bs_deref in *. pose proof (has_bounds _ _ Hk).
    specialize (D3 (N.to_nat (k - b_lo s)) ltac:(lia)). rewrite K in D3 by lia. unfold bs_deref in D3.
    replace (b_lo s + N.of_nat (N.to_nat (k - b_lo s))) with k in D3 by lia. rewrite Hk in D3. discriminate.
  - exact D.
  - intros k Hk. apply mem_has in Hk; [|exact Hs]. unfold bs_deref. pose proof (has_bounds _ _ Hk).
    destruct (N.le_gt_cases (b_lo s + N.of_nat i) k) as [|Hlt]; [assumption|]. exfalso.
    specialize (D (N.to_nat (k - b_lo s)) ltac:(lia)). rewrite K in D by lia. unfold bs_deref in D.
    replace (b_lo s + N.of_nat (N.to_nat (k - b_lo s))) with k in D by lia. rewrite Hk in D. discriminate.
Qed.
