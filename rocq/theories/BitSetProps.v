(** Properties C19-C22: Bit_Set. *)
From Coq Require Import Sorted.
From Verif Require Import Outcome ListUtil WordsModel RangeModel BitSetModel BitSetProofs BitSetSpec.
Local Open Scope N_scope.

(** ** C19 *)
(** Any history of insert, erase, contains, ones and empty calls answers as the
    mathematical set does; contains may be asked for any index. *)
Theorem C19_history : forall lower upper cap l,
  lower <= upper -> upper <= 2 ^ 32 -> Forall (bop_ok lower upper) l -> Forall no_zeros l ->
  rbind (bs_new lower upper) (fun s => rmap snd (bs_run s l)) = Val (bspec cap [] l).
Proof. intros. apply history; auto. Qed.
Print Assumptions C19_history.
Example C19_history_ex :
  let l := [BInsert 5; BInsert 63; BInsert 5; BContains 63; BErase 5; BErase 5; BContains 5; BContains 200; BContains 64; BOnes; BEmpty] in
  Forall (bop_ok 3 64) l /\ Forall no_zeros l /\
  rbind (bs_new 3 64) (fun s => rmap snd (bs_run s l)) =
  Val [BB true; BB true; BB false; BB true; BB true; BB false; BB false; BB false; BB false; BN 1; BB false].
Proof. cbv zeta. split; [repeat constructor; cbn; try lia|]. split; [repeat constructor|vm_compute; reflexivity]. Qed.

(** zeros() too, for bounds that are multiples of 32. *)
Theorem C19_zeros_partial : forall lower upper l,
  lower <= upper -> upper <= 2 ^ 32 -> lower mod 32 = 0 -> upper mod 32 = 0 -> Forall (bop_ok lower upper) l ->
  rbind (bs_new lower upper) (fun s => rmap snd (bs_run s l)) = Val (bspec (upper - lower) [] l).
Proof.
  intros lower upper l H1 H2 H3 H4 Hok. apply history; auto. right.
  pose proof (div32 lower). pose proof (div32 upper). 
  assert (E : (upper + 31) / 32 = upper / 32); [|rewrite E; lia].
  symmetry. apply (N.div_unique (upper + 31) 32 _ 31); lia.
Qed.
Print Assumptions C19_zeros_partial.
Example C19_zeros_ex : rbind (bs_new 32 96) (fun s => rmap snd (bs_run s [BInsert 40; BZeros])) = Val [BB true; BN 63].
Proof. vm_compute. reflexivity. Qed.

(** For other bounds zeros() counts indices outside the bounds as well: the fresh set
    already reports too many. *)
Theorem C19_zeros_refuted : forall lower upper,
  lower <= upper -> upper <= 2 ^ 32 -> (lower mod 32 <> 0 \/ upper mod 32 <> 0) ->
  exists s, bs_new lower upper = Val s /\ upper - lower < bs_zeros s.
Proof.
  intros lower upper H1 H2 H3. destruct (bs_new_spec lower upper H1 H2) as [s [E [W [Hh [C [Lo [Up _]]]]]]]. exists s. split; [exact E|].
  assert (O : b_ones s = 0).
  { rewrite C. rewrite (count_of s [] W); [reflexivity|constructor|]. intros i. rewrite Hh. split; [intros []|discriminate]. }
  unfold bs_zeros, wrap. rewrite O, N.sub_0_r. replace (b_up s - b_lo s + 2 ^ 64) with (b_up s - b_lo s + 1 * 2 ^ 64) by lia.
  rewrite N.mod_add by discriminate. assert (b_up s <= 2 ^ 32) by apply W. rewrite N.mod_small by lia. rewrite Lo, Up.
  pose proof (div32 lower). pose proof (mod32 lower). pose proof (div32 upper). pose proof (mod32 upper). pose proof (div32 (upper + 31)). pose proof (mod32 (upper + 31)). lia.
Qed.
Print Assumptions C19_zeros_refuted.
Example C19_zeros_refuted_ex : rmap bs_zeros (bs_new 0 33) = Val 64.
Proof. reflexivity. Qed.

(** The same per call, for sets obtained in any way (see [made]): contains always answers,
    nothing outside the bounds is contained, insert and erase change one index and report it. *)
Theorem C19_contains : forall s i, made s -> (exists b, bs_contains s i = Val b) /\ (mem s i -> b_lo s <= i < b_up s).
Proof. exact made_contains. Qed.
Print Assumptions C19_contains.
Theorem C19_insert : forall s i, made s -> b_lo s <= i < b_up s ->
  exists s' b, bs_insert s i = Val (s', b) /\ (b = true <-> ~ mem s i) /\ (forall j, mem s' j <-> j = i \/ mem s j) /\ (exact s -> exact s').
Proof. exact made_insert_mem. Qed.
Print Assumptions C19_insert.
Theorem C19_erase : forall s i, made s -> b_lo s <= i < b_up s ->
  exists s' b, bs_erase s i = Val (s', b) /\ (b = true <-> mem s i) /\ (forall j, mem s' j <-> j <> i /\ mem s j) /\ (exact s -> exact s').
Proof. exact made_erase_mem. Qed.
Print Assumptions C19_erase.

(** Outside the rounded bounds insert writes out of bounds. *)
Theorem C19_insert_outside_undefined : forall s i, made s -> i < 2 ^ 32 -> ~ (b_lo s <= i < b_up s) -> bs_insert s i = Undef.
Proof. intros s i Hs Hi Ho. unfold bs_insert. now rewrite testAndSet_outside by (auto using made_wf). Qed.
Print Assumptions C19_insert_outside_undefined.

(** A set used by the examples below. *)
Definition ex_set (lo up : N) (l : list N) : res bitset :=
  rbind (bs_new lo up) (fun s => rmap fst (bs_run s (map BInsert l))).
Lemma ex_set_made lo up l s : lo <= up -> up <= 2 ^ 32 -> Forall (fun i => lo <= i < up) l -> ex_set lo up l = Val s -> made s.
Proof.
  intros H1 H2 Hl E. unfold ex_set in E. destruct (bs_new_spec lo up H1 H2) as [s0 [E0 [W0 [_ [_ [_ [_ [L0 U0]]]]]]]]. rewrite E0 in E. cbn [rbind] in E.
  assert (G : forall l s0, Forall (fun i => lo <= i < up) l -> made s0 -> b_lo s0 <= lo -> up <= b_up s0 -> rmap fst (bs_run s0 (map BInsert l)) = Val s -> made s).
  { clear. induction l as [|i l IH]; intros s0 Hl Hm L0 U0 E; cbn [map bs_run] in E; [cbn in E; congruence|].
    inversion Hl as [|? ? Hi Hl']; subst. pose proof (made_wf _ Hm) as Hwf. cbn [bs_step] in E.
    destruct (testAndSet_spec s0 i Hwf) as [s1 [E1 [W1 [Lo [Up _]]]]]; [lia|lia|].
    assert (M1 : made s1) by (eapply (made_insert s0 i); [exact Hm|lia|unfold bs_insert; rewrite E1; reflexivity]).
    unfold bs_insert in E. rewrite E1 in E. cbn [rmap rbind fst snd] in E. apply (IH s1); auto; try lia.
    destruct (bs_run s1 (map BInsert l)) as [[sx ox]| |]; cbn in E |- *; congruence. }
  apply (G l s0); auto. now apply (made_new lo up).
Qed.
Example C19_made_ex : exists s, ex_set 3 100 [5; 40; 99] = Val s /\ made s /\ b_lo s <= 41 < b_up s.
Proof.
  eexists. split; [vm_compute; reflexivity|]. split; [|cbn [b_lo b_up]; lia].
  apply (ex_set_made 3 100 [5; 40; 99]); [lia|lia|repeat constructor; lia|vm_compute; reflexivity].
Qed.

(** ** C20 *)
Theorem C20_merge : forall s o, made s -> made o ->
  exists r, bs_merge s o = Val r /\ (forall i, mem r i <-> mem s i \/ mem o i) /\ exact r /\
    b_lo r = N.min (b_lo s) (b_lo o) /\ b_up r = N.max (b_up s) (b_up o).
Proof. exact made_merge_mem. Qed.
Print Assumptions C20_merge.
Example C20_merge_ex :
  rbind (ex_set 0 40 [3; 39]) (fun a => rbind (ex_set 100 200 [150; 199]) (fun b => rbind (bs_merge a b) (fun r =>
  rmap (fun l => (l, bs_count r, b_lo r, b_up r)) (bs_iterate 400 r)))) = Val ([3; 39; 150; 199], 4, 0, 224).
Proof. vm_compute. reflexivity. Qed.

Theorem C20_mergeFilter : forall s o f, made s -> made o -> made f ->
  exists r, bs_mergeFilter s o f = Val r /\ (forall i, mem r i <-> (mem s i \/ mem o i) /\ ~ mem f i) /\ exact r /\
    b_lo r = N.min (b_lo s) (b_lo o) /\ b_up r = N.max (b_up s) (b_up o).
Proof. exact made_mergeFilter_mem. Qed.
Print Assumptions C20_mergeFilter.
Example C20_mergeFilter_ex :
  rbind (ex_set 0 40 [3; 39]) (fun a => rbind (ex_set 100 200 [150; 199]) (fun b => rbind (ex_set 32 160 [39; 150; 151]) (fun f => rbind (bs_mergeFilter a b f) (fun r =>
  rmap (fun l => (l, bs_count r)) (bs_iterate 400 r))))) = Val ([3; 199], 2).
Proof. vm_compute. reflexivity. Qed.

Theorem C20_resize : forall s lower upper, made s -> lower <= 2 ^ 32 -> upper <= 2 ^ 32 ->
  exists r, bs_resize s lower upper = Val r /\ (forall i, mem r i <-> mem s i) /\ bs_count r = bs_count s /\ (exact s -> exact r) /\
    b_lo r <= b_lo s /\ b_lo r <= lower /\ b_up s <= b_up r /\ upper <= b_up r.
Proof. exact made_resize_mem. Qed.
Print Assumptions C20_resize.
Example C20_resize_ex :
  rbind (ex_set 64 100 [70; 99]) (fun a => rbind (bs_resize a 10 130) (fun r =>
  rmap (fun l => (l, bs_count r, b_lo r, b_up r)) (bs_iterate 400 r))) = Val ([70; 99], 2, 0, 160).
Proof. vm_compute. reflexivity. Qed.

(** filter is set difference.  ones() is right afterwards if the bounds of the filter cover
    the set.  Missing for the full claim: other bounds, refuted below. *)
Theorem C20_filter_partial : forall s f, made s -> made f ->
  exists r, bs_filter s f = Val r /\ (forall i, mem r i <-> mem s i /\ ~ mem f i) /\
    (b_lo f <= b_lo s -> b_up s <= b_up f -> exact r).
Proof.
  intros s f Hs Hf. destruct (made_filter_mem s f Hs Hf) as [r [E [M [X _]]]]. eauto.
Qed.
Print Assumptions C20_filter_partial.
Example C20_filter_ex :
  rbind (ex_set 32 100 [40; 70; 99]) (fun a => rbind (ex_set 0 128 [70; 3]) (fun f => rbind (bs_filter a f) (fun r =>
  rmap (fun l => (l, bs_count r)) (bs_iterate 400 r)))) = Val ([40; 99], 2).
Proof. vm_compute. reflexivity. Qed.

(** After filtering with a set whose bounds leave out an element, ones() is too small. *)
Theorem C20_filter_ones_refuted : forall s f i, made s -> made f -> mem s i -> ~ (b_lo f <= i < b_up f) ->
  exists r n, bs_filter s f = Val r /\ mem r i /\ cardinal r n /\ bs_count r < n.
Proof.
  intros s f i Hs Hf Hi Ho. destruct (made_filter_mem s f Hs Hf) as [r [E [M [_ X]]]]. destruct (X i Hi Ho) as [n [H1 H2]].
  exists r, n. split; [exact E|]. split; [|split; assumption]. apply M. split; [exact Hi|]. intros Hm. now apply made_contains in Hm.
Qed.
Print Assumptions C20_filter_ones_refuted.
(** empty() then answers true although 40 is contained. *)
Example C20_filter_ones_ex :
  rbind (ex_set 0 64 [40]) (fun a => rbind (ex_set 0 32 []) (fun f => rbind (bs_filter a f) (fun r =>
  rmap (fun b => (b, bs_zero r)) (bs_contains r 40)))) = Val (true, true).
Proof. vm_compute. reflexivity. Qed.

(** copy and load(save) reproduce the set. *)
Theorem C20_copy : forall s, bs_copy s = s /\ bs_load (bs_save s) = s.
Proof. intros s. split; [apply copy_id|apply load_save_id]. Qed.
Print Assumptions C20_copy.

(** ** C21 *)
(** What batchSet does when [to] is not a multiple of 32: the words touched by the range are
    overwritten.  Missing for the full claim: keeping the other indices of these words, the count,
    and aligned [to]; see the refutations. *)
Theorem C21_batchSet_partial : forall s from to,
  made s -> b_lo s <= from < b_up s -> from <= to <= b_up s -> to mod 32 <> 0 ->
  exists r, bs_batchSet s from to = Val r /\ bs_count r = to - from /\
    forall i, mem r i <-> (if (from / 32 <=? i / 32) && (i / 32 <=? (to - 1) / 32) then from <= i < to else mem s i).
Proof. exact made_batchSet_mem. Qed.
Print Assumptions C21_batchSet_partial.

(** On an empty set this is the claim, and the count is right. *)
Theorem C21_batchSet_empty_partial : forall s from to,
  made s -> (forall i, ~ mem s i) -> b_lo s <= from < b_up s -> from <= to <= b_up s -> to mod 32 <> 0 ->
  exists r, bs_batchSet s from to = Val r /\ (forall i, mem r i <-> from <= i < to) /\ exact r.
Proof.
  intros s from to Hs He H1 H2 H3. destruct (made_batchSet_mem s from to Hs H1 H2 H3) as [r [E [C M]]]. exists r. split; [exact E|].
  assert (M' : forall i, mem r i <-> from <= i < to).
  { intros i. rewrite M. destruct ((from / 32 <=? i / 32) && (i / 32 <=? (to - 1) / 32)) eqn:B; [reflexivity|].
    split; [intros H; now apply He in H|]. intros [B1 B2]. exfalso.
    pose proof (N.div_le_mono from i 32 ltac:(discriminate) B1). pose proof (N.div_le_mono i (to - 1) 32 ltac:(discriminate) ltac:(lia)). lia. }
  split; [exact M'|]. exists (map (fun k => from + N.of_nat k) (seq 0 (N.to_nat (to - from)))). split.
  - apply FinFun.Injective_map_NoDup; [intros x y Hxy; lia|apply seq_NoDup].
  - split; [|rewrite map_length, seq_length; lia]. intros i. rewrite M', in_map_iff. split.
    + intros [k [<- Hk]]. apply in_seq in Hk. lia.
    + intros Hi. exists (N.to_nat (i - from)). split; [lia|]. apply in_seq. lia.
Qed.
Print Assumptions C21_batchSet_empty_partial.
Example C21_ex :
  rbind (ex_set 0 128 []) (fun a => rbind (bs_batchSet a 30 67) (fun r =>
  rmap (fun l => (hd 0 l, last l 0, length l, bs_count r)) (bs_iterate 400 r))) = Val (30, 66, 37%nat, 37).
Proof. vm_compute. reflexivity. Qed.

(** An element just before the range, in the same word, is lost. *)
Theorem C21_keeps_others_refuted : forall s from to i,
  made s -> b_lo s <= from < b_up s -> from <= to <= b_up s -> to mod 32 <> 0 ->
  mem s i -> i < from -> i / 32 = from / 32 ->
  exists r, bs_batchSet s from to = Val r /\ ~ mem r i.
Proof.
  intros s from to i Hs H1 H2 H3 Hi Hlt Hd. destruct (made_batchSet_mem s from to Hs H1 H2 H3) as [r [E [C M]]]. exists r. split; [exact E|].
  rewrite M. replace ((from / 32 <=? i / 32) && (i / 32 <=? (to - 1) / 32)) with true; [lia|].
  assert (0 < to) by (destruct (N.eq_dec to 0) as [->|]; [now elim H3|lia]).
  assert ((to - 1) / 32 = to / 32).
  { symmetry. pose proof (div32 to). pose proof (mod32 to). apply (N.div_unique (to - 1) 32 _ (to mod 32 - 1)); lia. }
  pose proof (N.div_le_mono from to 32 ltac:(discriminate) ltac:(lia)). lia.
Qed.
Print Assumptions C21_keeps_others_refuted.
Example C21_keeps_others_ex :
  rbind (ex_set 0 64 [2]) (fun a => rbind (bs_batchSet a 5 7) (fun r => bs_contains r 2)) = Val false.
Proof. vm_compute. reflexivity. Qed.

(** ones() afterwards ignores all elements outside the range. *)
Theorem C21_count_refuted : forall s from to i,
  made s -> b_lo s <= from < b_up s -> from <= to <= b_up s -> to mod 32 <> 0 ->
  mem s i -> i / 32 < from / 32 ->
  exists r n, bs_batchSet s from to = Val r /\ cardinal r n /\ bs_count r < n.
Proof.
  intros s from to i Hs H1 H2 H3 Hi Hlt. destruct (made_batchSet_mem s from to Hs H1 H2 H3) as [r [E [C M]]].
  assert (W : made r) by (eapply made_batchSet; eassumption). apply made_wf in W.
  exists r, (N.of_nat (length (elems r))). split; [exact E|]. split.
  - exists (elems r). split; [apply elems_NoDup|]. split; [|reflexivity]. intros j. rewrite elems_In, mem_has by exact W. reflexivity.
  - rewrite C.
    assert (Hi' : mem r i). { rewrite M. replace ((from / 32 <=? i / 32) && _) with false by lia. exact Hi. }
    assert (Hlt' : i < from) by (pose proof (div32 i); pose proof (mod32 i); pose proof (div32 from); lia).
    assert (L : (length (i :: map (fun k => (from + N.of_nat k)%N) (seq 0 (N.to_nat (to - from)))) <= length (elems r))%nat).
    { apply NoDup_incl_length.
      - constructor; [rewrite in_map_iff; intros [k [Hk _]]; lia|]. apply FinFun.Injective_map_NoDup; [intros x y Hxy; lia|apply seq_NoDup].
      - intros j [<-|Hj]; apply elems_In, mem_has; auto. apply in_map_iff in Hj. destruct Hj as [k [<- Hk]]. apply in_seq in Hk.
        apply M. assert (B1 : from <= from + N.of_nat k) by lia. assert (B2 : from + N.of_nat k < to) by lia.
        pose proof (N.div_le_mono _ _ 32 ltac:(discriminate) B1). pose proof (N.div_le_mono (from + N.of_nat k) (to - 1) 32 ltac:(discriminate) ltac:(lia)).
        destruct (_ && _) eqn:B; lia. }
    cbn [length] in L. rewrite map_length, seq_length in L. lia.
Qed.
Print Assumptions C21_count_refuted.
Example C21_count_ex :
  rbind (ex_set 0 96 [2]) (fun a => rbind (bs_batchSet a 40 41) (fun r => rmap (fun l => (l, bs_count r)) (bs_iterate 200 r))) = Val ([2; 40], 1).
Proof. vm_compute. reflexivity. Qed.

(** A range ending at a multiple of 32 shifts a 32-bit word by 32 bits. *)
Theorem C21_aligned_end_undefined : forall s from to, to mod 32 = 0 -> bs_batchSet s from to = Undef.
Proof. exact BitSetMore.batchSet_aligned_undef. Qed.
Print Assumptions C21_aligned_end_undefined.
Example C21_aligned_ex : rbind (ex_set 0 64 []) (fun a => bs_batchSet a 5 32) = Undef.
Proof. vm_compute. reflexivity. Qed.

(** ** C22 *)
(** Iterating, sequentially or over any splitting into subranges, yields the elements in
    increasing order. *)
Theorem C22_iteration : forall s, made s ->
  exists l, returns (fun f => bs_iterate f s) l /\ StronglySorted N.lt l /\ (forall i, In i l <-> mem s i) /\
    forall grain t, returns (fun f => bs_parallel f s grain t) l.
Proof. exact made_iterate. Qed.
Print Assumptions C22_iteration.
Example C22_ex :
  rbind (ex_set 35 200 [70; 35; 199; 63; 64; 128]) (fun a =>
  rbind (bs_iterate 400 a) (fun l => rmap (fun l' => (l, l')) (bs_parallel 400 a 1 (Split (Split Run Run) Run)))) =
  Val ([35; 63; 64; 70; 128; 199], [35; 63; 64; 70; 128; 199]).
Proof. vm_compute. reflexivity. Qed.

(** operator-- finds the previous element; from the first element it runs out of bounds. *)
Theorem C22_decrement : forall s i, made s -> (i <= bs_end s)%nat ->
  match bs_prev s i with
  | Val j => (j < i)%nat /\ mem s (bs_deref s j) /\ forall k, bs_deref s j < k < bs_deref s i -> ~ mem s k
  | NoFuel => False
  | Undef => forall k, mem s k -> bs_deref s i <= k
  end.
Proof. exact made_prev. Qed.
Print Assumptions C22_decrement.
