(** Properties C09 (multimap part) and C10: the sequential linear-probing multimap. *)
From Coq Require Import Permutation.
From Verif Require Import Outcome ListUtil WordsModel RangeModel LPSetModel ProbeTheory LPSetProofs LPSetHistory LPSetSpec LPMapModel LPMapProofs LPMapSpec LPMultiMapModel LPMultiMapProofs LPMultiMapSpec.
Local Open Scope nat_scope.

(** ** C10 *)
(** Every sequence of inserts returns, and size() counts the inserts. *)
Theorem C10_inserts : forall w size a W,
  in_range w size (length W) -> (1 <= size)%N -> Forall (fun p => fst p <> 0%N) W ->
  exists m, mm_after w size a W m /\ msize m = length W.
Proof.
  intros w size a W H S0 Hok. destruct (mm_runs w size a W H S0 Hok) as [m [E [_ [_ I]]]]. exists m. split; [|exact I].
  split; [exact H|]. split; [exact S0|]. split; [exact Hok|exact E].
Qed.
Print Assumptions C10_inserts.
Example C10_inserts_ex : in_range 32 1 3 /\
  rmap msize (mm_run 32 50 (mm_new 1 77) [(5, 1); (9, 2); (5, 1)]%N) = Val 3.
Proof. split; [unfold in_range; repeat split; vm_compute; discriminate|vm_compute; reflexivity]. Qed.

(** While at least two cells are free, get(k) yields exactly the values inserted under k,
    with multiplicity.  Missing for the full claim: tables with one free cell or none. *)
Theorem C10_get_partial : forall w size a W m k,
  mm_after w size a W m -> k <> 0%N -> msize m + 2 <= capacity m ->
  exists l, returns (fun f => mm_get_values w f m k) l /\ Permutation l (under k W).
Proof. exact mm_get_after. Qed.
Print Assumptions C10_get_partial.
Example C10_get_ex : forall a, in_range 64 5 3 /\ exists m, mm_after 64 5 a [(5, 1); (9, 2); (5, 1)]%N m /\ msize m + 2 <= capacity m.
Proof.
  intros a. assert (IR : in_range 64 5 3) by (unfold in_range; repeat split; vm_compute; discriminate). split; [exact IR|].
  destruct (C10_inserts 64 5 a [(5, 1); (9, 2); (5, 1)]%N IR ltac:(lia)) as [m [Ha Hm]]; [repeat constructor; discriminate|].
  exists m. split; [exact Ha|]. rewrite Hm.
  assert (8 <= capacity m); [|cbn [length]; lia].
  destruct (mm_new_wf 64 5 a (in_range_0 _ _ _ IR) ltac:(lia)) as [W0 _].
  destruct (mm_insert_spec 64 ltac:(lia) (mm_new 5 a) 5 1 W0 ltac:(discriminate)) as [m1 [[n1 E1] [W1 [_ [C1 _]]]]]; [split; vm_compute; discriminate|].
  destruct (mm_insert_spec 64 ltac:(lia) m1 9 2 W1 ltac:(discriminate)) as [m2 [[n2 E2] [W2 [_ [C2 _]]]]].
  { pose proof (mm_items_le 64 m1 W1). change (Nat.eqb (m_items (mm_new 5 a)) (mcap (mm_new 5 a))) with false in C1. cbn iota in C1.
    change (mcap (mm_new 5 a)) with 8 in C1. apply (small_le 64 ltac:(lia)) with (m := 16); [lia|split; vm_compute; discriminate]. }
  destruct (mm_insert_spec 64 ltac:(lia) m2 5 1 W2 ltac:(discriminate)) as [m3 [[n3 E3] [W3 [_ [C3 _]]]]].
  { pose proof (mm_items_le 64 m2 W2). change (Nat.eqb (m_items (mm_new 5 a)) (mcap (mm_new 5 a))) with false in C1. cbn iota in C1.
    change (mcap (mm_new 5 a)) with 8 in C1. apply (small_le 64 ltac:(lia)) with (m := 32); [destruct (Nat.eqb _ _) in C2; lia|split; vm_compute; discriminate]. }
  assert (m = m3).
  { destruct Ha as [_ [_ [_ [n E]]]]. specialize (E (n + n1 + n2 + n3) ltac:(lia)). unfold mm_run in E. cbn [fold_res fst snd] in E.
    rewrite E1 in E by lia. cbn [rbind] in E. rewrite E2 in E by lia. cbn [rbind] in E. rewrite E3 in E by lia. cbn [rbind] in E. congruence. }
  subst m3. unfold capacity. fold (mcap m). rewrite C3. clear - C1 C2.
  change (mcap (mm_new 5 a)) with 8 in C1. 
  assert (H1 : 8 <= mcap m1) by (rewrite C1; destruct (Nat.eqb (m_items (mm_new 5 a)) 8); lia).
  assert (H2 : 8 <= mcap m2) by (rewrite C2; destruct (Nat.eqb (m_items m1) (mcap m1)); lia).
  destruct (Nat.eqb (m_items m2) (mcap m2)); lia.
Qed.
Example C10_get_values_ex :
  rbind (mm_run 64 50 (mm_new 5 77) [(5, 1); (9, 2); (5, 1)]%N) (fun m => mm_get_values 64 50 m 5) = Val [(5, 1); (5, 1)]%N.
Proof. vm_compute. reflexivity. Qed.

(** With exactly one free cell get(k) returns either the right values or nothing, the latter
    only if k occupies its home cell. *)
Theorem C10_get_one_free_partial : forall w size a W m k,
  mm_after w size a W m -> k <> 0%N -> msize m + 1 = capacity m ->
  exists l, returns (fun f => mm_get_values w f m k) l /\
    (Permutation l (under k W) \/
     (l = [] /\ nth_error (m_keys m) (home w (m_mult m) (capacity m) k) = Some k)).
Proof. exact mm_get_one_free. Qed.
Print Assumptions C10_get_one_free_partial.

(** The claim fails with one free cell: a multimap constructed with size 2 loses its only
    entry, for every hash multiplier, key and value. *)
Theorem C10_one_free_refuted : forall a k v, k <> 0%N ->
  exists m, mm_after 64 2 a [(k, v)] m /\ msize m = 1 /\
    returns (fun f => mm_contains 64 f m k) true /\ returns (fun f => mm_get_values 64 f m k) [].
Proof.
  intros a k v Hk. assert (IR : in_range 64 2 1) by (unfold in_range; repeat split; vm_compute; discriminate).
  destruct (C10_inserts 64 2 a [(k, v)] IR ltac:(lia)) as [m [Ha Hm]]; [repeat constructor; exact Hk|].
  exists m. split; [exact Ha|]. split; [exact Hm|]. split.
  - apply (mm_contains_after 64 2 a _ m k Ha Hk). left. reflexivity.
  - exact (mm_one_of_two 64 a k v m IR Ha).
Qed.
Print Assumptions C10_one_free_refuted.

(** In a full table get never returns, whether the key is present or not. *)
Theorem C10_full_diverges : forall w size a W m k,
  mm_after w size a W m -> k <> 0%N -> msize m = capacity m -> diverges (fun f => mm_get_values w f m k).
Proof. exact mm_get_full. Qed.
Print Assumptions C10_full_diverges.

(** contains(k) is right for present keys always, for absent keys while a cell is free; size()
    is the number of inserts. *)
Theorem C10_contains : forall w size a W m k,
  mm_after w size a W m -> k <> 0%N ->
  (In k (map fst W) -> returns (fun f => mm_contains w f m k) true) /\
  (~ In k (map fst W) -> msize m < capacity m -> returns (fun f => mm_contains w f m k) false) /\
  (~ In k (map fst W) -> msize m = capacity m -> diverges (fun f => mm_contains w f m k)) /\
  msize m = length W /\ msize m <= capacity m.
Proof. exact mm_contains_after. Qed.
Print Assumptions C10_contains.
Example C10_contains_ex :
  let r := mm_run 64 50 (mm_new 5 77) [(5, 1); (9, 2); (5, 1)]%N in
  (rbind r (fun m => mm_contains 64 50 m 9), rbind r (fun m => mm_contains 64 50 m 8)) = (Val true, Val false).
Proof. vm_compute. reflexivity. Qed.

(** Merging keeps all pairs of both multimaps. *)
Theorem C10_merge : forall w size1 size2 a1 a2 W1 W2 m1 m2,
  mm_after w size1 a1 W1 m1 -> mm_after w size2 a2 W2 m2 -> small w (2 * (capacity m1 + capacity m2)) ->
  exists m, returns (fun f => mm_merge w f m1 m2) m /\ msize m = length W1 + length W2 /\
    forall k, k <> 0%N ->
      (msize m + 2 <= capacity m -> exists l, returns (fun f => mm_get_values w f m k) l /\ Permutation l (under k (W1 ++ W2))) /\
      (In k (map fst (W1 ++ W2)) -> returns (fun f => mm_contains w f m k) true) /\
      (~ In k (map fst (W1 ++ W2)) -> msize m < capacity m -> returns (fun f => mm_contains w f m k) false).
Proof. exact mm_merge_after. Qed.
Print Assumptions C10_merge.
Example C10_merge_ex :
  rbind (mm_run 64 50 (mm_new 2 77) [(5, 1); (9, 2)]%N) (fun m1 =>
  rbind (mm_run 64 50 (mm_new 2 31) [(5, 7); (8, 2)]%N) (fun m2 =>
  rbind (mm_merge 64 50 m1 m2) (fun m => rmap (fun l => (l, msize m, capacity m)) (mm_contains 64 50 m 5)))) = Val (true, 4, 4).
Proof. vm_compute. reflexivity. Qed.

(** Filtered merging keeps exactly the pairs whose key is not in the filter set. *)
Theorem C10_merge_filtered : forall w g size1 size2 size3 a1 a2 a3 W1 W2 ops3 m1 m2 flt,
  mm_after w size1 a1 W1 m1 -> mm_after w size2 a2 W2 m2 -> set_after w g size3 a3 ops3 flt ->
  set_size flt < set_end flt -> small w (2 * (capacity m1 + capacity m2)) ->
  exists m, returns (fun f => mm_merge_filter w f m1 m2 flt) m /\
    forall k, k <> 0%N -> msize m + 2 <= capacity m ->
    exists l, returns (fun f => mm_get_values w f m k) l /\
      (In k (inserted ops3) -> l = []) /\ (~ In k (inserted ops3) -> Permutation l (under k (W1 ++ W2))).
Proof. exact mm_merge_filter_after. Qed.
Print Assumptions C10_merge_filtered.
Example C10_merge_filtered_ex :
  rbind (mm_run 64 50 (mm_new 4 77) [(5, 1); (9, 2)]%N) (fun m1 =>
  rbind (mm_run 64 50 (mm_new 4 31) [(5, 7); (8, 2)]%N) (fun m2 =>
  rbind (set_run 64 false 50 (set_new 4 9) [OpInsert 9]%N) (fun s =>
  rbind (mm_merge_filter 64 50 m1 m2 (fst s)) (fun m =>
  rbind (mm_get_values 64 50 m 5) (fun l => rmap (fun l' => (length l, l', msize m + 2 <=? capacity m)) (mm_get_values 64 50 m 9)))))) = Val (2, [], true).
Proof. vm_compute. reflexivity. Qed.

(** Iterating over the whole multimap, sequentially or over any splitting into subranges,
    visits exactly the inserted pairs, with multiplicity, and every visited value is set. *)
Theorem C10_iteration : forall w size a W m grain t,
  mm_after w size a W m ->
  exists l, returns (fun f => map_parallel f m grain t) l /\ Permutation l (map (fun p => (fst p, Some (snd p))) W).
Proof. exact mm_iter_after. Qed.
Print Assumptions C10_iteration.

(** load(save(m)) restores the multimap. *)
Theorem C10_save_load : forall w size a W m, mm_after w size a W m -> map_load (map_save m) = m.
Proof. exact mm_save_load_after. Qed.
Print Assumptions C10_save_load.

(** ** C09 (multimap part) *)
(** A multimap constructed with size 1: after one insert every lookup of another key, and
    even get of the stored key, never returns. *)
Theorem C09_multimap_lookup_refuted : forall a k v k', k <> 0%N -> k' <> 0%N -> k' <> k ->
  exists m, mm_after 64 1 a [(k, v)] m /\ diverges (fun f => mm_contains 64 f m k') /\
    diverges (fun f => mm_get_values 64 f m k') /\ diverges (fun f => mm_get_values 64 f m k).
Proof.
  intros a k v k' Hk Hk' Hne. assert (IR : in_range 64 1 1) by (unfold in_range; repeat split; vm_compute; discriminate).
  destruct (C10_inserts 64 1 a [(k, v)] IR ltac:(lia)) as [m [Ha Hm]]; [repeat constructor; exact Hk|].
  assert (Hc : msize m = capacity m).
  { rewrite Hm. cbn [length].
    destruct (mm_new_wf 64 1 a (in_range_0 _ _ _ IR) ltac:(lia)) as [W0 _].
    destruct (mm_insert_spec 64 ltac:(lia) (mm_new 1 a) k v W0 Hk) as [m1 [[n1 E1] [W1 [_ [C1 _]]]]]; [split; vm_compute; discriminate|].
    assert (m = m1).
    { destruct Ha as [_ [_ [_ [n E]]]]. specialize (E (n + n1) ltac:(lia)). unfold mm_run in E. cbn [fold_res fst snd] in E.
      rewrite E1 in E by lia. cbn [rbind] in E. congruence. }
    subst m1. unfold capacity. fold (mcap m). rewrite C1. reflexivity. }
  exists m. split; [exact Ha|]. split; [|split].
  - apply (mm_contains_after 64 1 a _ m k' Ha Hk'); [|exact Hc]. intros [H|[]]. now apply Hne.
  - exact (mm_get_full 64 1 a _ m k' Ha Hk' Hc).
  - exact (mm_get_full 64 1 a _ m k Ha Hk Hc).
Qed.
Print Assumptions C09_multimap_lookup_refuted.

(** What remains true of C09: an absent key is looked up in finite time while a cell is free. *)
Theorem C09_multimap_lookup_partial : forall w size a W m k,
  mm_after w size a W m -> k <> 0%N -> ~ In k (map fst W) -> msize m < capacity m ->
  returns (fun f => mm_contains w f m k) false /\ returns (fun f => mm_get_values w f m k) [].
Proof.
  intros w size a W m k Ha Hk Hn Hf. split; [now apply (mm_contains_after w size a W m k Ha Hk)|].
  assert (U : under k W = []).
  { unfold under. clear - Hn. induction W as [|p W IH]; [reflexivity|]. cbn [filter map In] in *.
    destruct (N.eqb_spec (fst p) k); [exfalso; apply Hn; now left|]. apply IH. tauto. }
  destruct (Nat.eq_dec (msize m + 1) (capacity m)) as [H1|H1].
  - destruct (mm_get_one_free w size a W m k Ha Hk H1) as [l [E [P|[-> _]]]]; [|exact E].
    rewrite U in P. apply Permutation_sym, Permutation_nil in P. now subst.
  - destruct (mm_get_after w size a W m k Ha Hk ltac:(lia)) as [l [E P]].
    rewrite U in P. apply Permutation_sym, Permutation_nil in P. now subst.
Qed.
Print Assumptions C09_multimap_lookup_partial.

(** The map counterpart. *)
Theorem C09_map_lookup_partial : forall w size a ops m k,
  map_after w size a ops m -> k <> 0%N -> ~ In k (map fst (writes ops)) -> msize m < capacity m ->
  returns (fun f => map_contains w f m k) false /\ returns (fun f => map_get w f m k) 0%N.
Proof.
  intros w size a ops m k Ha Hk Hn Hf. split.
  - now apply (map_contains_after w size a ops m k Ha Hk).
  - now apply (map_get_after w size a ops m k Ha Hk).
Qed.
Print Assumptions C09_map_lookup_partial.

(** Constructor size 0: the first insert divides by zero. *)
Theorem C10_size_zero_undefined : forall w a k v, undefined (fun f => mm_run w f (mm_new 0 a) [(k, v)]).
Proof. intros. exists 0. intros m _. reflexivity. Qed.
Print Assumptions C10_size_zero_undefined.
