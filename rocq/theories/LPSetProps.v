(** Properties C01-C06: the sequential linear-probing set. *)
From Verif Require Import Outcome ListUtil WordsModel RangeModel RangeProofs LPSetModel ProbeTheory LPSetProofs LPSetHistory LPSetIter LPSetSpec.
Local Open Scope nat_scope.

(** ** C01 *)
(** A growing set of constructor size at least 2 behaves like a mathematical set on
    every history of insert, contains and size calls.  Missing for the full claim:
    constructor sizes 0 and 1, where it is false (C01_default_size_refuted). *)
Theorem C01_growing_set_partial : forall w size a ops,
  in_range w size (length ops) -> (2 <= size)%N -> Forall op_ok ops ->
  exists s, returns (fun f => set_run w true f (set_new size a) ops) (s, spec_run [] ops).
Proof.
  intros w size a ops H1 H2 H3. destruct (growing_after w size a ops H1 H2 H3) as [s [E _]]. exists s. exact E.
Qed.
Print Assumptions C01_growing_set_partial.
Example C01_growing_ex :
  rmap snd (set_run 64 true 50 (set_new 2 0xdeadbeef12345677)
    [OpInsert 5; OpInsert 9; OpContains 7; OpInsert 5; OpInsert 7; OpContains 7; OpSize]%N)
  = Val [OutBool true; OutBool true; OutBool false; OutBool false; OutBool true; OutBool true; OutSize 3]
  /\ in_range 64 2 7.
Proof. split; [vm_compute; reflexivity|]. unfold in_range. repeat split; vm_compute; discriminate. Qed.

(** A fixed-capacity set behaves like a set as long as fewer distinct keys than
    [size] are inserted. *)
Theorem C01_fixed_set : forall w size a ops,
  in_range w size (length ops) -> (N.of_nat (distinct (inserted ops)) < size)%N -> Forall op_ok ops ->
  exists s, returns (fun f => set_run w false f (set_new size a) ops) (s, spec_run [] ops).
Proof. exact fixed_after. Qed.
Print Assumptions C01_fixed_set.
Example C01_fixed_ex :
  rmap snd (set_run 32 false 50 (set_new 4 77777)
    [OpInsert 5; OpInsert 9; OpInsert 11; OpContains 7; OpSize]%N)
  = Val [OutBool true; OutBool true; OutBool true; OutBool false; OutSize 3]
  /\ (N.of_nat (distinct (inserted [OpInsert 5; OpInsert 9; OpInsert 11; OpContains 7; OpSize]%N)) < 4)%N.
Proof. vm_compute. auto. Qed.

(** For every constructor size, also the default 1, insertions of a growing set
    return and report the truth. *)
Theorem C01_growing_inserts : forall w size a ops,
  in_range w size (length ops) -> Forall op_ok ops -> Forall not_query ops ->
  exists s, returns (fun f => set_run w true f (set_new size a) ops) (s, spec_run [] ops).
Proof. exact growing_inserts_after. Qed.
Print Assumptions C01_growing_inserts.
Example C01_growing_inserts_ex :
  rmap snd (set_run 64 true 50 (set_new 1 3) [OpInsert 5; OpInsert 9; OpInsert 5; OpInsert 7; OpSize]%N)
  = Val [OutBool true; OutBool true; OutBool false; OutBool true; OutSize 3].
Proof. vm_compute. reflexivity. Qed.

(** The full claim (every constructor size) is false: on a default-constructed
    set, for every hash multiplier, a query for an absent key never returns
    after one insertion. *)
Theorem C01_default_size_refuted : forall a,
  exists ops, Forall op_ok ops /\ diverges (fun f => set_run 64 true f (set_new 1 a) ops).
Proof.
  intros a. exists [OpInsert 1; OpContains 2]%N. split; [repeat constructor; discriminate|].
  assert (W : set_wf 64 (mkset [1%N] 1 a)).
  { unfold set_wf. cbn [s_arr s_items s_mult length]. split; [exists 0%N; split; [reflexivity|lia]|].
    split; [|split; [|reflexivity]].
    - intros [|p] k Hp Hk; [|destruct p; discriminate]. exists 0. split; [cbn; lia|]. split; [reflexivity|]. intros; lia.
    - intros [|p] [|q] k Hp Hq _; try reflexivity; [destruct q|destruct p|destruct p]; discriminate. }
  intros [|n]; [reflexivity|]. cbn [set_run set_step].
  assert (E : set_insert 64 true (S n) (set_new 1 a) 1 = Val (mkset [1%N] 1 a, true)).
  { unfold set_insert, set_new. change (alloc (nextPow2 64 (N.max 1 1))) with [0%N].
    cbn [s_arr s_items s_mult length Nat.eqb negb andb Nat.leb Nat.mul].
    unfold insert_raw. cbn [s_arr s_items s_mult probe length].
    assert (Em : mask 64 1 (hash 64 a 1) = 0%N).
    { rewrite (mask_mod 64 ltac:(lia)); [apply N.mod_1_r|]. exists 0%N. split; [reflexivity|lia]. }
    rewrite Em. reflexivity. }
  rewrite E. cbn [rmap rbind fst snd].
  assert (D : set_contains 64 (S n) (mkset [1%N] 1 a) 2 = NoFuel).
  { apply (contains_full_diverges 64 ltac:(lia)); auto; [discriminate|]. unfold elem. cbn. intros [H|[]]. discriminate. }
  rewrite D. reflexivity.
Qed.
Print Assumptions C01_default_size_refuted.

(** ** C02 *)
(** In every state reached by finished calls (growing or not, any size), a query
    returns the truth when the key is present or a cell is free, and never
    returns when the table is full and the key is absent. *)
Theorem C02_query_returns : forall w g size a ops s k,
  set_after w g size a ops s -> k <> 0%N ->
  (In k (inserted ops) -> returns (fun f => set_contains w f s k) true) /\
  (~ In k (inserted ops) -> set_size s < set_end s -> returns (fun f => set_contains w f s k) false) /\
  (~ In k (inserted ops) -> set_size s = set_end s -> diverges (fun f => set_contains w f s k)) /\
  set_size s <= set_end s.
Proof. exact query_cases. Qed.
Print Assumptions C02_query_returns.
(** Fixed sets: the same for insert. *)
Theorem C02_fixed_insert_returns : forall w size a ops s k,
  set_after w false size a ops s -> k <> 0%N ->
  (In k (inserted ops) -> returns (fun f => set_insert w false f s k) (s, false)) /\
  (~ In k (inserted ops) -> set_size s < set_end s -> exists s', returns (fun f => set_insert w false f s k) (s', true)) /\
  (~ In k (inserted ops) -> set_size s = set_end s -> diverges (fun f => set_insert w false f s k)).
Proof. exact insert_cases. Qed.
Print Assumptions C02_fixed_insert_returns.
(* a reached state that is full (two keys in two cells) and one that is not *)
Example C02_ex_full : exists s, set_after 64 false 2 5 [OpInsert 5; OpInsert 9]%N s /\ set_size s = set_end s.
Proof.
  exists (mkset [9; 5]%N 2 5). split; [|reflexivity].
  split; [unfold in_range; repeat split; vm_compute; discriminate|]. split; [repeat constructor; discriminate|].
  exists [OutBool true; OutBool true]. exists 5. intros m Hm. do 5 (destruct m as [|m]; [exfalso; lia|]). vm_compute. reflexivity.
Qed.
Example C02_ex_free : exists s, set_after 64 true 2 5 [OpInsert 5; OpInsert 9]%N s /\ set_size s < set_end s.
Proof.
  destruct (growing_after 64 2 5 [OpInsert 5; OpInsert 9]%N) as [s [E [[R1 R2] _]]].
  - unfold in_range; repeat split; vm_compute; discriminate.
  - lia.
  - repeat constructor; discriminate.
  - exists s. split; [|unfold set_size, set_end; fold (cap s); lia].
    split; [unfold in_range; repeat split; vm_compute; discriminate|]. split; [repeat constructor; discriminate|].
    eexists. exact E.
Qed.

(** ** C03 *)
(** A growing set constructed with size at least 2 keeps at least half of its cells
    free, its capacity stays a power of two and never shrinks. *)
Theorem C03_growing_keeps_free_cell : forall w size a ops,
  in_range w size (length ops) -> (2 <= size)%N -> Forall op_ok ops ->
  exists s outs, returns (fun f => set_run w true f (set_new size a) ops) (s, outs) /\
    In 0%N (s_arr s) /\ 2 * set_size s <= set_end s /\
    (exists k, N.of_nat (set_end s) = (2 ^ k)%N) /\ set_end (set_new size a) <= set_end s.
Proof.
  intros w size a ops H1 H2 H3.
  destruct (growing_after w size a ops H1 H2 H3) as [s [E [[R1 R2] [C W]]]].
  exists s. eexists. split; [exact E|]. unfold set_size, set_end. fold (cap s). split; [|split; [exact R1|split; [|exact C]]].
  - apply (free_In w ltac:(apply H1)); [exact W|lia].
  - destruct W as [[k [Ek _]] _]. exists k. exact Ek.
Qed.
Print Assumptions C03_growing_keeps_free_cell.
Example C03_ex : exists s outs, set_run 64 true 50 (set_new 2 7) [OpInsert 1; OpInsert 2; OpInsert 3]%N = Val (s, outs)
  /\ set_end s = 8 /\ set_size s = 3.
Proof. eexists. eexists. vm_compute. auto. Qed.

(** ** C04 *)
Theorem C04_merge_union : forall w g g1 g2 size1 size2 a1 a2 ops1 ops2 s1 s2,
  set_after w g1 size1 a1 ops1 s1 -> set_after w g2 size2 a2 ops2 s2 ->
  small w (4 * (set_end s1 + set_end s2)) ->
  exists s, returns (fun f => set_merge w g f s1 s2) s /\
    returns (fun f => set_iterate f s) (keys_of (s_arr s)) /\ NoDup (keys_of (s_arr s)) /\
    (forall k, In k (keys_of (s_arr s)) <-> In k (inserted ops1) \/ In k (inserted ops2)) /\
    set_size s = distinct (inserted ops1 ++ inserted ops2).
Proof. exact merge_after. Qed.
Print Assumptions C04_merge_union.

Theorem C04_filter_difference : forall w g1 g2 size1 size2 a1 a2 ops1 ops2 s1 flt,
  set_after w g1 size1 a1 ops1 s1 -> set_after w g2 size2 a2 ops2 flt ->
  set_size flt < set_end flt -> small w (set_end s1) ->
  exists s, returns (fun f => set_filter w f s1 flt) s /\
    (forall k, In k (keys_of (s_arr s)) <-> In k (inserted ops1) /\ ~ In k (inserted ops2)) /\
    set_size s = length (keys_of (s_arr s)) /\ NoDup (keys_of (s_arr s)).
Proof. exact filter_after. Qed.
Print Assumptions C04_filter_difference.

(** The filtered merge with the default [cmp = false], at least one set non-empty.  Missing
    for the full claim: [cmp = true] and two empty sets, both refuted below. *)
Theorem C04_merge_filtered_partial : forall w g g1 g2 g3 size1 size2 size3 a1 a2 a3 ops1 ops2 ops3 s1 s2 flt,
  set_after w g1 size1 a1 ops1 s1 -> set_after w g2 size2 a2 ops2 s2 -> set_after w g3 size3 a3 ops3 flt ->
  set_size flt < set_end flt -> inserted ops1 ++ inserted ops2 <> [] ->
  small w (4 * (set_size s1 + set_size s2)) ->
  exists s, returns (fun f => set_merge_filter w g f s1 s2 flt false) s /\
    (forall k, In k (keys_of (s_arr s)) <-> (In k (inserted ops1) \/ In k (inserted ops2)) /\ ~ In k (inserted ops3)) /\
    set_size s = length (keys_of (s_arr s)) /\ NoDup (keys_of (s_arr s)).
Proof. exact merge_filter_after. Qed.
Print Assumptions C04_merge_filtered_partial.
Example C04_ex :
  rmap (fun s => keys_of (s_arr s))
    (rbind (set_run 64 true 50 (set_new 2 7) [OpInsert 1; OpInsert 2; OpInsert 3]%N) (fun r1 =>
     rbind (set_run 64 true 50 (set_new 2 9) [OpInsert 3; OpInsert 4]%N) (fun r2 =>
     rbind (set_run 64 true 50 (set_new 2 11) [OpInsert 2]%N) (fun r3 =>
     set_merge_filter 64 true 50 (fst r1) (fst r2) (fst r3) false)))) = Val [3; 1; 4]%N.
Proof. vm_compute. reflexivity. Qed.

(** With [cmp = true] the set's own elements are filtered the wrong way round: the
    element 1 of the set is in the filter and is nevertheless dropped. *)
Theorem C04_merge_filtered_cmp_refuted :
  exists s1 s2 flt s, set_after 64 true 2 7 [OpInsert 1]%N s1 /\ set_after 64 true 2 7 [OpInsert 3]%N s2 /\
    set_after 64 true 2 7 [OpInsert 1]%N flt /\
    returns (fun f => set_merge_filter 64 true f s1 s2 flt true) s /\ ~ In 1%N (s_arr s).
Proof.
  assert (A : forall k, (k = 1 \/ k = 3)%N -> exists s, set_after 64 true 2 7 [OpInsert k] s /\
     s = mkset (if N.eqb k 1 then [0; 1] else [0; 3])%N 1 7).
  { intros k Hk. eexists. split; [|reflexivity].
    split; [unfold in_range; repeat split; vm_compute; discriminate|].
    split; [constructor; [intros E; injection E as E; lia|constructor]|].
    exists [OutBool true], 5. intros m Hm. do 5 (destruct m as [|m]; [exfalso; lia|]). destruct Hk as [-> | ->]; reflexivity. }
  destruct (A 1%N) as [s1 [A1 E1]]; [auto|]. destruct (A 3%N) as [s2 [A2 E2]]; [auto|].
  exists s1, s2, s1. eexists. repeat (split; [assumption|]). split.
  - exists 10. subst. intros m Hm. do 10 (destruct m as [|m]; [exfalso; lia|]). vm_compute. reflexivity.
  - intros H. cbn in H. intuition discriminate.
Qed.
Print Assumptions C04_merge_filtered_cmp_refuted.

(** Merging two empty sets through the filtered form leaves a table without cells:
    every later query reads outside the array. *)
Theorem C04_merge_filtered_empty_refuted : exists s,
  returns (fun f => set_merge_filter 64 true f (set_new 2 7) (set_new 2 7) (set_new 2 7) false) s /\
  set_size s = 0 /\ undefined (fun f => set_contains 64 f s 1).
Proof.
  eexists. split; [exists 10; intros m Hm; do 10 (destruct m as [|m]; [exfalso; lia|]); vm_compute; reflexivity|].
  split; [reflexivity|]. exists 1. intros [|m] Hm; [lia|]. vm_compute. reflexivity.
Qed.
Print Assumptions C04_merge_filtered_empty_refuted.

(** ** C05 *)
Theorem C05_copy : forall w g size a ops s,
  set_after w g size a ops s -> small w (set_end s) -> set_copy s = Val s.
Proof. exact copy_after. Qed.
Print Assumptions C05_copy.
Theorem C05_save_load : forall s, set_load (set_save s) = s.
Proof. exact load_save. Qed.
Print Assumptions C05_save_load.
Theorem C05_equality : forall w g1 g2 size1 size2 a1 a2 ops1 ops2 s1 s2,
  set_after w g1 size1 a1 ops1 s1 -> set_after w g2 size2 a2 ops2 s2 -> set_size s1 < set_end s1 ->
  exists b, returns (fun f => set_eqb w f s1 s2) b /\
    (b = true <-> forall k, In k (inserted ops1) <-> In k (inserted ops2)).
Proof. exact eq_after. Qed.
Print Assumptions C05_equality.
Example C05_ex :
  (rbind (set_run 64 true 50 (set_new 2 7) [OpInsert 1; OpInsert 2]%N) (fun r1 =>
   rbind (set_run 64 true 50 (set_new 16 99) [OpInsert 2; OpInsert 1]%N) (fun r2 =>
   rbind (set_run 64 true 50 (set_new 16 99) [OpInsert 2; OpInsert 3]%N) (fun r3 =>
   rbind (set_eqb 64 50 (fst r1) (fst r2)) (fun b => rmap (pair b) (set_eqb 64 50 (fst r1) (fst r3)))))))
  = Val (true, false).
Proof. vm_compute. reflexivity. Qed.

(** ** C06 *)
(** Iteration, and a parallel loop under every tree of splits and every grain
    size, visit every element exactly once. *)
Theorem C06_iteration : forall w g size a ops s,
  set_after w g size a ops s ->
  exists l, returns (fun f => set_iterate f s) l /\ NoDup l /\ (forall k, In k l <-> In k (inserted ops)) /\
    forall grain t, returns (fun f => set_parallel f s grain t) l.
Proof. exact iterate_after. Qed.
Print Assumptions C06_iteration.
Example C06_ex :
  rbind (set_run 64 true 50 (set_new 8 7) [OpInsert 1; OpInsert 2; OpInsert 5; OpInsert 6]%N)
    (fun r => set_parallel 50 (fst r) 1 (Split (Split Run Run) Run)) =
  rbind (set_run 64 true 50 (set_new 8 7) [OpInsert 1; OpInsert 2; OpInsert 5; OpInsert 6]%N)
    (fun r => set_iterate 50 (fst r)) /\
  rbind (set_run 64 true 50 (set_new 8 7) [OpInsert 1; OpInsert 2; OpInsert 5; OpInsert 6]%N)
    (fun r => set_iterate 50 (fst r)) = Val [6; 5; 2; 1]%N.
Proof. vm_compute. auto. Qed.

(** operator-- finds the previous element; decrementing begin() is undefined. *)
Theorem C06_decrement : forall emp i,
  match dec emp i with
  | Val j => j < i /\ emp j = false /\ forall k, j < k < i -> emp k = true
  | Undef => forall k, k < i -> emp k = true
  | NoFuel => False
  end.
Proof. exact dec_spec. Qed.
Print Assumptions C06_decrement.
