(** Properties C11-C14 and C50: Concurrent_LP_Set under every interleaving. *)
From Verif Require Import Outcome ListUtil WordsModel LPSetModel ProbeTheory Conc ConcSetModel ConcSetProofs ConcSetWait ConcSetSpec ConcSetMerge ConcSetLoad.
From Coq Require Import Permutation.
Local Open Scope nat_scope.
Arguments SInsert k%N. Arguments SPut k%N. Arguments SContains k%N.

(** Four cells, hash multiplier 1, keys 5 and 9 of the same home cell; two threads race for 5 while both
    see the cell free, a third looks it up after the first returned. *)
Definition ex_cs : lpset := cs_new 4 1.
Definition ex_ops : list (list csop) := [[SInsert 5]; [SInsert 5; SInsert 9]; [SContains 5]]%N.
Definition ex_sch : list nat := [0; 1; 0; 1; 0; 1; 0; 1; 0; 0; 2; 2; 2; 1; 1; 1; 1; 1; 1; 1; 1; 2].
Lemma ex_cs_made : cs_made 64 false ex_cs.
Proof. apply new_made; [split; discriminate|discriminate]. Qed.
Lemma ex_nz : keys_nz ex_ops.
Proof. intros p o [<-|[<-|[<-|[]]]] Ho; cbn [In] in Ho; intuition; subst; discriminate. Qed.
Lemma ex_same : same_keys (fun _ => false) ex_cs.
Proof. intros k. split; [discriminate|]. intros [H H0]. change (s_arr ex_cs) with [0; 0; 0; 0]%N in H. cbn [In] in H. destruct H as [H|[H|[H|[H|[]]]]]; congruence. Qed.
Definition ex_final : lpset := mkset [0; 5; 9; 0]%N 2 1.
Lemma ex_run : exists c tr, exec (cs_step 64 false) (cs_start ex_cs ex_ops) c tr /\ c_sh c = ex_final /\ cs_finished c /\
  observed tr = [(2, Rsp (SContains 5) (RB true)); (1, Rsp (SInsert 9) (RB true)); (1, Inv (SInsert 9)); (1, Rsp (SInsert 5) (RB false)); 
                 (2, Inv (SContains 5)); (0, Rsp (SInsert 5) (RB true)); (1, Inv (SInsert 5)); (0, Inv (SInsert 5))].
Proof.
  assert (E : exists c tr, run_sched (cs_step 64 false) (cs_start ex_cs ex_ops) [] ex_sch = Some (c, tr) /\ c_sh c = ex_final /\ c_loc c = [LIdle []; LIdle []; LIdle []] /\
    observed tr = [(2, Rsp (SContains 5) (RB true)); (1, Rsp (SInsert 9) (RB true)); (1, Inv (SInsert 9)); (1, Rsp (SInsert 5) (RB false)); 
                 (2, Inv (SContains 5)); (0, Rsp (SInsert 5) (RB true)); (1, Inv (SInsert 5)); (0, Inv (SInsert 5))]).
  { do 2 eexists. split; [vm_compute; reflexivity|]. split; [reflexivity|]. split; reflexivity. }
  destruct E as [c [tr [E [E1 [E2 E3]]]]]. exists c, tr. split.
  - eapply (run_sched_exec _ _ _ (cs_step 64 false) _ ex_sch); [apply exec_start|exact E].
  - split; [exact E1|]. split; [|exact E3]. intros l Hl. rewrite E2 in Hl. cbn [In] in Hl. intuition.
Qed.

(** ** C11 *)
(** Every history of concurrent calls is linearizable with respect to a set of keys; an
    insert may answer Full only when at least [full_lim] keys are stored. *)
Theorem C11_linearizable : forall w, (w <= 64)%N -> forall g s S0 progs, cs_made w g s -> same_keys S0 s -> keys_nz progs ->
  forall c tr, exec (cs_step w g) (cs_start s progs) c tr -> linearizable (csspec (full_lim g (length (s_arr s)))) S0 (observed tr).
Proof. exact cs_linearizable. Qed.
Print Assumptions C11_linearizable.
Example C11_ex : exists c tr, exec (cs_step 64 false) (cs_start ex_cs ex_ops) c tr /\ c_sh c = ex_final /\ cs_finished c /\
  linearizable (csspec 4) (fun _ => false) (observed tr).
Proof.
  destruct ex_run as [c [tr [H [H1 [H2 _]]]]]. exists c, tr. split; [exact H|]. split; [exact H1|]. split; [exact H2|].
  exact (C11_linearizable 64 (N.le_refl _) false ex_cs (fun _ => false) ex_ops ex_cs_made ex_same ex_nz c tr H).
Qed.

(** At every moment each key is stored in at most one cell. *)
Theorem C11_stored_once : forall w, (w <= 64)%N -> forall g s S0 progs, cs_made w g s -> same_keys S0 s -> keys_nz progs ->
  forall c tr, exec (cs_step w g) (cs_start s progs) c tr ->
  forall i j k, nth_error (s_arr (c_sh c)) i = Some k -> nth_error (s_arr (c_sh c)) j = Some k -> k <> 0%N -> i = j.
Proof. exact cs_once. Qed.
Print Assumptions C11_stored_once.

(** At most one insert of a key returns true, none if the key was stored before. *)
Theorem C11_one_winner : forall w, (w <= 64)%N -> forall g s S0 progs, cs_made w g s -> same_keys S0 s -> keys_nz progs ->
  forall c tr k, exec (cs_step w g) (cs_start s progs) c tr -> count_rsp (won k) tr + b2n (S0 k) <= 1.
Proof. exact cs_winner. Qed.
Print Assumptions C11_one_winner.

(** If an insert of [k] returned true or false, [k] is stored. *)
Theorem C11_answered : forall w, (w <= 64)%N -> forall g s S0 progs, cs_made w g s -> same_keys S0 s -> keys_nz progs ->
  forall c tr k, exec (cs_step w g) (cs_start s progs) c tr -> 0 < count_rsp (answered k) tr -> stored (c_sh c) k.
Proof. exact cs_answered. Qed.
Print Assumptions C11_answered.

(** When no call is in progress the stored keys are those stored before and those whose insert returned true. *)
Theorem C11_at_rest : forall w, (w <= 64)%N -> forall g s S0 progs, cs_made w g s -> same_keys S0 s -> keys_nz progs ->
  forall c tr k, exec (cs_step w g) (cs_start s progs) c tr -> cs_resting c ->
  (stored (c_sh c) k <-> count_rsp (won k) tr + b2n (S0 k) = 1).
Proof. exact cs_winner_rest. Qed.
Print Assumptions C11_at_rest.

(** No access is out of bounds. *)
Theorem C11_safe : forall w, (w <= 64)%N -> forall g s S0 progs, cs_made w g s -> same_keys S0 s -> keys_nz progs ->
  safe (cs_step w g) (cs_start s progs).
Proof. exact cs_safe. Qed.
Print Assumptions C11_safe.

(** Constructed sets qualify, and so does the set left by any phase of calls ([made_run]). *)
Theorem C11_new : forall w g size a, (1 <= size <= 2 ^ 63)%N -> (size <= 2 ^ w)%N -> cs_made w g (cs_new size a).
Proof. exact new_made. Qed.
Print Assumptions C11_new.
(** Size 0 gives no cells at all: the first lookup reads out of bounds. *)
Theorem C11_new_zero_refuted : exists c tr l, exec (cs_step 64 false) (cs_start (cs_new 0 1) [[SContains 5%N]]) c tr /\
  nth_error (c_loc c) 0 = Some l /\ cs_step 64 false (c_sh c) l = Bad.
Proof.
  assert (E : exists c tr, run_sched (cs_step 64 false) (cs_start (cs_new 0 1) [[SContains 5%N]]) [] [0; 0] = Some (c, tr) /\
    exists l, nth_error (c_loc c) 0 = Some l /\ cs_step 64 false (c_sh c) l = Bad).
  { do 2 eexists. split; [vm_compute; reflexivity|]. eexists. split; reflexivity. }
  destruct E as [c [tr [E [l [E1 E2]]]]]. exists c, tr, l. split; [|auto].
  eapply (run_sched_exec _ _ _ (cs_step 64 false) _ [0; 0]); [apply exec_start|exact E].
Qed.
Print Assumptions C11_new_zero_refuted.

(** ** C12 *)
(** A key stored at the start, or whose insert returned true or false before a lookup
    of it started, is found by the lookup. *)
Theorem C12_visible : forall w, (w <= 64)%N -> forall g s S0 progs, cs_made w g s -> same_keys S0 s -> keys_nz progs ->
  forall c tr k late mid early u o r, exec (cs_step w g) (cs_start s progs) c tr ->
  tr = late ++ (u, Rsp (SContains k) r) :: mid ++ (u, Inv o) :: early -> (forall x, ~ In (u, Inv x) mid) ->
  (S0 k = true \/ 0 < count_rsp (answered k) early) -> r = RB true.
Proof. exact cs_visible. Qed.
Print Assumptions C12_visible.
Example C12_visible_ex : exists c tr, exec (cs_step 64 false) (cs_start ex_cs ex_ops) c tr /\
  exists late mid early, tr = late ++ (2, Rsp (SContains 5%N) (RB true)) :: mid ++ (2, Inv (SContains 5%N)) :: early /\
    (forall x, ~ In (2, Inv x) mid) /\ 0 < count_rsp (answered 5) early.
Proof.
  assert (E : exists c tr, run_sched (cs_step 64 false) (cs_start ex_cs ex_ops) [] ex_sch = Some (c, tr) /\ 
    tr = [] ++ (2, Rsp (SContains 5%N) (RB true)) :: (firstn 5 (skipn 1 tr)) ++ (2, Inv (SContains 5%N)) :: skipn 7 tr /\
    (forall x, ~ In (2, Inv x) (firstn 5 (skipn 1 tr))) /\ 0 < count_rsp (answered 5) (skipn 7 tr)).
  { do 2 eexists. split; [vm_compute; reflexivity|]. split; [reflexivity|]. split; [|vm_compute; lia].
    intros x Hx. cbn [skipn firstn In] in Hx. intuition congruence. }
  destruct E as [c [tr [E [E1 [E2 E3]]]]]. exists c, tr. split.
  - eapply (run_sched_exec _ _ _ (cs_step 64 false) _ ex_sch); [apply exec_start|exact E].
  - do 3 eexists. split; [exact E1|]. split; assumption.
Qed.
(** A lookup reports only keys stored at the start or passed to an insert that had started. *)
Theorem C12_no_ghost : forall w, (w <= 64)%N -> forall g s S0 progs, cs_made w g s -> same_keys S0 s -> keys_nz progs ->
  forall c tr k late early u, exec (cs_step w g) (cs_start s progs) c tr ->
  tr = late ++ (u, Rsp (SContains k) (RB true)) :: early ->
  S0 k = true \/ exists v o, In (v, Inv o) early /\ puts o /\ cs_key o = k.
Proof. exact cs_no_ghost. Qed.
Print Assumptions C12_no_ghost.

(** ** C13 *)
(** size() never exceeds the number of distinct stored keys, and equals it when no call is in progress. *)
Theorem C13_size : forall w, (w <= 64)%N -> forall g s S0 progs, cs_made w g s -> same_keys S0 s -> keys_nz progs ->
  forall c tr, exec (cs_step w g) (cs_start s progs) c tr ->
  s_items (c_sh c) <= length (keys_of (s_arr (c_sh c))) /\ (cs_resting c -> s_items (c_sh c) = length (keys_of (s_arr (c_sh c)))).
Proof. exact cs_size. Qed.
Print Assumptions C13_size.
(** In between, it may be smaller: the key is visible before it is counted. *)
Example C13_size_ex : exists c tr, exec (cs_step 64 false) (cs_start ex_cs ex_ops) c tr /\ stored (c_sh c) 5 /\ s_items (c_sh c) = 0.
Proof.
  assert (E : exists c tr, run_sched (cs_step 64 false) (cs_start ex_cs ex_ops) [] [0; 0; 0; 0] = Some (c, tr) /\ stored (c_sh c) 5 /\ s_items (c_sh c) = 0).
  { do 2 eexists. split; [vm_compute; reflexivity|]. split; [|reflexivity]. split; [|discriminate]. cbn. auto. }
  destruct E as [c [tr [E E1]]]. exists c, tr. split; [|exact E1].
  eapply (run_sched_exec _ _ _ (cs_step 64 false) _ [0; 0; 0; 0]); [apply exec_start|exact E].
Qed.

(** ** C14 *)
(** If the stored keys, the keys of inserting calls and the looked up key fit the table, every
    call finishes within [2n + 8] steps of its own thread, whatever the others do. *)
Theorem C14_own_steps : forall w, (w <= 64)%N -> forall g s S0 progs, cs_made w g s -> same_keys S0 s -> keys_nz progs ->
  forall U t p c tr k, fits s progs U -> nth_error progs t = Some p -> exec_own (cs_step w g) t (cs_start s progs) c tr k ->
  k <= length p * (2 * length (s_arr s) + 8).
Proof. exact cs_own. Qed.
Print Assumptions C14_own_steps.
(** No execution runs forever, and one that cannot go on has made all its calls. *)
Theorem C14_terminates : forall w, (w <= 64)%N -> forall g s S0 progs, cs_made w g s -> same_keys S0 s -> keys_nz progs ->
  forall U, fits s progs U -> terminates (cs_step w g) (cs_start s progs).
Proof. exact cs_terminating. Qed.
Print Assumptions C14_terminates.
Theorem C14_progress : forall w, (w <= 64)%N -> forall g s S0 progs, cs_made w g s -> same_keys S0 s -> keys_nz progs ->
  forall c tr, exec (cs_step w g) (cs_start s progs) c tr -> (exists c', cstep (cs_step w g) c c') \/ cs_finished c.
Proof. exact cs_progress. Qed.
Print Assumptions C14_progress.
Example C14_ex : fits ex_cs ex_ops [5; 9]%N.
Proof.
  split; [intros k Hk; apply ex_same in Hk; discriminate|].
  intros p o [<-|[<-|[<-|[]]]] Ho; cbn [In] in Ho; repeat (destruct Ho as [<-|Ho]); try destruct Ho;
    (split; [intros _; cbn; auto|apply Nat.leb_le; vm_compute; reflexivity]).
Qed.

(** Growing tables: every insert finishes within 30 own steps, full or not. *)
Theorem C14_growing : forall w, (w <= 64)%N -> forall g s progs t p c tr k, g = true -> (4 <= w)%N -> (forall p o, In p progs -> In o p -> is_insert o = true) ->
  nth_error progs t = Some p -> exec_own (cs_step w g) t (cs_start s progs) c tr k -> k <= length p * 30.
Proof. exact cs_growing_own. Qed.
Print Assumptions C14_growing.
Example C14_growing_ex : exists c tr, exec (cs_step 64 true) (cs_start (mkset [1; 2] 2 1) [[SInsert 3%N]])%N c tr /\ observed tr = [(0, Rsp (SInsert 3) RFull); (0, Inv (SInsert 3))].
Proof.
  assert (E : exists c tr, run_sched (cs_step 64 true) (cs_start (mkset [1; 2] 2 1) [[SInsert 3%N]])%N [] [0; 0; 0] = Some (c, tr) /\ 
     observed tr = [(0, Rsp (SInsert 3) RFull); (0, Inv (SInsert 3))]).
  { do 2 eexists. split; [vm_compute; reflexivity|]. reflexivity. }
  destruct E as [c [tr [E E1]]]. exists c, tr. split; [|exact E1].
  eapply (run_sched_exec _ _ _ (cs_step 64 true) _ [0; 0; 0]); [apply exec_start|exact E].
Qed.

(** As a growing table (insert and contains, no _insert), the table never holds more keys than half its cells
    plus one per thread, so as long as there are fewer threads than that leaves cells, lookups return too. *)
Theorem C14_growing_load : forall w, (w <= 64)%N -> forall s progs, cs_made w true s -> keys_nz progs ->
  (forall p o, In p progs -> In o p -> not_put o) ->
  forall c tr, exec (cs_step w true) (cs_start s progs) c tr ->
  length (keys_of (s_arr (c_sh c))) <= Nat.max (length (keys_of (s_arr s))) (length (s_arr s) / 2 - 1 + length progs).
Proof. exact cs_load. Qed.
Print Assumptions C14_growing_load.

Theorem C14_growing_lookups : forall w, (w <= 64)%N -> forall s progs, cs_made w true s -> keys_nz progs ->
  (forall p o, In p progs -> In o p -> not_put o) ->
  forall t p c tr k, length (keys_of (s_arr s)) < length (s_arr s) -> length (s_arr s) / 2 - 1 + length progs < length (s_arr s) ->
  nth_error progs t = Some p -> exec_own (cs_step w true) t (cs_start s progs) c tr k -> k <= length p * (2 * length (s_arr s) + 8).
Proof. exact cs_load_own. Qed.
Print Assumptions C14_growing_lookups.
(** Three threads on eight cells: four keys are stored, the fifth insert is told to grow. *)
Definition ex_ld : list (list csop) := [[SInsert 1; SInsert 2; SInsert 3; SInsert 4; SInsert 5]; [SContains 7]; []]%N.
Example C14_growing_load_ex : cs_made 64 true (cs_new 8 1) /\ keys_nz ex_ld /\ (forall p o, In p ex_ld -> In o p -> not_put o) /\ 8 / 2 - 1 + length ex_ld < length (s_arr (cs_new 8 1)) /\ exists c tr, exec (cs_step 64 true) (cs_start (cs_new 8 1) ex_ld) c tr /\ length (keys_of (s_arr (c_sh c))) = 4 /\ In (0, Rsp (SInsert 5) RFull) tr.
Proof.
  split; [apply new_made; lia|]. split; [|split; [|split; [apply Nat.ltb_lt; vm_compute; reflexivity|]]].
  - intros p o [<-|[<-|[<-|[]]]] Ho; cbn [In] in Ho; intuition subst; discriminate.
  - intros p o [<-|[<-|[<-|[]]]] Ho; cbn [In] in Ho; intuition subst; exact I.
  - assert (E : exists c tr, run_sched (cs_step 64 true) (cs_start (cs_new 8 1) ex_ld) [] (repeat 0 27) = Some (c, tr) /\ length (keys_of (s_arr (c_sh c))) = 4 /\ In (0, Rsp (SInsert 5) RFull) tr).
    { do 2 eexists. split; [vm_compute; reflexivity|]. split; [reflexivity|]. left. reflexivity. }
    destruct E as [c [tr [E E1]]]. exists c, tr. split; [|exact E1].
    eapply (run_sched_exec _ _ _ (cs_step 64 true) _ (repeat 0 27)); [apply exec_start|exact E].
Qed.

(** The bound on the number of keys is needed: with one cell and two keys, the insert that loses the race
    probes forever instead of answering Full. *)
Lemma full_loop cols : cs_step 64 false (mkset [5] 1 1)%N (LProbe (SInsert 6) 0 cols []) = Step (mkset [5] 1 1)%N (LProbe (SInsert 6) 0 (wrap 64 (cols + 1)) []) [].
Proof.
  cbn [cs_step N.to_nat s_arr nth_error]. change (5 =? 6)%N with false. change (5 =? 0)%N with false. cbv iota. cbn [negb].
  unfold cs_next, cs_head. cbn [andb]. unfold mask. cbn [length s_arr]. change (wrap 64 (0 + 1)) with 1%N. reflexivity.
Qed.
Theorem C14_race_refuted : forall m, exists c tr,
  exec_own (cs_step 64 false) 1 (cs_start (cs_new 1 1) [[SInsert 5]; [SInsert 6]]%N) c tr m /\ count_rsp (fun o _ => (cs_key o =? 6)%N) tr = 0.
Proof.
  intros m.
  assert (G : forall m, exists tr cols, exec_own (cs_step 64 false) 1 (cs_start (cs_new 1 1) [[SInsert 5]; [SInsert 6]]%N)
     (mkc (mkset [5] 1 1)%N [LIdle []; LProbe (SInsert 6) 0 cols []]%N) tr (2 + m) /\ count_rsp (fun o _ => (cs_key o =? 6)%N) tr = 0).
  { intros q. induction q as [|q [tr [cols [IH Hc]]]].
    - assert (E : exists tr, run_sched (cs_step 64 false) (cs_start (cs_new 1 1) [[SInsert 5]; [SInsert 6]]) [] [0; 0; 1; 1; 0; 0; 0; 0] =
         Some (mkc (mkset [5] 1 1)%N [LIdle []; LProbe (SInsert 6) 0 0 []]%N, tr) /\ count_rsp (fun o _ => (cs_key o =? 6)%N) tr = 0).
      { eexists. split; [vm_compute; reflexivity|reflexivity]. }
      destruct E as [tr [E E1]]. exists tr, 0%N. split; [|exact E1].
      exact (run_sched_own _ _ _ (cs_step 64 false) 1 _ _ _ _ 0 _ _ (own_start _ _ _ _ _ _) E).
    - exists tr, (wrap 64 (cols + 1)). split; [|exact Hc]. 
      exact (own_step _ _ _ (cs_step 64 false) 1 _ _ tr (2 + q) 1 _ _ _ [] IH eq_refl (full_loop cols)). }
  destruct m as [|[|m]].
  - do 2 eexists. split; [apply own_start|reflexivity].
  - do 2 eexists. split; [exact (run_sched_own _ _ _ (cs_step 64 false) 1 (cs_start (cs_new 1 1) [[SInsert 5]; [SInsert 6]]) [1] _ _ 0 _ _ (own_start _ _ _ _ _ _) eq_refl)|reflexivity].
  - destruct (G m) as [tr [cols [H H1]]]. do 2 eexists. split; [exact H|exact H1].
Qed.
Print Assumptions C14_race_refuted.

(** ** C50 *)
(** unsafe_merge: for every distribution of the loop indices over threads and every
    interleaving of their inserts, the copy is safe and ends, and leaves exactly the keys of both
    sets that are not filtered, correctly counted, in a table at most half full. *)
Theorem C50_merge : forall w, (w <= 64)%N -> forall g s other nother flt,
  s_items s = length (keys_of (s_arr s)) -> nother = length (keys_of other) ->
  combined s nother <> 0%N -> (4 * combined s nother <= 2 ^ w)%N ->
  exists sz, returns (fun f => grow_size f (combined s nother) (nextPow2 64 (combined s nother))) sz /\
  forall chunks, Permutation (concat chunks) (seq 0 (loop_len s other)) ->
  let c0 := cs_start (merge_table s sz) (map (chunk_ops s other flt) chunks) in
  cs_made w g (merge_table s sz) /\ keys_nz (map (chunk_ops s other flt) chunks) /\
  safe (cs_step w g) c0 /\ terminates (cs_step w g) c0 /\
  (forall c tr, exec (cs_step w g) c0 c tr -> (exists c', cstep (cs_step w g) c c') \/ cs_finished c) /\
  forall c tr, exec (cs_step w g) c0 c tr -> cs_finished c ->
    cs_made w g (c_sh c) /\ (forall k, stored (c_sh c) k <-> in_union s other flt k) /\
    s_items (c_sh c) = length (keys_of (s_arr (c_sh c))) /\ 2 * s_items (c_sh c) <= length (s_arr (c_sh c)).
Proof. exact merge_ok. Qed.
Print Assumptions C50_merge.
Example C50_ex : let other := [0; 7; 5; 0]%N in
  s_items ex_final = length (keys_of (s_arr ex_final)) /\ 2 = length (keys_of other) /\ combined ex_final 2 = 4%N /\
  Permutation (concat [[1; 0]; [2; 3]]) (seq 0 (loop_len ex_final other)) /\
  map (chunk_ops ex_final other (fun k => (k =? 9)%N)) [[1; 0]; [2; 3]] = [[SPut 5; SPut 7]; [SPut 5]]%N.
Proof. cbv zeta. do 4 (split; [try reflexivity|]); [|reflexivity]. cbn. apply perm_swap. Qed.
(** The merge of two empty sets has no cells: a lookup in the result reads out of bounds. *)
Theorem C50_empty_refuted : forall f, grow_size f 0 (nextPow2 64 0) = Val 0%N /\
  exists c tr l, exec (cs_step 64 false) (cs_start (merge_table ex_cs 0) [[SContains 5%N]]) c tr /\
  nth_error (c_loc c) 0 = Some l /\ cs_step 64 false (c_sh c) l = Bad.
Proof. intros f. split; [destruct f; reflexivity|exact C11_new_zero_refuted]. Qed.
Print Assumptions C50_empty_refuted.
