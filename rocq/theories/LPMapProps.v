(** Properties C07-C09: the sequential linear-probing map. *)
From Verif Require Import Outcome ListUtil WordsModel RangeModel LPSetModel LPSetProofs LPSetHistory LPSetSpec LPMapModel LPMapProofs LPMapSpec.
Local Open Scope nat_scope.

(** ** C07 *)
(** Every history of insert and size calls returns and reports new keys and the number
    of distinct keys. *)
Theorem C07_inserts : forall w size a ops,
  in_range w size (length ops) -> (1 <= size)%N -> Forall mop_ok ops -> Forall no_lookup ops ->
  exists m, returns (fun f => map_run w f (map_new size a) ops) (m, map_spec [] ops).
Proof. exact map_inserts_after. Qed.
Print Assumptions C07_inserts.
Example C07_inserts_ex :
  rmap snd (map_run 64 50 (map_new 1 77) [MInsert 5 1; MInsert 9 2; MInsert 5 3; MInsert 7 0; MSize]%N)
  = Val [MOBool true; MOBool true; MOBool false; MOBool true; MOSize 3] /\ in_range 64 1 5.
Proof. split; [vm_compute; reflexivity|]. unfold in_range; repeat split; vm_compute; discriminate. Qed.

(** In every state reached by finished calls, get returns the last value written, or 0 for
    an absent key if a cell is free; in a full table it does not return for an absent key. *)
Theorem C07_get_last_write : forall w size a ops m k,
  map_after w size a ops m -> k <> 0%N ->
  (forall v, lookup (rev (writes ops)) k = Some v -> returns (fun f => map_get w f m k) v) /\
  (~ In k (map fst (writes ops)) -> msize m < capacity m -> returns (fun f => map_get w f m k) 0%N) /\
  (~ In k (map fst (writes ops)) -> msize m = capacity m -> diverges (fun f => map_get w f m k)) /\
  msize m = distinct (map fst (writes ops)) /\ msize m <= capacity m.
Proof. exact map_get_after. Qed.
Print Assumptions C07_get_last_write.
Example C07_get_ex : exists m, map_after 64 2 5 [MInsert 5 1; MInsert 9 2; MInsert 5 3]%N m /\
  lookup (rev (writes [MInsert 5 1; MInsert 9 2; MInsert 5 3]%N)) 5 = Some 3%N /\ msize m < capacity m.
Proof.
  eexists. split; [|split; [reflexivity|]].
  - split; [unfold in_range; repeat split; vm_compute; discriminate|]. split; [lia|]. split; [repeat constructor; discriminate|].
    exists [MOBool true; MOBool true; MOBool false]. exists 9. intros m Hm. do 9 (destruct m as [|m]; [exfalso; lia|]). vm_compute. reflexivity.
  - vm_compute. lia.
Qed.

(** Whole histories with lookups in between, while fewer distinct keys than [size] are
    written (and the values are not 0, see C08).  Missing for the full claim: histories
    that fill the table and then look up an absent key (C09_lookup_absent_refuted). *)
Theorem C07_history_partial : forall w size a ops,
  in_range w size (length ops) -> Forall mop_ok ops -> Forall nonzero_value ops ->
  (N.of_nat (distinct (map fst (writes ops))) < size)%N ->
  exists m, returns (fun f => map_run w f (map_new size a) ops) (m, map_spec [] ops).
Proof. exact map_free_after. Qed.
Print Assumptions C07_history_partial.
Example C07_history_ex :
  rmap snd (map_run 64 50 (map_new 3 77) [MGet 5; MInsert 5 1; MContains 9; MInsert 9 2; MInsert 5 3; MGet 5; MGet 9; MContains 9; MSize]%N)
  = Val [MOVal 0; MOBool true; MOBool false; MOBool true; MOBool false; MOVal 3; MOVal 2; MOBool true; MOSize 2].
Proof. vm_compute. reflexivity. Qed.

(** Constructor size 0: the first insert divides by zero. *)
Theorem C07_size_zero_undefined : forall w a k v, undefined (fun f => map_run w f (map_new 0 a) [MInsert k v]).
Proof. intros. exists 0. intros m _. reflexivity. Qed.
Print Assumptions C07_size_zero_undefined.

(** Merging: the other map's values win; all lookups return. *)
Theorem C07_merge : forall w size1 size2 a1 a2 ops1 ops2 m1 m2,
  map_after w size1 a1 ops1 m1 -> map_after w size2 a2 ops2 m2 ->
  small w (4 * (capacity m1 + capacity m2)) ->
  exists m, returns (fun f => map_merge w f m1 m2) m /\
    (forall k, k <> 0%N -> returns (fun f => map_get w f m k) (lookup0 (rev (writes ops2) ++ rev (writes ops1)) k)) /\
    msize m = distinct (map fst (writes ops1 ++ writes ops2)).
Proof. exact map_merge_after. Qed.
Print Assumptions C07_merge.
Theorem C07_merge_filtered : forall w g size1 size2 size3 a1 a2 a3 ops1 ops2 ops3 m1 m2 flt,
  map_after w size1 a1 ops1 m1 -> map_after w size2 a2 ops2 m2 -> set_after w g size3 a3 ops3 flt ->
  set_size flt < set_end flt -> small w (4 * (capacity m1 + capacity m2)) ->
  exists m, returns (fun f => map_merge_filter w f m1 m2 flt) m /\
    (forall k v, k <> 0%N -> lookup (rev (writes ops2) ++ rev (writes ops1)) k = Some v -> ~ In k (inserted ops3) ->
       returns (fun f => map_get w f m k) v) /\
    (forall k, k <> 0%N -> In k (inserted ops3) \/ ~ In k (map fst (writes ops1 ++ writes ops2)) ->
       returns (fun f => map_get w f m k) 0%N).
Proof. exact map_merge_filter_after. Qed.
Print Assumptions C07_merge_filtered.
Example C07_merge_ex :
  rbind (map_run 64 50 (map_new 2 7) [MInsert 1 10; MInsert 2 20]%N) (fun r1 =>
  rbind (map_run 64 50 (map_new 2 9) [MInsert 2 21; MInsert 3 31]%N) (fun r2 =>
  rbind (set_run 64 true 50 (set_new 2 11) [OpInsert 3]%N) (fun r3 =>
  rbind (map_merge 64 50 (fst r1) (fst r2)) (fun m =>
  rbind (map_merge_filter 64 50 (fst r1) (fst r2) (fst r3)) (fun m' =>
  rbind (map_get 64 50 m 2) (fun x => rbind (map_get 64 50 m 3) (fun y =>
  rmap (fun z => (x, y, z)) (map_get 64 50 m' 3)))))))) = Val (21, 31, 0)%N.
Proof. vm_compute. reflexivity. Qed.

(** Iteration and parallel loops yield each key once with its last value. *)
Theorem C07_iteration : forall w size a ops m grain t,
  map_after w size a ops m ->
  exists l, returns (fun f => map_parallel f m grain t) l /\ NoDup (map fst l) /\
    forall k v, In (k, v) l <-> exists x, v = Some x /\ lookup (rev (writes ops)) k = Some x.
Proof. exact map_iter_after. Qed.
Print Assumptions C07_iteration.
Theorem C07_save_load : forall w size a ops m, map_after w size a ops m -> map_load (map_save m) = m.
Proof. exact map_load_save_after. Qed.
Print Assumptions C07_save_load.

(** ** C08 *)
(** contains(k) tells whether the last value written under k is non-zero.  Missing for the
    full claim: keys with value 0 (refuted below) and full tables (C09). *)
Theorem C08_contains_partial : forall w size a ops m k,
  map_after w size a ops m -> k <> 0%N ->
  (forall v, lookup (rev (writes ops)) k = Some v -> returns (fun f => map_contains w f m k) (negb (N.eqb v 0))) /\
  (~ In k (map fst (writes ops)) -> msize m < capacity m -> returns (fun f => map_contains w f m k) false) /\
  (~ In k (map fst (writes ops)) -> msize m = capacity m -> diverges (fun f => map_contains w f m k)).
Proof. exact map_contains_after. Qed.
Print Assumptions C08_contains_partial.
Example C08_ex :
  rmap snd (map_run 64 50 (map_new 4 77) [MInsert 5 1; MContains 5; MContains 6]%N) = Val [MOBool true; MOBool true; MOBool false].
Proof. vm_compute. reflexivity. Qed.

(** A key written with value 0 is reported absent, for every size, multiplier and key. *)
Theorem C08_zero_value_refuted : forall w size a k m,
  map_after w size a [MInsert k 0] m -> returns (fun f => map_contains w f m k) false.
Proof.
  intros w size a k m Ha.
  assert (Hz : k <> 0%N). { destruct Ha as [_ [_ [Hok _]]]. inversion Hok; subst. intros ->. apply H1. reflexivity. }
  destruct (map_contains_after w size a _ m k Ha Hz) as [H _]. apply (H 0%N). cbn [writes rev app lookup]. now rewrite N.eqb_refl.
Qed.
Print Assumptions C08_zero_value_refuted.
Example C08_zero_ex : rmap snd (map_run 64 50 (map_new 4 77) [MInsert 5 0; MContains 5]%N) = Val [MOBool true; MOBool false].
Proof. vm_compute. reflexivity. Qed.

(** ** C09 (map part) *)
(** A map constructed with size 2, two inserts, one lookup of an absent key: for every
    multiplier the lookup never returns. *)
Theorem C09_lookup_absent_refuted : forall a,
  exists m, map_after 64 2 a [MInsert 1 1; MInsert 2 1]%N m /\ diverges (fun f => map_get 64 f m 3).
Proof.
  intros a.
  assert (IR : in_range 64 2 2) by (unfold in_range; repeat split; vm_compute; discriminate).
  assert (Hok : Forall mop_ok [MInsert 1 1; MInsert 2 1]%N) by (repeat constructor; discriminate).
  destruct (map_inserts_after 64 2 a [MInsert 1 1; MInsert 2 1]%N) as [m E]; auto; [lia|repeat constructor|].
  assert (Ha : map_after 64 2 a [MInsert 1 1; MInsert 2 1]%N m).
  { split; [exact IR|]. split; [lia|]. split; [exact Hok|]. eauto. }
  exists m. split; [exact Ha|]. destruct (map_get_after 64 2 a _ m 3 Ha ltac:(discriminate)) as [_ [_ [H [Hs Hle]]]].
  apply H; [cbn; intuition discriminate|].
  (* two keys fit into the two cells, so the table did not grow *)
  destruct (map_new_spec 64 ltac:(lia) 2 a ltac:(lia) ltac:(lia) ltac:(vm_compute; discriminate) ltac:(vm_compute; discriminate)) as [R0 C0].
  assert (Cn : mcap (map_new 2 a) = 2) by reflexivity.
  destruct (map_insert_spec 64 ltac:(lia) (map_new 2 a) 1 1 (proj1 R0) ltac:(discriminate)) as [m1 [[n1 E1] [W1 [X1 [C1 [M1 I1]]]]]].
  { intros Hf. exfalso. revert Hf. vm_compute. discriminate. }
  destruct (map_insert_spec 64 ltac:(lia) m1 2 1 W1 ltac:(discriminate)) as [m2 [[n2 E2] [W2 [X2 [C2 [M2 I2]]]]]].
  { intros Hf. exfalso. rewrite C1, I1 in Hf.
    change (m_items (map_new 2 a)) with 0 in Hf. change (mcap (map_new 2 a)) with 2 in Hf. cbn [Nat.eqb] in Hf.
    destruct (elem_dec _ _); lia. }
  assert (Em : m = m2).
  { destruct E as [n E]. specialize (E (n + n1 + n2) ltac:(lia)). cbn [map_run map_step] in E.
    rewrite E1 in E by lia. cbn [rmap rbind fst snd] in E. rewrite E2 in E by lia. cbn [rmap rbind fst snd] in E. congruence. }
  subst m2. unfold capacity. fold (mcap m). rewrite Hs, C2, C1, I1.
  change (m_items (map_new 2 a)) with 0. change (mcap (map_new 2 a)) with 2. cbn [Nat.eqb].
  destruct (elem_dec _ _); reflexivity.
Qed.
Print Assumptions C09_lookup_absent_refuted.
