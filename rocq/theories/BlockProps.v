(** Properties of block arrays: C24, C25, C51. *)
From Verif Require Import Outcome ListUtil WordsModel RangeModel BlockModel BlockSpec.
From Coq Require Import Permutation Sorted.
Local Open Scope N_scope.

(** Example: blocks 1..3, 5..6 and 10..12 of numbers; 0 is a deleted cell.  The middle block was added
    last. *)
Definition ex_l : list (block N) := [mkblk 1 4 [11; 0; 13]; mkblk 5 7 [0; 16]; mkblk 10 13 [0; 0; 22]].
Definition ex_valid (a : N) : bool := negb (a =? 0).
Lemma ex_sorted : sort_result [mkblk 1 4 [11; 0; 13]; mkblk 10 13 [0; 0; 22]; mkblk 5 7 [0; 0]]
  [mkblk 1 4 [11; 0; 13]; mkblk 5 7 [0; 0]; mkblk 10 13 [0; 0; 22]].
Proof.
  split; [apply perm_skip, perm_swap|].
  intros i j bi bj L Ei Ej. do 3 (destruct i as [|i]; [do 3 (destruct j as [|j]; [lia + (injection Ei as <-; injection Ej as <-; vm_compute; discriminate)|]); destruct j; discriminate|]).
  destruct i; discriminate.
Qed.
Lemma ex_made : made 0 ex_l.
Proof.
  assert (M1 : made 0 (ba_new 0 1 4)) by (constructor; reflexivity).
  assert (M2 : made 0 (ba_new 0 10 13)) by (constructor; reflexivity).
  assert (M3 : made 0 [mkblk 1 4 [0; 0; 0]; mkblk 10 13 [0; 0; 0]]).
  { eapply (made_merge 0 _ _ _ M1 M2); [|reflexivity|].
    - intros i a b [k [c [Ec [Hc _]]]] [k' [c' [Ec' [Hc' _]]]]. apply nth_error_In in Ec, Ec'.
      destruct Ec as [<-|[]], Ec' as [<-|[]]. cbn [block_new b_min b_max] in *. lia.
    - split; [reflexivity|]. intros i j bi bj L Ei Ej. do 2 (destruct i as [|i]; [do 2 (destruct j as [|j]; [lia + (injection Ei as <-; injection Ej as <-; vm_compute; discriminate)|]); destruct j; discriminate|]).
      destruct i; discriminate. }
  assert (M4 : made 0 [mkblk 1 4 [11; 0; 0]; mkblk 10 13 [0; 0; 0]]) by (eapply (made_write 0 _ 1 1 11 _ _ M3); vm_compute; reflexivity).
  assert (M5 : made 0 [mkblk 1 4 [11; 0; 13]; mkblk 10 13 [0; 0; 0]]) by (eapply (made_write 0 _ 3 0 13 _ _ M4); vm_compute; reflexivity).
  assert (M6 : made 0 [mkblk 1 4 [11; 0; 13]; mkblk 10 13 [0; 0; 22]]) by (eapply (made_write 0 _ 12 0 22 _ _ M5); vm_compute; reflexivity).
  assert (M7 : made 0 [mkblk 1 4 [11; 0; 13]; mkblk 5 7 [0; 0]; mkblk 10 13 [0; 0; 22]]).
  { eapply (made_add 0 _ 5 7 _ M6); [reflexivity|reflexivity| |reflexivity|apply ex_sorted].
    intros i a b [k [c [Ec [Hc _]]]] [k' [c' [Ec' [Hc' _]]]]. apply nth_error_In in Ec, Ec'.
    destruct Ec as [<-|[<-|[]]], Ec' as [<-|[]]; cbn [block_new b_min b_max] in *; lia. }
  eapply (made_write 0 _ 6 2 16 _ _ M7); vm_compute; reflexivity.
Qed.

(** ** C24 *)
(** at(i): whatever the hint, the value held under [i] is reached; the new hint is a block again. *)
Theorem C24_at : forall (A : Type) (d : A) l i a hint, made d l -> holds l i a -> (hint < length l)%nat ->
  exists h, ba_at l i hint = Val (Some (a, h)) /\ (h < length l)%nat.
Proof. exact (@made_at). Qed.
Print Assumptions C24_at.
Example C24_at_ex : ba_at ex_l 6 0 = Val (Some (16, 1%nat)) /\ ba_at ex_l 6 2 = Val (Some (16, 1%nat)).
Proof. split; vm_compute; reflexivity. Qed.

(** At most one value is held under an id. *)
Theorem C24_unique : forall (A : Type) (d : A) l i a b, made d l -> holds l i a -> holds l i b -> a = b.
Proof. exact (@made_fun). Qed.
Print Assumptions C24_unique.

(** Assigning through at(i) changes the value held under [i] and no other one. *)
Theorem C24_write : forall (A : Type) (d : A) l i a v hint, made d l -> holds l i a -> (hint < length l)%nat ->
  exists l' h, ba_set l i hint v = Val (Some (l', h)) /\ (h < length l')%nat /\ length l' = length l /\ made d l' /\
    forall j x, holds l' j x <-> (j = i /\ x = v) \/ (j <> i /\ holds l j x).
Proof. exact (@made_set). Qed.
Print Assumptions C24_write.
Example C24_write_ex : ba_set ex_l 10 0 7 = Val (Some ([mkblk 1 4 [11; 0; 13]; mkblk 5 7 [0; 16]; mkblk 10 13 [7; 0; 22]], 2%nat)).
Proof. vm_compute. reflexivity. Qed.

(** contains(i) answers whether an id is in a block, whatever the hint. *)
Theorem C24_contains : forall (A : Type) (d : A) l i hint, made d l -> (hint < length l)%nat ->
  exists r h, ba_contains l i hint = Val (r, h) /\ (h < length l)%nat /\ (r = true <-> exists a, holds l i a).
Proof. exact (@made_contains). Qed.
Print Assumptions C24_contains.
Example C24_contains_ex : map (fun i => ba_contains ex_l i 1) [0; 1; 4; 5; 7; 12; 13] =
  [Val (false, 1%nat); Val (true, 0%nat); Val (false, 1%nat); Val (true, 1%nat); Val (false, 1%nat); Val (true, 2%nat); Val (false, 1%nat)].
Proof. vm_compute. reflexivity. Qed.

(** addBlock adds value-initialised cells and keeps the others; merge takes the union. *)
Theorem C24_addBlock : forall (A : Type) (d : A) l min max l', made d l -> min < max -> max < 2 ^ 64 ->
  no_common l (ba_new d min max) -> N.of_nat (S (length l)) < 2 ^ 32 -> ba_addBlock d l min max l' ->
  forall i a, holds l' i a <-> holds l i a \/ (min <= i < max /\ a = d).
Proof. exact (@made_add_holds). Qed.
Print Assumptions C24_addBlock.
Theorem C24_merge : forall (A : Type) (d : A) l1 l2 l', made d l1 -> made d l2 -> no_common l1 l2 ->
  N.of_nat (length l1 + length l2) < 2 ^ 32 -> ba_merge l1 l2 l' ->
  forall i a, holds l' i a <-> holds l1 i a \/ holds l2 i a.
Proof. exact (@made_merge_holds). Qed.
Print Assumptions C24_merge.
(** [ex_made] builds [ex_l] with both. *)
Example C24_build_ex : made 0 ex_l /\ ba_addBlock 0 [mkblk 1 4 [11; 0; 13]; mkblk 10 13 [0; 0; 22]] 5 7
  [mkblk 1 4 [11; 0; 13]; mkblk 5 7 [0; 0]; mkblk 10 13 [0; 0; 22]].
Proof. split; [exact ex_made|exact ex_sorted]. Qed.

(** exact_size() counts the ids; lowerBound() and upperBound() are the first id and one past the last. *)
Theorem C24_exact_size : forall (A : Type) (d : A) l, made d l ->
  exists ids, NoDup ids /\ (forall i, In i ids <-> exists a, holds l i a) /\ ba_exact_size l = N.of_nat (length ids).
Proof. exact (@made_exact_size). Qed.
Print Assumptions C24_exact_size.
Theorem C24_bounds : forall (A : Type) (d : A) l, made d l ->
  exists lo up, ba_lower l = Val lo /\ ba_upper l = Val up /\
    (exists a, holds l lo a) /\ (exists a, holds l (up - 1) a) /\ forall i a, holds l i a -> lo <= i < up.
Proof. exact (@made_bounds). Qed.
Print Assumptions C24_bounds.
Example C24_size_ex : ba_exact_size ex_l = 8 /\ ba_lower ex_l = Val 1 /\ ba_upper ex_l = Val 13.
Proof. repeat split; vm_compute; reflexivity. Qed.

(** at(i) of an id that is in no block throws only beyond the last block; in a gap it reads outside
    the memory of a block. *)
Theorem C24_absent_undefined : forall (A : Type) (d : A) l i hint, made d l -> (hint < length l)%nat -> (forall a, ~ holds l i a) ->
  ba_at l i hint = (if forallb (fun b => b_max b <=? i) l then Val None else Undef).
Proof. exact (@made_out). Qed.
Print Assumptions C24_absent_undefined.
Example C24_absent_ex : ba_at ex_l 13 0 = Val None /\ ba_at ex_l 8 0 = Undef /\ ba_at ex_l 0 0 = Undef.
Proof. repeat split; vm_compute; reflexivity. Qed.

(** Empty blocks break the search: the array holds 6 in its first block, at(6) throws. *)
Theorem C24_empty_block_refuted : exists l : list (block N),
  ba_merge [mkblk 5 8 [1; 2; 3]] [block_new 0 5 5] l /\ holds l 6 2 /\ ba_at l 6 1 = Val None /\ ba_contains l 6 1 = Val (false, 1%nat).
Proof.
  exists [mkblk 5 8 [1; 2; 3]; mkblk 5 5 []]. split; [|split; [|split; vm_compute; reflexivity]].
  - split; [reflexivity|]. intros i j bi bj L Ei Ej. do 2 (destruct i as [|i]; [do 2 (destruct j as [|j]; [lia + (injection Ei as <-; injection Ej as <-; vm_compute; discriminate)|]); destruct j; discriminate|]).
    destruct i; discriminate.
  - exists 0%nat, (mkblk 5 8 [1; 2; 3]). split; [reflexivity|]. split; [cbn [b_min b_max]; lia|reflexivity].
Qed.
Print Assumptions C24_empty_block_refuted.

(** ** C25 *)
(** A loop over the array and a parallel loop with any tree of splits visit the ids of the live cells
    once each, in increasing order.  [flt = Some valid]: dSimplices; [None]: every cell. *)
Theorem C25_iteration : forall (A : Type) (d : A) flt l, made d l ->
  exists ids, returns (fun f => ba_iterate flt f l) ids /\ StronglySorted N.lt ids /\ (forall i, In i ids <-> is_live flt l i) /\
    forall grain t, returns (fun f => ba_parallel flt f l grain t) (Some ids).
Proof. exact (@made_iterate). Qed.
Print Assumptions C25_iteration.
Example C25_ex : ba_iterate (Some ex_valid) 20 ex_l = Val [1; 3; 6; 12] /\
  ba_parallel (Some ex_valid) 20 ex_l 1 (Split (Split Run Run) (Split Run (Split Run Run))) = Val (Some [1; 3; 6; 12]) /\
  ba_parallel None 20 ex_l 1 (Split (Split Run Run) (Split Run (Split Run Run))) = Val (Some [1; 2; 3; 5; 6; 10; 11; 12]).
Proof. repeat split; vm_compute; reflexivity. Qed.
(** The array really is divided in this example. *)
Example C25_split_ex : exists b e m, ba_begin (Some ex_valid) 20 ex_l = Val b /\ ba_end ex_l = Val e /\
  br_mid (Some ex_valid) 20 ex_l b e 1 = Val (Some (mkbr b e m 1)) /\ i_idx m = 12 /\ br_divisible (mkbr b e m 1) = true.
Proof. do 3 eexists. repeat split; vm_compute; reflexivity. Qed.

(** operator-- goes from a cell, or from end(), to the last live cell before. *)
Theorem C25_decrement : forall (A : Type) (d : A) flt l i it, made d l -> stands l i it -> (exists j, is_live flt l j /\ j < i) ->
  exists j it', returns (fun f => it_prev flt f l it) it' /\ stands l j it' /\ is_live flt l j /\ j < i /\
    forall k, is_live flt l k -> k < i -> k <= j.
Proof. exact (@made_prev). Qed.
Print Assumptions C25_decrement.
Theorem C25_decrement_end : forall (A : Type) (d : A) flt l e, made d l -> ba_end l = Val e -> (exists j, is_live flt l j) ->
  exists j it', returns (fun f => it_prev flt f l e) it' /\ stands l j it' /\ is_live flt l j /\
    forall k, is_live flt l k -> k <= j.
Proof. exact (@made_prev_end). Qed.
Print Assumptions C25_decrement_end.
Example C25_decrement_ex : rbind (ba_end ex_l) (it_prev (Some ex_valid) 20 ex_l) = Val (mkit 2 12) /\
  it_prev (Some ex_valid) 20 ex_l (mkit 2 12) = Val (mkit 1 6) /\ stands ex_l 12 (mkit 2 12).
Proof. repeat split; try (vm_compute; reflexivity). eexists. repeat split; cbn; lia. Qed.

(** The test for the begin is missing in operator--: without a live cell before, a deleted one is
    returned (or, at the first id, the index before the block). *)
Theorem C25_decrement_first_refuted : exists (l : list (block N)) it,
  made 0 l /\ ~ is_live (Some ex_valid) l (i_idx it) /\ stands l 2 (mkit 0 2) /\ it_prev (Some ex_valid) 20 l (mkit 0 2) = Val it.
Proof.
  exists [mkblk 1 4 [0; 5; 0]], (mkit 0 1). split.
  - eapply (made_write 0 (ba_new 0 1 4) 2 0 5); [constructor; reflexivity|vm_compute; reflexivity].
  - split; [|split; [|vm_compute; reflexivity]].
    + intros [a [[k [b [Eb [Hb Ea]]]] Hv]]. apply nth_error_In in Eb. destruct Eb as [<-|[]]. vm_compute in Ea. injection Ea as <-. vm_compute in Hv. discriminate.
    + exists (mkblk 1 4 [0; 5; 0]). repeat split; cbn; lia.
Qed.
Print Assumptions C25_decrement_first_refuted.

(** An empty block makes the loop read outside the block. *)
Theorem C25_empty_block_refuted : forall f, (3 <= f)%nat ->
  ba_iterate (Some ex_valid) f [block_new 0 5 5; mkblk 6 8 [1; 2]] = Undef.
Proof. intros f Hf. do 3 (destruct f as [|f]; [lia|]). vm_compute. reflexivity. Qed.
Print Assumptions C25_empty_block_refuted.

(** ** C51 *)
(** Loading a saved array gives the same contents only into an object with at least as many blocks
    (a new dSimplices has one); otherwise a null pointer is dereferenced. *)
Theorem C51_load : forall (A : Type) (old saved : list (block A)), (length saved <= length old)%nat -> ba_load old saved = Val saved.
Proof.
  intros A old saved. unfold ba_load, resize_ptrs. revert old. induction saved as [|b s IH]; intros [|o old] H; cbn [length] in H; try lia; try reflexivity.
  cbn [length map firstn Nat.sub app load_loop]. rewrite IH by lia. reflexivity.
Qed.
Print Assumptions C51_load.
Theorem C51_load_refuted : forall (A : Type) (d : A) saved, (1 < length saved)%nat -> ba_load (ba_new d 0 1) saved = Undef.
Proof. intros A d [|b [|c s]] H; cbn [length] in H; try lia. reflexivity. Qed.
Print Assumptions C51_load_refuted.
Example C51_ex : ba_load (ba_new 0 0 1) [mkblk 5 8 [1; 2; 3]] = Val [mkblk 5 8 [1; 2; 3]] /\ ba_load (ba_new 0 0 1) ex_l = Undef.
Proof. split; vm_compute; reflexivity. Qed.
