(** Iteration over the hash set. *)
From Verif Require Import Outcome ListUtil RangeModel RangeProofs LPSetModel.

Lemma map_at_occupied (arr : list N) occ :
  (forall i, i < length arr -> occ i = negb (N.eqb (nth i arr 0%N) 0)) ->
  map (fun i => nth i arr 0%N) (occupied occ 0 (length arr)) = keys_of arr.
Proof.
  unfold occupied. rewrite Nat.sub_0_r. intros H.
  assert (G : forall pre l, arr = pre ++ l ->
     map (fun i => nth i arr 0%N) (filter occ (seq (length pre) (length l))) = keys_of l).
  { intros pre l. revert pre. induction l as [|x l IH]; intros pre E; [reflexivity|].
    cbn [length seq filter]. specialize (IH (pre ++ [x])). rewrite <- app_assoc in IH. specialize (IH E).
    rewrite app_length in IH. cbn [length] in IH. rewrite Nat.add_1_r in IH.
    assert (En : nth (length pre) arr 0%N = x).
    { rewrite E, app_nth2, Nat.sub_diag by lia. reflexivity. }
    rewrite H by (rewrite E, app_length; cbn [length]; lia). rewrite En.
    unfold keys_of. cbn [filter]. unfold nz at 1. destruct (N.eqb x 0); cbn [negb].
    - exact IH.
    - cbn [map]. rewrite En. f_equal. exact IH. }
  apply (G [] arr). reflexivity.
Qed.

Lemma set_occ s i : i < length (s_arr s) -> negb (set_empty_at s i) = negb (N.eqb (nth i (s_arr s) 0%N) 0).
Proof.
  intros H. unfold set_empty_at. destruct (nth_error_ex (s_arr s) i H) as [c Hc].
  rewrite Hc. now rewrite (nth_error_nth _ _ 0%N Hc).
Qed.

Lemma set_iterate_spec s : returns (fun f => set_iterate f s) (keys_of (s_arr s)).
Proof.
  exists (S (length (s_arr s))). intros m Hm. unfold set_iterate, set_begin, set_end.
  rewrite (iterate_all (fun i => negb (set_empty_at s i)) (length (s_arr s)) (skip (length (s_arr s)) (set_empty_at s))).
  - cbn [rmap]. f_equal. apply map_at_occupied. apply set_occ.
  - apply skip_skips.
  - reflexivity.
  - lia.
Qed.

Lemma set_parallel_spec s grain t : returns (fun f => set_parallel f s grain t) (keys_of (s_arr s)).
Proof.
  exists (S (length (s_arr s))). intros m Hm. unfold set_parallel, set_begin, set_end.
  rewrite (split_all (fun i => negb (set_empty_at s i)) (length (s_arr s)) (skip (length (s_arr s)) (set_empty_at s))).
  - cbn [rmap]. f_equal. apply map_at_occupied. apply set_occ.
  - apply skip_skips.
  - reflexivity.
  - lia.
Qed.
