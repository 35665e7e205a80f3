(** Vocabulary for the statements about LP_Set, and the lemmas in that form. *)
From Verif Require Import Outcome ListUtil WordsModel WordsProofs RangeModel RangeProofs LPSetModel ProbeTheory LPSetProofs LPSetHistory LPSetIter.
Local Open Scope nat_scope.

(** A set of key width [w] constructed with size [size] and hash multiplier [a]
    on which the calls [ops] have finished, leaving [s].  The bounds say that
    the table stays far below the key type's and the address space's limits. *)
Definition in_range (w size : N) (nops : nat) : Prop :=
  (1 <= w <= 64 /\ size <= 2 ^ 63 /\ size <= 2 ^ w /\
   N.of_nat (4 * nops) <= 2 ^ w /\ N.of_nat (4 * nops) <= 2 ^ 63)%N.
Definition set_after (w : N) (g : bool) (size a : N) (ops : list set_op) (s : lpset) : Prop :=
  in_range w size (length ops) /\ Forall op_ok ops /\
  exists outs, returns (fun f => set_run w g f (set_new size a) ops) (s, outs).

Lemma after_repr w g size a ops s : set_after w g size a ops s -> repr w s (rev (inserted ops)).
Proof.
  intros [[[W1 W2] [S1 [S2 [N1 N2]]]] [Hok [outs Hr]]].
  rewrite <- (app_nil_r (rev _)). eapply reached_wf; [exact W2| |exact Hok| |exact Hr].
  - apply (set_new_spec w W2 size a W1 S1 S2).
  - split; cbn [length]; lia.
Qed.

Lemma after_elem w g size a ops s k : set_after w g size a ops s -> (elem s k <-> In k (inserted ops)).
Proof. intros H. destruct (after_repr _ _ _ _ _ _ H) as [_ HK]. rewrite HK, <- in_rev. reflexivity. Qed.

Lemma growing_after w size a ops :
  in_range w size (length ops) -> (2 <= size)%N -> Forall op_ok ops ->
  exists s, returns (fun f => set_run w true f (set_new size a) ops) (s, spec_run [] ops) /\
    roomy s /\ cap (set_new size a) <= cap s /\ set_wf w s.
Proof.
  intros [[W1 W2] [S1 [S2 [N1 N2]]]] H2 Hok.
  destruct (set_new_spec w W2 size a W1 S1 S2) as [R [I [C M]]].
  destruct (growing_run w W2 ops (set_new size a) [] R) as [s [E [R' [Ro C']]]]; auto.
  - split; lia.
  - split; cbn [length]; lia.
  - exists s. split; [exact E|]. split; [exact Ro|]. split; [exact C'|]. apply R'.
Qed.

Lemma growing_inserts_after w size a ops :
  in_range w size (length ops) -> Forall op_ok ops -> Forall not_query ops ->
  exists s, returns (fun f => set_run w true f (set_new size a) ops) (s, spec_run [] ops).
Proof.
  intros [[W1 W2] [S1 [S2 [N1 N2]]]] Hok Hq.
  destruct (set_new_spec w W2 size a W1 S1 S2) as [R [I [C M]]].
  destruct (growing_inserts_any w W2 ops (set_new size a) [] R Hok Hq) as [s [E _]]; [split; cbn [length]; lia|].
  exists s. exact E.
Qed.

Lemma fixed_after w size a ops :
  in_range w size (length ops) -> (N.of_nat (distinct (inserted ops)) < size)%N -> Forall op_ok ops ->
  exists s, returns (fun f => set_run w false f (set_new size a) ops) (s, spec_run [] ops).
Proof.
  intros [[W1 W2] [S1 [S2 [N1 N2]]]] H2 Hok.
  destruct (set_new_spec w W2 size a W1 S1 S2) as [R [I [C M]]].
  destruct (fixed_run w W2 ops (set_new size a) [] R Hok) as [s [E _]].
  - rewrite app_nil_r. rewrite (distinct_same _ (inserted ops)) by (intros; symmetry; apply in_rev). lia.
  - exists s. exact E.
Qed.

Lemma query_cases w g size a ops s k :
  set_after w g size a ops s -> k <> 0%N ->
  (In k (inserted ops) -> returns (fun f => set_contains w f s k) true) /\
  (~ In k (inserted ops) -> set_size s < set_end s -> returns (fun f => set_contains w f s k) false) /\
  (~ In k (inserted ops) -> set_size s = set_end s -> diverges (fun f => set_contains w f s k)) /\
  set_size s <= set_end s.
Proof.
  intros Ha Hz. pose proof (after_repr _ _ _ _ _ _ Ha) as [Hwf _]. pose proof (after_elem _ _ _ _ _ _ k Ha) as He.
  assert (W2 : (w <= 64)%N) by apply Ha. unfold set_size, set_end. fold (cap s). repeat split.
  - intros H. exists (cap s). intros m Hm. apply (contains_in w W2); auto. now apply He.
  - intros H Hf. exists (cap s). intros m Hm. apply (contains_out w W2); auto. intros E. apply H, He, E.
  - intros H Hf. apply (contains_full_diverges w W2); auto. intros E. apply H, He, E.
  - now apply wf_items_le with (w := w).
Qed.

Lemma insert_cases w size a ops s k :
  set_after w false size a ops s -> k <> 0%N ->
  (In k (inserted ops) -> returns (fun f => set_insert w false f s k) (s, false)) /\
  (~ In k (inserted ops) -> set_size s < set_end s -> exists s', returns (fun f => set_insert w false f s k) (s', true)) /\
  (~ In k (inserted ops) -> set_size s = set_end s -> diverges (fun f => set_insert w false f s k)).
Proof.
  intros Ha Hz. pose proof (after_repr _ _ _ _ _ _ Ha) as [Hwf _]. pose proof (after_elem _ _ _ _ _ _ k Ha) as He.
  assert (W2 : (w <= 64)%N) by apply Ha. unfold set_size, set_end. fold (cap s). unfold set_insert. cbn [andb]. repeat split.
  - intros H. exists (cap s). intros m Hm. apply (insert_raw_in w W2); auto. now apply He.
  - intros H Hf. destruct (insert_raw_out w W2 s k Hwf Hz) as [s' [E _]]; auto.
    { intros E. apply H, He, E. }
    exists s', (cap s). exact E.
  - intros H Hf. apply (insert_raw_full_diverges w W2); auto. intros E. apply H, He, E.
Qed.

(** Two sets reached independently. *)
Lemma merge_after w g g1 g2 size1 size2 a1 a2 ops1 ops2 s1 s2 :
  set_after w g1 size1 a1 ops1 s1 -> set_after w g2 size2 a2 ops2 s2 ->
  small w (4 * (set_end s1 + set_end s2)) ->
  exists s, returns (fun f => set_merge w g f s1 s2) s /\
    returns (fun f => set_iterate f s) (keys_of (s_arr s)) /\ NoDup (keys_of (s_arr s)) /\
    (forall k, In k (keys_of (s_arr s)) <-> In k (inserted ops1) \/ In k (inserted ops2)) /\
    set_size s = distinct (inserted ops1 ++ inserted ops2).
Proof.
  intros A1 A2 Hsm. assert (W2 : (w <= 64)%N) by apply A1.
  pose proof (after_repr _ _ _ _ _ _ A1) as [Hwf1 _]. pose proof (after_repr _ _ _ _ _ _ A2) as [Hwf2 _].
  destruct (merge_spec w W2 g s1 s2 Hwf1 Hwf2 Hsm) as [s [E [W' [X [C _]]]]].
  assert (HX : forall k, In k (keys_of (s_arr s)) <-> In k (inserted ops1) \/ In k (inserted ops2)).
  { intros k. change (In k (keys_of (s_arr s))) with (elem s k). rewrite X.
    rewrite (after_elem _ _ _ _ _ _ k A1), (after_elem _ _ _ _ _ _ k A2). reflexivity. }
  exists s. split; [exact E|]. split; [apply set_iterate_spec|]. split; [now apply wf_NoDup with (w := w)|].
  split; [exact HX|]. unfold set_size. apply (repr_items w). split; [exact W'|]. intros x.
  rewrite in_app_iff. apply HX.
Qed.

Lemma filter_after w g1 g2 size1 size2 a1 a2 ops1 ops2 s1 flt :
  set_after w g1 size1 a1 ops1 s1 -> set_after w g2 size2 a2 ops2 flt ->
  set_size flt < set_end flt -> small w (set_end s1) ->
  exists s, returns (fun f => set_filter w f s1 flt) s /\
    (forall k, In k (keys_of (s_arr s)) <-> In k (inserted ops1) /\ ~ In k (inserted ops2)) /\
    set_size s = length (keys_of (s_arr s)) /\ NoDup (keys_of (s_arr s)).
Proof.
  intros A1 A2 Hfree Hsm. assert (W2 : (w <= 64)%N) by apply A1.
  pose proof (after_repr _ _ _ _ _ _ A1) as [Hwf1 _]. pose proof (after_repr _ _ _ _ _ _ A2) as [Hwf2 _].
  destruct (filter_spec w W2 s1 flt Hwf1 Hwf2 (or_introl Hfree) Hsm) as [s [E [W' [X C]]]].
  exists s. split; [exact E|]. split; [|split].
  - intros k. change (In k (keys_of (s_arr s))) with (elem s k). rewrite X.
    rewrite (after_elem _ _ _ _ _ _ k A1), (after_elem _ _ _ _ _ _ k A2). reflexivity.
  - apply W'.
  - now apply wf_NoDup with (w := w).
Qed.

Lemma merge_filter_after w g g1 g2 g3 size1 size2 size3 a1 a2 a3 ops1 ops2 ops3 s1 s2 flt :
  set_after w g1 size1 a1 ops1 s1 -> set_after w g2 size2 a2 ops2 s2 -> set_after w g3 size3 a3 ops3 flt ->
  set_size flt < set_end flt -> inserted ops1 ++ inserted ops2 <> [] ->
  small w (4 * (set_size s1 + set_size s2)) ->
  exists s, returns (fun f => set_merge_filter w g f s1 s2 flt false) s /\
    (forall k, In k (keys_of (s_arr s)) <-> (In k (inserted ops1) \/ In k (inserted ops2)) /\ ~ In k (inserted ops3)) /\
    set_size s = length (keys_of (s_arr s)) /\ NoDup (keys_of (s_arr s)).
Proof.
  intros A1 A2 A3 Hfree Hne Hsm. assert (W2 : (w <= 64)%N) by apply A1.
  pose proof (after_repr _ _ _ _ _ _ A1) as R1. pose proof (after_repr _ _ _ _ _ _ A2) as R2.
  pose proof (after_repr _ _ _ _ _ _ A3) as R3.
  assert (Hpos : 0 < s_items s1 + s_items s2).
  { destruct (inserted ops1) as [|x l] eqn:E1.
    - destruct (inserted ops2) as [|x l] eqn:E2; [cbn in Hne; congruence|].
      assert (In x (inserted ops2)) by (rewrite E2; left; reflexivity).
      apply (after_elem _ _ _ _ _ _ x A2) in H. destruct R2 as [[_ [_ [_ ->]]] _]. unfold elem in H.
      destruct (keys_of (s_arr s2)); [destruct H|cbn [length]; lia].
    - assert (In x (inserted ops1)) by (rewrite E1; left; reflexivity).
      apply (after_elem _ _ _ _ _ _ x A1) in H. destruct R1 as [[_ [_ [_ ->]]] _]. unfold elem in H.
      destruct (keys_of (s_arr s1)); [destruct H|cbn [length]; lia]. }
  destruct (merge_filter_spec w W2 g s1 s2 flt false) as [s [E [W' [X _]]]];
    [apply R1|apply R2|apply R3|left; exact Hfree|exact Hpos|exact Hsm|].
  exists s. split; [exact E|]. split; [|split].
  - intros k. change (In k (keys_of (s_arr s))) with (elem s k). rewrite X. cbv beta iota.
    rewrite (after_elem _ _ _ _ _ _ k A1), (after_elem _ _ _ _ _ _ k A2), (after_elem _ _ _ _ _ _ k A3). tauto.
  - apply W'.
  - now apply wf_NoDup with (w := w).
Qed.

Lemma eq_after w g1 g2 size1 size2 a1 a2 ops1 ops2 s1 s2 :
  set_after w g1 size1 a1 ops1 s1 -> set_after w g2 size2 a2 ops2 s2 -> set_size s1 < set_end s1 ->
  exists b, returns (fun f => set_eqb w f s1 s2) b /\
    (b = true <-> forall k, In k (inserted ops1) <-> In k (inserted ops2)).
Proof.
  intros A1 A2 Hfree. assert (W2 : (w <= 64)%N) by apply A1.
  pose proof (after_repr _ _ _ _ _ _ A1) as [Hwf1 _]. pose proof (after_repr _ _ _ _ _ _ A2) as [Hwf2 _].
  destruct (eqb_spec w W2 s1 s2 Hwf1 Hwf2 Hfree) as [b [E H]]. exists b. split; [exact E|]. rewrite H.
  split; intros G k; specialize (G k); rewrite (after_elem _ _ _ _ _ _ k A1), (after_elem _ _ _ _ _ _ k A2) in *; exact G.
Qed.

Lemma copy_after w g size a ops s :
  set_after w g size a ops s -> small w (set_end s) -> set_copy s = Val s.
Proof.
  intros A H. assert (W2 : (w <= 64)%N) by apply A. pose proof (after_repr _ _ _ _ _ _ A) as [Hwf _].
  exact (copy_spec w W2 s Hwf H).
Qed.

Lemma iterate_after w g size a ops s :
  set_after w g size a ops s ->
  exists l, returns (fun f => set_iterate f s) l /\ NoDup l /\ (forall k, In k l <-> In k (inserted ops)) /\
    forall grain t, returns (fun f => set_parallel f s grain t) l.
Proof.
  intros A. pose proof (after_repr _ _ _ _ _ _ A) as [Hwf _]. exists (keys_of (s_arr s)).
  split; [apply set_iterate_spec|]. split; [now apply wf_NoDup with (w := w)|].
  split; [intros k; apply (after_elem _ _ _ _ _ _ k A)|]. intros. apply set_parallel_spec.
Qed.
