(** Specification of the map and the lemmas about histories of calls. *)
From Verif Require Import Outcome ListUtil WordsModel WordsProofs RangeModel RangeProofs LPSetModel ProbeTheory LPSetProofs LPSetHistory LPSetIter LPSetSpec LPMapModel LPMapProofs.
Local Open Scope nat_scope.

(** A map is the list of pairs written so far, newest first. *)
Fixpoint lookup (A : list (N * N)) (k : N) : option N :=
  match A with
  | [] => None
  | (x, v) :: t => if N.eqb x k then Some v else lookup t k
  end.
Definition lookup0 (A : list (N * N)) (k : N) : N := match lookup A k with Some v => v | None => 0%N end.
Fixpoint map_spec (A : list (N * N)) (ops : list map_op) : list map_out :=
  match ops with
  | [] => []
  | MInsert k v :: t => MOBool (negb (mem k (map fst A))) :: map_spec ((k, v) :: A) t
  | MGet k :: t => MOVal (lookup0 A k) :: map_spec A t
  | MContains k :: t => MOBool (mem k (map fst A)) :: map_spec A t
  | MSize :: t => MOSize (distinct (map fst A)) :: map_spec A t
  end.
(** The pairs written by a history, oldest first. *)
Fixpoint writes (ops : list map_op) : list (N * N) :=
  match ops with
  | [] => []
  | MInsert k v :: t => (k, v) :: writes t
  | _ :: t => writes t
  end.
Definition mop_key (o : map_op) : option N :=
  match o with MInsert k _ | MGet k | MContains k => Some k | MSize => None end.
Definition mop_ok (o : map_op) : Prop := mop_key o <> Some 0%N.
Definition no_lookup (o : map_op) : Prop := match o with MGet _ | MContains _ => False | _ => True end.
(** contains() tells present from absent through the value 0. *)
Definition nonzero_value (o : map_op) : Prop := match o with MInsert _ v => v <> 0%N | _ => True end.

Lemma lookup_In A k : (exists v, lookup A k = Some v) <-> In k (map fst A).
Proof.
  induction A as [|[x v] A IH]; cbn [lookup map fst In].
  - split; [intros [v H]; discriminate|intros []].
  - destruct (N.eqb_spec x k) as [->|Hne].
    + split; eauto.
    + rewrite IH. intuition congruence.
Qed.

Section W.
Variable w : N.
Hypothesis Hw : (w <= 64)%N.

Definition mrepr (m : lpmap) (A : list (N * N)) : Prop :=
  map_wf w m /\ forall k v, bind m k v <-> (lookup A k = Some v).

Lemma mrepr_elem m A k : mrepr m A -> (elem (keyset m) k <-> In k (map fst A)).
Proof.
  intros [Hwf HB]. rewrite (elem_bind w m k Hwf), <- lookup_In. split; intros [v H]; exists v; now apply HB.
Qed.

Lemma mrepr_set m A : mrepr m A -> repr w (keyset m) (map fst A).
Proof. intros H. split; [apply H|]. intros x. now apply mrepr_elem. Qed.

Lemma mrepr_items m A : mrepr m A -> m_items m = distinct (map fst A).
Proof. intros H. apply (repr_items w (keyset m)). now apply mrepr_set. Qed.

Lemma distinct_lenA (A : list (N * N)) : distinct (map fst A) <= length A.
Proof. rewrite <- (map_length fst A). apply distinct_length. Qed.

Lemma map_insert_history m A k v :
  mrepr m A -> k <> 0%N -> small w (2 * length A) ->
  exists m', (exists n, forall fuel, n <= fuel -> map_insert w fuel m k v = Val (m', negb (mem k (map fst A)))) /\
    mrepr m' ((k, v) :: A) /\ mcap m <= mcap m'.
Proof.
  intros HR Hz [S1 S2]. pose proof HR as [Hwf HB].
  pose proof (mrepr_items m A HR) as Hi. pose proof (distinct_lenA A) as Hd.
  destruct (map_insert_spec w Hw m k v Hwf Hz) as [m' [[n E] [W' [X' [C' _]]]]].
  { intros Hfull. unfold can_double. change (cap (keyset m)) with (mcap m). split; lia. }
  exists m'. split; [exists n; intros fuel Hf; rewrite E by exact Hf; now rewrite (negb_mem w (keyset m) (map fst A) k (mrepr_set m A HR))|].
  split; [|destruct (Nat.eqb (m_items m) (mcap m)); lia].
  split; [exact W'|]. intros x y. rewrite X', HB. cbn [lookup].
  destruct (N.eqb_spec k x) as [->|Hne].
  - split; [intros [[_ ->]|[H _]]; congruence|]. intros H. injection H as ->. auto.
  - split; [intros [[-> _]|[_ H]]; congruence|]. auto.
Qed.

Lemma map_inserts_run : forall ops m A,
  mrepr m A -> Forall mop_ok ops -> Forall no_lookup ops -> small w (4 * (length A + length ops)) ->
  exists m', returns (fun f => map_run w f m ops) (m', map_spec A ops) /\
    mrepr m' (rev (writes ops) ++ A) /\ mcap m <= mcap m'.
Proof.
  induction ops as [|o ops IH]; intros m A HR Hok Hnl Hsm.
  - exists m. split; [exists 0; reflexivity|]. cbn [writes rev app]. auto.
  - inversion Hok as [|? ? Ho Hok']; subst. inversion Hnl as [|? ? Hn Hnl']; subst. cbn [length] in Hsm.
    destruct o as [k v|k|k|]; try destruct Hn.
    + assert (Hz : k <> 0%N) by (intros ->; apply Ho; reflexivity).
      destruct (map_insert_history m A k v HR Hz) as [m1 [[n1 E1] [R1 C1]]].
      { apply (small_le w Hw) with (m := 4 * (length A + S (length ops))); [lia|exact Hsm]. }
      destruct (IH m1 ((k, v) :: A) R1 Hok' Hnl') as [m2 [[n2 E2] [R2 C2]]].
      { apply (small_le w Hw) with (m := 4 * (length A + S (length ops))); [cbn [length]; lia|exact Hsm]. }
      exists m2. split; [|split; [|lia]].
      * exists (n1 + n2). intros f Hf. cbn [map_run map_step]. rewrite E1 by lia.
        cbn [rmap rbind fst snd]. rewrite E2 by lia. reflexivity.
      * cbn [writes rev]. now rewrite <- app_assoc.
    + destruct (IH m A HR Hok' Hnl') as [m2 [[n2 E2] [R2 C2]]].
      { apply (small_le w Hw) with (m := 4 * (length A + S (length ops))); [lia|exact Hsm]. }
      exists m2. split; [|split; [exact R2|lia]].
      exists n2. intros f Hf. cbn [map_run map_step rbind fst snd]. rewrite E2 by lia. cbn [rmap fst snd].
      now rewrite (mrepr_items m A HR).
Qed.

(** Reading. *)
Lemma map_get_cases m A k :
  mrepr m A -> k <> 0%N ->
  (forall v, lookup A k = Some v -> returns (fun f => map_get w f m k) v) /\
  (lookup A k = None -> m_items m < mcap m -> returns (fun f => map_get w f m k) 0%N) /\
  (lookup A k = None -> m_items m = mcap m -> diverges (fun f => map_get w f m k)).
Proof.
  intros HR Hz. pose proof HR as [Hwf HB].
  assert (Hne : lookup A k = None -> ~ elem (keyset m) k).
  { intros H He. apply (mrepr_elem m A k HR) in He. apply lookup_In in He. destruct He as [v Hv]. congruence. }
  split; [|split].
  - intros v Hv. exists (mcap m). intros f Hf. apply (map_get_in w Hw); auto. now apply HB.
  - intros H Hf. exists (mcap m). intros f Hfu. apply (map_get_out w Hw); auto.
  - intros H Hf. apply (map_get_full_diverges w Hw); auto.
Qed.

(** Whatever calls have finished, the state represents the writes. *)
Lemma map_reached : forall ops m A m' outs,
  mrepr m A -> Forall mop_ok ops -> small w (4 * (length A + length ops)) ->
  returns (fun f => map_run w f m ops) (m', outs) ->
  mrepr m' (rev (writes ops) ++ A).
Proof.
  induction ops as [|o ops IH]; intros m A m' outs HR Hok Hsm [n En].
  - specialize (En n (Nat.le_refl n)). injection En as <- _. exact HR.
  - inversion Hok as [|? ? Ho Hok']; subst. cbn [length] in Hsm.
    assert (Hq : forall outs', returns (fun f => map_run w f m ops) (m', outs') -> mrepr m' (rev (writes ops) ++ A)).
    { intros outs' Hr. eapply IH; [exact HR|exact Hok'| |exact Hr].
      apply (small_le w Hw) with (m := 4 * (length A + S (length ops))); [lia|exact Hsm]. }
    destruct o as [k v|k|k|].
    + assert (Hz : k <> 0%N) by (intros ->; apply Ho; reflexivity).
      destruct (map_insert_history m A k v HR Hz) as [m1 [[n1 E1] [R1 C1]]].
      { apply (small_le w Hw) with (m := 4 * (length A + S (length ops))); [lia|exact Hsm]. }
      cbn [writes rev]. rewrite <- app_assoc. cbn [app].
      eapply (IH m1 ((k, v) :: A) m' (tl outs) R1 Hok').
      { apply (small_le w Hw) with (m := 4 * (length A + S (length ops))); [cbn [length]; lia|exact Hsm]. }
      exists (n + n1). intros f Hf. specialize (En f ltac:(lia)). cbn [map_run map_step] in En. rewrite E1 in En by lia.
      cbn [rmap rbind fst snd] in En. destruct (map_run w f m1 ops) as [[m2 o2]| |]; cbn [rmap fst snd] in En; try discriminate.
      injection En as <- <-. reflexivity.
    + cbn [writes]. apply (Hq (tl outs)). exists n. intros f Hf. specialize (En f Hf). cbn [map_run map_step] in En.
      destruct (map_get w f m k); cbn [rmap rbind fst snd] in En; try discriminate.
      destruct (map_run w f m ops) as [[m2 o2]| |]; cbn [rmap fst snd] in En; try discriminate.
      injection En as <- <-. reflexivity.
    + cbn [writes]. apply (Hq (tl outs)). exists n. intros f Hf. specialize (En f Hf). cbn [map_run map_step] in En.
      destruct (map_contains w f m k); cbn [rmap rbind fst snd] in En; try discriminate.
      destruct (map_run w f m ops) as [[m2 o2]| |]; cbn [rmap fst snd] in En; try discriminate.
      injection En as <- <-. reflexivity.
    + cbn [writes]. apply (Hq (tl outs)). exists n. intros f Hf. specialize (En f Hf). cbn [map_run map_step rbind fst snd] in En.
      destruct (map_run w f m ops) as [[m2 o2]| |]; cbn [rmap fst snd] in En; try discriminate.
      injection En as <- <-. reflexivity.
Qed.

(** Complete histories while the table never fills. *)
Lemma map_free_run : forall ops m A,
  mrepr m A -> Forall mop_ok ops -> Forall nonzero_value ops -> (forall v k, lookup A k = Some v -> v <> 0%N) ->
  small w (4 * (length A + length ops)) -> distinct (map fst (rev (writes ops) ++ A)) < mcap m ->
  exists m', returns (fun f => map_run w f m ops) (m', map_spec A ops).
Proof.
  induction ops as [|o ops IH]; intros m A HR Hok Hnz HA Hsm Hd.
  - exists m. exists 0. reflexivity.
  - inversion Hok as [|? ? Ho Hok']; subst. inversion Hnz as [|? ? Hn Hnz']; subst. cbn [length] in Hsm.
    assert (Hsm' : small w (4 * (length A + length ops))).
    { apply (small_le w Hw) with (m := 4 * (length A + S (length ops))); [lia|exact Hsm]. }
    assert (Hfree : m_items m < mcap m).
    { rewrite (mrepr_items m A HR). eapply Nat.le_lt_trans; [|exact Hd]. apply distinct_le. intros x Hx.
      rewrite map_app. apply in_or_app. auto. }
    destruct o as [k v|k|k|].
    + assert (Hz : k <> 0%N) by (intros ->; apply Ho; reflexivity).
      destruct (map_insert_history m A k v HR Hz) as [m1 [[n1 E1] [R1 C1]]].
      { apply (small_le w Hw) with (m := 4 * (length A + S (length ops))); [lia|exact Hsm]. }
      destruct (IH m1 ((k, v) :: A) R1 Hok' Hnz') as [m2 [n2 E2]].
      { intros y x. cbn [lookup]. destruct (N.eqb k x); [intros E; injection E as <-; exact Hn|apply HA]. }
      { apply (small_le w Hw) with (m := 4 * (length A + S (length ops))); [cbn [length]; lia|exact Hsm]. }
      { cbn [writes rev] in Hd. rewrite <- app_assoc in Hd. cbn [app] in Hd. lia. }
      exists m2. exists (n1 + n2). intros f Hf. cbn [map_run map_step]. rewrite E1 by lia.
      cbn [rmap rbind fst snd]. rewrite E2 by lia. reflexivity.
    + assert (Hz : k <> 0%N) by (intros ->; apply Ho; reflexivity).
      destruct (IH m A HR Hok' Hnz' HA Hsm' Hd) as [m2 [n2 E2]].
      destruct (map_get_cases m A k HR Hz) as [G1 [G2 _]].
      assert (G : returns (fun f => map_get w f m k) (lookup0 A k)).
      { unfold lookup0. destruct (lookup A k) as [v|] eqn:El; auto. }
      destruct G as [n1 E1]. exists m2, (n1 + n2). intros f Hf. cbn [map_run map_step]. rewrite E1 by lia.
      cbn [rmap rbind fst snd]. rewrite E2 by lia. reflexivity.
    + assert (Hz : k <> 0%N) by (intros ->; apply Ho; reflexivity).
      destruct (IH m A HR Hok' Hnz' HA Hsm' Hd) as [m2 [n2 E2]].
      destruct (map_get_cases m A k HR Hz) as [G1 [G2 _]].
      assert (G : returns (fun f => map_contains w f m k) (mem k (map fst A))).
      { unfold map_contains. destruct (lookup A k) as [v|] eqn:El.
        - destruct (G1 v eq_refl) as [n1 E1]. exists n1. intros f Hf. rewrite E1 by exact Hf. cbn [rmap].
          pose proof (HA v k El) as Hv. apply N.eqb_neq in Hv. rewrite Hv. symmetry. f_equal. apply mem_In, lookup_In. eauto.
        - destruct (G2 eq_refl Hfree) as [n1 E1]. exists n1. intros f Hf. rewrite E1 by exact Hf. cbn [rmap N.eqb negb].
          symmetry. f_equal. apply not_true_is_false. intros E. apply mem_In, lookup_In in E. destruct E as [v Ev]. congruence. }
      destruct G as [n1 E1]. exists m2, (n1 + n2). intros f Hf. cbn [map_run map_step]. rewrite E1 by lia.
      cbn [rmap rbind fst snd]. rewrite E2 by lia. reflexivity.
    + destruct (IH m A HR Hok' Hnz' HA Hsm' Hd) as [m2 [n2 E2]].
      exists m2, n2. intros f Hf. cbn [map_run map_step rbind fst snd]. rewrite E2 by lia. cbn [rmap fst snd].
      now rewrite (mrepr_items m A HR).
Qed.

Lemma map_new_spec size a :
  (1 <= w)%N -> (1 <= size)%N -> (size <= 2 ^ 63)%N -> (size <= 2 ^ w)%N ->
  mrepr (map_new size a) [] /\ (size <= N.of_nat (mcap (map_new size a)))%N.
Proof.
  intros W1 S0 S1 S2. unfold map_new. destruct (np2_cap w Hw size S0 S1 S2) as [n [En [Pn Hn]]]. rewrite En.
  rewrite map_alloc_cap. split; [|exact Hn]. split; [now apply map_alloc_wf|].
  intros k v. split; [|discriminate]. intros H. exfalso. revert H. apply map_alloc_bind.
Qed.
End W.

(** A map constructed with [size >= 1] on which the calls [ops] have finished. *)
Definition map_after (w size a : N) (ops : list map_op) (m : lpmap) : Prop :=
  in_range w size (length ops) /\ (1 <= size)%N /\ Forall mop_ok ops /\
  exists outs, returns (fun f => map_run w f (map_new size a) ops) (m, outs).
Definition capacity (m : lpmap) : nat := length (m_keys m).   (* LP_Map.hxx:97-99 *)
Definition msize (m : lpmap) : nat := m_items m.              (* LP_Map.hxx:101-103 *)

Lemma map_after_repr w size a ops m : map_after w size a ops m -> mrepr w m (rev (writes ops)).
Proof.
  intros [[[W1 W2] [S1 [S2 [N1 N2]]]] [S0 [Hok [outs Hr]]]].
  rewrite <- (app_nil_r (rev _)). eapply (map_reached w W2); [|exact Hok| |exact Hr].
  - apply (map_new_spec w W2 size a W1 S0 S1 S2).
  - split; cbn [length]; lia.
Qed.

Lemma map_inserts_after w size a ops :
  in_range w size (length ops) -> (1 <= size)%N -> Forall mop_ok ops -> Forall no_lookup ops ->
  exists m, returns (fun f => map_run w f (map_new size a) ops) (m, map_spec [] ops).
Proof.
  intros [[W1 W2] [S1 [S2 [N1 N2]]]] S0 Hok Hnl.
  destruct (map_new_spec w W2 size a W1 S0 S1 S2) as [R C].
  destruct (map_inserts_run w W2 ops (map_new size a) [] R Hok Hnl) as [m [E _]]; [split; cbn [length]; lia|].
  exists m. exact E.
Qed.

Lemma map_free_after w size a ops :
  in_range w size (length ops) -> Forall mop_ok ops -> Forall nonzero_value ops ->
  (N.of_nat (distinct (map fst (writes ops))) < size)%N ->
  exists m, returns (fun f => map_run w f (map_new size a) ops) (m, map_spec [] ops).
Proof.
  intros [[W1 W2] [S1 [S2 [N1 N2]]]] Hok Hnz Hd.
  destruct (map_new_spec w W2 size a W1 ltac:(lia) S1 S2) as [R C].
  destruct (map_free_run w W2 ops (map_new size a) [] R Hok Hnz) as [m E].
  - discriminate.
  - split; cbn [length]; lia.
  - rewrite app_nil_r. rewrite (distinct_same _ (map fst (writes ops))); [lia|].
    intros x. rewrite map_rev. symmetry. apply in_rev.
  - exists m. exact E.
Qed.

Lemma map_get_after w size a ops m k :
  map_after w size a ops m -> k <> 0%N ->
  (forall v, lookup (rev (writes ops)) k = Some v -> returns (fun f => map_get w f m k) v) /\
  (~ In k (map fst (writes ops)) -> msize m < capacity m -> returns (fun f => map_get w f m k) 0%N) /\
  (~ In k (map fst (writes ops)) -> msize m = capacity m -> diverges (fun f => map_get w f m k)) /\
  msize m = distinct (map fst (writes ops)) /\ msize m <= capacity m.
Proof.
  intros Ha Hz. pose proof (map_after_repr _ _ _ _ _ Ha) as HR. assert (W2 : (w <= 64)%N) by apply Ha.
  destruct (map_get_cases w W2 m _ k HR Hz) as [G1 [G2 G3]].
  assert (L : ~ In k (map fst (writes ops)) -> lookup (rev (writes ops)) k = None).
  { intros H. destruct (lookup (rev (writes ops)) k) as [v|] eqn:E; [|reflexivity]. exfalso. apply H.
    apply in_rev. rewrite <- map_rev. apply lookup_In. eauto. }
  split; [exact G1|]. split; [auto|]. split; [auto|]. split; [|apply (map_items_le w m), HR].
  unfold msize. rewrite (mrepr_items w m _ HR). apply distinct_same. intros x. rewrite map_rev. symmetry. apply in_rev.
Qed.

Lemma map_contains_after w size a ops m k :
  map_after w size a ops m -> k <> 0%N ->
  (forall v, lookup (rev (writes ops)) k = Some v -> returns (fun f => map_contains w f m k) (negb (N.eqb v 0))) /\
  (~ In k (map fst (writes ops)) -> msize m < capacity m -> returns (fun f => map_contains w f m k) false) /\
  (~ In k (map fst (writes ops)) -> msize m = capacity m -> diverges (fun f => map_contains w f m k)).
Proof.
  intros Ha Hz. destruct (map_get_after w size a ops m k Ha Hz) as [G1 [G2 [G3 _]]]. unfold map_contains. split; [|split].
  - intros v Hv. destruct (G1 v Hv) as [n E]. exists n. intros f Hf. now rewrite E.
  - intros H1 H2. destruct (G2 H1 H2) as [n E]. exists n. intros f Hf. now rewrite E.
  - intros H1 H2 f. now rewrite (G3 H1 H2).
Qed.

Lemma map_merge_after w size1 size2 a1 a2 ops1 ops2 m1 m2 :
  map_after w size1 a1 ops1 m1 -> map_after w size2 a2 ops2 m2 ->
  small w (4 * (capacity m1 + capacity m2)) ->
  exists m, returns (fun f => map_merge w f m1 m2) m /\
    (forall k, k <> 0%N -> returns (fun f => map_get w f m k) (lookup0 (rev (writes ops2) ++ rev (writes ops1)) k)) /\
    msize m = distinct (map fst (writes ops1 ++ writes ops2)).
Proof.
  intros A1 A2 Hsm. assert (W2 : (w <= 64)%N) by apply A1.
  pose proof (map_after_repr _ _ _ _ _ A1) as R1. pose proof (map_after_repr _ _ _ _ _ A2) as R2.
  destruct (map_merge_spec w W2 m1 m2 (proj1 R1) (proj1 R2) Hsm) as [m [E [W' [X F]]]].
  assert (LA : forall A B k, lookup (A ++ B) k = match lookup A k with Some v => Some v | None => lookup B k end).
  { induction A as [|[x v] A IH]; intros B k; cbn [app lookup]; [reflexivity|]. destruct (N.eqb x k); auto. }
  assert (R : mrepr w m (rev (writes ops2) ++ rev (writes ops1))).
  { split; [exact W'|]. intros k v. rewrite X, LA. rewrite (mrepr_elem w m2 _ k R2), <- lookup_In.
    rewrite (proj2 R2), (proj2 R1). destruct (lookup (rev (writes ops2)) k) as [v2|] eqn:E2.
    - split; [intros [H|[_ H]]; [exact H|exfalso; eauto]|auto].
    - split; [intros [H|[H _]]; [discriminate|exact H]|]. intros H. right. split; [exact H|]. intros [v' H']. discriminate. }
  exists m. split; [exact E|]. split.
  - intros k Hz. destruct (map_get_cases w W2 m _ k R Hz) as [G1 [G2 _]]. unfold lookup0.
    destruct (lookup (rev (writes ops2) ++ rev (writes ops1)) k) as [v|] eqn:El; auto.
  - unfold msize. rewrite (mrepr_items w m _ R). apply distinct_same. intros x.
    rewrite !map_app, !map_rev, !in_app_iff, <- !in_rev. tauto.
Qed.

Lemma map_merge_filter_after w g size1 size2 size3 a1 a2 a3 ops1 ops2 ops3 m1 m2 flt :
  map_after w size1 a1 ops1 m1 -> map_after w size2 a2 ops2 m2 -> set_after w g size3 a3 ops3 flt ->
  set_size flt < set_end flt -> small w (4 * (capacity m1 + capacity m2)) ->
  exists m, returns (fun f => map_merge_filter w f m1 m2 flt) m /\
    (forall k v, k <> 0%N -> lookup (rev (writes ops2) ++ rev (writes ops1)) k = Some v -> ~ In k (inserted ops3) ->
       returns (fun f => map_get w f m k) v) /\
    (forall k, k <> 0%N -> In k (inserted ops3) \/ ~ In k (map fst (writes ops1 ++ writes ops2)) ->
       returns (fun f => map_get w f m k) 0%N).
Proof.
  intros A1 A2 A3 Hfr Hsm. assert (W2 : (w <= 64)%N) by apply A1.
  pose proof (map_after_repr _ _ _ _ _ A1) as R1. pose proof (map_after_repr _ _ _ _ _ A2) as R2.
  pose proof (after_repr _ _ _ _ _ _ A3) as [Hwf3 _].
  destruct (map_merge_filter_spec w W2 m1 m2 flt (proj1 R1) (proj1 R2) Hwf3 Hfr Hsm) as [m [E [W' [X F]]]].
  assert (LA : forall A B k, lookup (A ++ B) k = match lookup A k with Some v => Some v | None => lookup B k end).
  { induction A as [|[x v] A IH]; intros B k; cbn [app lookup]; [reflexivity|]. destruct (N.eqb x k); auto. }
  assert (XB : forall k v, bind m k v <-> ~ In k (inserted ops3) /\ lookup (rev (writes ops2) ++ rev (writes ops1)) k = Some v).
  { intros k v. rewrite X, LA. rewrite (after_elem _ _ _ _ _ _ k A3).
    rewrite (mrepr_elem w m2 _ k R2), <- lookup_In. rewrite (proj2 R2), (proj2 R1).
    destruct (lookup (rev (writes ops2)) k) as [v2|] eqn:E2.
    - split; [intros [H0 [H|[_ H]]]; [auto|exfalso; eauto]|tauto].
    - split; [intros [H0 [H|[H _]]]; [discriminate|auto]|]. intros [H0 H]. split; [exact H0|]. right. split; [exact H|]. intros [v' H']. discriminate. }
  exists m. split; [exact E|]. split.
  - intros k v Hz Hl Hn. exists (mcap m). intros f Hf. apply (map_get_in w W2); auto. apply XB. auto.
  - intros k Hz Hor. exists (mcap m). intros f Hf. apply (map_get_out w W2); auto.
    intros He. apply (elem_bind w m k W') in He. destruct He as [v Hv]. apply XB in Hv. destruct Hv as [Hv1 Hv2].
    destruct Hor as [H|H]; [tauto|]. apply H.
    assert (In k (map fst (rev (writes ops2) ++ rev (writes ops1)))) by (apply lookup_In; eauto).
    rewrite !map_app, !map_rev, !in_app_iff, <- !in_rev in *. tauto.
Qed.

(** Iteration. *)
Lemma map_iter_after w size a ops m grain t :
  map_after w size a ops m ->
  exists l, returns (fun f => map_parallel f m grain t) l /\ NoDup (map fst l) /\
    forall k v, In (k, v) l <-> exists x, v = Some x /\ lookup (rev (writes ops)) k = Some x.
Proof.
  intros Ha. pose proof (map_after_repr _ _ _ _ _ Ha) as [Hwf HB].
  pose proof Hwf as [[_ [_ [Hu _]]] [HL HV]]. cbn [keyset s_arr] in Hu.
  assert (Hocc : forall i, negb (map_empty_at m i) = true <-> exists k, nth_error (m_keys m) i = Some k /\ k <> 0%N).
  { intros i. unfold map_empty_at. destruct (nth_error (m_keys m) i) as [c|].
    - destruct (N.eqb_spec c 0); cbn; split; try discriminate; eauto. intros [k [E Hk]]. congruence.
    - split; [discriminate|]. intros [k [E _]]. discriminate. }
  eexists. split; [|split].
  - exists (S (length (m_keys m))). intros f Hf. unfold map_parallel.
    rewrite (split_all (fun i => negb (map_empty_at m i)) (length (m_keys m)) (skip (length (m_keys m)) (map_empty_at m)));
      [reflexivity|apply skip_skips|reflexivity|lia].
  - rewrite map_map. cbn [map_at fst].
    assert (G : forall l, NoDup l -> (forall i, In i l -> negb (map_empty_at m i) = true) -> NoDup (map (fun i => nth i (m_keys m) 0%N) l)).
    { induction l as [|i l IH]; intros Hnd Hl; cbn [map]; constructor; inversion Hnd; subst.
      - intros Hin. apply in_map_iff in Hin. destruct Hin as [j [E Hj]].
        destruct (proj1 (Hocc i) (Hl i (or_introl eq_refl))) as [ki [Ei Hki]].
        destruct (proj1 (Hocc j) (Hl j (or_intror Hj))) as [kj [Ej _]].
        rewrite (nth_error_nth _ _ 0%N Ei), (nth_error_nth _ _ 0%N Ej) in E. subst kj.
        assert (j = i) by (apply (Hu j i ki); assumption). subst. contradiction.
      - apply IH; auto. intros. apply Hl. now right. }
    apply G; [apply NoDup_occupied|]. intros i Hi. apply In_occupied in Hi. apply Hi.
  - intros k v. rewrite in_map_iff. split.
    + intros [i [E Hi]]. apply In_occupied in Hi. destruct Hi as [_ Hi]. apply Hocc in Hi. destruct Hi as [k' [Ek Hk']].
      destruct (HV i k' Ek Hk') as [x Hx]. unfold map_at in E. rewrite (nth_error_nth _ _ 0%N Ek), (nth_error_nth _ _ None Hx) in E.
      injection E as <- <-. exists x. split; [reflexivity|]. apply HB. split; [exact Hk'|]. eauto.
    + intros [x [-> Hx]]. apply HB in Hx. destruct Hx as [Hk [i [H1 H2]]]. exists i. split.
      * unfold map_at. now rewrite (nth_error_nth _ _ 0%N H1), (nth_error_nth _ _ None H2).
      * apply In_occupied. split; [split; [lia|eapply nth_error_lt; eassumption]|]. apply Hocc. eauto.
Qed.

Lemma map_load_save_after w size a ops m : map_after w size a ops m -> map_load (map_save m) = m.
Proof.
  intros Ha. pose proof (map_after_repr _ _ _ _ _ Ha) as [[_ [HL _]] _]. destruct (map_load_save m); [assumption|congruence].
Qed.
