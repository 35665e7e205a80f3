(** C28 (id handler) and C52 (id ranges of triangulations). *)
From Verif Require Import Outcome ListUtil WordsModel IdModel IdProofs.
Local Open Scope N_scope.

(** [outstanding evs]: the ids handed out and not given back; [fair evs]: only such ids are given back. *)
Theorem C28_sequential : forall i0 evs s, seq_run (h_new i0) evs s -> fair evs -> i0 + N.of_nat (gots evs) < 2 ^ 64 ->
  NoDup (outstanding evs) /\ forall x, In x (outstanding evs) -> i0 <= x < h_max s.
Proof. intros i0 evs s H Hf Hb. exact (inv_facts i0 evs s (seq_inv i0 evs s H Hf Hb)). Qed.
Print Assumptions C28_sequential.

(** All interleavings of any number of threads. *)
Theorem C28_concurrent : forall i0 evs s pend, conc_run (h_new i0) evs s pend -> fair evs -> i0 + N.of_nat (gots evs) < 2 ^ 64 ->
  NoDup (outstanding evs) /\ forall x, In x (outstanding evs) -> i0 <= x < h_max s.
Proof. intros i0 evs s pend H Hf Hb. exact (inv_facts i0 evs s (conc_inv i0 evs s pend H Hf Hb)). Qed.
Print Assumptions C28_concurrent.

Fixpoint fairb (l : list N) (evs : list iev) : bool :=
  match evs with
  | [] => true
  | e :: t => match e with Back x => existsb (N.eqb x) l | _ => true end && fairb (out1 l e) t
  end.
Lemma fairb_fair evs : fairb [] evs = true -> fair evs.
Proof.
  unfold fair, outstanding. generalize (@nil N). induction evs as [|e evs IH]; intros l H pre x post E; [destruct pre; discriminate|].
  cbn [fairb] in H. apply andb_true_iff in H. destruct H as [H1 H2]. destruct pre as [|e' pre]; injection E as E1 E2; subst.
  - cbn [fold_left]. apply existsb_exists in H1. destruct H1 as [y [Hy Ey]]. apply N.eqb_eq in Ey. now subst.
  - cbn [fold_left]. eapply IH; [exact H2|reflexivity].
Qed.
Lemma seq_get s evs s' x s'' : seq_run s evs s' -> h_get s' = (x, s'') -> seq_run s (evs ++ [Got x]) s''.
Proof. intros H E. pose proof (sr_get s evs s' H) as H'. rewrite E in H'. exact H'. Qed.
Example C28_ex : exists s, seq_run (h_new 0) [Got 0; Got 1; Back 0; Got 0; Got 2] s /\ fair [Got 0; Got 1; Back 0; Got 0; Got 2] /\
  outstanding [Got 0; Got 1; Back 0; Got 0; Got 2] = [2; 0; 1] /\ h_max s = 3.
Proof.
  eexists. split.
  - eapply (seq_get _ [Got 0; Got 1; Back 0; Got 0]); [eapply (seq_get _ [Got 0; Got 1; Back 0]); [eapply (sr_release _ [Got 0; Got 1])|]|].
    + eapply (seq_get _ [Got 0]); [eapply (seq_get _ []); [apply sr_nil|]|]; vm_compute; reflexivity.
    + vm_compute. reflexivity.
    + vm_compute. reflexivity.
  - split; [|split; vm_compute; reflexivity]. apply fairb_fair. vm_compute. reflexivity.
Qed.
(** Threads 1 and 2 both find the queue empty, thread 3 gives back 0 before they increment. *)
Example C28_conc_ex : exists s, conc_run (h_new 0) [Got 0; Back 0; Got 1; Got 2; Got 0] s [] /\ outstanding [Got 0; Back 0; Got 1; Got 2; Got 0] = [0; 2; 1].
Proof.
  pose proof (cr_miss _ _ _ _ 1 (cr_nil (h_new 0)) (fun x => x)) as A1.
  pose proof (cr_inc _ _ _ [] 1%nat [] A1) as A2. change (h_id (h_new 0)) with 0 in A2. cbn [app] in A2.
  pose proof (cr_miss _ _ _ _ 2 A2 (fun x => x)) as A3.
  pose proof (cr_miss _ _ _ _ 1 A3 ltac:(intros [H|[]]; discriminate)) as A4.
  pose proof (cr_release _ _ _ _ 3 0 A4 ltac:(intros [H|[H|[]]]; discriminate)) as A5.
  pose proof (cr_inc _ _ _ [] 1%nat [2%nat] A5) as A6.
  pose proof (cr_inc _ _ _ [] 2%nat [] A6) as A7.
  pose proof (cr_pop _ _ _ _ 1 0 [] A7 (fun x => x) eq_refl) as A8.
  eexists. split; [exact A8|vm_compute; reflexivity].
Qed.

(** An id given back twice is handed out twice. *)
Theorem C28_double_release_refuted : forall i0, i0 + 2 < 2 ^ 64 -> exists s,
  seq_run (h_new i0) [Got i0; Back i0; Back i0; Got i0; Got i0] s /\ ~ NoDup (outstanding [Got i0; Back i0; Back i0; Got i0; Got i0]).
Proof.
  intros i0 H. eexists. split.
  - eapply (seq_get _ [Got i0; Back i0; Back i0; Got i0]); [eapply (seq_get _ [Got i0; Back i0; Back i0])|].
    + apply (sr_release _ [Got i0; Back i0]), (sr_release _ [Got i0]). eapply (seq_get _ []); [apply sr_nil|reflexivity].
    + reflexivity.
    + reflexivity.
  - cbn [outstanding fold_left out1 remove_one]. rewrite N.eqb_refl. intros Hn. inversion Hn; subst. apply H2. now left.
Qed.
Print Assumptions C28_double_release_refuted.

(** ** C52 *)
(** Simplices of different triangulations get different ids: triangulation [k] numbers its cells by local
    ids below sizes[k] (C28) and adds the start of its range. *)
Theorem C52_ranges : forall sizes next, next + fold_right N.add 0 sizes < 2 ^ 64 ->
  length (fst (reserve next sizes)) = length sizes /\
  forall k n, nth_error sizes k = Some n -> exists a, nth_error (fst (reserve next sizes)) k = Some (a, a + n) /\ next <= a /\ a + n <= snd (reserve next sizes).
Proof.
  intros sizes next H. destruct (reserve_spec sizes next H) as [H0 [H1 [H2 _]]]. split; [exact H0|]. intros k n E.
  destruct (H2 k n E) as [a [b [B1 [-> [B3 B4]]]]]. exists a. rewrite H1. auto.
Qed.
Print Assumptions C52_ranges.
Theorem C52_distinct : forall sizes next k1 k2 a1 b1 a2 b2 x1 x2, next + fold_right N.add 0 sizes < 2 ^ 64 ->
  nth_error (fst (reserve next sizes)) k1 = Some (a1, b1) -> nth_error (fst (reserve next sizes)) k2 = Some (a2, b2) ->
  k1 <> k2 -> a1 <= x1 < b1 -> a2 <= x2 < b2 -> x1 <> x2.
Proof.
  intros sizes next k1 k2 a1 b1 a2 b2 x1 x2 H E1 E2 Hne H1 H2. destruct (reserve_spec sizes next H) as [_ [_ [_ HR]]].
  destruct (Nat.lt_trichotomy k1 k2) as [L|[L|L]]; [|contradiction|]; pose proof (HR _ _ _ _ _ _ L ltac:(eassumption) ltac:(eassumption)); lia.
Qed.
Print Assumptions C52_distinct.
Example C52_ex : reserve 1 [4; 0; 7] = ([(1, 5); (5, 5); (5, 12)], 12).
Proof. vm_compute. reflexivity. Qed.
