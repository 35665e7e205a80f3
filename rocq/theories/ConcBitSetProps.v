(** Property C23: Concurrent_Bit_Set under every interleaving. *)
From Verif Require Import Outcome ListUtil WordsModel BitSetModel BitSetSpec Conc ConcBitSetModel ConcBitSetProofs ConcBitSetSpec.
Local Open Scope N_scope.

(** Two threads racing for index 5, the second erasing it afterwards; both load the word before either
    exchanges it, so that thread 1 fails its first exchange. *)
Definition ex_set : bitset := mkbs 0 32 [0] 0.
Definition ex_progs : list (list cbop) := [[CInsert 5]; [CInsert 5; CErase 5; CContains 5]].
Definition ex_sched : list nat := [0; 1; 0; 1; 0; 1; 0; 1; 0; 1; 1; 1; 1; 1; 1; 1; 1]%nat.
Lemma ex_made : made ex_set /\ exact ex_set /\ same_set (fun _ => false) ex_set /\ progs_ok ex_set ex_progs.
Proof.
  split; [apply (made_new 0 32); [discriminate|discriminate|reflexivity]|].
  assert (N0 : forall i, ~ mem ex_set i).
  { intros i. unfold mem, bs_contains, bs_isSet. cbn [ex_set b_lo b_up b_words]. destruct ((0 <=? i) && (i <? 32)) eqn:E; [|discriminate].
    apply andb_true_iff in E. destruct E as [_ E]. apply N.ltb_lt in E. unfold bs_block. cbn [b_lo ex_set].
    assert (B : wrap 64 (i + 2 ^ 64 - 0) / 32 = 0).
    { unfold wrap. rewrite N.sub_0_r. replace (i + 2 ^ 64) with (i + 1 * 2 ^ 64) by reflexivity. rewrite N.mod_add by discriminate.
      rewrite N.mod_small by lia. apply N.div_small. exact E. }
    rewrite B. discriminate. }
  split; [exists []; split; [constructor|]; split; [|reflexivity]; intros i; split; [intros []|intros H; destruct (N0 i H)]|].
  split; [intros i; split; [discriminate|intros H; destruct (N0 i H)]|].
  intros p o [<-|[<-|[]]] Ho; cbn [In] in Ho; intuition; subst; cbn; lia.
Qed.

(** No access of any thread is out of bounds. *)
Theorem C23_safe : forall s progs, made s -> exact s -> progs_ok s progs -> safe cb_step (cb_start s progs).
Proof. exact cb_safe. Qed.
Print Assumptions C23_safe.

(** Every history of concurrent calls is linearizable with respect to a set of indices: each
    call takes effect at one moment between its invocation and its return. *)
Theorem C23_linearizable : forall s S0 progs, made s -> exact s -> same_set S0 s -> progs_ok s progs ->
  forall c tr, exec cb_step (cb_start s progs) c tr -> linearizable cbspec S0 (observed tr).
Proof. exact cb_linearizable. Qed.
Print Assumptions C23_linearizable.
Example C23_linearizable_ex :
  exists c tr, run_sched cb_step (cb_start ex_set ex_progs) [] ex_sched = Some (c, tr) /\ exec cb_step (cb_start ex_set ex_progs) c tr /\
    observed tr = [(1, Rsp (CContains 5) false); (1, Inv (CContains 5)); (1, Rsp (CErase 5) true); (1, Inv (CErase 5)); 
                   (0, Rsp (CInsert 5) true); (1, Rsp (CInsert 5) false); (1, Inv (CInsert 5)); (0, Inv (CInsert 5))]%nat.
Proof.
  do 2 eexists. split; [vm_compute; reflexivity|]. split; [|reflexivity].
  eapply (run_sched_exec _ _ _ cb_step _ ex_sched); [apply exec_start|]. vm_compute. reflexivity.
Qed.

(** Whenever no call is in progress, ones() is the number of set bits. *)
Theorem C23_ones : forall s progs, made s -> exact s -> progs_ok s progs ->
  forall c tr, exec cb_step (cb_start s progs) c tr -> resting c -> exact (c_sh c).
Proof. exact cb_ones. Qed.
Print Assumptions C23_ones.

(** Whenever no call is in progress, successful inserts and erases of an index balance. *)
Theorem C23_balance : forall s S0 progs, made s -> exact s -> same_set S0 s -> progs_ok s progs ->
  forall c tr i, exec cb_step (cb_start s progs) c tr -> resting c ->
  exists b, bs_contains (c_sh c) i = Val b /\ (count_rsp (ins_ok i) tr + b2 (S0 i) = count_rsp (era_ok i) tr + b2 b)%nat.
Proof. exact cb_balance. Qed.
Print Assumptions C23_balance.

(** Of several concurrent inserts of an absent index (never erased), exactly one succeeds. *)
Theorem C23_one_winner : forall s S0 progs, made s -> exact s -> same_set S0 s -> progs_ok s progs ->
  forall c tr i, exec cb_step (cb_start s progs) c tr -> resting c -> S0 i = false ->
  count_rsp (era_ok i) tr = 0%nat -> (0 < count_rsp (ins_any i) tr)%nat ->
  count_rsp (ins_ok i) tr = 1%nat /\ mem (c_sh c) i.
Proof. exact cb_one_winner. Qed.
Print Assumptions C23_one_winner.
Example C23_one_winner_ex :
  exists c tr, run_sched cb_step (cb_start ex_set ex_progs) [] [0; 1; 0; 1; 0; 1; 0; 1; 0]%nat = Some (c, tr) /\ resting c /\
    count_rsp (era_ok 5) tr = 0%nat /\ count_rsp (ins_any 5) tr = 2%nat /\ count_rsp (ins_ok 5) tr = 1%nat.
Proof.
  do 2 eexists. split; [vm_compute; reflexivity|]. split; [|vm_compute; auto].
  intros l [<-|[<-|[]]]; eexists; reflexivity.
Qed.

(** The retry loops do not run forever: every execution ends, with all calls made. *)
Theorem C23_terminates : forall s progs, terminates cb_step (cb_start s progs).
Proof. exact cb_terminates. Qed.
Print Assumptions C23_terminates.
Theorem C23_progress : forall s progs, made s -> exact s -> progs_ok s progs ->
  forall c tr, exec cb_step (cb_start s progs) c tr -> (exists c', cstep cb_step c c') \/ finished c.
Proof.
  intros s progs Hm He Hp c tr H.
  destruct (cstep_or_stopped _ _ _ cb_step c) as [Hs|Hs].
  - intros t l Hl. eapply cb_safe; eauto.
  - left. exact Hs.
  - right. intros l Hl. apply In_nth_error in Hl. destruct Hl as [t Ht]. specialize (Hs t l Ht).
    destruct l as [[|o p]|o p|o v p|o p|o r p]; cbn [cb_step] in Hs; try discriminate; [reflexivity| |].
    + assert (T : forall o v, cb_test (c_sh c) o v p <> Stop) by (intros [] v; unfold cb_test; try destruct (negb _); discriminate).
      destruct o; [| |destruct (_ && _); [|discriminate]]; (destruct (rd _ _); [|discriminate]); now apply T in Hs.
    + assert (T : forall o v, cb_test (c_sh c) o v p <> Stop) by (intros [] w; unfold cb_test; try destruct (negb _); discriminate).
      destruct (rd _ _) as [cur|]; [|discriminate]. destruct (cur =? v); [discriminate|]. now apply T in Hs.
Qed.
Print Assumptions C23_progress.
