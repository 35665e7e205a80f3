(** A pool of tasks drained in any order: at each moment some task takes its next step, and is then replaced by
    what remains of it and by the tasks it adds.  All tasks in the pool may be in the middle of their work, so every
    schedule of tbb::parallel_do and tbb::parallel_for with any number of threads is one of these executions. *)
From Verif Require Import Outcome ListUtil.
From Coq Require Import Wf_nat.
Local Open Scope nat_scope.

Section P.
Context {Sh Task : Type}.
(** One step of a task: the new shared state and the tasks that replace it; or undefined behaviour. *)
Inductive tres := TStep (sh : Sh) (next : list Task) | TBad.
Variable tstep : Sh -> Task -> tres.

Record pool := mkp { p_sh : Sh; p_tasks : list Task }.
Definition pstep (a b : pool) : Prop :=
  exists l1 t l2 sh' next, p_tasks a = l1 ++ t :: l2 /\ tstep (p_sh a) t = TStep sh' next /\ b = mkp sh' (l1 ++ next ++ l2).
Inductive pexec (a : pool) : pool -> Prop :=
| pexec_start : pexec a a
| pexec_step b c : pexec a b -> pstep b c -> pexec a c.

(** No reachable step is undefined. *)
Definition psafe (a : pool) : Prop := forall b t, pexec a b -> In t (p_tasks b) -> tstep (p_sh b) t <> TBad.
(** No execution is infinite. *)
Definition pterminates (a : pool) : Prop := forall f : nat -> pool, f 0 = a -> (forall n, pstep (f n) (f (S n))) -> False.

Lemma pexec_inv (I : pool -> Prop) a : I a -> (forall b c, I b -> pstep b c -> I c) -> forall b, pexec a b -> I b.
Proof. intros H0 HS b H. induction H; eauto. Qed.

(** A pool in which no step is undefined is empty or can move. *)
Lemma pool_moves a : (forall t, In t (p_tasks a) -> tstep (p_sh a) t <> TBad) -> p_tasks a = [] \/ exists b, pstep a b.
Proof.
  intros H. destruct (p_tasks a) as [|t l] eqn:E; [now left|]. right. destruct (tstep (p_sh a) t) as [sh' next|] eqn:Et; [|destruct (H t ltac:(now left) Et)].
  exists (mkp sh' (next ++ l)). exists [], t, l, sh', next. auto.
Qed.

Fixpoint total (w : Task -> nat) (l : list Task) : nat := match l with [] => 0 | t :: r => w t + total w r end.
Lemma total_app w a b : total w (a ++ b) = total w a + total w b.
Proof. induction a as [|x a IH]; cbn [total app]; lia. Qed.
Lemma total_le w w' l : (forall t, In t l -> w t <= w' t) -> total w l <= total w' l.
Proof. induction l as [|x l IH]; intros H; cbn [total]; [lia|]. pose proof (H x ltac:(now left)). specialize (IH ltac:(intros t Ht; apply H; now right)). lia. Qed.

(** Termination: a count of the shared state that never rises, and while it stays the weights of the tasks do
    not rise and the acting task is replaced by lighter ones. *)
Lemma pterm_measure (I : pool -> Prop) (U : Sh -> nat) (wt : Sh -> Task -> nat) a :
  I a -> (forall b c, I b -> pstep b c -> I c) ->
  (forall b t sh' next, I b -> In t (p_tasks b) -> tstep (p_sh b) t = TStep sh' next ->
     U sh' < U (p_sh b) \/ (U sh' = U (p_sh b) /\ (forall x, wt sh' x <= wt (p_sh b) x) /\ total (wt sh') next < wt (p_sh b) t)) ->
  pterminates a.
Proof.
  intros H0 HS HM.
  assert (G : forall n m b, I b -> U (p_sh b) = n -> total (wt (p_sh b)) (p_tasks b) = m -> pterminates b).
  { induction n as [n IHn] using lt_wf_ind. induction m as [m IHm] using lt_wf_ind. intros b Hb Hn Hm f Hf Hst.
    pose proof (Hst 0) as H1. rewrite Hf in H1. pose proof (HS _ _ Hb H1) as Hb1. destruct H1 as (l1 & t & l2 & sh' & next & E1 & E2 & E3).
    destruct (HM b t sh' next Hb) as [Hu|[Hu [Hw Ht]]]; [rewrite E1; apply in_or_app; right; now left|exact E2| |].
    - apply (IHn (U (p_sh (f 1))) ltac:(rewrite E3; cbn [p_sh]; lia) _ (f 1) Hb1 eq_refl eq_refl (fun k => f (S k)) eq_refl). intros k. apply Hst.
    - refine (IHm (total (wt (p_sh (f 1))) (p_tasks (f 1))) _ (f 1) Hb1 _ eq_refl (fun k => f (S k)) eq_refl _).
      + rewrite E3. cbn [p_sh p_tasks]. rewrite <- Hm, E1, !total_app. cbn [total].
        pose proof (total_le (wt sh') (wt (p_sh b)) l1 ltac:(auto)). pose proof (total_le (wt sh') (wt (p_sh b)) l2 ltac:(auto)). lia.
      + rewrite E3. cbn [p_sh]. lia.
      + intros k. apply Hst. }
  apply (G _ _ a H0 eq_refl eq_refl).
Qed.

(** Running the pool by an explicit schedule (positions in the list of tasks), for examples. *)
Fixpoint prun (a : pool) (s : list nat) : option pool :=
  match s with
  | [] => Some a
  | i :: s' => match nth_error (p_tasks a) i with
               | Some t => match tstep (p_sh a) t with
                           | TStep sh' next => prun (mkp sh' (firstn i (p_tasks a) ++ next ++ skipn (S i) (p_tasks a))) s'
                           | TBad => None
                           end
               | None => None
               end
  end.
Lemma prun_exec a0 s : forall a b, pexec a0 a -> prun a s = Some b -> pexec a0 b.
Proof.
  induction s as [|i s IH]; intros a b H E; cbn [prun] in E; [injection E as <-; exact H|].
  destruct (nth_error (p_tasks a) i) as [t|] eqn:Et; [|discriminate]. destruct (tstep (p_sh a) t) as [sh' next|] eqn:Es; [|discriminate].
  eapply IH; [|exact E]. eapply pexec_step; [exact H|]. exists (firstn i (p_tasks a)), t, (skipn (S i) (p_tasks a)), sh', next. split; [|auto].
  rewrite <- (firstn_skipn i (p_tasks a)) at 1. f_equal. clear - Et. revert i Et. induction (p_tasks a) as [|x l IH]; intros [|i] Et; cbn in *; try discriminate; [congruence|]. auto.
Qed.
End P.
Arguments tres : clear implicits. Arguments pool : clear implicits.
