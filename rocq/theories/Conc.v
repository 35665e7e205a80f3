(** Concurrent executions: interleavings of atomic steps, and linearizability.

    A thread executes a deterministic program over its local state; every step performs at
    most one atomic access to the shared state.  An execution is any sequence of steps of any threads,
    so all schedules of any number of threads are covered.  Accesses are sequentially consistent. *)
From Verif Require Import Outcome ListUtil.

Section C.
Variables Sh Loc Ev : Type.

(** Outcome of a thread's next step. *)
Inductive sres := Step (sh : Sh) (l : Loc) (evs : list Ev) | Stop | Bad.
Variable step : Sh -> Loc -> sres.

Record config := mkc { c_sh : Sh; c_loc : list Loc }.

(** [exec c0 c tr]: configuration [c] is reached from [c0] with the events [tr], newest first. *)
Inductive exec (c0 : config) : config -> list (nat * Ev) -> Prop :=
| exec_start : exec c0 c0 []
| exec_step c tr t l sh' l' evs :
    exec c0 c tr -> nth_error (c_loc c) t = Some l -> step (c_sh c) l = Step sh' l' evs ->
    exec c0 (mkc sh' (upd (c_loc c) t l')) (map (fun e => (t, e)) evs ++ tr).

(** The same executions by an explicit schedule (thread numbers in order), for examples. *)
Fixpoint run_sched (c : config) (tr : list (nat * Ev)) (s : list nat) : option (config * list (nat * Ev)) :=
  match s with
  | [] => Some (c, tr)
  | t :: s' => match nth_error (c_loc c) t with
               | Some l => match step (c_sh c) l with
                           | Step sh' l' evs => run_sched (mkc sh' (upd (c_loc c) t l')) (map (fun e => (t, e)) evs ++ tr) s'
                           | _ => None
                           end
               | None => None
               end
  end.

Lemma run_sched_exec c0 s : forall c tr c' tr', exec c0 c tr -> run_sched c tr s = Some (c', tr') -> exec c0 c' tr'.
Proof.
  induction s as [|t s IH]; intros c tr c' tr' H E; cbn [run_sched] in E.
  - injection E as <- <-. exact H.
  - destruct (nth_error (c_loc c) t) as [l|] eqn:El; [|discriminate]. destruct (step (c_sh c) l) as [sh' l' evs| |] eqn:Es; try discriminate.
    eapply IH; [|exact E]. econstructor; eassumption.
Qed.

Lemma exec_length c0 c tr : exec c0 c tr -> length (c_loc c) = length (c_loc c0).
Proof. induction 1; [reflexivity|]. cbn [c_loc]. rewrite upd_length. assumption. Qed.

(** Invariant rule. *)
Lemma exec_inv c0 (I : config -> list (nat * Ev) -> Prop) :
  I c0 [] ->
  (forall c tr t l sh' l' evs, exec c0 c tr -> I c tr -> nth_error (c_loc c) t = Some l -> step (c_sh c) l = Step sh' l' evs ->
     I (mkc sh' (upd (c_loc c) t l')) (map (fun e => (t, e)) evs ++ tr)) ->
  forall c tr, exec c0 c tr -> I c tr.
Proof. intros H0 HS c tr H. induction H; [exact H0|]. eapply HS; eassumption. Qed.

(** No reachable step is undefined. *)
Definition safe (c0 : config) : Prop :=
  forall c tr t l, exec c0 c tr -> nth_error (c_loc c) t = Some l -> step (c_sh c) l <> Bad.

(** One step of some thread, and the absence of infinite executions. *)
Definition cstep (c c' : config) : Prop :=
  exists t l sh' l' evs, nth_error (c_loc c) t = Some l /\ step (c_sh c) l = Step sh' l' evs /\ c' = mkc sh' (upd (c_loc c) t l').
Definition terminates (c0 : config) : Prop :=
  forall f : nat -> config, f 0 = c0 -> (forall n, cstep (f n) (f (S n))) -> False.

Lemma terminates_measure (I : config -> Prop) (mu : config -> nat) c0 :
  I c0 -> (forall c c', I c -> cstep c c' -> I c' /\ mu c' < mu c) -> terminates c0.
Proof.
  intros H0 HS f Hf Hstep. assert (G : forall n, I (f n) /\ mu (f n) + n <= mu c0).
  { induction n as [|n [HI Hm]]; [rewrite Hf; split; [exact H0|lia]|]. destruct (HS _ _ HI (Hstep n)) as [HI' Hlt]. split; [exact HI'|lia]. }
  destruct (G (S (mu c0))). lia.
Qed.

(** [exec] and [cstep]. *)
Lemma exec_cstep c0 c tr c' : exec c0 c tr -> cstep c c' -> exists tr', exec c0 c' tr'.
Proof. intros H (t & l & sh' & l' & evs & H1 & H2 & ->). eexists. econstructor; eassumption. Qed.

(** Executions with the number of steps of thread [t]. *)
Inductive exec_own (t : nat) (c0 : config) : config -> list (nat * Ev) -> nat -> Prop :=
| own_start : exec_own t c0 c0 [] 0
| own_step c tr k u l sh' l' evs :
    exec_own t c0 c tr k -> nth_error (c_loc c) u = Some l -> step (c_sh c) l = Step sh' l' evs ->
    exec_own t c0 (mkc sh' (upd (c_loc c) u l')) (map (fun e => (u, e)) evs ++ tr) ((if Nat.eqb u t then 1 else 0) + k).
Lemma exec_own_exec t c0 c tr k : exec_own t c0 c tr k -> exec c0 c tr.
Proof. induction 1; [constructor|]. econstructor; eassumption. Qed.

Lemma run_sched_own t c0 s : forall c tr k c' tr', exec_own t c0 c tr k -> run_sched c tr s = Some (c', tr') ->
  exec_own t c0 c' tr' (k + count_occ Nat.eq_dec s t).
Proof.
  induction s as [|u s IH]; intros c tr k c' tr' H E; cbn [run_sched] in E.
  - injection E as <- <-. cbn [count_occ]. now rewrite Nat.add_0_r.
  - destruct (nth_error (c_loc c) u) as [l|] eqn:El; [|discriminate]. destruct (step (c_sh c) l) as [sh' l' evs| |] eqn:Es; try discriminate.
    specialize (IH _ _ _ _ _ (own_step _ _ _ _ _ _ _ _ _ _ H El Es) E). cbn [count_occ].
    replace (k + (if Nat.eq_dec u t then S (count_occ Nat.eq_dec s t) else count_occ Nat.eq_dec s t))
      with ((if u =? t then 1 else 0) + k + count_occ Nat.eq_dec s t); [exact IH|].
    destruct (Nat.eqb_spec u t), (Nat.eq_dec u t); try contradiction; lia.
Qed.

(** A rank of local states that each own step decreases bounds the number of own steps. *)
Lemma own_bound (I : config -> list (nat * Ev) -> Prop) (rank : Loc -> nat) t c0 :
  (forall c tr, exec c0 c tr -> I c tr) ->
  (forall c tr u l sh' l' evs, I c tr -> nth_error (c_loc c) u = Some l -> step (c_sh c) l = Step sh' l' evs -> rank l' < rank l) ->
  forall c tr k l0, nth_error (c_loc c0) t = Some l0 -> exec_own t c0 c tr k ->
  exists l, nth_error (c_loc c) t = Some l /\ k + rank l <= rank l0.
Proof.
  intros HI Hd c tr k l0 H0 H. induction H as [|c tr k u l sh' l' evs H IH Et Es]; [exists l0; auto|].
  destruct IH as [lt [Hlt Hk]]. specialize (Hd c tr u l sh' l' evs (HI _ _ (exec_own_exec _ _ _ _ _ H)) Et Es). cbn [c_loc].
  destruct (Nat.eqb_spec u t) as [->|Hne].
  - exists l'. split; [apply nth_error_upd_eq; eapply nth_error_lt; eassumption|]. rewrite Et in Hlt. injection Hlt as <-. lia.
  - exists lt. split; [rewrite nth_error_upd_neq by congruence; exact Hlt|]. lia.
Qed.

(** Some thread can move, unless all have stopped. *)
Lemma cstep_or_stopped c : (forall t l, nth_error (c_loc c) t = Some l -> step (c_sh c) l <> Bad) ->
  (exists c', cstep c c') \/ forall t l, nth_error (c_loc c) t = Some l -> step (c_sh c) l = Stop.
Proof.
  intros Hb. destruct c as [sh locs]. cbn [c_sh c_loc] in *.
  assert (G : (exists t l sh' l' evs, nth_error locs t = Some l /\ step sh l = Step sh' l' evs) \/ forall t l, nth_error locs t = Some l -> step sh l = Stop).
  { clear -Hb. induction locs as [|a locs IH]; [right; intros [|t] l H; discriminate|].
    destruct (step sh a) as [sh' l' evs| |] eqn:Ea.
    - left. exists 0, a, sh', l', evs. auto.
    - destruct IH as [(t & l & sh' & l' & evs & H1 & H2)|H].
      + intros t l H. apply (Hb (S t)). exact H.
      + left. exists (S t), l, sh', l', evs. auto.
      + right. intros [|t] l Hl; [injection Hl as <-; exact Ea|eapply H; exact Hl].
    - exfalso. apply (Hb 0 a eq_refl Ea). }
  destruct G as [(t & l & sh' & l' & evs & H1 & H2)|H]; [left|right; exact H].
  exists (mkc sh' (upd locs t l')), t, l, sh', l', evs. auto.
Qed.
End C.
Arguments cstep {Sh Loc Ev}. Arguments exec_own {Sh Loc Ev}. Arguments terminates {Sh Loc Ev}. Arguments Step {Sh Loc Ev}. Arguments Stop {Sh Loc Ev}. Arguments Bad {Sh Loc Ev}.
Arguments mkc {Sh Loc}. Arguments c_sh {Sh Loc}. Arguments c_loc {Sh Loc}.
Arguments exec {Sh Loc Ev}. Arguments run_sched {Sh Loc Ev}. Arguments safe {Sh Loc Ev}.

(** *** Linearizability *)
(** Weighted sums over the threads, for measures. *)
Lemma sum_upd {A} (w w' : A -> nat) l : forall t x y, nth_error l t = Some x ->
  (forall z, In z l -> w' z <= w z + 1) -> list_sum (map w' (upd l t y)) + w x <= list_sum (map w l) + w' y + (length l - 1).
Proof.
  assert (G : forall l, (forall z, In z l -> w' z <= w z + 1) -> list_sum (map w' l) <= list_sum (map w l) + length l).
  { clear. induction l as [|a l IH]; intros H; [cbn; lia|]. cbn [map list_sum fold_right length].
    assert (w' a <= w a + 1) by (apply H; now left). fold (list_sum (map w' l)). fold (list_sum (map w l)).
    assert (list_sum (map w' l) <= list_sum (map w l) + length l) by (apply IH; intros; apply H; now right). lia. }
  induction l as [|a l IH]; intros [|t] x y H Hw; cbn [nth_error] in H; try discriminate.
  - injection H as ->. cbn [upd map list_sum fold_right length]. fold (list_sum (map w' l)). fold (list_sum (map w l)).
    assert (list_sum (map w' l) <= list_sum (map w l) + length l) by (apply G; intros; apply Hw; now right). lia.
  - cbn [upd map list_sum fold_right length]. fold (list_sum (map w' (upd l t y))). fold (list_sum (map w l)).
    specialize (IH t x y H ltac:(intros; apply Hw; now right)). assert (w' a <= w a + 1) by (apply Hw; now left).
    assert (t < length l) by (eapply nth_error_lt; eassumption). lia.
Qed.
Lemma sum_upd_same {A} (w : A -> nat) l : forall t x y, nth_error l t = Some x ->
  list_sum (map w (upd l t y)) + w x = list_sum (map w l) + w y.
Proof.
  induction l as [|a l IH]; intros [|t] x y H; cbn [nth_error] in H; try discriminate.
  - injection H as ->. cbn [upd map list_sum fold_right]. lia.
  - cbn [upd map list_sum fold_right]. fold (list_sum (map w (upd l t y))). fold (list_sum (map w l)). specialize (IH t x y H). lia.
Qed.

Section L.
Variables Op Ret : Type.

(** [Inv]/[Rsp]: a call starts/returns.  [Lin]: the moment at which the call takes effect. *)
Inductive ev := Inv (o : Op) | Lin (o : Op) (r : Ret) | Rsp (o : Op) (r : Ret).

Fixpoint lins (tr : list (nat * ev)) : list (Op * Ret) :=
  match tr with
  | [] => []
  | (_, Lin o r) :: t => (o, r) :: lins t
  | _ :: t => lins t
  end.

(** A thread's own events: each call is Inv, then one Lin, then Rsp with the result of the Lin. *)
Inductive stage := Out | Called (o : Op) | Done (o : Op) (r : Ret).
Inductive tstage (t : nat) : list (nat * ev) -> stage -> Prop :=
| ts_nil : tstage t [] Out
| ts_other u e tr s : u <> t -> tstage t tr s -> tstage t ((u, e) :: tr) s
| ts_inv o tr : tstage t tr Out -> tstage t ((t, Inv o) :: tr) (Called o)
| ts_lin o r tr : tstage t tr (Called o) -> tstage t ((t, Lin o r) :: tr) (Done o r)
| ts_rsp o r tr : tstage t tr (Done o r) -> tstage t ((t, Rsp o r) :: tr) Out.

(** What an observer sees. *)
Fixpoint observed (tr : list (nat * ev)) : list (nat * ev) :=
  match tr with
  | [] => []
  | (_, Lin _ _) :: t => observed t
  | e :: t => e :: observed t
  end.

(** Number of calls of thread-independent kind satisfying [p] that returned / took effect. *)
Fixpoint count_rsp (p : Op -> Ret -> bool) (tr : list (nat * ev)) : nat :=
  match tr with
  | [] => 0
  | (_, Rsp o r) :: t => (if p o r then 1 else 0) + count_rsp p t
  | _ :: t => count_rsp p t
  end.
Definition count_lin (p : Op -> Ret -> bool) (l : list (Op * Ret)) : nat := length (filter (fun x => p (fst x) (snd x)) l).

(** When no call is in progress, the calls that took effect are the calls that returned. *)
Definition pending (p : Op -> Ret -> bool) (s : stage) : nat := match s with Done o r => if p o r then 1 else 0 | _ => 0 end.

Lemma tstage_fun t tr s s' : tstage t tr s -> tstage t tr s' -> s = s'.
Proof.
  intros H. revert s'. induction H; intros s' H'; inversion H'; subst; try congruence; auto.
Qed.

Definition sumn (f : nat -> nat) (n : nat) : nat := list_sum (map f (seq 0 n)).

Lemma sumn_upd (f g : nat -> nat) n t : t < n -> (forall u, u <> t -> f u = g u) -> sumn f n + g t = sumn g n + f t.
Proof.
  unfold sumn. intros Ht Hfg. assert (G : forall k a, a <= t < a + k -> list_sum (map f (seq a k)) + g t = list_sum (map g (seq a k)) + f t).
  { induction k as [|k IH]; intros a Ha; [lia|]. cbn [seq map].
    change (list_sum (f a :: map f (seq (S a) k))) with (f a + list_sum (map f (seq (S a) k))).
    change (list_sum (g a :: map g (seq (S a) k))) with (g a + list_sum (map g (seq (S a) k))).
    destruct (Nat.eq_dec a t) as [->|Hn].
    - assert (E : map f (seq (S t) k) = map g (seq (S t) k)) by (apply map_ext_in; intros u Hu; apply in_seq in Hu; apply Hfg; lia).
      rewrite E. lia.
    - rewrite (Hfg a Hn). specialize (IH (S a) ltac:(lia)). lia. }
  apply G. lia.
Qed.

Lemma sumn_0 f n : (forall u, u < n -> f u = 0) -> sumn f n = 0.
Proof.
  intros H. unfold sumn. assert (G : forall k a, (forall u, a <= u < a + k -> f u = 0) -> list_sum (map f (seq a k)) = 0).
  { induction k as [|k IH]; intros a Ha; [reflexivity|]. cbn [seq map]. change (list_sum (f a :: map f (seq (S a) k))) with (f a + list_sum (map f (seq (S a) k))).
    rewrite Ha, IH by (intros; try apply Ha; lia). reflexivity. }
  apply G. intros. apply H. lia.
Qed.

Lemma lin_rsp_count p tr : forall n st, (forall u e, In (u, e) tr -> u < n) -> (forall t, tstage t tr (st t)) ->
  count_lin p (lins tr) = count_rsp p tr + sumn (fun t => pending p (st t)) n.
Proof.
  induction tr as [|[u e] tr IH]; intros n st Hn Hs.
  - cbn [lins count_rsp]. rewrite sumn_0; [reflexivity|]. intros t _. assert (E : st t = Out) by (eapply tstage_fun; [apply Hs|constructor]). now rewrite E.
  - assert (Hst : exists st', (forall t, tstage t tr (st' t)) /\ (forall t, t <> u -> st' t = st t)).
    { assert (Hu : exists s, tstage u tr s).
      { specialize (Hs u). inversion Hs; subst; try congruence; eauto. }
      destruct Hu as [su Hu]. exists (fun t => if Nat.eqb t u then su else st t). split.
      - intros t. destruct (Nat.eqb_spec t u) as [->|Hne]; [exact Hu|]. specialize (Hs t). inversion Hs; subst; congruence || assumption.
      - intros t Hne. apply Nat.eqb_neq in Hne. now rewrite Hne. }
    destruct Hst as [st' [Hs' Ho]]. specialize (IH n st' ltac:(intros; eapply Hn; right; eassumption) Hs').
    assert (Hun : u < n) by (eapply Hn; left; reflexivity).
    pose proof (sumn_upd (fun t => pending p (st t)) (fun t => pending p (st' t)) n u Hun ltac:(intros v Hv; cbn beta; now rewrite (Ho v Hv))) as Hsum. cbn beta in Hsum.
    pose proof (Hs u) as Hu. pose proof (Hs' u) as Hu'.
    destruct e as [o|o r|o r]; cbn [lins count_rsp]; inversion Hu; subst; try congruence;
      match goal with H : tstage u tr _ |- _ => pose proof (tstage_fun _ _ _ _ Hu' H) as E' end;
      match goal with H : _ = st u |- _ => rewrite <- H in Hsum end; rewrite E' in Hsum; cbn [pending] in Hsum.
    + lia.
    + unfold count_lin in *. cbn [filter fst snd]. destruct (p o r); cbn [length]; lia.
    + lia.
Qed.

Lemma lin_rsp_quiet p tr : (forall t, tstage t tr Out) -> count_lin p (lins tr) = count_rsp p tr.
Proof.
  intros H. assert (Hn : exists n, forall u e, In (u, e) tr -> u < n).
  { clear. induction tr as [|[u e] tr [n IH]]; [exists 0; intros ? ? []|]. exists (S (n + u)). intros v f [E|Hin]; [injection E as -> ->; lia|].
    specialize (IH _ _ Hin). lia. }
  destruct Hn as [n Hn]. rewrite (lin_rsp_count p tr n (fun _ => Out) Hn H), sumn_0 by reflexivity. lia.
Qed.

End L.
Arguments Inv {Op Ret}. Arguments Lin {Op Ret}. Arguments Rsp {Op Ret}.
Arguments lins {Op Ret}. Arguments tstage {Op Ret}. Arguments observed {Op Ret}.
Arguments count_rsp {Op Ret}. Arguments count_lin {Op Ret}.
Arguments Out {Op Ret}. Arguments Called {Op Ret}. Arguments Done {Op Ret}. Arguments lin_rsp_quiet {Op Ret}.

Section L2.
Variables Op Ret St : Type.
Variable spec : St -> Op -> St -> Ret -> Prop.

(** Sequential replay (newest first). *)
Inductive legal (s0 : St) : list (Op * Ret) -> St -> Prop :=
| legal_nil : legal s0 [] s0
| legal_cons l s o r s' : legal s0 l s -> spec s o s' r -> legal s0 ((o, r) :: l) s'.

(** The observed history [h] is linearizable: moments of effect can be placed within the calls so
    that the calls in the order of these moments are a sequential history with the same results. *)
Definition linearizable (s0 : St) (h : list (nat * ev Op Ret)) : Prop :=
  exists tr s, observed tr = h /\ legal s0 (lins tr) s /\ forall t, exists st, tstage t tr st.

Lemma legal_det s0 l s s' : (forall a o b r b' r', spec a o b r -> spec a o b' r' -> b = b' /\ r = r') -> legal s0 l s -> legal s0 l s' -> s = s'.
Proof.
  intros Hd H. revert s'. induction H; intros s'' H'; inversion H'; subst; [reflexivity|].
  match goal with H2 : legal s0 l ?x |- _ => apply IHlegal in H2; subst end.
  eapply Hd; eassumption.
Qed.
End L2.
Arguments legal {Op Ret St}. Arguments linearizable {Op Ret St}.

(** Counting list elements. *)
Definition cnt {A} (f : A -> bool) (l : list A) : nat := length (filter f l).
Lemma cnt_upd {A} (f : A -> bool) l : forall t x y, nth_error l t = Some x ->
  (cnt f (upd l t y) + (if f x then 1 else 0) = cnt f l + (if f y then 1 else 0)).
Proof.
  unfold cnt. induction l as [|a l IH]; intros [|t] x y H; cbn [nth_error] in H; try discriminate.
  - injection H as ->. cbn [upd filter]. destruct (f x), (f y); cbn [length]; lia.
  - cbn [upd filter]. specialize (IH t x y H). destruct (f a); cbn [length]; lia.
Qed.
Lemma cnt_0 {A} (f : A -> bool) l : (forall x, In x l -> f x = false) -> cnt f l = 0.
Proof.
  unfold cnt. intros H. induction l as [|a l IH]; [reflexivity|]. cbn [filter]. rewrite (H a) by now left.
  apply IH. intros; apply H; now right.
Qed.

Lemma tstage_step {Op Ret} (t u : nat) (tr : list (nat * ev Op Ret)) evs st : u <> t -> tstage u tr st -> tstage u (map (fun e => (t, e)) evs ++ tr) st.
Proof. intros Hn H. induction evs as [|e evs IH]; [exact H|]. cbn [map app]. constructor; [congruence|exact IH]. Qed.

(** Facts about every thread: a condition on its local state, and where it is in its call. *)
Definition thr_ok {Op Ret Loc} (P : Loc -> Prop) (stg : Loc -> stage Op Ret) (locs : list Loc) (tr : list (nat * ev Op Ret)) : Prop :=
  (forall t l, nth_error locs t = Some l -> P l /\ tstage t tr (stg l)) /\ (forall t, nth_error locs t = None -> tstage t tr Out).

Lemma thr_step {Op Ret Loc} (P P' : Loc -> Prop) (stg : Loc -> stage Op Ret) locs tr t l l' evs :
  thr_ok P stg locs tr -> nth_error locs t = Some l -> (forall x, P x -> P' x) -> P' l' ->
  tstage t (map (fun e => (t, e)) evs ++ tr) (stg l') -> thr_ok P' stg (upd locs t l') (map (fun e => (t, e)) evs ++ tr).
Proof.
  intros [H1 H2] Et HP Hl' Hs. split.
  - intros u lu Hu. destruct (Nat.eq_dec u t) as [->|Hne].
    + rewrite nth_error_upd_eq in Hu by (eapply nth_error_lt; eassumption). injection Hu as <-. split; assumption.
    + rewrite nth_error_upd_neq in Hu by congruence. destruct (H1 u lu Hu). split; [auto|]. now apply tstage_step.
  - intros u Hu. destruct (Nat.eq_dec u t) as [->|Hne].
    + rewrite nth_error_upd_eq in Hu by (eapply nth_error_lt; eassumption). discriminate.
    + rewrite nth_error_upd_neq in Hu by congruence. apply tstage_step; auto.
Qed.
Lemma thr_get {Op Ret Loc} (P : Loc -> Prop) (stg : Loc -> stage Op Ret) locs tr t l :
  thr_ok P stg locs tr -> nth_error locs t = Some l -> P l /\ tstage t tr (stg l).
Proof. intros [H _]. apply H. Qed.
Lemma thr_start {Op Ret Loc} (P : Loc -> Prop) (stg : Loc -> stage Op Ret) locs :
  (forall l, In l locs -> P l /\ stg l = Out) -> thr_ok P stg locs [].
Proof.
  intros H. split; [|constructor]. intros t l Hl. destruct (H l (nth_error_In _ _ Hl)) as [HP E]. rewrite E. split; [exact HP|constructor].
Qed.
Lemma thr_stages {Op Ret Loc} (P : Loc -> Prop) (stg : Loc -> stage Op Ret) locs tr :
  thr_ok P stg locs tr -> forall t, exists st, tstage t tr st.
Proof. intros [H1 H2] t. destruct (nth_error locs t) as [l|] eqn:E; [exists (stg l); apply (H1 t l E)|exists Out; apply H2, E]. Qed.
Lemma thr_quiet {Op Ret Loc} (P : Loc -> Prop) (stg : Loc -> stage Op Ret) locs tr :
  thr_ok P stg locs tr -> (forall l, In l locs -> stg l = Out) -> forall t, tstage t tr Out.
Proof.
  intros [H1 H2] Hq t. destruct (nth_error locs t) as [l|] eqn:E; [|now apply H2]. rewrite <- (Hq l (nth_error_In _ _ E)). apply (H1 t l E).
Qed.

(** *** Calls within traces *)
Lemma lins_app {Op Ret} (a b : list (nat * ev Op Ret)) : lins (a ++ b) = lins a ++ lins b.
Proof. induction a as [|[u [o|o r|o r]] a IH]; cbn [app lins]; [reflexivity| | |]; rewrite ?IH; reflexivity. Qed.
Lemma legal_app {Op Ret St} (spec : St -> Op -> St -> Ret -> Prop) s0 l2 : forall l1 s, legal spec s0 (l1 ++ l2) s ->
  exists m, legal spec s0 l2 m /\ legal spec m l1 s.
Proof.
  induction l1 as [|[o r] l1 IH]; intros s H; [exists s; split; [exact H|constructor]|]. cbn [app] in H. inversion H; subst.
  match goal with H1 : legal _ _ (l1 ++ l2) _ |- _ => destruct (IH _ H1) as [m [H2 H3]] end. exists m. split; [exact H2|econstructor; eassumption].
Qed.
Lemma tstage_app {Op Ret} t (a b : list (nat * ev Op Ret)) : forall s, tstage t (a ++ b) s -> exists s', tstage t b s'.
Proof. induction a as [|e a IH]; intros s H; [eauto|]. cbn [app] in H. inversion H; subst; eapply IH; eassumption. Qed.
Lemma done_lin {Op Ret} t (tr : list (nat * ev Op Ret)) o r : tstage t tr (Done o r) ->
  exists a b, tr = a ++ (t, Lin o r) :: b /\ tstage t b (Called o).
Proof.
  remember (Done o r) as s. intros H. revert Heqs. induction H; intros E; try discriminate.
  - destruct (IHtstage E) as [a [b [-> Hb]]]. exists ((u, e) :: a), b. auto.
  - injection E as -> ->. exists [], tr. auto.
Qed.
Lemma called_inv {Op Ret} t (tr : list (nat * ev Op Ret)) o : tstage t tr (Called o) ->
  exists a b, tr = a ++ (t, Inv o) :: b.
Proof.
  remember (Called o) as s. intros H. revert Heqs. induction H; intros E; try discriminate.
  - destruct (IHtstage E) as [a [b ->]]. exists ((u, e) :: a), b. auto.
  - injection E as ->. exists [], tr. auto.
Qed.
(** A call takes effect between its invocation and its return. *)
Lemma call_lin {Op Ret} u (late mid early : list (nat * ev Op Ret)) o o' r st :
  tstage u (late ++ (u, Rsp o r) :: mid ++ (u, Inv o') :: early) st -> (forall x, ~ In (u, Inv x) mid) ->
  o' = o /\ exists a b, mid = a ++ (u, Lin o r) :: b.
Proof.
  intros H Hno. apply tstage_app in H. destruct H as [s H]. inversion H; subst; [congruence|].
  match goal with H1 : tstage u (mid ++ _) _ |- _ => rename H1 into Hd end. clear H.
  assert (C : forall m, tstage u (m ++ (u, Inv o') :: early) (Called o) -> (forall x, ~ In (u, Inv x) m) -> o' = o).
  { induction m as [|e m IH]; intros Hm Hn; cbn [app] in Hm; inversion Hm; subst; try congruence.
    - apply IH; [assumption|]. intros x Hx. apply (Hn x). now right.
    - exfalso. eapply Hn. left. reflexivity. }
  induction mid as [|e mid IH]; cbn [app] in Hd; inversion Hd; subst.
  - congruence.
  - destruct IH as [E [a [b ->]]]; [intros x Hx; eapply Hno; right; exact Hx|assumption|]. split; [exact E|]. eexists (_ :: a), b. reflexivity.
  - split; [eapply C; [eassumption|intros x Hx; eapply Hno; right; exact Hx]|]. exists [], mid. reflexivity.
Qed.
(** A call that returned took effect before. *)
Lemma rsp_lin {Op Ret} u (a b : list (nat * ev Op Ret)) o r st : tstage u (a ++ (u, Rsp o r) :: b) st ->
  exists b1 b2, b = b1 ++ (u, Lin o r) :: b2 /\ tstage u b2 (Called o).
Proof. intros H. apply tstage_app in H. destruct H as [s H]. inversion H; subst; [congruence|]. now apply done_lin. Qed.
Lemma in_lins {Op Ret} (tr : list (nat * ev Op Ret)) o r : In (o, r) (lins tr) -> exists u a b, tr = a ++ (u, Lin o r) :: b.
Proof.
  induction tr as [|[u [x|x y|x y]] tr IH]; cbn [lins]; [intros []| | |].
  - intros H. destruct (IH H) as [v [a [b ->]]]. exists v, ((u, Inv x) :: a), b. reflexivity.
  - intros [E|H]; [injection E as -> ->; exists u, [], tr; reflexivity|]. destruct (IH H) as [v [a [b ->]]]. exists v, ((u, Lin x y) :: a), b. reflexivity.
  - intros H. destruct (IH H) as [v [a [b ->]]]. exists v, ((u, Rsp x y) :: a), b. reflexivity.
Qed.
Lemma lin_inv {Op Ret} (tr : list (nat * ev Op Ret)) o r : (forall t, exists st, tstage t tr st) -> In (o, r) (lins tr) -> exists u, In (u, Inv o) tr.
Proof.
  intros Hs H. destruct (in_lins tr o r H) as [u [a [b ->]]]. destruct (Hs u) as [st Hst]. apply tstage_app in Hst. destruct Hst as [s Hst].
  inversion Hst; subst; [congruence|]. match goal with H1 : tstage u b _ |- _ => destruct (called_inv u b o H1) as [a' [b' ->]] end.
  exists u. apply in_or_app. right. right. apply in_or_app. right. now left.
Qed.
(** Calls that returned are among the calls that took effect. *)
Lemma rsp_le_lin {Op Ret} p (tr : list (nat * ev Op Ret)) : (forall t, exists st, tstage t tr st) -> count_rsp p tr <= count_lin p (lins tr).
Proof.
  intros H. assert (Hn : exists n, forall u e, In (u, e) tr -> u < n).
  { clear. induction tr as [|[u e] tr [n IH]]; [exists 0; intros ? ? []|]. exists (S (n + u)). intros v f [E|Hin]; [injection E as -> ->; lia|].
    specialize (IH _ _ Hin). lia. }
  destruct Hn as [n Hn].
  assert (Hf : exists st, forall t, t < n -> tstage t tr (st t)).
  { clear - H. induction n as [|n [st IH]]; [exists (fun _ => Out); lia|]. destruct (H n) as [s Hs]. exists (fun t => if Nat.eqb t n then s else st t).
    intros t Ht. destruct (Nat.eqb_spec t n) as [->|]; [exact Hs|]. apply IH. lia. }
  destruct Hf as [st Hst].
  assert (Hall : forall t, tstage t tr (if Nat.ltb t n then st t else Out)).
  { intros t. destruct (Nat.ltb_spec t n); [now apply Hst|]. assert (Hnt : forall e, ~ In (t, e) tr) by (intros e He; specialize (Hn _ _ He); lia).
    clear - Hnt. induction tr as [|[u e] tr IH]; constructor; [intros ->; apply (Hnt e); now left|]. apply IH. intros f Hf. apply (Hnt f). now right. }
  rewrite (lin_rsp_count _ _ p tr n _ Hn Hall). lia.
Qed.
