(** Concurrent_LP_Set: calls finish within a bounded number of own steps. *)
From Verif Require Import Outcome ListUtil WordsModel WordsProofs LPSetModel ProbeTheory Conc ConcProbe ConcSetModel ConcSetProofs.
Local Open Scope nat_scope.

Section W.
Variable w : N.
Hypothesis Hw : (w <= 64)%N.
Variable g : bool.
Variables (n : nat) (a : N).
Hypothesis Hn : pow2cap w n.
(** All keys that are or may become stored. *)
Variable U : list N.
Notation hm := (home w a n).

(** The keys of inserting calls are in [U]; together with the key looked for, [U] fits. *)
Definition op_fits (o : csop) : Prop := (puts o -> In (cs_key o) U) /\ distinct (cs_key o :: U) <= n.
Definition rest (l : csloc) : list csop :=
  match l with
  | LIdle p => p
  | LEntry o p | LProbe o _ _ p | LCas o _ _ p | LCount o p | LRet o _ p => o :: p
  end.
Definition wI (S0 : N -> bool) (c : config lpset csloc) (tr : list (nat * ev csop csret)) : Prop :=
  csI w g n a S0 c tr /\ (forall k, In k (s_arr (c_sh c)) -> k <> 0%N -> In k U) /\
  (forall l, In l (c_loc c) -> forall o, In o (rest l) -> op_fits o).

Lemma In_upd_any {A} (l : list A) i x y : In y (upd l i x) -> y = x \/ In y l.
Proof.
  intros H. apply In_nth_error in H. destruct H as [q Hq]. rewrite nth_error_upd in Hq.
  destruct (Nat.eqb i q); [destruct (Nat.ltb _ _); [left; congruence|discriminate]|right; eapply nth_error_In; exact Hq].
Qed.

Lemma head_rest s o idx cols p sh' l' evs : cs_head w g s o idx cols p = Step sh' l' evs ->
  sh' = s /\ rest l' = o :: p.
Proof. unfold cs_head. destruct (_ && _); intros H; injection H as <- <- <-; auto. Qed.

Lemma step_rest s l sh' l' evs : cs_step w g s l = Step sh' l' evs ->
  (forall o, In o (rest l') -> In o (rest l)) /\
  (s_arr sh' = s_arr s \/ exists o p i, l = LCas o i p (rest (LIdle (tl (rest l)))) /\ s_arr sh' = upd (s_arr s) (N.to_nat i) (cs_key o)).
Proof.
  destruct l as [[|o p]|o p|o i cols p|o i cols p|o p|o r p]; cbn [cs_step]; try discriminate.
  - intros H; injection H as <- <- <-. cbn [rest]. auto.
  - destruct (_ && _); [intros H; injection H as <- <- <-; cbn [rest]; auto|]. intros H. apply head_rest in H. destruct H as [-> ->]. cbn [rest]. auto.
  - destruct (nth_error _ _) as [c|]; [|discriminate].
    destruct o; destruct (N.eqb c _); try (intros H; injection H as <- <- <-; cbn [rest]; now auto); destruct (N.eqb c 0); cbn [negb];
      try (intros H; injection H as <- <- <-; cbn [rest]; now auto); intros H; apply head_rest in H; destruct H as [-> ->]; cbn [rest]; auto.
  - destruct (nth_error _ _) as [c|]; [|discriminate]. destruct (N.eqb c 0).
    + intros H; injection H as <- <- <-. cbn [rest tl s_arr]. split; [auto|]. right. do 3 eexists. split; reflexivity.
    + destruct (N.eqb c _); [intros H; injection H as <- <- <-; cbn [rest]; auto|]. intros H. apply head_rest in H. destruct H as [-> ->]. cbn [rest]. auto.
  - intros H; injection H as <- <- <-. cbn [rest s_arr]. auto.
  - intros H; injection H as <- <- <-. cbn [rest]. split; [intros o0 Ho; now right|auto].
Qed.

Lemma wI_step S0 c tr t l sh' l' evs : wI S0 c tr -> nth_error (c_loc c) t = Some l -> cs_step w g (c_sh c) l = Step sh' l' evs ->
  wI S0 (mkc sh' (upd (c_loc c) t l')) (map (fun e => (t, e)) evs ++ tr).
Proof.
  intros [HI [HU Hops]] Et Es. pose proof (step_rest _ _ _ _ _ Es) as [Hr Ha]. split; [eapply cs_inv_step; eauto|]. cbn [c_sh c_loc]. split.
  - destruct Ha as [->|[o [cols [i [El Ea]]]]]; [exact HU|]. intros k Hk Hk0. rewrite Ea in Hk. apply In_upd_any in Hk. destruct Hk as [->|Hk]; [|now apply HU].
    destruct (Hops l (nth_error_In _ _ Et) o) as [Hp _]; [rewrite El; cbn [rest]; now left|]. apply Hp.
    destruct HI as [_ [_ [_ [_ [_ [Ht _]]]]]]. destruct (thr_get _ _ _ _ _ _ Ht Et) as [Hok _]. rewrite El in Hok. cbn [loc_ok] in Hok. apply Hok.
  - intros x Hx o Ho. apply In_upd_any in Hx. destruct Hx as [->|Hx]; [|eapply Hops; eassumption].
    apply (Hops l (nth_error_In _ _ Et)). now apply Hr.
Qed.

Definition rank (l : csloc) : nat :=
  match l with
  | LIdle p => length p * (2 * n + 8)
  | LEntry o p => length p * (2 * n + 8) + 2 * n + 6
  | LProbe o _ cols p => length p * (2 * n + 8) + 2 * (n - N.to_nat cols) + 4
  | LCas o _ cols p => length p * (2 * n + 8) + 2 * (n - N.to_nat cols) + 3
  | LCount o p => length p * (2 * n + 8) + 2
  | LRet o r p => length p * (2 * n + 8) + 1
  end.

Lemma NoDup_uniq_full arr : uniq arr -> (forall c, In c arr -> c <> 0%N) -> NoDup arr.
Proof. intros HU Hz. rewrite <- (keys_of_idem arr Hz). now apply uniq_NoDup. Qed.

Lemma walked_bound S0 c tr k j : csI w g n a S0 c tr -> (forall k, In k (s_arr (c_sh c)) -> k <> 0%N -> In k U) -> distinct (k :: U) <= n ->
  walked (s_arr (c_sh c)) k (hm k) j -> j < n.
Proof.
  intros [H1 [_ [_ [HU _]]]] HsU Hd Hwk. destruct (Nat.lt_ge_cases j n) as [|Hge]; [assumption|exfalso].
  pose proof (n_pos w Hw n Hn) as Hn0.
  assert (Hall : walked (s_arr (c_sh c)) k (hm k) (length (s_arr (c_sh c)))) by (intros i Hi; apply Hwk; lia).
  destruct (walked_all (s_arr (c_sh c)) k (hm k)) as [Hz Hk]; [lia|rewrite H1; now apply home_lt|exact Hall|].
  assert (Hnd : NoDup (k :: s_arr (c_sh c))) by (constructor; [exact Hk|now apply NoDup_uniq_full]).
  assert (Hincl : incl (k :: s_arr (c_sh c)) (nodup N.eq_dec (k :: U))).
  { intros x [<-|Hx]; apply nodup_In; [now left|right]. apply HsU; [exact Hx|now apply Hz]. }
  pose proof (NoDup_incl_length Hnd Hincl) as Hlen. cbn [length] in Hlen. unfold distinct in Hd. lia.
Qed.

Lemma n_le_pow : (N.of_nat n <= 2 ^ w)%N.
Proof. destruct Hn as [k [E Hk]]. rewrite E. apply N.pow_le_mono_r; [discriminate|exact Hk]. Qed.

Lemma cols_exact j : j < n -> N.to_nat (wrap w (N.of_nat j)) = j.
Proof. intros H. pose proof n_le_pow. rewrite wrap_id by lia. lia. Qed.

Lemma rank_head s o idx cols p sh' l' evs : N.to_nat cols < n -> cs_head w g s o idx cols p = Step sh' l' evs ->
  rank l' <= length p * (2 * n + 8) + 2 * (n - N.to_nat cols) + 4.
Proof. intros Hc E. unfold cs_head in E. destruct (_ && _); injection E as <- <- <-; cbn [rank]; lia. Qed.

Lemma rank_step_gen S0 c tr t l sh' l' evs : csI w g n a S0 c tr -> nth_error (c_loc c) t = Some l ->
  (forall o j, In o (rest l) -> walked (s_arr (c_sh c)) (cs_key o) (hm (cs_key o)) j -> j < n) ->
  cs_step w g (c_sh c) l = Step sh' l' evs -> rank l' < rank l.
Proof.
  intros HI Et Hops Es. pose proof HI as [H1 [_ [_ [_ [_ [Ht _]]]]]]. destruct (thr_get _ _ _ _ _ _ Ht Et) as [Hok _].
  clear Et. pose proof (n_pos w Hw n Hn) as Hn0.
  assert (Hnext : forall o i cols p x, In o (rest l) -> pos_ok w n a (s_arr (c_sh c)) (cs_key o) i cols ->
     nth_error (s_arr (c_sh c)) (N.to_nat i) = Some x -> x <> 0%N -> x <> cs_key o ->
     cs_next w g (c_sh c) o i cols p = Step sh' l' evs -> rank l' < length p * (2 * n + 8) + 2 * (n - N.to_nat cols) + 3).
  { intros o i cols p x Ho [j [-> [-> Hwk]]] Hx Hx0 Hxk E. unfold cs_next in E. rewrite wrap_succ in E by exact Hw.
    assert (Hwk' : walked (s_arr (c_sh c)) (cs_key o) (hm (cs_key o)) (S j)).
    { eapply walked_S; [exact Hwk| |exact Hx0|exact Hxk]. rewrite H1. now rewrite Nat2N.id in Hx. }
    pose proof (Hops o _ Ho Hwk') as Hj.
    pose proof (cols_exact (S j) Hj) as C1. pose proof (cols_exact j ltac:(lia)) as C2.
    apply rank_head in E; clear - E C1 C2 Hj; lia. }
  destruct l as [[|o p]|o p|o i cols p|o i cols p|o p|o r p]; cbn [cs_step] in Es.
  - discriminate.
  - injection Es as <- <- <-. cbn [rank length]. lia.
  - destruct (_ && _); [injection Es as <- <- <-; cbn [rank]; lia|]. apply rank_head in Es; [|cbn; lia]. cbn [rank N.to_nat] in *. lia.
  - cbn [loc_ok] in Hok. destruct Hok as [_ Hp]. destruct (nth_error _ _) as [x|] eqn:Ex; [|discriminate]. cbn [rank].
    assert (Ho : In o (rest (LProbe o i cols p))) by now left.
    destruct o as [k|k|k]; destruct (N.eqb_spec x k) as [|Hxk]; try (injection Es as <- <- <-; cbn [rank]; lia);
     destruct (N.eqb_spec x 0) as [|Hx0]; cbn [negb] in Es; try (injection Es as <- <- <-; cbn [rank]; lia);
     specialize (Hnext _ i cols p x Ho Hp Ex Hx0 Hxk Es); lia.
  - cbn [loc_ok] in Hok. destruct Hok as [_ [Hp _]]. destruct (nth_error _ _) as [x|] eqn:Ex; [|discriminate]. cbn [rank].
    assert (Ho : In o (rest (LCas o i cols p))) by now left.
    destruct (N.eqb_spec x 0) as [|Hx0]; [injection Es as <- <- <-; cbn [rank]; lia|].
    destruct (N.eqb_spec x (cs_key o)) as [|Hxk]; [injection Es as <- <- <-; cbn [rank]; lia|].
    specialize (Hnext _ i cols p x Ho Hp Ex Hx0 Hxk Es). lia.
  - injection Es as <- <- <-. cbn [rank]. lia.
  - injection Es as <- <- <-. cbn [rank]. lia.
Qed.

Lemma rank_step S0 c tr t l sh' l' evs : wI S0 c tr -> nth_error (c_loc c) t = Some l -> cs_step w g (c_sh c) l = Step sh' l' evs -> rank l' < rank l.
Proof.
  intros [HI [HsU Hops]] Et Es. eapply rank_step_gen; [exact HI|exact Et| |exact Es]. intros o j Ho Hwk.
  destruct (Hops l (nth_error_In _ _ Et) o Ho) as [_ Hd]. exact (walked_bound _ _ _ _ _ HI HsU Hd Hwk).
Qed.

Lemma wI_exec S0 c0 c tr : wI S0 c0 [] -> exec (cs_step w g) c0 c tr -> wI S0 c tr.
Proof. intros H0. apply exec_inv; [exact H0|]. intros. eapply wI_step; eassumption. Qed.

Lemma own_steps S0 c0 c tr t k l0 : wI S0 c0 [] -> nth_error (c_loc c0) t = Some l0 -> exec_own (cs_step w g) t c0 c tr k -> k <= rank l0.
Proof.
  intros H0 Hl He. destruct (own_bound _ _ _ (cs_step w g) (wI S0) rank t c0 (fun c tr => wI_exec S0 c0 c tr H0)
     (fun c tr u l sh' l' evs => rank_step S0 c tr u l sh' l' evs) c tr k l0 Hl He) as [l [_ H]]. lia.
Qed.

Lemma cs_terminates S0 c0 : wI S0 c0 [] -> terminates (cs_step w g) c0.
Proof.
  intros H0. apply (terminates_measure _ _ _ (cs_step w g) (fun c => exists tr, wI S0 c tr) (fun c => list_sum (map rank (c_loc c)))); [eauto|].
  intros c c' [tr HI] (t & l & sh' & l' & evs & Et & Es & ->). split; [eexists; eapply wI_step; eassumption|]. cbn [c_loc].
  pose proof (sum_upd_same rank (c_loc c) t l l' Et) as Hs. pose proof (rank_step _ _ _ _ _ _ _ _ HI Et Es). lia.
Qed.
End W.
