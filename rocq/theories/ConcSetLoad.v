(** Concurrent_LP_Set as a growing table: insert gives up in time, so the table never fills and lookups return. *)
From Verif Require Import Outcome ListUtil WordsModel WordsProofs LPSetModel ProbeTheory LPSetProofs LPSetHistory Conc ConcProbe ConcSetModel ConcSetProofs ConcSetWait ConcSetSpec ConcSetMerge.
Local Open Scope nat_scope.

(** Threads that passed the test of the load and may still add a key. *)
Definition entered (l : csloc) : bool := match l with LProbe o _ _ _ | LCas o _ _ _ => is_insert o | _ => false end.
Definition not_put (o : csop) : Prop := match o with SPut _ => False | _ => True end.

Lemma cnt_two {A} (f h : A -> bool) l : (forall x, f x = true -> h x = false) -> cnt f l + cnt h l <= length l.
Proof.
  intros H. unfold cnt. induction l as [|a l IH]; [cbn; lia|]. cbn [filter length]. specialize (H a).
  destruct (f a); [rewrite H by reflexivity|destruct (h a)]; cbn [length]; lia.
Qed.

Section W.
Variable w : N.
Hypothesis Hw : (w <= 64)%N.
Variables (n : nat) (a : N).
Hypothesis Hn : pow2cap w n.

(** The number of stored keys and of those that may be added, against the bound [M]. *)
Definition loadI (M : nat) (c : config lpset csloc) : Prop :=
  length (keys_of (s_arr (c_sh c))) + cnt entered (c_loc c) <= M /\
  forall l, In l (c_loc c) -> forall o, In o (rest l) -> not_put o.

Lemma head_entered s o idx cols p sh' l' evs : cs_head w true s o idx cols p = Step sh' l' evs ->
  sh' = s /\ (entered l' = true -> is_insert o = true).
Proof. unfold cs_head. destruct (_ && _ && _); intros H; injection H as <- <- <-; cbn [entered]; split; auto; discriminate. Qed.

Lemma load_step M S0 c tr t l sh' l' evs : csI w true n a S0 c tr -> n / 2 - 1 + length (c_loc c) <= M -> loadI M c ->
  nth_error (c_loc c) t = Some l -> cs_step w true (c_sh c) l = Step sh' l' evs -> loadI M (mkc sh' (upd (c_loc c) t l')).
Proof.
  intros HI HM [HL Hnp] Et Es. pose proof (proj1 (step_rest w true _ _ _ _ _ Es)) as Hr. split.
  2:{ cbn [c_loc]. intros x Hx o Ho. apply In_upd_any in Hx. destruct Hx as [->|Hx]; [|eapply Hnp; eassumption]. apply (Hnp l (nth_error_In _ _ Et)). now apply Hr. }
  cbn [c_sh c_loc]. pose proof (cnt_upd entered (c_loc c) t l l' Et) as C. specialize (Hnp l (nth_error_In _ _ Et)).
  assert (Quiet : sh' = c_sh c -> (entered l' = true -> entered l = true) -> length (keys_of (s_arr sh')) + cnt entered (upd (c_loc c) t l') <= M).
  { intros -> Hq. destruct (entered l'); [rewrite Hq in C by reflexivity; lia|]. destruct (entered l); lia. }
  assert (Hok : loc_ok w n a (s_arr (c_sh c)) l). { destruct HI as [_ [_ [_ [_ [_ [Ht _]]]]]]. apply (thr_get _ _ _ _ _ _ Ht Et). }
  destruct l as [[|o p]|o p|o i cols p|o i cols p|o p|o r p]; cbn [cs_step] in Es; cbn [rest entered] in *.
  - discriminate.
  - injection Es as <- <- <-. apply Quiet; auto.
  - destruct (is_insert o && cs_full true (c_sh c)) eqn:Ef; [injection Es as <- <- <-; apply Quiet; auto|].
    apply head_entered in Es. destruct Es as [-> He]. destruct (entered l') eqn:El; [|apply Quiet; [reflexivity|discriminate]].
    rewrite He in Ef by reflexivity. cbn [andb] in Ef. unfold cs_full in Ef. destruct HI as [H1 [_ [_ [_ [_ [_ Hc]]]]]]. rewrite H1 in Ef. apply Nat.leb_gt in Ef.
    pose proof (cnt_upd is_count (c_loc c) t _ l' Et) as C2. cbn [is_count] in C2. assert (Ei : is_count l' = false) by (destruct l'; try reflexivity; discriminate). rewrite Ei in C2.
    pose proof (cnt_two entered is_count (upd (c_loc c) t l')) as C3. rewrite upd_length in C3. specialize (C3 ltac:(intros []; auto; discriminate)). lia.
  - destruct (nth_error (s_arr _) _) as [x|] eqn:Ex; [|discriminate]. unfold cs_next in Es. assert (Ho : not_put o) by (apply Hnp; now left).
    destruct o as [k|k|k]; [|destruct Ho|].
    + destruct (N.eqb x k); [injection Es as <- <- <-; apply Quiet; auto|]. destruct (N.eqb x 0); cbn [negb] in Es; [injection Es as <- <- <-; apply Quiet; auto|].
      apply head_entered in Es. apply Quiet; [apply Es|reflexivity].
    + destruct (N.eqb x k); [injection Es as <- <- <-; apply Quiet; auto|]. destruct (N.eqb x 0); [injection Es as <- <- <-; apply Quiet; auto|].
      apply head_entered in Es. apply Quiet; [apply Es|]. intros E. apply Es in E. discriminate.
  - destruct (nth_error (s_arr _) _) as [x|] eqn:Ex; [|discriminate]. assert (Ho : not_put o) by (apply Hnp; now left). cbn [loc_ok] in Hok. destruct Hok as [Hk [_ Hp]].
    assert (Hins : is_insert o = true) by (destruct o; [reflexivity|destruct Ho|destruct Hp]). rewrite Hins in *. destruct (N.eqb_spec x 0) as [E0|].
    + subst x. injection Es as <- <- <-. cbn [s_arr entered] in *. rewrite keys_upd_free; [lia|exact Ex|apply Hk; now left].
    + destruct (N.eqb x (cs_key o)); [injection Es as <- <- <-; apply Quiet; auto|]. unfold cs_next in Es. apply head_entered in Es. apply Quiet; [apply Es|auto].
  - injection Es as <- <- <-. cbn [s_arr entered] in *. lia.
  - injection Es as <- <- <-. apply Quiet; auto.
Qed.

Lemma free_bound g S0 c tr k j : csI w g n a S0 c tr -> length (keys_of (s_arr (c_sh c))) < n ->
  walked (s_arr (c_sh c)) k (home w a n k) j -> j < n.
Proof.
  intros [H1 _] Hlt Hwk. destruct (Nat.lt_ge_cases j n) as [|Hge]; [assumption|exfalso].
  pose proof (n_pos w Hw n Hn) as Hn0.
  assert (Hall : walked (s_arr (c_sh c)) k (home w a n k) (length (s_arr (c_sh c)))) by (intros i Hi; apply Hwk; lia).
  destruct (walked_all (s_arr (c_sh c)) k (home w a n k)) as [Hz _]; [lia|rewrite H1; now apply home_lt|exact Hall|].
  apply keys_of_full in Hz. lia.
Qed.
End W.

Section P.
Variable w : N.
Hypothesis Hw : (w <= 64)%N.
Variables (s : lpset) (progs : list (list csop)).
Hypothesis Hm : cs_made w true s.
Hypothesis Hp : keys_nz progs.
Hypothesis Hnp : forall p o, In p progs -> In o p -> not_put o.
Notation n := (length (s_arr s)).
Notation M := (Nat.max (length (keys_of (s_arr s))) (n / 2 - 1 + length progs)).

Lemma load_inv c tr : exec (cs_step w true) (cs_start s progs) c tr -> csI w true n (s_mult s) (memb s) c tr /\ loadI M c.
Proof.
  intros H. split; [exact (inv_of w Hw true s (memb s) progs Hm (memb_same s) Hp c tr H)|]. induction H as [|c tr u l sh' l' evs H IH Et Es].
  - split.
    + cbn [cs_start c_sh c_loc]. rewrite (cnt_0 entered); [lia|]. intros x Hx. apply in_map_iff in Hx. destruct Hx as [q [<- _]]. reflexivity.
    + intros l Hl o Ho. cbn [cs_start c_loc] in Hl. apply in_map_iff in Hl. destruct Hl as [q [<- Hin]]. exact (Hnp q o Hin Ho).
  - eapply load_step; [exact Hw|exact (inv_of w Hw true s (memb s) progs Hm (memb_same s) Hp c tr H)| |exact IH|exact Et|exact Es].
    rewrite (exec_length _ _ _ _ _ _ _ H). cbn [cs_start c_loc]. rewrite map_length. lia.
Qed.

(** The load: never more than half the cells, plus one key for every thread. *)
Lemma cs_load c tr : exec (cs_step w true) (cs_start s progs) c tr -> length (keys_of (s_arr (c_sh c))) <= M.
Proof. intros H. destruct (load_inv c tr H) as [_ [HL _]]. lia. Qed.

(** Every call, lookups included, returns after boundedly many steps of its thread. *)
Lemma cs_load_own t p c tr k : length (keys_of (s_arr s)) < n -> n / 2 - 1 + length progs < n -> nth_error progs t = Some p ->
  exec_own (cs_step w true) t (cs_start s progs) c tr k -> k <= length p * (2 * n + 8).
Proof.
  intros H1 H2 Hpt He. pose proof (proj1 (made_wf w Hw true s Hm)) as Hn.
  destruct (own_bound _ _ _ (cs_step w true) (fun c tr => csI w true n (s_mult s) (memb s) c tr /\ loadI M c) (rank n) t (cs_start s progs)) with (c := c) (tr := tr) (k := k) (l0 := LIdle p) as [l [_ H]].
  - exact load_inv.
  - intros c1 tr1 u l sh' l' evs [HI [HL _]] Et Es. eapply rank_step_gen; [exact Hw|exact Hn|exact HI|exact Et| |exact Es].
    intros o j _ Hwk. eapply free_bound; [exact Hw|exact Hn|exact HI| |exact Hwk]. lia.
  - cbn [cs_start c_loc]. now apply map_nth_error.
  - exact He.
  - cbn [rank] in H. lia.
Qed.
End P.
