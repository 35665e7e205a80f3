(** Vocabulary for the statements about the growing hash table. *)
From Verif Require Import Outcome ListUtil WordsModel WordsProofs LPSetModel ProbeTheory LPSetProofs Conc ConcProbe ConcSetModel ConcSetProofs ConcSetSpec GrowModel GrowProofs GrowTabs GrowSafe GrowKeep.
Local Open Scope nat_scope.

(** Key [k] is stored in the table of version [v]. *)
Definition in_tab (sh : gsh) (v : nat) (k : N) : Prop := exists tb, nth_error (g_tabs sh) v = Some tb /\ stored (t_set tb) k.
(** No table is under construction, and the current one stores [k]. *)
Definition settled (sh : gsh) (k : N) : Prop := g_tw sh = g_er sh /\ in_tab sh (g_er sh) k.
(** The thread is between two calls. *)
Definition between (c : config gsh gloc) (t : nat) : Prop := exists l, nth_error (c_loc c) t = Some l /\ l_pc l = PIdle.
Definition all_between (c : config gsh gloc) : Prop := forall l, In l (c_loc c) -> l_pc l = PIdle.
(** [k] was in the table at the start, or some thread has called insert with it. *)
Definition known (s : lpset) (tr : list (nat * gev)) (k : N) : Prop := stored s k \/ exists t, In (t, Call (GInsert k)) tr.

(** Busy waiting: for the helpers (388), or for g_epoch_r and g_table_r to agree (342). *)
Definition waiting (sh : gsh) (l : gloc) : Prop :=
  match l_pc l with PSpin _ _ => g_help sh <> 0 | PGetE _ | PGetT _ => g_er sh <> g_tr sh | _ => False end.
(** The thread has made all its calls. *)
Definition finished (l : gloc) : Prop := l_pc l = PIdle /\ l_prog l = [].
(** The thread is about to make a table that cannot be allocated. *)
Definition no_memory (sh : gsh) (l : gloc) : Prop :=
  exists k tb, l_pc l = PLock1 k /\ g_tw sh = h_tab l /\ nth_error (g_tabs sh) (h_tab l) = Some tb /\ (2 ^ 59 <= N.of_nat (length (s_arr (t_set tb))))%N.

(** Executions in which calls do not overlap. *)
Definition apart (c : config gsh gloc) : Prop :=
  forall t u lt lu, nth_error (c_loc c) t = Some lt -> nth_error (c_loc c) u = Some lu -> l_pc lt <> PIdle -> l_pc lu <> PIdle -> t = u.
Inductive apart_exec (mult : nat -> N) (c0 : config gsh gloc) : config gsh gloc -> list (nat * gev) -> Prop :=
| apart_start : apart_exec mult c0 c0 []
| apart_step c tr t l sh' l' evs :
    apart_exec mult c0 c tr -> nth_error (c_loc c) t = Some l -> g_step mult (c_sh c) l = Step sh' l' evs ->
    apart (mkc sh' (upd (c_loc c) t l')) ->
    apart_exec mult c0 (mkc sh' (upd (c_loc c) t l')) (map (fun e => (t, e)) evs ++ tr).
(** The set of keys after the calls that have returned. *)
Definition is_ins (k : N) (e : nat * gev) : bool := match snd e with Return (GInsert j) _ => (j =? k)%N | _ => false end.
Definition content (s : lpset) (tr : list (nat * gev)) (k : N) : bool := memb s k || existsb (is_ins k) tr.

Lemma finished_dec l : {finished l} + {~ finished l}.
Proof.
  unfold finished. destruct (l_pc l); try (right; intros [H _]; discriminate). destruct (l_prog l); [left; auto|right; intros [_ H]; discriminate].
Qed.

Section M.
Variable mult : nat -> N.
Notation g_step := (g_step mult).

Lemma er_tab sh : shA sh -> exists tb, nth_error (g_tabs sh) (g_er sh) = Some tb.
Proof. unfold shA. intros H. destruct (nth_error (g_tabs sh) (g_er sh)) eqn:E; [eauto|]. apply nth_error_None in E. lia. Qed.

Lemma settled_skey c k : settled (c_sh c) k -> skey c (g_er (c_sh c)) k.
Proof.
  intros [H1 [tb [H2 H3]]]. unfold skey. split; [lia|]. split; [|now left]. intros v tb' Hv E. assert (v = g_er (c_sh c)) by lia. subst v. congruence.
Qed.
Lemma skey_settled c e0 k : gI c -> skey c e0 k -> g_tw (c_sh c) = g_er (c_sh c) -> settled (c_sh c) k.
Proof.
  intros [[HA _] _] [H1 [H2 _]] Hw. split; [exact Hw|]. destruct (er_tab _ HA) as [tb E]. exists tb. split; [exact E|]. eapply H2; [|exact E]. lia.
Qed.

(** With all threads between calls no table is under construction. *)
Lemma between_settled c : gI c -> all_between c -> g_tw (c_sh c) = g_er (c_sh c) /\ g_tr (c_sh c) = g_er (c_sh c).
Proof.
  intros [[HA _] [_ [_ [_ [_ [_ [HF _]]]]]]] Hb. unfold shA in HA. destruct (Nat.eq_dec (g_tw (c_sh c)) (S (g_er (c_sh c)))) as [E|]; [|lia].
  destruct (HF E) as [l [H1 [H2 _]]]. unfold growing in H2. rewrite (Hb l H1) in H2. discriminate.
Qed.

(** *** Lookups *)
Definition lQ (e0 : nat) (k : N) (l : gloc) : Prop :=
  match l_pc l with
  | PGetT _ => e0 <= h_ep l
  | POp o c => e0 <= h_tab l /\ (o = GContains k -> op_done c <> Some (RB false))
  | _ => True
  end.

Lemma lQ_step c t l sh' l' evs e0 k : gI c -> skey c e0 k -> k <> 0%N -> nth_error (c_loc c) t = Some l -> g_step (c_sh c) l = Step sh' l' evs ->
  lQ e0 k l -> lQ e0 k l' /\ forall r, In (Return (GContains k) r) evs -> r = RB true.
Proof.
  intros HI HK Hk Et E HQ. pose proof HI as [[HA Hl] [HS [HT _]]]. pose proof (nth_error_In _ _ Et) as Hin. pose proof (Hl l Hin) as Hla. destruct (HS l Hin) as [[_ Hls] _].
  destruct HK as [K0 [K1 _]]. unfold GrowModel.g_step in E. destruct (nth_error (g_tabs (c_sh c)) (h_tab l)) as [tb0|] eqn:Eh; [|discriminate].
  destruct l as [ep ht pc prog]. unfold lQ in *. unfold shA, lA in *. destruct pc; cbn [l_pc h_ep h_tab l_prog] in *.
  - gcases E. split; [exact I|]. intros r [H|[]]. discriminate.
  - injection E as <- <- <-. split; [|intros r []]. destruct o as [|j|j]; cbn [check set_pc l_pc h_ep h_tab]; try exact I.
    + destruct (Nat.ltb_spec ep (g_ew (c_sh c))); [exact I|]. cbn. split; [lia|discriminate].
    + destruct (Nat.ltb_spec ep (g_er (c_sh c))); [exact I|]. cbn. split; [lia|discriminate].
  - injection E as <- <- <-. split; [exact K0|intros r []].
  - destruct (Nat.eqb_spec (g_tr (c_sh c)) ep) as [Ee|]; injection E as <- <- <-; [|split; [exact I|intros r []]].
    split; [|destruct k0; cbn [after_ev In]; intros r Hr; try contradiction; destruct Hr as [Hr|[]]; discriminate].
    destruct k0 as [|o te|o|o]; cbn [after l_pc h_tab]; try destruct (_ <? _); try exact I; cbn; (split; [lia|discriminate]).
  - destruct Hls as [Ho [Hr Hs]]. destruct HQ as [Q1 Q2]. destruct (op_done c0) as [[|b]|] eqn:Ed.
    + destruct o; try discriminate. injection E as <- <- <-. split; [exact I|intros r []].
    + injection E as <- <- <-. split; [exact I|]. intros r [H|[]]. injection H as -> <-. destruct b; [reflexivity|]. now destruct (Q2 eq_refl).
    + destruct (cs_step 64 true (t_set tb0) c0) as [s' c' ev| |] eqn:Es; try discriminate. injection E as <- <- <-. cbn [set_pc l_pc h_tab]. split; [|intros r []].
      split; [exact Q1|]. intros -> Hd. destruct (HT ht tb0 Eh) as [n [a [S0 [tr [Hn [_ HcI]]]]]]. pose proof (map_nth_error (proj ht) t _ Et) as Em.
      unfold proj in Em at 2. cbn in Em. rewrite Nat.eqb_refl in Em. destruct Hs as [Hc _].
      eapply (lookup_false n a S0 (t_set tb0)); eauto. eapply K1; [|exact Eh]. lia.
  - gcases E; (split; [exact I|intros r []]).
  - injection E as <- <- <-; (split; [exact I|intros r []]).
  - injection E as <- <- <-; (split; [exact I|intros r []]).
  - injection E as <- <- <-. cbn [set_pc l_pc]. destruct (_ <? _); (split; [exact I|intros r []]).
  - destruct (nth_error (s_arr (t_set tb0)) i); [|discriminate]. injection E as <- <- <-. cbn [set_pc l_pc]. unfold next_cell. destruct (_ =? _)%N; [destruct (_ <? _)|]; (split; [exact I|intros r []]).
  - destruct (op_done c0); [injection E as <- <- <-; cbn [set_pc l_pc]; unfold next_cell; destruct (_ <? _); (split; [exact I|intros r []])|]. gcases E. split; [exact I|intros r []].
  - injection E as <- <- <-; (split; [exact I|intros r []]).
  - injection E as <- <- <-. cbn [set_pc l_pc]. destruct (_ =? _); (split; [exact I|intros r []]).
  - injection E as <- <- <-; (split; [exact I|intros r []]).
  - injection E as <- <- <-; (split; [exact I|intros r []]).
Qed.

Lemma lookups_find c1 c2 tr t k e0 : gI c1 -> skey c1 e0 k -> k <> 0%N -> between c1 t -> exec g_step c1 c2 tr ->
  forall r, In (t, Return (GContains k) r) tr -> r = RB true.
Proof.
  intros HI HK Hk [l0 [E0 P0]] He.
  assert (G : (forall l, nth_error (c_loc c2) t = Some l -> lQ e0 k l) /\ forall r, In (t, Return (GContains k) r) tr -> r = RB true); [|apply G].
  induction He as [|c tr u l sh' l' evs He [IH1 IH2] Et E].
  - split; [|intros r []]. intros l El. assert (l = l0) by congruence. subst l. unfold lQ. now rewrite P0.
  - pose proof (gI_inv mult _ _ _ HI He) as HIc. pose proof (skey_inv mult _ _ _ _ _ HI HK Hk He) as HKc. cbn [c_loc].
    destruct (Nat.eq_dec u t) as [->|Hne].
    + destruct (lQ_step _ _ _ _ _ _ _ _ HIc HKc Hk Et E (IH1 l Et)) as [Q1 Q2]. split.
      * intros x Hx. rewrite nth_error_upd_eq in Hx by (eapply nth_error_lt; exact Et). injection Hx as <-. exact Q1.
      * intros r Hr. apply in_app_or in Hr. destruct Hr as [Hr|Hr]; [|auto]. apply in_map_iff in Hr. destruct Hr as [e [Ee Hi]]. injection Ee as ->. auto.
    + split.
      * intros x Hx. rewrite nth_error_upd_neq in Hx by congruence. auto.
      * intros r Hr. apply in_app_or in Hr. destruct Hr as [Hr|Hr]; [|auto]. apply in_map_iff in Hr. destruct Hr as [e [Ee Hi]]. injection Ee as -> _. contradiction.
Qed.

(** *** Inserts into the newest table *)
Lemma insert_return c t l sh' l' evs k b : gI c -> nth_error (c_loc c) t = Some l -> g_step (c_sh c) l = Step sh' l' evs ->
  In (Return (GInsert k) (RB b)) evs -> (exists tb, nth_error (g_tabs (c_sh c)) (h_tab l) = Some tb /\ stored (t_set tb) k) /\ sh' = c_sh c /\ h_tab l <= g_er (c_sh c) /\ l_pc l' = PIdle.
Proof.
  intros HI Et E Hr. pose proof HI as [[HA Hl] [HS [HT _]]]. pose proof (nth_error_In _ _ Et) as Hin. pose proof (Hl l Hin) as Hla. destruct (HS l Hin) as [[_ Hls] _].
  unfold GrowModel.g_step in E. destruct (nth_error (g_tabs (c_sh c)) (h_tab l)) as [tb0|] eqn:Eh; [|discriminate].
  destruct l as [ep ht pc prog]. unfold shA, lA in *. destruct pc; cbn [l_pc h_ep h_tab l_prog] in *; try (gcases E; cbn [In] in Hr; try contradiction; destruct Hr as [Hr|[]]; discriminate).
  - destruct (_ =? _); injection E as <- <- <-; [|contradiction]. destruct k0; cbn in Hr; try contradiction. destruct Hr as [Hr|[]]; discriminate.
  - destruct Hls as [Ho [Hr' Hs]]. destruct (op_done c0) as [[|b0]|] eqn:Ed.
    + destruct o; try discriminate. injection E as <- <- <-. contradiction.
    + injection E as <- <- <-. destruct Hr as [Hr|[]]. injection Hr as -> ->. split; [|split; [reflexivity|split; [lia|reflexivity]]]. exists tb0. split; [reflexivity|].
      destruct (op_done_ret _ _ _ Hs Ed) as [o [Ho' ->]]. cbn in Ho'. injection Ho' as <-.
      destruct (HT ht tb0 Eh) as [n [a [S0 [tr [Hn [_ HcI]]]]]]. pose proof (map_nth_error (proj ht) t _ Et) as Em.
      unfold proj in Em at 2. cbn in Em. rewrite Nat.eqb_refl in Em. exact (done_stored n a S0 _ _ _ _ _ _ _ HcI Em I).
    + gcases E. contradiction.
Qed.

Lemma insert_settles c t l sh' l' evs k b : gI c -> nth_error (c_loc c) t = Some l -> g_step (c_sh c) l = Step sh' l' evs ->
  In (Return (GInsert k) (RB b)) evs -> h_tab l = g_tw (c_sh c) -> settled sh' k.
Proof.
  intros HI Et E Hr Hn. destruct (insert_return _ _ _ _ _ _ _ _ HI Et E Hr) as [[tb [H1 H2]] [-> [H3 _]]]. destruct HI as [[HA _] _]. unfold shA in HA.
  split; [lia|]. exists tb. split; [|exact H2]. rewrite <- H1. f_equal. lia.
Qed.

(** *** No deadlock *)
Lemma someone_moves c : gI c -> (forall l, In l (c_loc c) -> finished l) \/ (exists l, In l (c_loc c) /\ no_memory (c_sh c) l) \/
  exists t l sh' l' evs, nth_error (c_loc c) t = Some l /\ ~ waiting (c_sh c) l /\ g_step (c_sh c) l = Step sh' l' evs.
Proof.
  intros HI. pose proof HI as [[HA Hl] [HS [HT [_ [HD [_ [HF _]]]]]]].
  assert (Mv : forall l, In l (c_loc c) -> ~ finished l -> ~ waiting (c_sh c) l ->
    no_memory (c_sh c) l \/ exists t sh' l' evs, nth_error (c_loc c) t = Some l /\ g_step (c_sh c) l = Step sh' l' evs).
  { intros l Hin Hf Hw. destruct (In_nth_error _ _ Hin) as [t Et]. destruct (g_step (c_sh c) l) as [sh' l' evs| |] eqn:E; [right; eauto 8| |].
    - left. pose proof (Hl l Hin) as Hla. unfold GrowModel.g_step in E. destruct (nth_error (g_tabs (c_sh c)) (h_tab l)) as [tb|] eqn:Eh; [|discriminate].
      destruct (l_pc l) eqn:Ep; try discriminate E; try (gcases E; fail).
      + destruct (l_prog l) eqn:Epr; [|discriminate]. destruct Hf. split; assumption.
      + destruct (Nat.eqb_spec (g_tw (c_sh c)) (h_tab l)) as [Ew|]; [|discriminate]. destruct (N.leb_spec (2 ^ 60) (wrap 64 (2 * N.of_nat (length (s_arr (t_set tb)))))) as [Hc|]; [|discriminate].
        exists k, tb. split; [exact Ep|]. split; [exact Ew|]. split; [exact Eh|]. unfold wrap in Hc.
        pose proof (N.mod_le (2 * N.of_nat (length (s_arr (t_set tb)))) (2 ^ 64) ltac:(discriminate)). change (2 ^ 60)%N with (2 * 2 ^ 59)%N in Hc. lia.
    - exfalso. eapply g_not_bad; eauto. }
  assert (Wt : forall l, waiting (c_sh c) l \/ ~ waiting (c_sh c) l).
  { intros l. unfold waiting. destruct (l_pc l); try (right; tauto); try (destruct (Nat.eq_dec (g_er (c_sh c)) (g_tr (c_sh c))); [right|left]; tauto).
    destruct (Nat.eq_dec (g_help (c_sh c)) 0); [right|left]; tauto. }
  assert (Use : forall l, In l (c_loc c) -> ~ finished l -> ~ waiting (c_sh c) l -> (exists l, In l (c_loc c) /\ no_memory (c_sh c) l) \/
    exists t l sh' l' evs, nth_error (c_loc c) t = Some l /\ ~ waiting (c_sh c) l /\ g_step (c_sh c) l = Step sh' l' evs).
  { intros l H1 H2 H3. destruct (Mv l H1 H2 H3) as [H|[t [sh' [l' [evs [Ht E]]]]]]; [left; eauto|]. right. exists t, l, sh', l', evs. auto. }
  assert (Help : g_help (c_sh c) <> 0 -> exists l, In l (c_loc c) /\ ~ finished l /\ ~ waiting (c_sh c) l).
  { intros Hh. rewrite HD in Hh. unfold cnt in Hh. destruct (filter helping (c_loc c)) as [|l r] eqn:Ef; [contradiction|].
    assert (Hi : In l (filter helping (c_loc c))) by (rewrite Ef; now left). apply filter_In in Hi. destruct Hi as [Hi Hh']. exists l. split; [exact Hi|].
    unfold helping in Hh'. unfold finished, waiting. destruct (l_pc l); try discriminate; split; try tauto; intros [? _]; discriminate. }
  assert (Wait : forall l, In l (c_loc c) -> waiting (c_sh c) l -> exists x, In x (c_loc c) /\ ~ finished x /\ ~ waiting (c_sh c) x).
  { intros l Hin Hw.
    assert (Cases : g_help (c_sh c) <> 0 \/ g_er (c_sh c) <> g_tr (c_sh c)) by (unfold waiting in Hw; destruct (l_pc l); tauto).
    destruct Cases as [Hh|Hne]; [now apply Help|]. assert (Ew : g_tw (c_sh c) = S (g_er (c_sh c))) by (unfold shA in HA; lia).
    destruct (HF Ew) as [x [X1 [X2 X3]]]. destruct (Wt x) as [Wx|Wx].
    - apply Help. unfold waiting in Wx. unfold growing in X2. destruct (l_pc x); try discriminate; tauto.
    - exists x. split; [exact X1|]. split; [|exact Wx]. intros [F _]. unfold growing in X2. rewrite F in X2. discriminate. }
  destruct (Forall_Exists_dec finished finished_dec (c_loc c)) as [Hall|Hex].
  - left. apply Forall_forall. exact Hall.
  - right. apply Exists_exists in Hex. destruct Hex as [l [H1 H2]]. destruct (Wt l) as [Hw|Hw]; [|eauto].
    destruct (Wait l H1 Hw) as [x [X1 [X2 X3]]]. eauto.
Qed.
End M.
