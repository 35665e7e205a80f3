(** The tables of a growing hash table: each behaves as a concurrent set. *)
From Verif Require Import Outcome ListUtil WordsModel WordsProofs LPSetModel ProbeTheory LPSetProofs Conc ConcProbe ConcSetModel ConcSetProofs ConcSetSpec ConcSetMerge GrowModel GrowProofs.
Local Open Scope nat_scope.

(** What a thread does in table [v]. *)
Definition proj (v : nat) (l : gloc) : csloc :=
  match l_pc l with
  | POp _ c => if h_tab l =? v then c else LIdle []
  | PPut w _ _ c _ => if w =? v then c else LIdle []
  | _ => LIdle []
  end.

Lemma nth_upd {A} (l : list A) i j x y : nth_error (upd l i x) j = Some y -> (i = j /\ y = x /\ j < length l) \/ (i <> j /\ nth_error l j = Some y).
Proof.
  intros H. destruct (Nat.eq_dec i j) as [->|Hne].
  - left. pose proof (nth_error_lt _ _ _ H) as L. rewrite upd_length in L. rewrite nth_error_upd_eq in H by exact L. injection H as <-. auto.
  - right. rewrite nth_error_upd_neq in H by congruence. auto.
Qed.
Lemma map_upd {A B} (f : A -> B) l : forall t x, map f (upd l t x) = upd (map f l) t (f x).
Proof. induction l as [|a l IH]; intros [|t] x; cbn [upd map]; try reflexivity. now rewrite IH. Qed.
Lemma upd_same {A} (l : list A) : forall t x, nth_error l t = Some x -> upd l t x = l.
Proof. induction l as [|a l IH]; intros [|t] x H; cbn [upd nth_error] in *; try discriminate; [now injection H as ->|]. now rewrite IH. Qed.

Section M.
Variable mult : nat -> N.
Notation g_step := (g_step mult).

(** How a step of a thread acts on table [v]. *)
Inductive tact (sh : gsh) (l : gloc) (sh' : gsh) (l' : gloc) (v : nat) (tb' : gtab) : Prop :=
| ta_same tb : nth_error (g_tabs sh) v = Some tb -> t_set tb' = t_set tb -> t_copy tb <= t_copy tb' -> proj v l' = proj v l -> tact sh l sh' l' v tb'
| ta_start tb o : nth_error (g_tabs sh) v = Some tb -> tb' = tb -> proj v l = LIdle [] -> proj v l' = LIdle [o] -> cs_key o <> 0%N -> tact sh l sh' l' v tb'
| ta_step tb evs : nth_error (g_tabs sh) v = Some tb -> t_copy tb' = t_copy tb ->
    cs_step 64 true (t_set tb) (proj v l) = Step (t_set tb') (proj v l') evs -> tact sh l sh' l' v tb'
| ta_new tb k : nth_error (g_tabs sh) (h_tab l) = Some tb -> v = length (g_tabs sh) -> l_pc l = PLock1 k -> h_tab l = g_tw sh ->
    (wrap 64 (2 * N.of_nat (length (s_arr (t_set tb)))) < 2 ^ 60)%N ->
    tb' = mkt (cs_new (wrap 64 (2 * N.of_nat (length (s_arr (t_set tb))))) (mult (length (g_tabs sh)))) 0 -> proj v l' = LIdle [] -> tact sh l sh' l' v tb'.

Lemma proj_idle v l : (forall o c, l_pc l <> POp o c) -> (forall w i e c k, l_pc l <> PPut w i e c k) -> proj v l = LIdle [].
Proof. intros H1 H2. unfold proj. destruct (l_pc l); try reflexivity; [edestruct H1|edestruct H2]; reflexivity. Qed.

Lemma start_key o co : gop_ok o -> tab_op o = [co] -> cs_key co <> 0%N.
Proof. destruct o; cbn; intros H E; [discriminate| |]; injection E as <-; exact H. Qed.

(** Entering an operation. *)
Lemma tact_start sh l o v tb' : nth_error (g_tabs sh) v = Some tb' -> proj v l = LIdle [] -> gop_ok o -> real o ->
  forall ep ht prog, tact sh l sh (mkl ep ht (start_op o) prog) v tb'.
Proof.
  intros Hv Hp Ho Hr ep ht prog. destruct (Nat.eq_dec ht v) as [->|Hne].
  - assert (E : exists co, tab_op o = [co]) by (destruct o; [destruct Hr| |]; cbn; eauto). destruct E as [co E].
    eapply (ta_start _ _ _ _ _ _ tb' co); auto; [|eapply start_key; eassumption]. unfold proj. cbn. rewrite Nat.eqb_refl, E. reflexivity.
  - eapply (ta_same _ _ _ _ _ _ tb'); auto. rewrite Hp. unfold proj. cbn. apply Nat.eqb_neq in Hne. now rewrite Hne.
Qed.

Lemma tact_quiet sh sh' l l' v tb' : nth_error (g_tabs sh) v = Some tb' -> proj v l' = proj v l -> tact sh l sh' l' v tb'.
Proof. intros H E. eapply ta_same; eauto. Qed.

Lemma op_done_ret q c r : shape q c -> op_done c = Some r -> exists o, q = [o] /\ c = LRet o r [].
Proof. intros [Hc [_ [o ->]]] Hd. destruct c; cbn in Hd; try discriminate. injection Hd as <-. cbn in Hc. injection Hc as <- ->. eauto. Qed.

(** Leaving an operation. *)
Lemma tact_leave sh l u q c r pc prog v tb' : nth_error (g_tabs sh) v = Some tb' -> shape q c -> op_done c = Some r ->
  (forall v', proj v' l = if u =? v' then c else LIdle []) -> (forall v', proj v' (mkl (h_ep l) (h_tab l) pc prog) = LIdle []) ->
  tact sh l sh (mkl (h_ep l) (h_tab l) pc prog) v tb'.
Proof.
  intros Hv Hs Hd Hl Hl'. destruct (op_done_ret _ _ _ Hs Hd) as [o [_ ->]]. destruct (Nat.eqb_spec u v) as [->|Hne].
  - eapply (ta_step _ _ _ _ _ _ tb' [Rsp o r]); auto. rewrite Hl, Hl', Nat.eqb_refl. reflexivity.
  - apply tact_quiet; [exact Hv|]. rewrite Hl, Hl'. apply Nat.eqb_neq in Hne. now rewrite Hne.
Qed.

Ltac quiet := apply tact_quiet; [assumption|]; unfold proj; cbn [l_pc set_pc h_tab]; reflexivity.

Lemma g_tact sh l sh' l' evs : shA sh -> lA sh l -> lS l -> g_step sh l = Step sh' l' evs ->
  forall v tb', nth_error (g_tabs sh') v = Some tb' -> tact sh l sh' l' v tb'.
Proof.
  intros HA Hla [Hp Hl] E v tb' Hv. unfold GrowModel.g_step in E. destruct (nth_error (g_tabs sh) (h_tab l)) as [tb|] eqn:Eh; [|discriminate].
  destruct l as [ep ht pc prog]. unfold lA in Hla. destruct pc; cbn [l_pc h_ep h_tab l_prog] in *.
  - gcases E. quiet.
  - injection E as <- <- <-. unfold set_pc. cbn [h_ep h_tab l_prog].
    destruct o as [|k|k]; cbn [check h_ep]; try destruct (_ <? _); try quiet; (apply tact_start; [exact Hv|reflexivity|exact Hl|exact I]).
  - injection E as <- <- <-. quiet.
  - destruct (g_tr sh =? ep); injection E as <- <- <-; [|quiet].
    destruct k as [|o te|o|o]; cbn [after cont_ok] in *; try quiet; try (destruct (ep <? te); [quiet|]);
      (apply tact_start; [exact Hv|reflexivity|tauto|destruct o; cbn in *; tauto]).
  - destruct Hl as [Ho [Hr Hs]]. destruct (op_done c) as [r|] eqn:Ed.
    + assert (T : forall pc', (forall v', proj v' (mkl ep ht pc' prog) = LIdle []) -> nth_error (g_tabs sh) v = Some tb' -> tact sh (mkl ep ht (POp o c) prog) sh (mkl ep ht pc' prog) v tb').
      { intros pc' Hpc' Hv'. eapply (tact_leave _ (mkl ep ht (POp o c) prog) ht); eauto. }
      destruct r; [destruct o; try discriminate|]; injection E as <- <- <-; apply T; auto.
    + destruct (cs_step 64 true (t_set tb) c) as [s' c' ev| |] eqn:Es; try discriminate. injection E as <- <- <-.
      cbn [set_tab g_tabs] in Hv. destruct (nth_upd _ _ _ _ _ Hv) as [[<- [-> _]]|[Hne Hv']].
      * eapply (ta_step _ _ _ _ _ _ tb ev); auto. unfold proj. cbn. rewrite Nat.eqb_refl. exact Es.
      * apply tact_quiet; [exact Hv'|]. unfold proj. cbn. apply Nat.eqb_neq in Hne. now rewrite Hne.
  - destruct (Nat.eqb_spec (g_tw sh) ht) as [Ew|]; [|injection E as <- <- <-; quiet].
    destruct (2 ^ 60 <=? _)%N eqn:Ec; [discriminate|]. injection E as <- <- <-. cbn [g_tabs] in Hv. apply N.leb_gt in Ec.
    destruct (Nat.lt_ge_cases v (length (g_tabs sh))) as [Hlt|Hge].
    + rewrite nth_error_app1 in Hv by exact Hlt. quiet.
    + rewrite nth_error_app2 in Hv by exact Hge. destruct (v - length (g_tabs sh)) as [|d] eqn:Ed; cbn [nth_error] in Hv; [|destruct d; discriminate].
      injection Hv as <-. eapply (ta_new _ _ _ _ _ _ tb k); cbn [h_tab l_pc]; auto; lia.
  - injection E as <- <- <-. destruct (_ =? _); quiet.
  - injection E as <- <- <-. quiet.
  - injection E as <- <- <-. cbn [set_tab g_tabs] in Hv. assert (Pr : forall w' k' b, proj v (set_pc (mkl ep ht (PBlock w k) prog) (if b : bool then PMig w' (t_copy tb) (Nat.min (t_copy tb + 256) (length (s_arr (t_set tb)))) k' else PDown w' k')) = LIdle []).
    { intros w' k' [|]; reflexivity. }
    destruct (nth_upd _ _ _ _ _ Hv) as [[<- [-> _]]|[Hne Hv']].
    + eapply (ta_same _ _ _ _ _ _ tb); cbn [t_set t_copy]; auto; lia.
    + eapply (ta_same _ _ _ _ _ _ tb'); auto.
  - destruct (nth_error (s_arr (t_set tb)) i) as [x|]; [|discriminate]. injection E as <- <- <-. destruct (N.eqb_spec x 0).
    + unfold next_cell. destruct (S i <? e); quiet.
    + destruct (Nat.eq_dec w v) as [->|Hne].
      * eapply (ta_start _ _ _ _ _ _ tb' (SPut x)); auto. unfold proj. cbn. now rewrite Nat.eqb_refl.
      * apply tact_quiet; [exact Hv|]. unfold proj. cbn. apply Nat.eqb_neq in Hne. now rewrite Hne.
  - destruct Hl as [Hk [x [Hx Hs]]]. destruct (op_done c) as [r|] eqn:Ed.
    + injection E as <- <- <-. unfold set_pc. cbn [h_ep h_tab l_prog]. eapply (tact_leave _ (mkl ep ht (PPut w i e c k) prog) w); eauto.
      intros v'. unfold next_cell. destruct (S i <? e); reflexivity.
    + destruct (nth_error (g_tabs sh) w) as [tw|] eqn:Ew; [|discriminate].
      destruct (cs_step 64 true (t_set tw) c) as [s' c' ev| |] eqn:Es; try discriminate. injection E as <- <- <-.
      cbn [set_tab g_tabs] in Hv. destruct (nth_upd _ _ _ _ _ Hv) as [[<- [-> _]]|[Hne Hv']].
      * eapply (ta_step _ _ _ _ _ _ tw ev); auto. unfold proj. cbn. rewrite Nat.eqb_refl. exact Es.
      * apply tact_quiet; [exact Hv'|]. unfold proj. cbn. apply Nat.eqb_neq in Hne. now rewrite Hne.
  - injection E as <- <- <-. quiet.
  - injection E as <- <- <-. destruct (_ =? _); quiet.
  - injection E as <- <- <-. destruct (_ <? _); quiet.
  - injection E as <- <- <-. destruct (_ =? _); quiet.
Qed.

(** *** Every table satisfies the invariant of the concurrent set *)
Lemma w64 : (64 <= 64)%N. Proof. lia. Qed.
Definition tabI (tb : gtab) (cl : list csloc) : Prop :=
  exists n a S0 tr, pow2cap 64 n /\ (N.of_nat n < 2 ^ 60)%N /\ csI 64 true n a S0 (mkc (t_set tb) cl) tr.
Definition gT (c : config gsh gloc) : Prop :=
  forall v tb, nth_error (g_tabs (c_sh c)) v = Some tb -> tabI tb (map (proj v) (c_loc c)).
Definition gS (c : config gsh gloc) : Prop := forall l, In l (c_loc c) -> lS l /\ lS2 l.

Lemma new_tab n a m : pow2cap 64 n -> (wrap 64 (2 * N.of_nat n) < 2 ^ 60)%N -> (N.of_nat n < 2 ^ 60)%N ->
  length (s_arr (cs_new (wrap 64 (2 * N.of_nat n)) a)) = 2 * n /\
  forall tb cl, t_set tb = cs_new (wrap 64 (2 * N.of_nat n)) a -> cl = repeat (LIdle []) m -> tabI tb cl.
Proof.
  intros [k [Ek Hk]] Hc Hn.
  assert (E2 : wrap 64 (2 * N.of_nat n) = (2 ^ (k + 1))%N).
  { unfold wrap. rewrite N.mod_small; [rewrite Ek, N.pow_add_r; change (2 ^ 1)%N with 2%N; lia|]. change (2 ^ 64)%N with (2 ^ 4 * 2 ^ 60)%N. lia. }
  rewrite E2 in *. assert (Hk1 : (k + 1 < 60)%N) by (apply (N.pow_lt_mono_r_iff 2); [reflexivity|exact Hc]).
  assert (E3 : nextPow2 64 (2 ^ (k + 1)) = (2 ^ (k + 1))%N) by (apply nextPow2_idem; lia).
  unfold cs_new. rewrite E3. cbn [s_arr].
  assert (EL : length (alloc (2 ^ (k + 1))) = 2 * n).
  { unfold alloc. rewrite repeat_length. rewrite N.pow_add_r. change (2 ^ 1)%N with 2%N. lia. }
  split; [exact EL|]. intros tb cl Et ->.
  assert (Hm : cs_made 64 true (mkset (alloc (2 ^ (k + 1))) 0 a)) by (apply made_table; lia).
  destruct (made_wf 64 w64 true _ Hm) as [W1 [W2 [W3 W4]]]. cbn [s_arr s_mult s_items] in *.
  exists (2 * n), a, (memb (mkset (alloc (2 ^ (k + 1))) 0 a)), []. rewrite EL in W1. split; [exact W1|]. split.
  { apply N.le_lt_trans with (2 ^ (k + 1))%N; [|exact Hc]. rewrite N.pow_add_r. change (2 ^ 1)%N with 2%N. lia. }
  replace (mkc (t_set tb) (repeat (LIdle []) m)) with (cs_start (mkset (alloc (2 ^ (k + 1))) 0 a) (repeat [] m)).
  - apply cs_inv_start; auto using w64; [rewrite <- EL; exact W2|apply memb_same|]. intros p Hp. apply repeat_spec in Hp. subst p. intros x [].
  - unfold cs_start. rewrite Et. f_equal. clear. induction m as [|m IH]; cbn [repeat map]; [reflexivity|]. now rewrite IH.
Qed.

Lemma csI_start n a S0 s cl tr t o : pow2cap 64 n -> csI 64 true n a S0 (mkc s cl) tr -> nth_error cl t = Some (LIdle []) -> cs_key o <> 0%N ->
  csI 64 true n a S0 (mkc s (upd cl t (LIdle [o]))) tr.
Proof.
  intros Hn HI Et Ho. pose proof HI as [_ [_ [_ [_ [_ [Ht _]]]]]]. destruct (thr_get _ _ _ _ _ _ Ht Et) as [_ Hs].
  apply (quiet_step 64 w64 true n a S0 s cl tr t (LIdle []) (LIdle [o]) [] HI Et).
  - intros x [->|[]]. exact Ho.
  - reflexivity.
  - left. reflexivity.
  - exact Hs.
Qed.

Lemma tab_lt sh v tb : shA sh -> nth_error (g_tabs sh) v = Some tb -> v <= g_tw sh.
Proof. intros [H _] E. apply nth_error_lt in E. lia. Qed.
Lemma proj_beyond sh l v : lA sh l -> shA sh -> g_tw sh < v -> proj v l = LIdle [].
Proof.
  unfold lA, proj, shA. intros H [_ HA] Hv. destruct (l_pc l); try reflexivity.
  - assert (E : h_tab l =? v = false) by (apply Nat.eqb_neq; lia). now rewrite E.
  - assert (E : w =? v = false) by (apply Nat.eqb_neq; lia). now rewrite E.
Qed.

Lemma gT_step c t l sh' l' evs : gA c -> gS c -> gT c -> nth_error (c_loc c) t = Some l -> g_step (c_sh c) l = Step sh' l' evs ->
  gT (mkc sh' (upd (c_loc c) t l')).
Proof.
  intros [HA Hl] HS HT Et E v tb' Hv. cbn [c_sh c_loc] in *. pose proof (nth_error_In _ _ Et) as Hin.
  pose proof (g_tact _ _ _ _ _ HA (Hl l Hin) (proj1 (HS l Hin)) E v tb' Hv) as T. rewrite map_upd.
  pose proof (map_nth_error (proj v) t _ Et) as Em.
  destruct T as [tb H1 H2 _ H4|tb o H1 -> H3 H4 H5|tb ev H1 H2 H3|tb k H1 H2 H3 H3' H4 H5 H6].
  - rewrite H4, upd_same by exact Em. destruct (HT v tb H1) as [n [a [S0 [tr HI]]]]. exists n, a, S0, tr. rewrite H2. exact HI.
  - destruct (HT v tb H1) as [n [a [S0 [tr [Hn [Hn' HI]]]]]]. exists n, a, S0, tr. split; [exact Hn|]. split; [exact Hn'|]. rewrite H4. apply csI_start; auto. rewrite Em. now rewrite H3.
  - destruct (HT v tb H1) as [n [a [S0 [tr [Hn [Hn' HI]]]]]]. exists n, a, S0, (map (fun e => (t, e)) ev ++ tr). split; [exact Hn|]. split; [exact Hn'|].
    exact (cs_inv_step 64 w64 true n a Hn S0 (mkc (t_set tb) (map (proj v) (c_loc c))) tr t _ _ _ _ HI Em H3).
  - destruct (HT _ tb H1) as [n [a [S0 [tr [Hn [Hn' [HL _]]]]]]]. cbn [c_sh] in HL. rewrite HL in *. subst tb'.
    destruct (new_tab n (mult (length (g_tabs (c_sh c)))) (length (c_loc c)) Hn H4 Hn') as [_ G]. eapply G; [reflexivity|]. rewrite H6.
    assert (Hall : forall x, In x (c_loc c) -> proj v x = LIdle []).
    { intros x Hx. eapply proj_beyond; [apply Hl, Hx|exact HA|]. destruct HA. lia. }
    clear - Hall. revert t. induction (c_loc c) as [|x xs IH]; intros [|t]; cbn [map upd length repeat]; try reflexivity.
    + f_equal. clear IH. induction xs as [|y ys IH]; cbn [map length repeat]; [reflexivity|]. rewrite (Hall y) by (right; now left). f_equal. apply IH. intros z [->|Hz]; apply Hall; [now left|right; now right].
    + rewrite (Hall x) by now left. f_equal. apply IH. intros z Hz. apply Hall. now right.
Qed.

Lemma gS_inv c0 c tr : gS c0 -> exec g_step c0 c tr -> gS c.
Proof.
  intros H0 He. revert c tr He. apply (exec_inv _ _ _ g_step c0 (fun c _ => gS c)); [exact H0|].
  intros c tr t l sh' l' evs _ HS Et E x Hx. cbn [c_loc] in Hx. destruct (upd_In _ _ _ _ Hx) as [->|Hin]; [|now apply HS].
  destruct (HS l (nth_error_In _ _ Et)). eapply gS_step; eauto.
Qed.
Lemma gT_inv c0 c tr : gA c0 -> gS c0 -> gT c0 -> exec g_step c0 c tr -> gT c.
Proof.
  intros HA HS HT He. revert c tr He. apply (exec_inv _ _ _ g_step c0 (fun c _ => gT c)); [exact HT|].
  intros c tr t l sh' l' evs He HI Et E. eapply gT_step; eauto; [eapply gA_inv; eauto|eapply gS_inv; eauto].
Qed.
End M.
