(** Migration: what a growth keeps. *)
From Verif Require Import Outcome ListUtil WordsModel WordsProofs LPSetModel ProbeTheory LPSetProofs Conc ConcProbe ConcSetModel ConcSetProofs ConcSetSpec ConcSetMerge GrowModel GrowProofs GrowTabs.
Local Open Scope nat_scope.

Definition helping (l : gloc) : bool := match l_pc l with PBlock _ _ | PMig _ _ _ _ | PPut _ _ _ _ _ | PDown _ _ => true | _ => false end.
Definition moving (l : gloc) : bool := match l_pc l with PMig _ _ _ _ | PPut _ _ _ _ _ => true | _ => false end.
Definition passed (l : gloc) : bool := match l_pc l with PLock2 _ _ | PCasR _ _ => true | _ => false end.
Definition growing (l : gloc) : bool :=
  match l_pc l with
  | PCasW _ _ | PUp _ _ | PBlock _ _ | PMig _ _ _ _ | PPut _ _ _ _ _ | PDown _ _ | PSpin _ _ | PLock2 _ _ | PCasR _ _ => true
  | _ => false
  end.
(** Cell [i] is still to be copied by the thread. *)
Definition to_copy (l : gloc) (i : nat) : Prop :=
  match l_pc l with PMig _ j e _ | PPut _ j e _ _ => j <= i < e | _ => False end.

(** A table only gains keys. *)
Definition tmono (a b : gtab) : Prop :=
  length (s_arr (t_set b)) = length (s_arr (t_set a)) /\ t_copy a <= t_copy b /\
  forall i k, nth_error (s_arr (t_set a)) i = Some k -> k <> 0%N -> nth_error (s_arr (t_set b)) i = Some k.
Lemma tmono_refl a : tmono a a. Proof. unfold tmono. auto. Qed.
Lemma tmono_stored a b k : tmono a b -> stored (t_set a) k -> stored (t_set b) k.
Proof. intros [_ [_ H]] [Hi Hk]. split; [|exact Hk]. destruct (In_nth_error _ _ Hi) as [i Ei]. eapply nth_error_In. eapply H; eassumption. Qed.

Lemma head_arr w g s o idx cols p s' c' evs : cs_head w g s o idx cols p = Step s' c' evs -> s' = s.
Proof. intros E. now apply cs_head_cur in E. Qed.
Lemma cs_step_arr w g s c s' c' evs : cs_step w g s c = Step s' c' evs ->
  length (s_arr s') = length (s_arr s) /\ (forall i k, nth_error (s_arr s) i = Some k -> k <> 0%N -> nth_error (s_arr s') i = Some k) /\
  (forall k, stored s' k -> stored s k \/ exists o i cols p, c = LCas o i cols p /\ c' = LCount o p /\ cs_key o = k).
Proof.
  intros E. destruct c as [p|o p|o i cols p|o i cols p|o p|o r p]; cbn [cs_step] in E.
  - destruct p; [discriminate|]. injection E as <- <- <-. auto.
  - destruct (_ && _); [injection E as <- <- <-; auto|]. apply head_arr in E. subst. auto.
  - destruct (nth_error _ _) as [x|]; [|discriminate].
    assert (Nx : cs_next w g s o i cols p = Step s' c' evs -> s' = s) by apply head_arr.
    assert (s' = s); [|subst; auto].
    destruct o; destruct (x =? _)%N; try (injection E as <- <- <-; reflexivity); destruct (x =? 0)%N; cbn [negb] in E; try (injection E as <- <- <-; reflexivity); now apply Nx.
  - destruct (nth_error _ _) as [x|] eqn:Ex; [|discriminate]. destruct (N.eqb_spec x 0) as [->|].
    + injection E as <- <- <-. cbn [s_arr]. split; [apply upd_length|]. split.
      * intros j k Hj Hk. destruct (Nat.eq_dec (N.to_nat i) j) as [Ei|Hne]; [subst j; rewrite Hj in Ex; congruence|]. now rewrite nth_error_upd_neq by congruence.
      * intros k [Hin Hk]. cbn [s_arr] in Hin. apply In_nth_error in Hin. destruct Hin as [j Hj]. destruct (nth_upd _ _ _ _ _ Hj) as [[_ [-> _]]|[_ H]].
        -- right. eauto 9.
        -- left. split; [eapply nth_error_In; exact H|exact Hk].
    + destruct (x =? cs_key o)%N; [injection E as <- <- <-; auto|]. apply head_arr in E. subst. auto.
  - injection E as <- <- <-. cbn [s_arr]. unfold stored. cbn [s_arr]. auto.
  - injection E as <- <- <-. auto.
Qed.

Section M.
Variable mult : nat -> N.
Notation g_step := (g_step mult).

Lemma tact_mono sh l sh' l' v tb' : tact mult sh l sh' l' v tb' -> v < length (g_tabs sh) -> exists tb, nth_error (g_tabs sh) v = Some tb /\ tmono tb tb'.
Proof.
  intros [tb H1 H2 H3 H4|tb o H1 -> H3 H4 H5|tb ev H1 H2 H3|tb k H1 H2 H3 H4 H5 H6] Hv.
  - exists tb. split; [exact H1|]. unfold tmono. rewrite H2. auto.
  - exists tb. split; [exact H1|apply tmono_refl].
  - exists tb. split; [exact H1|]. destruct (cs_step_arr _ _ _ _ _ _ _ H3) as [A [B _]]. unfold tmono. rewrite H2. auto.
  - lia.
Qed.

(** The same in the other direction: tables do not disappear. *)
Lemma g_step_tabs sh l sh' l' evs : g_step sh l = Step sh' l' evs -> length (g_tabs sh) <= length (g_tabs sh').
Proof.
  intros E. unfold GrowModel.g_step in E. destruct (nth_error (g_tabs sh) (h_tab l)) as [tb|]; [|discriminate].
  destruct (l_pc l); gcases E; unfold set_tab; cbn [g_tabs]; rewrite ?upd_length, ?app_length; lia.
Qed.
Lemma mono_step sh l sh' l' evs : shA sh -> lA sh l -> lS l -> g_step sh l = Step sh' l' evs ->
  forall v tb, nth_error (g_tabs sh) v = Some tb -> exists tb', nth_error (g_tabs sh') v = Some tb' /\ tmono tb tb'.
Proof.
  intros HA Hl HS E v tb Hv. pose proof (nth_error_lt _ _ _ Hv) as Lt. pose proof (g_step_tabs _ _ _ _ _ E) as Le.
  destruct (nth_error (g_tabs sh') v) as [tb'|] eqn:E'; [|apply nth_error_None in E'; lia].
  exists tb'. split; [reflexivity|]. destruct (tact_mono _ _ _ _ _ _ (g_tact mult _ _ _ _ _ HA Hl HS E v tb' E') Lt) as [tb0 [H1 H2]]. congruence.
Qed.
Lemma mono_back sh l sh' l' evs : shA sh -> lA sh l -> lS l -> g_step sh l = Step sh' l' evs ->
  forall v tb', v <= g_tw sh -> nth_error (g_tabs sh') v = Some tb' -> exists tb, nth_error (g_tabs sh) v = Some tb /\ tmono tb tb'.
Proof. intros HA Hl HS E v tb' Hv E'. eapply tact_mono; [eapply g_tact; eauto|]. destruct HA. lia. Qed.

(** *** Where the migration is *)
Definition lM (sh : gsh) (l : gloc) : Prop :=
  forall tb, nth_error (g_tabs sh) (h_tab l) = Some tb ->
  match l_pc l with
  | PMig _ i e _ => i < e <= length (s_arr (t_set tb))
  | PPut _ i e c _ => i < e <= length (s_arr (t_set tb)) /\ exists v, nth_error (s_arr (t_set tb)) i = Some v /\ v <> 0%N /\ shape [SPut v] c
  | PDown _ _ | PSpin _ _ | PLock2 _ _ | PCasR _ _ => length (s_arr (t_set tb)) <= t_copy tb
  | _ => True
  end.

Definition gM (c : config gsh gloc) : Prop :=
  (forall l, In l (c_loc c) -> lM (c_sh c) l) /\
  g_help (c_sh c) = cnt helping (c_loc c) /\
  (forall l1 l2, In l1 (c_loc c) -> In l2 (c_loc c) -> passed l1 = true -> h_tab l1 = g_er (c_sh c) -> moving l2 = true -> h_tab l2 <> g_er (c_sh c)) /\
  (g_tw (c_sh c) = S (g_er (c_sh c)) -> exists l, In l (c_loc c) /\ growing l = true /\ h_tab l = g_er (c_sh c)) /\
  (forall tb, nth_error (g_tabs (c_sh c)) (g_tw (c_sh c)) = Some tb -> t_copy tb = 0).

Lemma lM_mono sh sh' l : (forall v tb', v <= g_tw sh -> nth_error (g_tabs sh') v = Some tb' -> exists tb, nth_error (g_tabs sh) v = Some tb /\ tmono tb tb') ->
  h_tab l <= g_tw sh -> lM sh l -> lM sh' l.
Proof.
  intros Hm Hl H tb' E'. destruct (Hm _ _ Hl E') as [tb [E [M1 [M2 M3]]]]. specialize (H tb E). destruct (l_pc l); auto; try lia.
  destruct H as [A [v [B [C D]]]]. split; [lia|]. exists v. auto.
Qed.

Lemma lA_tab sh l : shA sh -> lA sh l -> h_tab l <= g_tw sh.
Proof. unfold shA, lA. intros H. destruct (l_pc l); lia. Qed.

(** The thread that steps. *)
Lemma lM_own sh l sh' l' evs : shA sh -> lA sh l -> lS l -> lM sh l -> g_step sh l = Step sh' l' evs -> lM sh' l'.
Proof.
  intros HA Hla Hls Hm E. pose proof (mono_back _ _ _ _ _ HA Hla Hls E) as Back. pose proof (lA_tab _ _ HA Hla) as Ht.
  unfold lM in Hm. pose proof E as E0. unfold GrowModel.g_step in E. destruct (nth_error (g_tabs sh) (h_tab l)) as [tb|] eqn:Eh; [|discriminate]. specialize (Hm tb eq_refl).
  assert (B : forall tb', nth_error (g_tabs sh') (h_tab l) = Some tb' -> tmono tb tb').
  { intros tb' E'. destruct (Back _ _ Ht E') as [tb0 [H1 H2]]. congruence. }
  destruct Hls as [_ Hls].
  destruct l as [ep ht pc prog]. destruct pc; cbn [l_pc h_ep h_tab l_prog] in *; unfold lM.
  - gcases E. auto.
  - injection E as <- <- <-. intros tb' _. destruct o; cbn [check set_pc l_pc h_ep]; try destruct (_ <? _); exact I.
  - injection E as <- <- <-. intros tb' _. exact I.
  - destruct (_ =? _); injection E as <- <- <-; intros tb' _; [|exact I]. destruct k; cbn [after l_pc]; try destruct (_ <? _); exact I.
  - gcases E; intros tb' _; exact I.
  - gcases E; intros tb' _; exact I.
  - injection E as <- <- <-. intros tb' _. exact I.
  - injection E as <- <- <-. intros tb' _. exact I.
  - injection E as <- <- <-. cbn [set_pc h_tab l_pc]. intros tb' E'. cbn [set_tab g_tabs] in E'. destruct (nth_upd _ _ _ _ _ E') as [[_ [-> _]]|[Hne _]]; [|contradiction].
    cbn [t_set t_copy]. destruct (Nat.ltb_spec (t_copy tb) (length (s_arr (t_set tb)))); lia.
  - destruct (nth_error (s_arr (t_set tb)) i) as [x|] eqn:Ex; [|discriminate]. injection E as <- <- <-. cbn [set_pc h_tab l_pc]. intros tb' E'. assert (tb' = tb) by congruence. subst tb'.
    destruct (N.eqb_spec x 0).
    + unfold next_cell. destruct (Nat.ltb_spec (S i) e); [lia|exact I].
    + split; [exact Hm|]. exists x. split; [exact Ex|]. split; [assumption|]. split; [reflexivity|]. split; [discriminate|eauto].
  - destruct Hm as [Hi [v [Ev [Hv Hs]]]]. destruct (op_done c) as [r|] eqn:Ed.
    + injection E as <- <- <-. cbn [set_pc h_tab l_pc]. intros tb' E'. assert (tb' = tb) by congruence. subst tb'. unfold next_cell. destruct (Nat.ltb_spec (S i) e); [lia|exact I].
    + destruct (nth_error (g_tabs sh) w) as [tw|] eqn:Ew; [|discriminate].
      destruct (cs_step 64 true (t_set tw) c) as [s' c' ev| |] eqn:Es; try discriminate. injection E as <- <- <-. cbn [set_pc h_tab l_pc]. intros tb' E'.
      destruct (B _ E') as [M1 [M2 M3]]. split; [lia|]. exists v. split; [now apply M3|]. split; [exact Hv|]. eapply shape_step; eauto.
  - injection E as <- <- <-. cbn [set_pc h_tab l_pc g_tabs]. intros tb' E'. assert (tb' = tb) by congruence. subst tb'. exact Hm.
  - injection E as <- <- <-. cbn [set_pc h_tab l_pc g_tabs]. intros tb' E'. assert (tb' = tb) by congruence. subst tb'. destruct (_ =? _); exact Hm.
  - injection E as <- <- <-. intros tb' E'. assert (Ht' : tmono tb tb') by (apply B; exact E'). destruct Ht' as [M1 [M2 _]]. cbn [set_pc l_pc]. lia.
  - injection E as <- <- <-. intros tb' E'. exact I.
Qed.

Lemma help_step sh l sh' l' evs : g_step sh l = Step sh' l' evs -> (helping l = true -> 1 <= g_help sh) ->
  g_help sh' + (if helping l then 1 else 0) = g_help sh + (if helping l' then 1 else 0).
Proof.
  intros E Hh. unfold GrowModel.g_step in E. destruct (nth_error (g_tabs sh) (h_tab l)) as [tb|]; [|discriminate].
  destruct l as [ep ht pc prog]. unfold helping in *. destruct pc; cbn [l_pc h_ep h_tab l_prog] in *.
  - gcases E. lia.
  - injection E as <- <- <-. destruct o; cbn [check set_pc l_pc h_ep]; try destruct (_ <? _); cbn; lia.
  - injection E as <- <- <-. cbn. lia.
  - destruct (_ =? _); injection E as <- <- <-; [|cbn; lia]. destruct k; cbn [after l_pc]; try destruct (_ <? _); cbn; lia.
  - gcases E; cbn; lia.
  - gcases E; cbn; lia.
  - injection E as <- <- <-. destruct (_ =? _); cbn; lia.
  - injection E as <- <- <-. cbn. lia.
  - injection E as <- <- <-. destruct (_ <? _); cbn; lia.
  - destruct (nth_error _ _); [|discriminate]. injection E as <- <- <-. cbn [set_pc l_pc]. destruct (_ =? _)%N; [unfold next_cell; destruct (_ <? _)|]; lia.
  - destruct (op_done c).
    + injection E as <- <- <-. cbn [set_pc l_pc]. unfold next_cell; destruct (_ <? _); lia.
    + gcases E. cbn. lia.
  - injection E as <- <- <-. cbn. specialize (Hh eq_refl). lia.
  - injection E as <- <- <-. cbn [set_pc l_pc]. destruct (_ =? _); lia.
  - injection E as <- <- <-. destruct (_ <? _); cbn; lia.
  - injection E as <- <- <-. destruct (_ =? _); cbn; lia.
Qed.

Lemma cnt_pos {A} (f : A -> bool) l x : In x l -> f x = true -> 1 <= cnt f l.
Proof. intros H E. unfold cnt. assert (In x (filter f l)) by (apply filter_In; auto). destruct (filter f l); [contradiction|cbn; lia]. Qed.
Lemma cnt_none {A} (f : A -> bool) l : cnt f l = 0 -> forall x, In x l -> f x = false.
Proof. intros H x Hx. destruct (f x) eqn:E; [|reflexivity]. pose proof (cnt_pos f l x Hx E). lia. Qed.

Lemma gM_step c t l sh' l' evs : gA c -> gS c -> gM c -> nth_error (c_loc c) t = Some l -> g_step (c_sh c) l = Step sh' l' evs ->
  gM (mkc sh' (upd (c_loc c) t l')).
Proof.
  intros [HA Hl] HS [HM [HD [HE [HF HC]]]] Et E. pose proof (nth_error_In _ _ Et) as Hin. pose proof (Hl l Hin) as Hla. destruct (HS l Hin) as [Hls Hls2].
  destruct (gA_step mult _ _ _ _ _ _ _ HA Hla Et E) as [HA' [Hle Hla']].
  pose proof (mono_back _ _ _ _ _ HA Hla Hls E) as Back.
  unfold gM. cbn [c_sh c_loc]. split; [|split; [|split; [|split]]].
  - intros x Hx. destruct (upd_In _ _ _ _ Hx) as [->|Hx']; [exact (lM_own _ _ _ _ _ HA Hla Hls (HM _ Hin) E)|]. eapply lM_mono; [exact Back|eapply lA_tab; eauto|now apply HM].
  - pose proof (cnt_upd helping _ _ _ l' Et) as Hc. pose proof (help_step _ _ _ _ _ E) as Hh. rewrite HD in Hh.
    specialize (Hh (cnt_pos _ _ _ Hin)). destruct (helping l), (helping l'); lia.
  - (* no mover once a thread has passed the spin loop *)
    assert (Old : forall l1 l2, In l1 (c_loc c) -> In l2 (c_loc c) -> passed l1 = true -> h_tab l1 = g_er sh' -> moving l2 = true -> h_tab l2 <> g_er sh').
    { intros l1 l2 H1 H2 P1 P2 P3. destruct (Nat.eq_dec (g_er sh') (g_er (c_sh c))) as [Ee|Ne]; [rewrite Ee in *; eauto|].
      exfalso. pose proof (Hl l1 H1) as Q. unfold lA in Q. unfold passed in P1. destruct Hle as [Hle _]. destruct (l_pc l1); try discriminate; lia. }
    assert (New1 : passed l' = true -> h_tab l' = g_er sh' -> forall l2, In l2 (c_loc c) -> moving l2 = true -> h_tab l2 <> g_er sh').
    { intros P1 P2 l2 H2 P3. pose proof E as E0. unfold GrowModel.g_step in E. destruct (nth_error (g_tabs (c_sh c)) (h_tab l)) as [tb|]; [|discriminate].
      destruct l as [ep ht pc prog]. destruct pc; cbn [l_pc h_ep h_tab l_prog] in *.
      1,3,6-8: gcases E; discriminate P1.
      - injection E as <- <- <-. destruct o; cbn [check] in P1; try destruct (_ <? _); discriminate P1.
      - destruct (_ =? _); injection E as <- <- <-; [|discriminate P1]. destruct k; cbn [after] in P1; try destruct (_ <? _); discriminate P1.
      - gcases E; discriminate P1.
      - gcases E; discriminate P1.
      - gcases E; try discriminate P1; unfold next_cell in P1; destruct (_ <? _); discriminate P1.
      - gcases E; try discriminate P1; unfold next_cell in P1; destruct (_ <? _); discriminate P1.
      - gcases E; discriminate P1.
      - injection E as <- <- <-. destruct (Nat.eqb_spec (g_help (c_sh c)) 0) as [E0h|]; [|discriminate P1].
        rewrite HD in E0h. pose proof (cnt_none _ _ E0h l2 H2) as Hn. unfold helping in Hn. unfold moving in P3. destruct (l_pc l2); discriminate.
      - assert (Ee : g_er sh' = g_er (c_sh c)) by (injection E as <- <- <-; destruct (_ <? _); reflexivity). rewrite Ee in *.
        assert (h_tab l' = ht) by (injection E as <- <- <-; reflexivity). eapply HE; [exact Hin|exact H2|reflexivity|cbn; congruence|exact P3].
      - injection E as <- <- <-. discriminate P1. }
    assert (New2 : moving l' = true -> h_tab l' = g_er sh' -> forall l1, In l1 (c_loc c) -> passed l1 = true -> h_tab l1 <> g_er sh').
    { intros P1 P2 l1 H1 P3 P4. pose proof E as E0. unfold GrowModel.g_step in E. destruct (nth_error (g_tabs (c_sh c)) (h_tab l)) as [tb|] eqn:Eh; [|discriminate].
      assert (Same : g_er sh' = g_er (c_sh c) -> h_tab l' = h_tab l -> moving l = true -> False).
      { intros Q1 Q2 Q3. rewrite Q1, Q2 in *. eapply HE; [exact H1|exact Hin|exact P3|exact P4|exact Q3|exact P2]. }
      destruct l as [ep ht pc prog]. destruct pc; cbn [l_pc h_ep h_tab l_prog] in *.
      1,3,6-8: gcases E; discriminate P1.
      - injection E as <- <- <-. destruct o; cbn [check] in P1; try destruct (_ <? _); discriminate P1.
      - destruct (_ =? _); injection E as <- <- <-; [|discriminate P1]. destruct k; cbn [after] in P1; try destruct (_ <? _); discriminate P1.
      - gcases E; discriminate P1.
      - injection E as <- <- <-. cbn [set_tab g_er set_pc h_tab l_pc] in *. destruct (Nat.ltb_spec (t_copy tb) (length (s_arr (t_set tb)))); [|discriminate P1].
        pose proof (HM l1 H1) as Q. unfold lM in Q. rewrite P4, <- P2, Eh in Q. specialize (Q tb eq_refl). unfold passed in P3. destruct (l_pc l1); try discriminate; lia.
      - destruct (nth_error (s_arr (t_set tb)) i); [|discriminate]. injection E as <- <- <-. apply Same; reflexivity.
      - destruct (op_done c0); [injection E as <- <- <-; apply Same; reflexivity|]. gcases E. apply Same; reflexivity.
      - gcases E; discriminate P1.
      - injection E as <- <- <-. destruct (_ =? _); discriminate P1.
      - injection E as <- <- <-. discriminate P1.
      - injection E as <- <- <-. discriminate P1. }
    intros l1 l2 H1 H2 P1 P2 P3. destruct (upd_In _ _ _ _ H1) as [->|H1'], (upd_In _ _ _ _ H2) as [->|H2'].
    + unfold passed in P1. unfold moving in P3. destruct (l_pc l'); discriminate.
    + now apply New1.
    + intros P4. exact (New2 P3 P4 l1 H1' P1 P2).
    + exact (Old l1 l2 H1' H2' P1 P2 P3).
  - (* a growth in progress has a thread *)
    intros Hw.
    assert (Up : In l' (upd (c_loc c) t l')) by (eapply nth_error_In; apply nth_error_upd_eq; eapply nth_error_lt; exact Et).
    assert (Keep : g_er sh' = g_er (c_sh c) -> g_tw sh' = g_tw (c_sh c) -> (growing l = true -> h_tab l = g_er (c_sh c) -> growing l' = true /\ h_tab l' = h_tab l) ->
      exists x, In x (upd (c_loc c) t l') /\ growing x = true /\ h_tab x = g_er sh').
    { intros Q1 Q2 Q3. rewrite Q1, Q2 in *. destruct (HF Hw) as [x [X1 [X2 X3]]]. destruct (In_nth_error _ _ X1) as [u Eu].
      destruct (Nat.eq_dec u t) as [->|Hne].
      - assert (x = l) by congruence. subst x. destruct (Q3 X2 X3) as [Y1 Y2]. exists l'. split; [exact Up|]. split; [exact Y1|congruence].
      - exists x. split; [|auto]. apply (nth_error_In _ u). rewrite nth_error_upd_neq by congruence. exact Eu. }
    pose proof E as E0. unfold GrowModel.g_step in E. destruct (nth_error (g_tabs (c_sh c)) (h_tab l)) as [tb|] eqn:Eh; [|discriminate].
    destruct l as [ep ht pc prog]. destruct pc; cbn [l_pc h_ep h_tab l_prog] in *; unfold lA in Hla; cbn [l_pc h_tab h_ep] in Hla.
    1: gcases E; apply Keep; auto; discriminate.
    1: injection E as <- <- <-; apply Keep; auto; discriminate.
    1: injection E as <- <- <-; apply Keep; auto; discriminate.
    1: destruct (_ =? _); injection E as <- <- <-; apply Keep; auto; discriminate.
    1: gcases E; apply Keep; auto; discriminate.
    + destruct (Nat.eqb_spec (g_tw (c_sh c)) ht) as [Ew|]; gcases E; [|apply Keep; auto; discriminate]. exists (mkl ep ht (PCasW (S (g_tw (c_sh c))) k) prog).
      split; [exact Up|]. split; [reflexivity|]. cbn. unfold shA in HA. lia.
    + injection E as <- <- <-. apply Keep; try (destruct (_ =? _); reflexivity). auto.
    + injection E as <- <- <-. apply Keep; auto.
    + injection E as <- <- <-. apply Keep; auto. intros _ _. destruct (_ <? _); auto.
    + destruct (nth_error (s_arr (t_set tb)) i); [|discriminate]. injection E as <- <- <-. apply Keep; auto. intros _ _. unfold next_cell. destruct (_ =? _)%N; [destruct (_ <? _)|]; auto.
    + destruct (op_done c0); [injection E as <- <- <-; apply Keep; auto; intros _ _; unfold next_cell; destruct (_ <? _); auto|]. gcases E. apply Keep; auto.
    + injection E as <- <- <-. apply Keep; auto.
    + injection E as <- <- <-. apply Keep; auto. intros _ _. destruct (_ =? _); auto.
    + injection E as <- <- <-. apply Keep; try (destruct (_ <? _); reflexivity). auto.
    + injection E as <- <- <-. destruct (Nat.eqb_spec (g_er (c_sh c)) ht) as [Ee|Ne].
      * exfalso. cbn [g_er g_tw] in Hw. unfold shA in HA. lia.
      * apply Keep; auto.
  - (* the newest table is not copied *)
    intros tb' E'. pose proof E as E0. unfold GrowModel.g_step in E. destruct (nth_error (g_tabs (c_sh c)) (h_tab l)) as [tb|] eqn:Eh; [|discriminate].
    destruct l as [ep ht pc prog]. destruct pc; cbn [l_pc h_ep h_tab l_prog] in *; unfold lA in Hla; cbn [l_pc h_tab h_ep] in Hla.
    1: gcases E; auto.
    1: injection E as <- <- <-; auto.
    1: injection E as <- <- <-; auto.
    1: destruct (_ =? _); injection E as <- <- <-; auto.
    + gcases E; auto. cbn [set_tab g_tabs g_tw] in E'. destruct (nth_upd _ _ _ _ _ E') as [[Q [-> _]]|[_ Q]]; cbn [t_copy]; auto. apply HC. rewrite <- Q. exact Eh.
    + gcases E; auto. cbn [g_tabs g_tw] in E'. rewrite nth_error_app2 in E' by (unfold shA in HA; lia). unfold shA in HA.
      replace (S (g_tw (c_sh c)) - length (g_tabs (c_sh c))) with 0 in E' by lia. injection E' as <-. reflexivity.
    + injection E as <- <- <-. destruct (_ =? _); auto.
    + injection E as <- <- <-. auto.
    + injection E as <- <- <-. cbn [set_tab g_tabs g_tw] in E'. destruct (nth_upd _ _ _ _ _ E') as [[Q _]|[_ Q]]; [lia|auto].
    + destruct (nth_error (s_arr (t_set tb)) i); [|discriminate]. injection E as <- <- <-. auto.
    + destruct (op_done c0); [injection E as <- <- <-; auto|]. gcases E. cbn [set_tab g_tabs g_tw] in E'. destruct (nth_upd _ _ _ _ _ E') as [[Q [-> _]]|[_ Q]]; cbn [t_copy]; auto. apply HC. rewrite <- Q. assumption.
    + injection E as <- <- <-. auto.
    + injection E as <- <- <-. auto.
    + injection E as <- <- <-. destruct (_ <? _); auto.
    + injection E as <- <- <-. destruct (_ =? _); auto.
Qed.
End M.
