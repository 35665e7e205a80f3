(** Invariants of the growing hash table over all interleavings. *)
From Verif Require Import Outcome ListUtil WordsModel WordsProofs LPSetModel ProbeTheory LPSetProofs Conc ConcProbe ConcSetModel ConcSetProofs ConcSetSpec GrowModel.
Local Open Scope nat_scope.

Ltac gcases E :=
  repeat match type of E with
  | context [match ?x with _ => _ end] => destruct x eqn:?; try discriminate E
  end; try (injection E as <- <- <-); cbn [l_pc h_ep h_tab l_prog set_pc] in *.

Lemma upd_In {A} (l : list A) t x y : In y (upd l t x) -> y = x \/ In y l.
Proof.
  revert t. induction l as [|a l IH]; intros [|t]; cbn [upd In]; try tauto.
  - intros [->|H]; auto.
  - intros [->|H]; auto. destruct (IH _ H); auto.
Qed.

Section M.
Variable mult : nat -> N.
Notation g_step := (g_step mult).

(** *** Epochs and versions *)
Definition lA (sh : gsh) (l : gloc) : Prop :=
  match l_pc l with
  | PGetE _ => h_tab l <= g_tw sh
  | PGetT _ => h_ep l <= g_er sh /\ h_tab l <= g_tw sh
  | PCasW w _ => h_ep l = h_tab l /\ h_tab l <= g_er sh /\ h_tab l < w <= g_tw sh
  | PUp w _ | PBlock w _ | PMig w _ _ _ | PPut w _ _ _ _ | PDown w _ | PSpin w _ | PLock2 w _ =>
      h_ep l = h_tab l /\ h_tab l <= g_er sh /\ h_tab l < w <= g_tw sh /\ h_tab l < g_ew sh
  | PCasR w _ => h_ep l = h_tab l /\ h_tab l <= g_er sh /\ h_tab l < w <= g_tw sh /\ h_tab l < g_ew sh /\ w <= g_tr sh
  | _ => h_ep l = h_tab l /\ h_tab l <= g_er sh
  end.
Definition shA (sh : gsh) : Prop :=
  length (g_tabs sh) = S (g_tw sh) /\ g_er sh <= g_tr sh <= g_tw sh /\ g_tw sh <= S (g_er sh) /\ g_er sh <= g_ew sh <= g_tw sh.
Definition gA (c : config gsh gloc) : Prop := shA (c_sh c) /\ forall l, In l (c_loc c) -> lA (c_sh c) l.

Definition sh_le (a b : gsh) : Prop :=
  g_er a <= g_er b /\ g_ew a <= g_ew b /\ g_tr a <= g_tr b /\ g_tw a <= g_tw b.

Lemma lA_le a b l : sh_le a b -> lA a l -> lA b l.
Proof. unfold sh_le, lA. intros H. destruct (l_pc l); lia. Qed.

Lemma after_lA sh l k : h_ep l = h_tab l -> h_tab l <= g_er sh -> lA sh (set_pc l (after k (h_ep l))).
Proof. intros H1 H2. destruct k as [|o te|o|o]; cbn [after]; try destruct (_ <? _); unfold lA, start_op; cbn; auto. Qed.
Lemma check_lA sh l o : h_ep l = h_tab l -> h_tab l <= g_er sh -> shA sh -> lA sh (set_pc l (check sh l o)).
Proof.
  intros H1 H2 HA. unfold shA in HA. destruct o; cbn [check]; try destruct (_ <? _); unfold lA, start_op; cbn; auto; lia.
Qed.

Lemma gA_step sh locs t l sh' l' evs : shA sh -> lA sh l -> nth_error locs t = Some l -> g_step sh l = Step sh' l' evs ->
  shA sh' /\ sh_le sh sh' /\ lA sh' l'.
Proof.
  intros HA Hl Et E. unfold g_step in E. destruct (nth_error (g_tabs sh) (h_tab l)) as [tb|] eqn:Eh; [|discriminate].
  assert (Le : sh_le sh sh) by (unfold sh_le; lia).
  destruct l as [ep ht pc prog]. unfold lA in Hl. destruct pc; cbn [l_pc h_ep h_tab l_prog] in *.
  - gcases E. split; [exact HA|]. split; [exact Le|]. unfold lA. cbn. tauto.
  - injection E as <- <- <-. split; [exact HA|]. split; [exact Le|]. apply check_lA; tauto.
  - injection E as <- <- <-. unfold lA, shA, sh_le in *. cbn. repeat split; lia.
  - destruct (Nat.eqb_spec (g_tr sh) ep) as [Ee|]; injection E as <- <- <-.
    + split; [exact HA|]. split; [exact Le|]. unfold shA in HA. subst ep. apply (after_lA sh (mkl (g_tr sh) (g_tr sh) PIdle prog)); cbn; lia.
    + unfold lA, shA, sh_le in *. cbn. repeat split; try lia.
  - gcases E; unfold lA, shA, set_tab, sh_le in *; cbn [l_pc h_ep h_tab l_prog set_pc g_tabs g_er g_ew g_tr g_tw]; rewrite ?upd_length; repeat split; lia.
  - destruct (Nat.eqb_spec (g_tw sh) ht); gcases E; unfold lA, shA, sh_le in *; cbn [l_pc h_ep h_tab l_prog set_pc g_tabs g_er g_ew g_tr g_tw];
      rewrite ?app_length; cbn [length]; repeat split; lia.
  - injection E as <- <- <-. destruct (Nat.eqb_spec (g_ew sh) ht); unfold lA, shA, sh_le in *; cbn; repeat split; lia.
  - injection E as <- <- <-. unfold lA, shA, sh_le in *; cbn; repeat split; lia.
  - gcases E; unfold lA, shA, sh_le, set_tab in *; cbn; rewrite ?upd_length; repeat split; lia.
  - gcases E; unfold next_cell in *; try destruct (_ <? _); unfold lA, shA, sh_le in *; cbn; repeat split; lia.
  - gcases E; unfold next_cell in *; try destruct (_ <? _); unfold lA, shA, sh_le, set_tab in *; cbn; rewrite ?upd_length; repeat split; lia.
  - injection E as <- <- <-. unfold lA, shA, sh_le in *; cbn; repeat split; lia.
  - injection E as <- <- <-. destruct (_ =? _); unfold lA, shA, sh_le in *; cbn; repeat split; lia.
  - injection E as <- <- <-. destruct (Nat.ltb_spec (g_tr sh) w); unfold lA, shA, sh_le in *; cbn; repeat split; lia.
  - injection E as <- <- <-. destruct (Nat.eqb_spec (g_er sh) ht); unfold lA, shA, sh_le in *; cbn; repeat split; lia.
Qed.

Lemma gA_inv c0 c tr : gA c0 -> exec g_step c0 c tr -> gA c.
Proof.
  intros H0 He. revert c tr He. apply (exec_inv _ _ _ g_step c0 (fun c _ => gA c)); [exact H0|].
  intros c tr t l sh' l' evs _ [HA Hl] Et E. destruct (gA_step _ _ _ _ _ _ _ HA (Hl l (nth_error_In _ _ Et)) Et E) as [HA' [Hle Hl']].
  split; [exact HA'|]. cbn [c_sh c_loc]. intros x Hx. destruct (upd_In _ _ _ _ Hx) as [->|Hin]; [exact Hl'|]. eapply lA_le; [exact Hle|]. now apply Hl.
Qed.

(** *** Shapes of the local states *)
Definition gop_ok (o : gop) : Prop := match o with GNew => True | GInsert k | GContains k => k <> 0%N end.
Definition ins (o : gop) : Prop := match o with GInsert _ => True | _ => False end.
Definition real (o : gop) : Prop := match o with GNew => False | _ => True end.
Definition cont_ok (k : gcont) : Prop :=
  match k with
  | KNew => True
  | KTest o _ | KAgain o => gop_ok o /\ ins o
  | KOp o => gop_ok o /\ real o
  end.
(** The operations of a thread of a table that are not finished. *)
Definition cur (c : csloc) : list csop :=
  match c with LIdle p => p | LEntry o p | LProbe o _ _ p | LCas o _ _ p | LCount o p | LRet o _ p => o :: p end.
Definition shape (q : list csop) (c : csloc) : Prop :=
  cur c = q /\ (op_done c = Some RFull -> exists k, q = [SInsert k]) /\ exists o, q = [o].
Definition lS (l : gloc) : Prop :=
  (forall o, In o (l_prog l) -> gop_ok o) /\
  match l_pc l with
  | PIdle => True
  | PCheck o => gop_ok o
  | PGetE k | PGetT k | PLock1 k | PCasW _ k | PUp _ k | PBlock _ k | PMig _ _ _ k | PDown _ k | PSpin _ k | PLock2 _ k | PCasR _ k => cont_ok k
  | POp o c => gop_ok o /\ real o /\ shape (tab_op o) c
  | PPut _ _ _ c k => cont_ok k /\ exists v, v <> 0%N /\ shape [SPut v] c
  end.
(** PLock1, and what follows it, is never reached from a constructor. *)
Definition lS2 (l : gloc) : Prop :=
  match l_pc l with
  | PLock1 k | PCasW _ k | PUp _ k | PBlock _ k | PMig _ _ _ k | PPut _ _ _ _ k | PDown _ k | PSpin _ k | PLock2 _ k | PCasR _ k => k <> KNew
  | _ => True
  end.

Lemma shape_start o : real o -> shape (tab_op o) (LIdle (tab_op o)).
Proof. destruct o; cbn; [contradiction| |]; intros _; (split; [reflexivity|]; split; [discriminate|eauto]). Qed.

Lemma cs_head_cur w g s o idx cols p s' c' evs : cs_head w g s o idx cols p = Step s' c' evs ->
  s' = s /\ cur c' = o :: p /\ (op_done c' = Some RFull -> is_insert o = true).
Proof.
  unfold cs_head. destruct (g && is_insert o && _) eqn:Eg; intros E; injection E as <- <- <-; cbn; repeat split; try discriminate.
  intros _. apply andb_true_iff in Eg. destruct Eg as [Eg _]. apply andb_true_iff in Eg. tauto.
Qed.

Lemma cs_step_cur w g s c s' c' evs : cs_step w g s c = Step s' c' evs -> op_done c = None ->
  cur c' = cur c /\ (op_done c' = Some RFull -> exists o p, cur c = o :: p /\ is_insert o = true).
Proof.
  intros E Hd. destruct c as [p|o p|o i cols p|o i cols p|o p|o r p]; cbn [cs_step] in E; try discriminate Hd.
  - destruct p; [discriminate|]. injection E as <- <- <-. split; [reflexivity|discriminate].
  - destruct (is_insert o && cs_full g s) eqn:Ef.
    + injection E as <- <- <-. cbn. split; [reflexivity|]. intros _. exists o, p. apply andb_true_iff in Ef. tauto.
    + apply cs_head_cur in E. cbn. split; [tauto|]. intros H. exists o, p. split; [reflexivity|tauto].
  - destruct (nth_error _ _) as [x|]; [|discriminate].
    assert (N : cs_next w g s o i cols p = Step s' c' evs -> cur c' = o :: p /\ (op_done c' = Some RFull -> exists o0 p0, o :: p = o0 :: p0 /\ is_insert o0 = true)).
    { intros H. apply cs_head_cur in H. split; [tauto|]. intros H'. exists o, p. split; [reflexivity|tauto]. }
    destruct o; destruct (x =? _)%N; try (injection E as <- <- <-; split; [reflexivity|discriminate]);
      destruct (x =? 0)%N; cbn [negb] in E; try (injection E as <- <- <-; split; [reflexivity|discriminate]); exact (N E).
  - destruct (nth_error _ _) as [x|]; [|discriminate]. destruct (x =? 0)%N; [injection E as <- <- <-; split; [reflexivity|discriminate]|].
    destruct (x =? cs_key o)%N; [injection E as <- <- <-; split; [reflexivity|discriminate]|].
    apply cs_head_cur in E. cbn. split; [tauto|]. intros H. exists o, p. split; [reflexivity|tauto].
  - injection E as <- <- <-. split; [reflexivity|discriminate].
Qed.

Lemma shape_step q w g s c s' c' evs : shape q c -> op_done c = None -> cs_step w g s c = Step s' c' evs -> shape q c'.
Proof.
  intros [Hc [_ [o ->]]] Hd E. destruct (cs_step_cur _ _ _ _ _ _ _ E Hd) as [H1 H2]. split; [congruence|]. split; [|eauto].
  intros Hf. destruct (H2 Hf) as [o' [p' [Ho Hi]]]. rewrite Hc in Ho. injection Ho as <- <-. destruct o; try discriminate. eauto.
Qed.

Lemma after_lS ep ht prog k : (forall o, In o prog -> gop_ok o) -> cont_ok k -> lS (mkl ep ht (after k ep) prog) /\ lS2 (mkl ep ht (after k ep) prog).
Proof.
  intros Hp Hk. unfold lS, lS2. cbn [l_prog l_pc]. destruct k as [|o te|o|o]; cbn [after cont_ok] in *.
  - auto.
  - destruct (ep <? te).
    + split; [split; [exact Hp|]|discriminate]. cbn [cont_ok]. split; [tauto|]. destruct o; cbn in *; tauto.
    + split; [split; [exact Hp|]|exact I]. split; [tauto|]. assert (real o) by (destruct o; cbn in *; tauto). split; [assumption|now apply shape_start].
  - split; [split; [exact Hp|]|exact I]. split; [tauto|]. split; [tauto|]. now apply shape_start.
  - split; [split; [exact Hp|tauto]|exact I].
Qed.

Lemma gS_step sh l sh' l' evs : lS l -> lS2 l -> g_step sh l = Step sh' l' evs -> lS l' /\ lS2 l'.
Proof.
  intros [Hp Hl] H2 E. unfold g_step in E. destruct (nth_error (g_tabs sh) (h_tab l)) as [tb|] eqn:Eh; [|discriminate].
  destruct l as [ep ht pc prog]. unfold lS2 in H2. destruct pc; cbn [l_pc h_ep h_tab l_prog] in *.
  - gcases E. unfold lS, lS2. cbn. split; [|exact I]. split; [intros x Hx|]; apply Hp; [now right|now left].
  - injection E as <- <- <-.
    assert (St : real o -> lS (mkl ep ht (start_op o) prog)).
    { intros Hr. unfold lS. cbn [l_prog l_pc start_op]. split; [exact Hp|]. split; [exact Hl|]. split; [exact Hr|]. now apply shape_start. }
    unfold set_pc. cbn [l_prog h_ep h_tab]. destruct o as [|k|k]; cbn [check h_ep].
    + unfold lS, lS2. cbn. auto.
    + destruct (_ <? _); [|split; [apply St|]; exact I]. unfold lS, lS2. cbn. cbn in Hl. auto.
    + destruct (_ <? _); [|split; [apply St|]; exact I]. unfold lS, lS2. cbn. cbn in Hl. auto.
  - injection E as <- <- <-. unfold lS, lS2. cbn. auto.
  - destruct (g_tr sh =? ep); injection E as <- <- <-; [now apply after_lS|unfold lS, lS2; cbn; auto].
  - destruct Hl as [Ho [Hr Hs]]. destruct (op_done c) as [[|b]|] eqn:Ed.
    + destruct o; try discriminate. injection E as <- <- <-. unfold lS, lS2. cbn. repeat split; auto; discriminate.
    + injection E as <- <- <-. unfold lS, lS2. cbn. auto.
    + destruct (cs_step 64 true (t_set tb) c) as [s' c' ev| |] eqn:Es; try discriminate. injection E as <- <- <-. unfold lS, lS2. cbn [l_prog l_pc set_pc].
      repeat split; auto; eapply shape_step; eauto.
  - gcases E; unfold lS, lS2; cbn [l_prog l_pc set_pc]; auto.
  - gcases E; unfold lS, lS2; cbn [l_prog l_pc set_pc]; auto.
  - gcases E; unfold lS, lS2; cbn [l_prog l_pc set_pc]; auto.
  - gcases E; unfold lS, lS2; cbn [l_prog l_pc set_pc]; auto.
  - destruct (nth_error (s_arr (t_set tb)) i) as [v|]; [|discriminate]. injection E as <- <- <-. unfold lS, lS2, next_cell, set_pc; cbn [l_prog l_pc].
    destruct (N.eqb_spec v 0).
    + destruct (S i <? e); cbn; auto.
    + split; [|exact H2]. split; [exact Hp|]. split; [exact Hl|]. exists v. split; [assumption|]. split; [reflexivity|]. split; [discriminate|eauto].
  - destruct Hl as [Hk [v [Hv Hs]]]. destruct (op_done c) eqn:Ed.
    + injection E as <- <- <-. unfold lS, lS2, next_cell, set_pc; cbn [l_prog l_pc]. destruct (S i <? e); cbn; auto.
    + destruct (nth_error (g_tabs sh) w) as [tw|]; [|discriminate]. destruct (cs_step 64 true (t_set tw) c) as [s' c' ev| |] eqn:Es; try discriminate. injection E as <- <- <-.
      unfold lS, lS2. cbn [l_prog l_pc set_pc]. repeat split; auto. exists v. split; [exact Hv|]. eapply shape_step; eauto.
  - gcases E; unfold lS, lS2; cbn [l_prog l_pc set_pc]; auto.
  - gcases E; unfold lS, lS2; cbn [l_prog l_pc set_pc]; auto.
  - gcases E; unfold lS, lS2; cbn [l_prog l_pc set_pc]; auto.
  - gcases E; unfold lS, lS2; cbn [l_prog l_pc set_pc]; auto.
Qed.
End M.
