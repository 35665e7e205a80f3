(** Keys survive growth; lookups find them; no step is undefined. *)
From Verif Require Import Outcome ListUtil WordsModel WordsProofs LPSetModel ProbeTheory LPSetProofs Conc ConcProbe ConcSetModel ConcSetProofs ConcSetSpec ConcSetMerge GrowModel GrowProofs GrowTabs GrowSafe.
Local Open Scope nat_scope.

Lemma tstage_lin {Op Ret} t (tr : list (nat * ev Op Ret)) st : tstage t tr st -> forall o r, st = Done o r -> In (o, r) (lins tr).
Proof.
  induction 1 as [|u e tr s Hu H IH|o' tr H IH|o' r' tr H IH|o' r' tr H IH]; intros o r E; try discriminate.
  - destruct e; cbn [lins]; auto; right; eauto.
  - injection E as -> ->. cbn [lins]. now left.
Qed.

Section CS.
Variables (n : nat) (a : N) (S0 : N -> bool).
Hypothesis Hn : pow2cap 64 n.
Notation csI := (csI 64 true n a S0).

(** An answered insert has its key stored. *)
Lemma done_stored s cl tr t o b p : csI (mkc s cl) tr -> nth_error cl t = Some (LRet o (RB b) p) -> puts o -> stored s (cs_key o).
Proof.
  intros [_ [_ [_ [_ [[S [HL HS]] [Ht _]]]]]] Et Hp. cbn [c_sh c_loc] in *. destruct (thr_get _ _ _ _ _ _ Ht Et) as [_ Hs]. cbn [stg] in Hs.
  pose proof (tstage_lin _ _ _ Hs _ _ eq_refl) as Hi. apply in_split in Hi. destruct Hi as [l1 [l2 E]]. rewrite E in HL.
  destruct (legal_app _ _ _ _ _ HL) as [T [HT1 HT2]]. inversion HT1; subst.
  apply HS. eapply csspec_mono; [exact HT2|]. eapply csspec_answered; [eassumption|]. destruct o; cbn; try apply N.eqb_refl. destruct Hp.
Qed.

(** A lookup that meets a free cell: the key is absent. *)
Lemma lookup_false s cl tr t k c s' c' evs p : csI (mkc s cl) tr -> nth_error cl t = Some c -> cs_step 64 true s c = Step s' c' evs ->
  cur c = SContains k :: p -> op_done c = None -> op_done c' = Some (RB false) -> ~ stored s k.
Proof.
  intros [H1 [_ [HC [_ [_ [Ht _]]]]]] Et E Hc Hd Hd' [Hin Hk]. cbn [c_sh c_loc] in *. destruct (thr_get _ _ _ _ _ _ Ht Et) as [Hok _].
  assert (Hh : forall o idx cols q, cs_head 64 true s o idx cols q = Step s' c' evs -> False).
  { intros o idx cols q. unfold cs_head. destruct (_ && _); intros X; injection X as <- <- <-; discriminate. }
  destruct c as [q|o q|o i cols q|o i cols q|o q|o r q]; cbn [cur op_done cs_step] in *; try discriminate.
  - destruct q; [discriminate|]. injection E as <- <- <-. discriminate.
  - destruct (_ && _); [injection E as <- <- <-; discriminate|]. eapply Hh; eassumption.
  - injection Hc as -> ->. cbn [loc_ok cs_key] in Hok. destruct Hok as [_ [j [-> [_ Hwk]]]]. rewrite Nat2N.id in E.
    destruct (nth_error (s_arr s) _) as [x|] eqn:Ex; [|discriminate]. destruct (N.eqb_spec x k); [injection E as <- <- <-; discriminate|].
    destruct (N.eqb_spec x 0) as [->|]; [|eapply Hh; exact E].
    rewrite <- H1 in Ex at 1. eapply (walked_absent (home 64 a n)); eauto.
  - injection Hc as -> ->. cbn [loc_ok puts] in Hok. tauto.
  - injection E as <- <- <-. discriminate.
Qed.
End CS.

Section M.
Variable mult : nat -> N.
Notation g_step := (g_step mult).

Definition gI (c : config gsh gloc) : Prop := gA c /\ gS c /\ gT c /\ gM c.
Lemma gI_step c t l sh' l' evs : gI c -> nth_error (c_loc c) t = Some l -> g_step (c_sh c) l = Step sh' l' evs -> gI (mkc sh' (upd (c_loc c) t l')).
Proof.
  intros [HA [HS [HT HM]]] Et E. split; [|split; [|split]].
  - exact (gA_inv mult c _ _ HA (exec_step _ _ _ g_step c c [] t l sh' l' evs (exec_start _ _ _ g_step c) Et E)).
  - exact (gS_inv mult c _ _ HS (exec_step _ _ _ g_step c c [] t l sh' l' evs (exec_start _ _ _ g_step c) Et E)).
  - eapply gT_step; eauto.
  - eapply gM_step; eauto.
Qed.
Lemma gI_inv c0 c tr : gI c0 -> exec g_step c0 c tr -> gI c.
Proof. intros H0 He. induction He; [exact H0|]. eapply gI_step; eauto. Qed.

(** The table at the start. *)
Definition g_init (s : lpset) : Prop := cs_made 64 true s /\ (N.of_nat (length (s_arr s)) < 2 ^ 60)%N.
Definition gkeys_nz (progs : list (list gop)) : Prop := forall p o, In p progs -> In o p -> gop_ok o.

Lemma gI_start s progs : g_init s -> gkeys_nz progs -> gI (g_start s progs).
Proof.
  intros [Hm Hs] Hp.
  assert (Hloc : forall l, In l (c_loc (g_start s progs)) -> exists p, In p progs /\ l = mkl 0 0 PIdle p).
  { intros l H. cbn [g_start c_loc] in H. apply in_map_iff in H. destruct H as [p [<- Hin]]. eauto. }
  split; [|split; [|split]].
  - split; [unfold shA; cbn; lia|]. intros l H. destruct (Hloc l H) as [p [_ ->]]. unfold lA. cbn. lia.
  - intros l H. destruct (Hloc l H) as [p [Hin ->]]. unfold lS, lS2. cbn. split; [|exact I]. split; [|exact I]. intros o Ho. eapply Hp; eauto.
  - intros v tb Hv. cbn [g_start c_sh g_tabs] in Hv. destruct v as [|[|v]]; cbn in Hv; try discriminate. injection Hv as <-.
    destruct (made_wf 64 w64 true s Hm) as [W1 [W2 [W3 W4]]].
    exists (length (s_arr s)), (s_mult s), (memb s), []. split; [exact W1|]. split; [exact Hs|].
    assert (E : map (proj 0) (c_loc (g_start s progs)) = map LIdle (map (fun _ => []) progs)).
    { cbn [g_start c_loc]. rewrite !map_map. reflexivity. }
    rewrite E. apply (cs_inv_start 64 w64 true _ _ s); try assumption; try reflexivity; [exact (memb_same s)|]. intros p Hin. apply in_map_iff in Hin. destruct Hin as [q [<- _]]. intros x [].
  - unfold gM. cbn [c_sh g_start c_loc]. split; [|split; [|split; [|split]]].
    + intros l H. destruct (Hloc l H) as [p [_ ->]]. intros tb _. exact I.
    + cbn [g_help]. symmetry. apply cnt_0. intros l H. destruct (Hloc l H) as [p [_ ->]]. reflexivity.
    + intros l1 l2 H1 _ P. destruct (Hloc l1 H1) as [p [_ ->]]. discriminate.
    + cbn. discriminate.
    + intros tb E. cbn in E. injection E as <-. reflexivity.
Qed.

(** *** No step is undefined *)
Lemma g_not_bad c t l : gI c -> nth_error (c_loc c) t = Some l -> g_step (c_sh c) l <> Bad.
Proof.
  intros [[HA Hl] [HS [HT HM]]] Et. pose proof (nth_error_In _ _ Et) as Hin. pose proof (Hl l Hin) as Hla. destruct (HS l Hin) as [[_ Hls] _].
  pose proof (proj1 HM l Hin) as Hlm. unfold lM in Hlm.
  pose proof (lA_tab mult _ _ HA Hla) as Ht. unfold GrowModel.g_step.
  destruct (nth_error (g_tabs (c_sh c)) (h_tab l)) as [tb|] eqn:Eh; [|apply nth_error_None in Eh; destruct HA; lia]. specialize (Hlm tb eq_refl).
  assert (Sub : forall v tv q cl, nth_error (g_tabs (c_sh c)) v = Some tv -> proj v l = cl -> shape q cl -> op_done cl = None ->
     exists s' c' ev, cs_step 64 true (t_set tv) cl = Step s' c' ev).
  { intros v tv q cl Hv Ep Hs Hd. destruct (HT v tv Hv) as [n [a [S0 [tr [Hn [_ HI]]]]]]. pose proof (map_nth_error (proj v) t _ Et) as Em. rewrite Ep in Em.
    destruct (cs_step 64 true (t_set tv) cl) as [s' c' ev| |] eqn:Es; [eauto| |].
    - apply cs_not_stop in Es. rewrite Es in Hs. destruct Hs as [Hc [_ [o Ho]]]. cbn in Hc. congruence.
    - exfalso. eapply (cs_not_bad 64 w64 true n a Hn); eauto. }
  destruct l as [ep ht pc prog]. unfold lA in Hla. destruct pc; cbn [l_pc h_ep h_tab l_prog] in *; try discriminate.
  - destruct prog; discriminate.
  - destruct (_ =? _); discriminate.
  - destruct Hls as [Ho [Hr Hs]]. destruct (op_done c0) as [[|b]|] eqn:Ed.
    + destruct Hs as [_ [Hf _]]. destruct (Hf Ed) as [k Hk]. destruct o; cbn in Hk; discriminate.
    + discriminate.
    + destruct (Sub ht tb (tab_op o) c0 Eh) as [s' [c' [ev ->]]]; auto; [|discriminate]. unfold proj. cbn. now rewrite Nat.eqb_refl.
  - destruct (_ =? _); [destruct (_ <=? _)%N|]; discriminate.
  - destruct (nth_error (s_arr (t_set tb)) i) eqn:Ei; [discriminate|]. apply nth_error_None in Ei. lia.
  - destruct Hls as [_ [v [_ Hs]]]. destruct (op_done c0) eqn:Ed; [discriminate|].
    destruct (nth_error (g_tabs (c_sh c)) w) as [tw|] eqn:Ew; [|apply nth_error_None in Ew; destruct HA; lia].
    destruct (Sub w tw [SPut v] c0 Ew) as [s' [c' [ev ->]]]; auto; [|discriminate]. unfold proj. cbn. now rewrite Nat.eqb_refl.
Qed.

(** *** Keys survive *)
Definition skey (c : config gsh gloc) (e0 : nat) (k : N) : Prop :=
  let sh := c_sh c in
  e0 <= g_er sh /\
  (forall v tb, e0 <= v <= g_er sh -> nth_error (g_tabs sh) v = Some tb -> stored (t_set tb) k) /\
  (g_tw sh = g_er sh \/
   (exists tb, nth_error (g_tabs sh) (g_tw sh) = Some tb /\ stored (t_set tb) k) \/
   exists tb i, nth_error (g_tabs sh) (g_er sh) = Some tb /\ nth_error (s_arr (t_set tb)) i = Some k /\
     (t_copy tb <= i \/ exists l, In l (c_loc c) /\ h_tab l = g_er sh /\ to_copy l i)).

(** The new table of a thread that copies the current one. *)
Lemma mover_target sh l w : shA sh -> lA sh l -> (exists i e k, l_pc l = PMig w i e k) \/ (exists i e c k, l_pc l = PPut w i e c k) -> h_tab l = g_er sh -> w = g_tw sh.
Proof. unfold shA, lA. intros HA Hl [[i [e [k E]]]|[i [e [c [k E]]]]] He; rewrite E in Hl; lia. Qed.

Lemma skey_step c t l sh' l' evs e0 k : gI c -> skey c e0 k -> k <> 0%N -> nth_error (c_loc c) t = Some l -> g_step (c_sh c) l = Step sh' l' evs ->
  skey (mkc sh' (upd (c_loc c) t l')) e0 k.
Proof.
  intros HI HK Hk Et E. pose proof HI as [[HA Hl] [HS [HT [HM [_ [HE [_ HC]]]]]]]. pose proof (nth_error_In _ _ Et) as Hin. pose proof (Hl l Hin) as Hla. destruct (HS l Hin) as [Hls Hls2].
  destruct (gA_step mult _ _ _ _ _ _ _ HA Hla Et E) as [HA' [Hle Hla']].
  pose proof (mono_back mult _ _ _ _ _ HA Hla Hls E) as Back. pose proof (mono_step mult _ _ _ _ _ HA Hla Hls E) as Fwd.
  destruct HK as [K0 [K1 K2]]. unfold skey. cbn [c_sh c_loc].
  assert (Up : In l' (upd (c_loc c) t l')) by (eapply nth_error_In; apply nth_error_upd_eq; eapply nth_error_lt; exact Et).
  (* stored in the old range of tables *)
  assert (Old : forall v tb, e0 <= v <= g_er (c_sh c) -> nth_error (g_tabs sh') v = Some tb -> stored (t_set tb) k).
  { intros v tb Hv Ev. destruct (Back v tb) as [tb0 [B1 B2]]; [unfold shA in HA; lia|exact Ev|]. eapply tmono_stored; [exact B2|]. eapply K1; eauto. }
  (* the general step: the epoch and the newest table stay, and no cell leaves the list of cells to copy *)
  assert (Gen : g_er sh' = g_er (c_sh c) -> g_tw sh' = g_tw (c_sh c) ->
    (forall tb tb' i, nth_error (g_tabs (c_sh c)) (g_er (c_sh c)) = Some tb -> nth_error (g_tabs sh') (g_er (c_sh c)) = Some tb' ->
       nth_error (s_arr (t_set tb)) i = Some k ->
       (t_copy tb <= i -> t_copy tb' <= i \/ (h_tab l' = g_er (c_sh c) /\ to_copy l' i)) /\
       (h_tab l = g_er (c_sh c) -> to_copy l i -> (h_tab l' = g_er (c_sh c) /\ to_copy l' i) \/ exists tw, nth_error (g_tabs sh') (g_tw (c_sh c)) = Some tw /\ stored (t_set tw) k)) ->
    skey (mkc sh' (upd (c_loc c) t l')) e0 k).
  { intros Q1 Q2 Q3. unfold skey. cbn [c_sh c_loc]. rewrite Q1, Q2. split; [exact K0|]. split; [exact Old|].
    destruct K2 as [K2|[[tb [T1 T2]]|[tb [i [T1 [T2 T3]]]]]].
    - now left.
    - right. left. destruct (Fwd _ _ T1) as [tb' [F1 F2]]. exists tb'. split; [exact F1|eapply tmono_stored; eauto].
    - destruct (Fwd _ _ T1) as [tb' [F1 F2]]. destruct (Q3 tb tb' i T1 F1 T2) as [Q4 Q5].
      assert (F3 : nth_error (s_arr (t_set tb')) i = Some k) by (destruct F2 as [_ [_ F2]]; now apply F2).
      destruct T3 as [T3|[x [X1 [X2 X3]]]].
      + right. right. exists tb', i. split; [exact F1|]. split; [exact F3|]. destruct (Q4 T3) as [Q|[Q Q']]; [now left|]. right. exists l'. auto.
      + destruct (In_nth_error _ _ X1) as [u Eu]. destruct (Nat.eq_dec u t) as [->|Hne].
        * assert (x = l) by congruence. subst x. destruct (Q5 X2 X3) as [[Q Q']|Q]; [|right; left; exact Q].
          right. right. exists tb', i. split; [exact F1|]. split; [exact F3|]. right. exists l'. auto.
        * right. right. exists tb', i. split; [exact F1|]. split; [exact F3|]. right. exists x. split; [|auto]. apply (nth_error_In _ u). rewrite nth_error_upd_neq by congruence. exact Eu. }
  pose proof E as E0. unfold GrowModel.g_step in E. destruct (nth_error (g_tabs (c_sh c)) (h_tab l)) as [tb0|] eqn:Eh; [|discriminate].
  destruct l as [ep ht pc prog]. destruct pc; cbn [l_pc h_ep h_tab l_prog] in *; unfold lA in Hla; cbn [l_pc h_tab h_ep] in Hla.
  (* steps that neither copy nor change the epoch *)
  Ltac plain Gen := apply Gen; [reflexivity|reflexivity|]; intros tb tb' i T1 T2 T3; split; [intros Q; left; cbn [g_tabs] in T2; rewrite T1 in T2; injection T2 as <-; exact Q|unfold to_copy; cbn [l_pc]; intros _ []].
  - gcases E. plain Gen.
  - injection E as <- <- <-. plain Gen.
  - injection E as <- <- <-. plain Gen.
  - destruct (_ =? _); injection E as <- <- <-; plain Gen.
  - gcases E; try plain Gen. apply Gen; [reflexivity|reflexivity|]. intros tb tb' i T1 T2 T3. split; [|intros _ []]. intros Q. left.
    cbn [set_tab g_tabs] in T2. destruct (nth_upd _ _ _ _ _ T2) as [[R [-> _]]|[_ R]]; cbn [t_copy]; [|congruence]. subst ht. congruence.
  - destruct (Nat.eqb_spec (g_tw (c_sh c)) ht) as [Ew|]; gcases E; [|plain Gen].
    assert (Ee : g_tw (c_sh c) = g_er (c_sh c)) by (unfold shA in HA; lia). cbn [g_er g_tw g_tabs] in *. split; [exact K0|]. split; [exact Old|].
    right. right. destruct (K1 ht tb0 ltac:(lia) Eh) as [Ki _]. destruct (In_nth_error _ _ Ki) as [i Hi]. exists tb0, i. rewrite nth_error_app1 by (apply nth_error_lt in Eh; lia).
    split; [rewrite <- Ee, Ew; exact Eh|]. split; [exact Hi|]. left. rewrite (HC tb0); [lia|]. rewrite Ew. exact Eh.
  - injection E as <- <- <-. apply Gen; try (destruct (_ =? _); reflexivity). intros tb tb' i T1 T2 T3. split; [intros Q; left|intros _ []].
    destruct (_ =? _); cbn [g_tabs] in T2; congruence.
  - injection E as <- <- <-. plain Gen.
  - injection E as <- <- <-. apply Gen; [reflexivity|reflexivity|]. intros tb tb' i T1 T2 T3. split; [|intros _ []]. intros Q. cbn [set_tab g_tabs] in T2.
    destruct (nth_upd _ _ _ _ _ T2) as [[R [-> _]]|[_ R]]; [|left; congruence]. cbn [t_copy]. rewrite R in Eh. assert (tb0 = tb) by congruence. subst tb0.
    pose proof (nth_error_lt _ _ _ T3) as Li. destruct (Nat.le_gt_cases (t_copy tb + 256) i); [now left|]. right. split; [exact R|].
    destruct (Nat.ltb_spec (t_copy tb) (length (s_arr (t_set tb)))); [|lia]. unfold to_copy. cbn. lia.
  - destruct (nth_error (s_arr (t_set tb0)) i) as [x|] eqn:Ex; [|discriminate]. injection E as <- <- <-. apply Gen; [reflexivity|reflexivity|].
    intros tb tb' j T1 T2 T3. split; [intros Q; left; congruence|]. cbn [h_tab]. intros R Q. unfold to_copy in Q. cbn in Q. left. split; [exact R|].
    assert (tb0 = tb) by congruence. subst tb0. destruct (N.eqb_spec x 0) as [->|].
    + assert (i <> j) by (intros ->; congruence). unfold next_cell. destruct (Nat.ltb_spec (S i) e); unfold to_copy; cbn; lia.
    + unfold to_copy. cbn. lia.
  - destruct (op_done c0) as [r|] eqn:Ed.
    + injection E as <- <- <-. apply Gen; [reflexivity|reflexivity|]. intros tb tb' j T1 T2 T3. split; [intros Q; left; congruence|]. cbn [h_tab]. intros R Q. unfold to_copy in Q. cbn in Q.
      destruct (Nat.eq_dec i j) as [->|Hne].
      * right. pose proof (mover_target (c_sh c) _ w HA (Hl _ Hin) ltac:(right; cbn; eauto 8) R) as Hw.
        pose proof (HM _ Hin tb) as Q'. cbn [h_tab l_pc] in Q'. rewrite R in Q'. destruct (Q' T1) as [_ [v [Ev [_ Hs]]]]. assert (v = k) by congruence. subst v.
        destruct (nth_error (g_tabs (c_sh c)) w) as [tw|] eqn:Etw; [|apply nth_error_None in Etw; destruct HA; lia].
        exists tw. split; [rewrite <- Hw; exact Etw|]. destruct (HT w tw Etw) as [n [a [S0 [tr [Hn [_ HcI]]]]]].
        destruct (op_done_ret _ _ _ Hs Ed) as [o [Ho ->]]. injection Ho as <-.
        assert (Rb : exists b, r = RB b). { destruct r as [|b]; [|eauto]. destruct Hs as [_ [Hs _]]. destruct (Hs eq_refl); discriminate. }
        destruct Rb as [b ->]. pose proof (map_nth_error (proj w) t _ Et) as Em. unfold proj in Em at 2. cbn in Em. rewrite Nat.eqb_refl in Em.
        exact (done_stored n a S0 _ _ _ _ _ _ _ HcI Em I).
      * left. split; [exact R|]. unfold next_cell. destruct (Nat.ltb_spec (S i) e); unfold to_copy; cbn; lia.
    + destruct (nth_error (g_tabs (c_sh c)) w) as [tw|] eqn:Ew; [|discriminate]. destruct (cs_step 64 true (t_set tw) c0) as [s' c' ev| |]; try discriminate. injection E as <- <- <-.
      apply Gen; [reflexivity|reflexivity|]. intros tb tb' j T1 T2 T3. cbn [set_tab g_tabs] in T2. split.
      * intros Q. left. destruct (nth_upd _ _ _ _ _ T2) as [[R [-> _]]|[_ R]]; cbn [t_copy]; [|congruence]. rewrite R in Ew. congruence.
      * cbn [h_tab]. intros R Q. left. split; [exact R|exact Q].
  - injection E as <- <- <-. plain Gen.
  - injection E as <- <- <-. plain Gen.
  - injection E as <- <- <-. apply Gen; try (destruct (_ <? _); reflexivity). intros tb tb' i T1 T2 T3. split; [intros Q; left|intros _ []].
    destruct (_ <? _); cbn [g_tabs] in T2; congruence.
  - injection E as <- <- <-. destruct (Nat.eqb_spec (g_er (c_sh c)) ht) as [Ee|Ne]; [|plain Gen]. cbn [g_er g_tw g_tabs] in *.
    assert (Hw : w = g_tw (c_sh c)) by (unfold shA in HA; lia). assert (Hw' : w = S (g_er (c_sh c))) by (unfold shA in HA; lia).
    assert (K3 : exists tb, nth_error (g_tabs (c_sh c)) (g_tw (c_sh c)) = Some tb /\ stored (t_set tb) k).
    { destruct K2 as [K2|[K2|[tb [i [T1 [T2 T3]]]]]]; [lia|exact K2|exfalso].
      pose proof (HM _ Hin tb) as Q. cbn [h_tab l_pc] in Q. rewrite <- Ee in Q. specialize (Q T1). pose proof (nth_error_lt _ _ _ T2).
      destruct T3 as [T3|[x [X1 [X2 X3]]]]; [lia|].
      refine (HE _ x Hin X1 eq_refl (eq_sym Ee) _ X2). unfold to_copy in X3. unfold moving. destruct (l_pc x); try contradiction; reflexivity. }
    destruct K3 as [tb [T1 T2]]. split; [lia|]. split; [|left; lia]. intros v tb' Hv Ev. destruct (Nat.eq_dec v w) as [->|]; [|eapply K1; [|exact Ev]; lia].
    congruence.
Qed.

Lemma skey_inv c0 c tr e0 k : gI c0 -> skey c0 e0 k -> k <> 0%N -> exec g_step c0 c tr -> skey c e0 k.
Proof.
  intros HI HK Hk He. induction He as [|c tr t l sh' l' evs He IH Et E]; [exact HK|]. eapply skey_step; eauto. eapply gI_inv; eauto.
Qed.
End M.
