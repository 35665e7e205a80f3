(** Where stored keys come from; calls that do not overlap. *)
From Verif Require Import Outcome ListUtil WordsModel WordsProofs LPSetModel ProbeTheory LPSetProofs Conc ConcProbe ConcSetModel ConcSetProofs ConcSetSpec ConcSetMerge GrowModel GrowProofs GrowTabs GrowSafe GrowKeep GrowSpec.
Local Open Scope nat_scope.

(** The call a thread is in. *)
Definition cont_call (k : gcont) : option gop := match k with KNew => Some GNew | KTest o _ | KOp o | KAgain o => Some o end.
Definition in_call (l : gloc) : option gop :=
  match l_pc l with
  | PIdle => None
  | PCheck o | POp o _ => Some o
  | PGetE k | PGetT k | PLock1 k | PCasW _ k | PUp _ k | PBlock _ k | PMig _ _ _ k | PPut _ _ _ _ k | PDown _ k | PSpin _ k | PLock2 _ k | PCasR _ k => cont_call k
  end.

Lemma csspec_det lim S0 l : forall S T, legal (csspec lim) S0 l S -> legal (csspec lim) S0 l T -> forall k, S k = T k.
Proof.
  induction l as [|[o r] l IH]; intros S T H1 H2 k.
  - inversion H1; inversion H2; subst. reflexivity.
  - inversion H1 as [|? S1 ? ? ? L1 C1]; subst. inversion H2 as [|? T1 ? ? ? L2 C2]; subst. pose proof (IH _ _ L1 L2) as E.
    destruct o as [j|j|j]; cbn [csspec] in *.
    + destruct C1 as [[R1 [_ C1]]|[R1 C1]], C2 as [[R2 [_ C2]]|[R2 C2]]; try congruence; rewrite C1, C2, E; reflexivity.
    + destruct C1 as [R1 C1], C2 as [R2 C2]. rewrite C1, C2, E. reflexivity.
    + destruct C1 as [R1 C1], C2 as [R2 C2]. rewrite C1, C2, E. reflexivity.
Qed.

Section CS.
Variables (n : nat) (a : N) (S0 : N -> bool).
Hypothesis Hn : pow2cap 64 n.
Notation csI := (csI 64 true n a S0).

(** A lookup that answered true: the key is stored. *)
Lemma done_found s cl tr t k p : csI (mkc s cl) tr -> nth_error cl t = Some (LRet (SContains k) (RB true) p) -> stored s k.
Proof.
  intros [_ [_ [_ [_ [[S [HL HS]] [Ht _]]]]]] Et. cbn [c_sh c_loc] in *. destruct (thr_get _ _ _ _ _ _ Ht Et) as [_ Hs]. cbn [stg] in Hs.
  pose proof (tstage_lin _ _ _ Hs _ _ eq_refl) as Hi. apply in_split in Hi. destruct Hi as [l1 [l2 E]]. rewrite E in HL.
  destruct (legal_app _ _ _ _ _ HL) as [T [HT1 HT2]]. inversion HT1 as [|? T0 ? ? ? L1 C1]; subst. cbn [csspec] in C1. destruct C1 as [C1 C2].
  apply HS. eapply csspec_mono; [exact HT2|]. rewrite C2. congruence.
Qed.

(** The answer fixed by a step, in terms of the keys stored before it. *)
Lemma lin_answer s cl tr t c s' c' evs o b : csI (mkc s cl) tr -> nth_error cl t = Some c -> cs_step 64 true s c = Step s' c' evs ->
  stg c = Called o -> stg c' = Done o (RB b) ->
  match o with SContains k => b = true <-> stored s k | SInsert k | SPut k => b = false <-> stored s k end.
Proof.
  intros HI Et E Hc Hc'. pose proof (cs_inv_step 64 w64 true n a Hn S0 (mkc s cl) tr t c s' c' evs HI Et E) as HI'.
  destruct HI as [_ [_ [_ [_ [[S [HL HS]] [Ht _]]]]]]. destruct HI' as [_ [_ [_ [_ [[S' [HL' HS']] [Ht' _]]]]]]. cbn [c_sh c_loc] in *.
  assert (Ev : evs = [Lin o (RB b)]).
  { destruct c as [p|o0 p|o0 i cols p|o0 i cols p|o0 p|o0 r p]; cbn [stg] in Hc; try discriminate; injection Hc as ->; cbn [cs_step] in E.
    - destruct (_ && _); [injection E as <- <- <-; cbn in Hc'; congruence|]. unfold cs_head in E. destruct (_ && _); injection E as <- <- <-; cbn in Hc'; congruence.
    - destruct (nth_error _ _) as [x|]; [|discriminate]. unfold cs_next, cs_head in E. destruct o; repeat (destruct (_ && _) in E || destruct (x =? _)%N in E; cbn [negb] in E);
        try (injection E as <- <- <-; cbn in Hc'; congruence); destruct (negb _); injection E as <- <- <-; cbn in Hc'; congruence.
    - destruct (nth_error _ _) as [x|]; [|discriminate]. unfold cs_next, cs_head in E. destruct (x =? 0)%N; [injection E as <- <- <-; cbn in Hc'; congruence|].
      destruct (x =? cs_key o)%N; [injection E as <- <- <-; cbn in Hc'; congruence|]. destruct (_ && _); injection E as <- <- <-; cbn in Hc'; congruence. }
  subst evs. cbn [map app lins] in HL'. inversion HL' as [|? T ? ? ? L1 C1]; subst. pose proof (csspec_det _ _ _ _ _ HL L1) as D.
  destruct o as [k|k|k]; cbn [csspec] in C1.
  - destruct C1 as [[C1 _]|[C1 _]]; [discriminate|]. injection C1 as ->. rewrite <- D. unfold stored. rewrite <- HS. destruct (S k); cbn; split; congruence.
  - destruct C1 as [C1 _]. injection C1 as ->. rewrite <- D. unfold stored. rewrite <- HS. destruct (S k); cbn; split; congruence.
  - destruct C1 as [C1 _]. injection C1 as ->. rewrite <- D. unfold stored. rewrite <- HS. destruct (S k); cbn; split; congruence.
Qed.

Lemma cas_puts s cl tr t o i cols p : csI (mkc s cl) tr -> nth_error cl t = Some (LCas o i cols p) -> puts o.
Proof. intros [_ [_ [_ [_ [_ [Ht _]]]]]] Et. cbn [c_loc] in *. destruct (thr_get _ _ _ _ _ _ Ht Et) as [Hok _]. cbn [loc_ok] in Hok. tauto. Qed.
End CS.

Section M.
Variable mult : nat -> N.
Notation g_step := (g_step mult).

Lemma call_step sh l sh' l' evs : g_step sh l = Step sh' l' evs ->
  in_call l' = None \/ in_call l' = in_call l \/ exists o, evs = [Call o] /\ in_call l' = Some o.
Proof.
  intros E. unfold GrowModel.g_step in E. destruct (nth_error (g_tabs sh) (h_tab l)) as [tb|] eqn:Eh; [|discriminate].
  destruct l as [ep ht pc prog]. unfold in_call. destruct pc; cbn [l_pc h_ep h_tab l_prog] in *; try (injection E as <- <- <-; cbn; auto; fail).
  - gcases E. right. right. eauto.
  - injection E as <- <- <-. cbn [set_pc l_pc]. right. left. destruct o; cbn [check h_ep]; try destruct (_ <? _); reflexivity.
  - destruct (_ =? _); injection E as <- <- <-; cbn [l_pc]; [|auto]. destruct k; cbn [after]; try destruct (_ <? _); cbn; auto.
  - gcases E; auto.
  - gcases E; auto.
  - injection E as <- <- <-. cbn [set_pc l_pc]. destruct (_ <? _); auto.
  - gcases E; unfold next_cell; try destruct (_ <? _); auto.
  - gcases E; unfold next_cell; try destruct (_ <? _); auto.
  - injection E as <- <- <-. cbn [set_pc l_pc]. destruct (_ =? _); auto.
Qed.

Lemma new_empty size a k : ~ stored (cs_new size a) k.
Proof. unfold stored, cs_new, alloc. cbn [s_arr]. intros [H1 H2]. apply repeat_spec in H1. congruence. Qed.

(** A key new in a table: put there by an insert, or copied. *)
Lemma fresh_key c t l sh' l' evs v tb' k : gI c -> nth_error (c_loc c) t = Some l -> g_step (c_sh c) l = Step sh' l' evs ->
  nth_error (g_tabs sh') v = Some tb' -> stored (t_set tb') k ->
  in_tab (c_sh c) v k \/ (exists cl cl', l_pc l = POp (GInsert k) cl /\ l_pc l' = POp (GInsert k) cl' /\ stg cl' = Done (SInsert k) (RB true)) \/
  (moving l = true /\ in_tab (c_sh c) (h_tab l) k).
Proof.
  intros HI Et E Ev Hs. pose proof HI as [[HA Hl] [HS [HT [HM _]]]]. pose proof (nth_error_In _ _ Et) as Hin. pose proof (Hl l Hin) as Hla. destruct (HS l Hin) as [Hls _].
  pose proof (g_tact mult _ _ _ _ _ HA Hla Hls E v tb' Ev) as T.
  destruct T as [tb H1 H2 H3 H4|tb o H1 -> H3 H4 H5|tb ev H1 H2 H3|tb k0 H1 H2 H3 H4 H5 H6].
  - left. exists tb. split; [exact H1|congruence].
  - left. exists tb. auto.
  - destruct (cs_step_arr _ _ _ _ _ _ _ H3) as [_ [_ Hc]]. destruct (Hc k Hs) as [Hs'|[o [i [cols [p [Ec [Ec' Ek]]]]]]]; [left; exists tb; auto|].
    destruct (HT v tb H1) as [n [a [S0 [tr [Hn [_ HcI]]]]]]. pose proof (map_nth_error (proj v) t _ Et) as Em. rewrite Ec in Em.
    pose proof (cas_puts n a S0 _ _ _ _ _ _ _ _ HcI Em) as Hput.
    destruct (l_pc l) eqn:Ep; try (unfold proj in Ec; rewrite Ep in Ec; discriminate).
    + assert (Ehv : h_tab l = v /\ c0 = LCas o i cols p) by (unfold proj in Ec; rewrite Ep in Ec; destruct (Nat.eqb_spec (h_tab l) v); [auto|discriminate]).
      destruct Ehv as [Ehv ->]. destruct Hls as [_ Hls]. rewrite Ep in Hls. destruct Hls as [_ [_ [Hcur _]]]. cbn [cur] in Hcur.
      destruct o0 as [|j|j]; cbn [tab_op] in Hcur; try discriminate; injection Hcur as -> ->; [|destruct Hput]. cbn [cs_key] in Ek. subst j.
      right. left. unfold GrowModel.g_step in E. rewrite Ep, Ehv, H1 in E. cbn [op_done] in E.
      destruct (cs_step 64 true (t_set tb) (LCas (SInsert k) i cols [])) as [s' c1 ev'| |] eqn:Es; try discriminate. injection E as <- <- <-.
      assert (Ec1 : c1 = LCount (SInsert k) []) by (unfold proj in Ec'; cbn [set_pc l_pc h_tab] in Ec'; rewrite Ehv, Nat.eqb_refl in Ec'; exact Ec').
      subst c1. cbn [set_pc l_pc]. exists (LCas (SInsert k) i cols []), (LCount (SInsert k) []). auto.
    + assert (Ehv : c0 = LCas o i cols p) by (unfold proj in Ec; rewrite Ep in Ec; destruct (Nat.eqb_spec w v); [auto|discriminate]).
      subst c0. right. right. split; [unfold moving; now rewrite Ep|]. pose proof (HM l Hin) as Q. unfold lM in Q. rewrite Ep in Q.
      pose proof (lA_tab mult _ _ HA Hla) as Ht. destruct (nth_error (g_tabs (c_sh c)) (h_tab l)) as [tb1|] eqn:E1; [|apply nth_error_None in E1; destruct HA; lia].
      destruct (Q tb1 eq_refl) as [_ [x [Q1 [Q2 [Q3 _]]]]]. cbn [cur] in Q3. injection Q3 as -> ->. cbn [cs_key] in Ek. subst x.
      exists tb1. split; [exact E1|]. split; [eapply nth_error_In; exact Q1|exact Q2].
  - exfalso. subst tb'. cbn [t_set] in Hs. now apply new_empty in Hs.
Qed.

(** *** Origin of the keys *)
Definition gO (s : lpset) (c : config gsh gloc) (tr : list (nat * gev)) : Prop :=
  (forall v k, in_tab (c_sh c) v k -> known s tr k) /\
  (forall l k, In l (c_loc c) -> in_call l = Some (GInsert k) -> exists t, In (t, Call (GInsert k)) tr).

Lemma known_app s tr tr' k : known s tr k -> known s (tr' ++ tr) k.
Proof. intros [H|[t H]]; [now left|]. right. exists t. apply in_or_app. now right. Qed.

Lemma gO_step s c tr t l sh' l' evs : gI c -> gO s c tr -> nth_error (c_loc c) t = Some l -> g_step (c_sh c) l = Step sh' l' evs ->
  gO s (mkc sh' (upd (c_loc c) t l')) (map (fun e => (t, e)) evs ++ tr).
Proof.
  intros HI [O1 O2] Et E. pose proof (nth_error_In _ _ Et) as Hin. split; cbn [c_sh c_loc].
  - intros v k [tb' [Ev Hs]]. apply known_app. destruct (fresh_key _ _ _ _ _ _ _ _ _ HI Et E Ev Hs) as [H|[[cl [cl' [Ep _]]]|[_ H]]]; [eauto| |eauto].
    right. apply (O2 l); [exact Hin|]. unfold in_call. now rewrite Ep.
  - intros x k Hx Hc. destruct (upd_In _ _ _ _ Hx) as [->|Hx'].
    + destruct (call_step _ _ _ _ _ E) as [H|[H|[o [-> H]]]].
      * congruence.
      * rewrite H in Hc. destruct (O2 l k Hin Hc) as [u Hu]. exists u. apply in_or_app. now right.
      * rewrite Hc in H. injection H as <-. exists t. now left.
    + destruct (O2 x k Hx' Hc) as [u Hu]. exists u. apply in_or_app. now right.
Qed.
Lemma gO_start s progs : gO s (g_start s progs) [].
Proof.
  split; cbn [g_start c_sh c_loc].
  - intros v k [tb [Ev Hs]]. cbn [g_tabs] in Ev. destruct v as [|[|v]]; cbn in Ev; try discriminate. injection Ev as <-. now left.
  - intros l k Hl Hc. apply in_map_iff in Hl. destruct Hl as [p [<- _]]. discriminate.
Qed.
Lemma gO_inv s progs c tr : g_init s -> gkeys_nz progs -> exec g_step (g_start s progs) c tr -> gO s c tr.
Proof.
  intros Hs Hp He. pose proof (gI_start s progs Hs Hp) as HI. induction He as [|c tr t l sh' l' evs He IH Et E]; [apply gO_start|].
  apply (gO_step s c tr t l); auto. eapply gI_inv; eauto.
Qed.

Lemma contains_return c t l sh' l' evs k : gI c -> nth_error (c_loc c) t = Some l -> g_step (c_sh c) l = Step sh' l' evs ->
  In (Return (GContains k) (RB true)) evs -> in_tab (c_sh c) (h_tab l) k.
Proof.
  intros HI Et E Hr. pose proof HI as [[HA Hl] [HS [HT _]]]. pose proof (nth_error_In _ _ Et) as Hin. destruct (HS l Hin) as [[_ Hls] _].
  unfold GrowModel.g_step in E. destruct (nth_error (g_tabs (c_sh c)) (h_tab l)) as [tb0|] eqn:Eh; [|discriminate].
  destruct l as [ep ht pc prog]. destruct pc; cbn [l_pc h_ep h_tab l_prog] in *; try (gcases E; cbn [In] in Hr; try contradiction; destruct Hr as [Hr|[]]; discriminate).
  - destruct (_ =? _); injection E as <- <- <-; [|contradiction]. destruct k0; cbn in Hr; try contradiction. destruct Hr as [Hr|[]]; discriminate.
  - destruct Hls as [Ho [Hr' Hs]]. destruct (op_done c0) as [[|b0]|] eqn:Ed.
    + destruct o; try discriminate. injection E as <- <- <-. contradiction.
    + injection E as <- <- <-. destruct Hr as [Hr|[]]. injection Hr as -> ->. exists tb0. split; [exact Eh|].
      destruct (op_done_ret _ _ _ Hs Ed) as [o [Ho' ->]]. cbn in Ho'. injection Ho' as <-.
      destruct (HT ht tb0 Eh) as [n [a [S0 [tr [Hn [_ HcI]]]]]]. pose proof (map_nth_error (proj ht) t _ Et) as Em.
      unfold proj in Em at 2. cbn in Em. rewrite Nat.eqb_refl in Em. exact (done_found n a S0 _ _ _ _ _ _ HcI Em).
    + gcases E. contradiction.
Qed.
Lemma found_known s progs c tr t k : g_init s -> gkeys_nz progs -> exec g_step (g_start s progs) c tr ->
  In (t, Return (GContains k) (RB true)) tr -> known s tr k.
Proof.
  intros Hs Hp He. pose proof (gI_start s progs Hs Hp) as HI. induction He as [|c tr u l sh' l' evs He IH Et E]; [intros []|].
  intros H. apply known_app. apply in_app_or in H. destruct H as [H|H]; [|auto]. apply in_map_iff in H. destruct H as [e [Ee Hi]]. injection Ee as -> ->.
  destruct (gO_inv s progs c tr Hs Hp He) as [O1 _]. eapply O1. eapply contains_return; [eapply gI_inv; eauto|exact Et|exact E|exact Hi].
Qed.

(** *** Calls that do not overlap *)
Fixpoint seq_ok (s : lpset) (tr : list (nat * gev)) : Prop :=
  match tr with
  | [] => True
  | (_, Return (GInsert k) r) :: tr1 => r = RB (negb (content s tr1 k)) /\ seq_ok s tr1
  | (_, Return (GContains k) r) :: tr1 => r = RB (content s tr1 k) /\ seq_ok s tr1
  | _ :: tr1 => seq_ok s tr1
  end.

Definition lJ (s : lpset) (tr : list (nat * gev)) (sh : gsh) (l : gloc) : Prop :=
  match l_pc l with
  | POp o c => h_tab l = g_er sh /\
      match o, stg c with
      | GInsert k, Done _ (RB b) => b = negb (content s tr k)
      | GContains k, Done _ (RB b) => b = content s tr k
      | _, _ => True
      end
  | PLock1 _ => h_tab l = g_er sh
  | _ => growing l = true -> h_tab l = g_er sh
  end.
Definition gJ (s : lpset) (c : config gsh gloc) (tr : list (nat * gev)) : Prop :=
  (forall k, content s tr k = true -> k <> 0%N /\ skey c (g_er (c_sh c)) k) /\
  (forall v k, g_er (c_sh c) <= v -> in_tab (c_sh c) v k ->
     content s tr k = true \/ exists u l cl, nth_error (c_loc c) u = Some l /\ l_pc l = POp (GInsert k) cl /\ stg cl = Done (SInsert k) (RB true)) /\
  (forall l, In l (c_loc c) -> lJ s tr (c_sh c) l) /\ seq_ok s tr.

Lemma skey_weaken c e0 e1 k : skey c e0 k -> e0 <= e1 <= g_er (c_sh c) -> skey c e1 k.
Proof. intros [H1 [H2 H3]] He. split; [lia|]. split; [|exact H3]. intros v tb Hv. apply H2. lia. Qed.

Definition ins_ret (e : gev) : Prop := match e with Return (GInsert _) _ => True | _ => False end.
Lemma content_same s tr t evs k : (forall e, In e evs -> ~ ins_ret e) -> content s (map (fun e => (t, e)) evs ++ tr) k = content s tr k.
Proof.
  intros H. unfold content. rewrite existsb_app. f_equal. replace (existsb (is_ins k) (map (fun e => (t, e)) evs)) with false; [reflexivity|]. symmetry.
  induction evs as [|e evs IH]; [reflexivity|]. cbn [map existsb]. rewrite IH by (intros x Hx; apply H; now right). rewrite orb_false_r.
  specialize (H e ltac:(now left)). unfold is_ins. cbn [snd]. destruct e as [o|[|j|j] r]; try reflexivity. now destruct H.
Qed.

(** A thread in a call that is not growing the table has the table to itself. *)
Lemma apart_quiet c t l : gI c -> apart c -> nth_error (c_loc c) t = Some l -> l_pc l <> PIdle -> growing l = false ->
  g_tw (c_sh c) = g_er (c_sh c) /\ g_tr (c_sh c) = g_er (c_sh c).
Proof.
  intros [[HA _] [_ [_ [_ [_ [_ [HF _]]]]]]] Ha Et Hp Hg. unfold shA in HA. destruct (Nat.eq_dec (g_tw (c_sh c)) (S (g_er (c_sh c)))) as [E|]; [|lia].
  destruct (HF E) as [x [X1 [X2 _]]]. destruct (In_nth_error _ _ X1) as [u Eu].
  assert (t = u). { eapply Ha; eauto. intros P. unfold growing in X2. rewrite P in X2. discriminate. } subst u. congruence.
Qed.

Lemma stored_content s c tr t l o cl tb : gI c -> apart c -> gJ s c tr -> nth_error (c_loc c) t = Some l -> l_pc l = POp o cl ->
  (forall k, stg cl <> Done (SInsert k) (RB true)) -> nth_error (g_tabs (c_sh c)) (g_er (c_sh c)) = Some tb ->
  forall k, stored (t_set tb) k <-> content s tr k = true.
Proof.
  intros HI Ha [J1 [J2 _]] Et Ep Hst Etb k. split.
  - intros Hs. destruct (J2 (g_er (c_sh c)) k (le_n _)) as [H|[u [x [cx [X1 [X2 X3]]]]]]; [exists tb; auto|exact H|].
    assert (t = u). { eapply Ha; eauto; congruence. } subst u. assert (x = l) by congruence. subst x. rewrite Ep in X2. injection X2 as _ ->. now destruct (Hst k).
  - intros Hc. destruct (J1 k Hc) as [_ [_ [K _]]]. eapply K; [|exact Etb]. lia.
Qed.

Lemma gJ_step s c tr t l sh' l' evs : gI c -> apart c -> gJ s c tr -> nth_error (c_loc c) t = Some l -> g_step (c_sh c) l = Step sh' l' evs ->
  apart (mkc sh' (upd (c_loc c) t l')) -> gJ s (mkc sh' (upd (c_loc c) t l')) (map (fun e => (t, e)) evs ++ tr).
Proof.
  intros HI Ha HJ Et E Ha'. pose proof HJ as [J1 [J2 [J3 J4]]]. pose proof HI as [[HA Hl] [HS [HT [HM _]]]]. pose proof (nth_error_In _ _ Et) as Hin.
  pose proof (Hl l Hin) as Hla. destruct (HS l Hin) as [Hls Hls2]. pose proof (J3 l Hin) as Hlj.
  destruct (gA_step mult _ _ _ _ _ _ _ HA Hla Et E) as [HA' [Hle Hla']].
  set (tr' := map (fun e => (t, e)) evs ++ tr). unfold gJ. cbn [c_sh c_loc].
  assert (Hup : nth_error (upd (c_loc c) t l') t = Some l') by (apply nth_error_upd_eq; eapply nth_error_lt; exact Et).
  (* the other threads are between calls, or the step is a call *)
  assert (Oth : forall u x, u <> t -> nth_error (c_loc c) u = Some x -> l_pc x = PIdle \/ l_pc l = PIdle).
  { intros u x Hu Eu. destruct (l_pc x) eqn:Ex; auto; right; destruct (l_pc l) eqn:El; auto; exfalso; apply Hu; eapply Ha; eauto; congruence. }
  assert (CaseI : (exists k b, evs = [Return (GInsert k) (RB b)]) \/ (forall e, In e evs -> ~ ins_ret e)).
  { clear - E. unfold GrowModel.g_step in E. destruct (nth_error (g_tabs (c_sh c)) (h_tab l)) as [tb|]; [|discriminate].
    assert (Hnil : forall e : gev, In e [] -> ~ ins_ret e) by (intros e []).
    destruct (l_pc l); try (gcases E; right; exact Hnil).
    - gcases E. right. intros e [<-|[]] H. exact H.
    - destruct (_ =? _); injection E as <- <- <-; [|right; exact Hnil]. right. destruct k; cbn [after_ev]; try exact Hnil. intros e [<-|[]] H. exact H.
    - destruct (op_done c0) as [[|b]|].
      + destruct o; try discriminate. injection E as <- <- <-. right. exact Hnil.
      + injection E as <- <- <-. destruct o as [|k|k]; [right|left; eauto|right]; intros e [<-|[]] H; exact H.
      + gcases E. right. exact Hnil. }
  destruct CaseI as [[k0 [b0 Eev]]|Hni].
  - (* an insert returns *)
    assert (Hr : In (Return (GInsert k0) (RB b0)) evs) by (rewrite Eev; now left).
    destruct (insert_return mult _ _ _ _ _ _ _ _ HI Et E Hr) as [_ [Esh [_ Ep']]].
    assert (Hpc : exists cl, l_pc l = POp (GInsert k0) cl /\ op_done cl = Some (RB b0)).
    { clear - E Hr. unfold GrowModel.g_step in E. destruct (nth_error (g_tabs (c_sh c)) (h_tab l)) as [tb|]; [|discriminate].
      destruct (l_pc l); try (gcases E; cbn [In] in Hr; try contradiction; destruct Hr as [Hr|[]]; discriminate).
      - destruct (_ =? _); injection E as <- <- <-; [|contradiction]. destruct k; cbn in Hr; try contradiction. destruct Hr as [Hr|[]]; discriminate.
      - destruct (op_done c0) as [[|b]|] eqn:Ed.
        + destruct o; try discriminate. injection E as <- <- <-. contradiction.
        + injection E as <- <- <-. destruct Hr as [Hr|[]]. injection Hr as -> ->. eauto.
        + gcases E. contradiction. }
    destruct Hpc as [cl [Ep Ed]].
    assert (Hq : g_tw (c_sh c) = g_er (c_sh c)) by (eapply apart_quiet; eauto; [congruence|unfold growing; now rewrite Ep]).
    assert (Hlj' : h_tab l = g_er (c_sh c) /\ b0 = negb (content s tr k0)).
    { unfold lJ in Hlj. rewrite Ep in Hlj. destruct Hlj as [A B]. split; [exact A|]. destruct cl; cbn in Ed; try discriminate. injection Ed as ->. exact B. }
    destruct Hlj' as [Hht Hb]. pose proof (insert_settles mult _ _ _ _ _ _ _ _ HI Et E Hr ltac:(congruence)) as Hset.
    assert (Hk0 : k0 <> 0%N) by (destruct Hls as [_ Hls]; rewrite Ep in Hls; apply Hls).
    assert (Ec : forall k, content s tr' k = ((k0 =? k)%N || content s tr k)).
    { intros k. unfold tr', content. rewrite Eev. cbn [map app existsb is_ins snd]. destruct (k0 =? k)%N, (memb s k); reflexivity. }
    split; [|split; [|split]].
    + intros k Hk. rewrite Ec in Hk. destruct (N.eqb_spec k0 k) as [Hq0|Hne].
      * rewrite <- Hq0. split; [exact Hk0|]. exact (settled_skey mult (mkc sh' (upd (c_loc c) t l')) k0 Hset).
      * cbn [orb] in Hk. destruct (J1 k Hk) as [Hk' HK]. split; [exact Hk'|]. replace (g_er sh') with (g_er (c_sh c)) by now rewrite Esh. eapply skey_step; eauto.
    + intros v k Hv Hin'. rewrite Ec. rewrite Esh in Hv, Hin'. destruct (J2 v k Hv Hin') as [H|[u [x [cx [X1 [X2 X3]]]]]]; [left; rewrite H; apply orb_true_r|].
      assert (u = t) by (eapply Ha; eauto; congruence). subst u. assert (x = l) by congruence. subst x. rewrite Ep in X2. injection X2 as -> _. left. now rewrite N.eqb_refl.
    + intros x Hx. destruct (In_nth_error _ _ Hx) as [u Eu]. destruct (Nat.eq_dec u t) as [->|Hne].
      * assert (x = l') by congruence. subst x. unfold lJ, growing. rewrite Ep'. discriminate.
      * rewrite nth_error_upd_neq in Eu by congruence. destruct (Oth u x Hne Eu) as [P|P]; [|congruence]. unfold lJ, growing. rewrite P. discriminate.
    + unfold tr'. rewrite Eev. cbn [map app seq_ok]. split; [now rewrite Hb|exact J4].
  - (* no insert returns *)
    assert (Ec : forall k, content s tr' k = content s tr k) by (intros k; now apply content_same).
    assert (Key : forall k, content s tr' k = true -> k <> 0%N /\ skey (mkc sh' (upd (c_loc c) t l')) (g_er sh') k).
    { intros k Hk. rewrite Ec in Hk. destruct (J1 k Hk) as [Hk' HK]. split; [exact Hk'|]. pose proof (skey_step mult _ _ _ _ _ _ _ _ HI HK Hk' Et E) as K'.
      eapply skey_weaken; [exact K'|]. cbn [c_sh]. destruct Hle. lia. }
    split; [exact Key|]. split; [|split].
    + intros v k Hv [tb' [Ev Hs]]. rewrite Ec.
      assert (Before : forall v', g_er (c_sh c) <= v' -> in_tab (c_sh c) v' k -> content s tr k = true \/ exists u l0 cl, nth_error (upd (c_loc c) t l') u = Some l0 /\ l_pc l0 = POp (GInsert k) cl /\ stg cl = Done (SInsert k) (RB true)).
      { intros v' Hv' Hi. destruct (J2 v' k Hv' Hi) as [H|[u [x [cx [X1 [X2 X3]]]]]]; [now left|]. right. destruct (Nat.eq_dec u t) as [->|Hne].
        - assert (x = l) by congruence. subst x. unfold GrowModel.g_step in E. destruct (nth_error (g_tabs (c_sh c)) (h_tab l)) as [tb|]; [|discriminate]. rewrite X2 in E.
          destruct cx; cbn [stg] in X3; try discriminate; injection X3 as ->.
          + cbn [op_done cs_step] in E. injection E as <- <- <-. exists t, (set_pc l (POp (GInsert k) (LRet (SInsert k) (RB true) p))), (LRet (SInsert k) (RB true) p). split; [exact Hup|]. split; reflexivity.
          + subst r. cbn [op_done] in E. injection E as <- <- <-. exfalso. eapply Hni; [now left|exact I].
        - exists u, x, cx. split; [rewrite nth_error_upd_neq by congruence; exact X1|auto]. }
      assert (Hv0 : g_er (c_sh c) <= v) by (destruct Hle; lia).
      destruct (fresh_key _ _ _ _ _ _ _ _ _ HI Et E Ev Hs) as [H|[[cl [cl' [Ep [Ep' Hst]]]]|[Hm H]]].
      * eauto.
      * right. exists t, l', cl'. auto.
      * apply (Before (h_tab l)); [|exact H]. assert (Hg : growing l = true) by (unfold moving in Hm; unfold growing; destruct (l_pc l); auto; discriminate).
        unfold lJ in Hlj. unfold moving in Hm. destruct (l_pc l); try discriminate; rewrite (Hlj Hg); lia.
    + intros x Hx. destruct (In_nth_error _ _ Hx) as [u Eu]. destruct (Nat.eq_dec u t) as [->|Hne].
      2:{ rewrite nth_error_upd_neq in Eu by congruence. destruct (Oth u x Hne Eu) as [P|P]; [unfold lJ, growing; rewrite P; discriminate|].
          assert (Psh : sh' = c_sh c /\ l_pc l' <> PIdle).
          { unfold GrowModel.g_step in E. destruct (nth_error (g_tabs (c_sh c)) (h_tab l)) as [tb|]; [|discriminate]. rewrite P in E. destruct (l_prog l); [discriminate|]. injection E as <- <- <-. split; [reflexivity|discriminate]. }
          destruct Psh as [_ Pn]. destruct (l_pc x) eqn:Px; try (unfold lJ, growing; rewrite Px; discriminate); exfalso; apply Hne; (eapply Ha'; cbn [c_loc];
            [rewrite nth_error_upd_neq by congruence; exact Eu|exact Hup|congruence|exact Pn]). }
      assert (x = l') by congruence. subst x.
      assert (Quiet : growing l = false -> l_pc l <> PIdle -> g_tw (c_sh c) = g_er (c_sh c) /\ g_tr (c_sh c) = g_er (c_sh c)) by (intros; eapply apart_quiet; eauto).
      pose proof E as E0. unfold GrowModel.g_step in E. destruct (nth_error (g_tabs (c_sh c)) (h_tab l)) as [tb|] eqn:Eh; [|discriminate].
      destruct l as [ep ht pc prog]. unfold lA, shA in *. destruct pc; cbn [l_pc h_ep h_tab l_prog] in *.
      * gcases E. unfold lJ, growing. cbn. discriminate.
      * injection E as <- <- <-. unfold lJ, growing. destruct (Quiet eq_refl ltac:(discriminate)) as [Q1 Q2].
        destruct o as [|k|k]; cbn [check set_pc l_pc h_ep h_tab]; [discriminate| |].
        -- destruct (Nat.ltb_spec ep (g_ew (c_sh c))); [discriminate|]. unfold start_op. cbn [stg tab_op]. split; [lia|exact I].
        -- destruct (Nat.ltb_spec ep (g_er (c_sh c))); [discriminate|]. unfold start_op. cbn [stg tab_op]. split; [lia|exact I].
      * injection E as <- <- <-. unfold lJ, growing. cbn. discriminate.
      * destruct (Quiet eq_refl ltac:(discriminate)) as [Q1 Q2]. destruct (_ =? _); injection E as <- <- <-; [|unfold lJ, growing; cbn; discriminate].
        unfold lJ, growing. cbn [l_pc h_tab]. destruct k as [|o te|o|o]; cbn [after]; try discriminate.
        -- destruct (ep <? te); [exact Q2|]. unfold start_op. destruct o; cbn; auto.
        -- unfold start_op. destruct o; cbn; auto.
      * destruct (Quiet eq_refl ltac:(discriminate)) as [Q1 Q2]. destruct Hls as [_ [Ho [Hr Hs]]]. unfold lJ in Hlj. cbn [l_pc h_tab] in Hlj. destruct Hlj as [Hht Hlj].
        destruct (op_done c0) as [[|b]|] eqn:Ed.
        -- destruct o; try discriminate. injection E as <- <- <-. exact Hht.
        -- injection E as <- <- <-. unfold lJ, growing. cbn. discriminate.
        -- destruct (cs_step 64 true (t_set tb) c0) as [s' c' ev| |] eqn:Es; try discriminate. injection E as <- <- <-. unfold lJ. cbn [set_pc l_pc h_tab set_tab g_er].
           split; [exact Hht|]. rewrite Hht in Eh.
           assert (Hstg : forall k, stg c0 <> Done (SInsert k) (RB true) -> True) by auto. clear Hstg.
           destruct (HT _ tb Eh) as [n [a [S0 [trt [Hn [_ HcI]]]]]]. pose proof (map_nth_error (proj (g_er (c_sh c))) t _ Et) as Em.
           unfold proj in Em at 2. cbn in Em. rewrite Hht, Nat.eqb_refl in Em.
           assert (Lin : forall co b, stg c0 = Called co -> stg c' = Done co (RB b) ->
              match co with SContains k => b = true <-> content s tr k = true | SInsert k | SPut k => b = false <-> content s tr k = true end).
           { intros co b H1 H2. pose proof (lin_answer n a S0 Hn _ _ _ _ _ _ _ _ _ _ HcI Em Es H1 H2) as L.
             assert (SC : forall k, stored (t_set tb) k <-> content s tr k = true) by (eapply stored_content; eauto; [reflexivity|rewrite H1; discriminate]).
             destruct co; rewrite <- SC; exact L. }
           (* how the stage changes *)
           assert (St : (forall d r, stg c' <> Done d r) \/ (exists d r, stg c' = Done d r /\ stg c0 = Done d r) \/ exists d r, stg c' = Done d r /\ stg c0 = Called d /\ tab_op o = [d]).
           { destruct Hs as [Hcur _]. clear - Es Hcur Ed. destruct c0 as [p|o0 p|o0 i cols p|o0 i cols p|o0 p|o0 r p]; cbn [cs_step cur op_done] in *; try discriminate.
             - destruct p; [discriminate|]. injection Es as <- <- <-. left. discriminate.
             - destruct (_ && _); [injection Es as <- <- <-; right; right; exists o0, RFull; destruct o; cbn in *; try discriminate; injection Hcur as -> ->; auto|].
               unfold cs_head in Es. destruct (_ && _); injection Es as <- <- <-; [right; right; exists o0, RFull; destruct o; cbn in *; try discriminate; injection Hcur as -> ->; auto|left; discriminate].
             - assert (Tl : tab_op o = [o0]) by (destruct o; cbn in *; try discriminate; injection Hcur as -> ->; auto).
               destruct (nth_error _ _) as [x|]; [|discriminate]. unfold cs_next, cs_head in Es.
               destruct o0; repeat (destruct (x =? _)%N; cbn [negb] in Es); try destruct (_ && _); injection Es as <- <- <-; try (left; discriminate); right; right; do 2 eexists; repeat split; auto.
             - assert (Tl : tab_op o = [o0]) by (destruct o; cbn in *; try discriminate; injection Hcur as -> ->; auto).
               destruct (nth_error _ _) as [x|]; [|discriminate]. unfold cs_next, cs_head in Es. repeat (destruct (x =? _)%N; cbn [negb] in Es); try destruct (_ && _); injection Es as <- <- <-; try (left; discriminate); right; right; do 2 eexists; repeat split; auto.
             - injection Es as <- <- <-. right. left. do 2 eexists. split; reflexivity. }
           destruct St as [St|[[d [r [D1 D2]]]|[d [r [D1 [D2 D3]]]]]].
           ++ destruct o; destruct (stg c') eqn:Est; auto; exfalso; eapply St; reflexivity.
           ++ rewrite D1. rewrite D2 in Hlj. destruct o, r; auto; rewrite Ec; exact Hlj.
           ++ rewrite D1. destruct o as [|k|k]; [exact I| |]; cbn [tab_op] in D3; injection D3 as <-; (destruct r as [|b]; [exact I|]); rewrite Ec;
                pose proof (Lin _ _ D2 D1) as L; cbn in L; destruct b, (content s tr k); cbn; try reflexivity; destruct L as [L1 L2]; try (now rewrite (L1 eq_refl)); try (now specialize (L2 eq_refl)); try (now specialize (L1 eq_refl)).
      * unfold lJ in Hlj. cbn [l_pc h_tab] in Hlj. gcases E; unfold lJ; cbn; auto.
      * injection E as <- <- <-. unfold lJ in *. cbn [set_pc l_pc h_tab growing] in *. destruct (_ =? _); cbn [g_er]; auto.
      * injection E as <- <- <-. unfold lJ in *. cbn [set_pc l_pc h_tab growing g_er] in *. auto.
      * injection E as <- <- <-. unfold lJ in *. cbn [set_pc l_pc h_tab growing g_er set_tab] in *. destruct (_ <? _); auto.
      * destruct (nth_error (s_arr (t_set tb)) i); [|discriminate]. injection E as <- <- <-. unfold lJ in *. cbn [set_pc l_pc h_tab growing g_er] in *. unfold next_cell. destruct (_ =? _)%N; [destruct (_ <? _)|]; auto.
      * destruct (op_done c0); [injection E as <- <- <-; unfold lJ in *; cbn [set_pc l_pc h_tab growing g_er] in *; unfold next_cell; destruct (_ <? _); auto|].
        gcases E. unfold lJ in *. cbn [set_pc l_pc h_tab growing g_er set_tab] in *. auto.
      * injection E as <- <- <-. unfold lJ in *. cbn [set_pc l_pc h_tab growing g_er] in *. auto.
      * injection E as <- <- <-. unfold lJ in *. cbn [set_pc l_pc h_tab growing g_er] in *. destruct (_ =? _); auto.
      * injection E as <- <- <-. unfold lJ in *. cbn [set_pc l_pc h_tab growing] in *. destruct (_ <? _); cbn [g_er]; auto.
      * injection E as <- <- <-. unfold lJ, growing. cbn. discriminate.
    + (* the answers *)
      assert (Ans : forall e, In e evs -> match e with Return (GContains k) r => r = RB (content s tr k) | _ => True end).
      { intros e He. destruct e as [o|[|k|k] r]; auto. unfold GrowModel.g_step in E. destruct (nth_error (g_tabs (c_sh c)) (h_tab l)) as [tb|]; [|discriminate].
        unfold lJ in Hlj. destruct (l_pc l) eqn:Ep; try (gcases E; cbn [In] in He; try contradiction; destruct He as [He|[]]; discriminate).
        - destruct (_ =? _); injection E as <- <- <-; [|contradiction]. destruct k0; cbn in He; try contradiction. destruct He as [He|[]]; discriminate.
        - destruct Hlj as [_ Hlj]. destruct (op_done c0) as [[|b]|] eqn:Ed.
          + destruct o; try discriminate. injection E as <- <- <-. contradiction.
          + injection E as <- <- <-. destruct He as [He|[]]. injection He as -> <-. destruct c0; cbn in Ed; try discriminate. injection Ed as ->. cbn in Hlj. now rewrite Hlj.
          + gcases E. contradiction. }
      assert (One : evs = [] \/ exists e, evs = [e]).
      { clear - E. unfold GrowModel.g_step in E. destruct (nth_error (g_tabs (c_sh c)) (h_tab l)) as [tb|]; [|discriminate].
        destruct (l_pc l); try (gcases E; eauto; fail). destruct (_ =? _); injection E as <- <- <-; auto. destruct k; cbn; eauto. }
      destruct One as [->|[e ->]]; [exact J4|]. unfold tr'. cbn [map app seq_ok]. specialize (Ans e ltac:(now left)). specialize (Hni e ltac:(now left)).
      destruct e as [o|[|k|k] r]; auto. now destruct Hni.
Qed.

Lemma apart_exec_exec c0 c tr : apart_exec mult c0 c tr -> exec g_step c0 c tr.
Proof. induction 1; [constructor|]. econstructor; eauto. Qed.

Lemma gJ_inv s progs c tr : g_init s -> gkeys_nz progs -> apart_exec mult (g_start s progs) c tr -> gJ s c tr /\ apart c.
Proof.
  intros Hs Hp He. pose proof (gI_start s progs Hs Hp) as HI. induction He as [|c tr t l sh' l' evs He [IH IHa] Et E Ha].
  - split.
    + unfold gJ. cbn [g_start c_sh c_loc g_er g_tabs]. split; [|split; [|split; [|exact I]]].
      * intros k Hk. unfold content in Hk. cbn [existsb] in Hk. rewrite orb_false_r in Hk. apply memb_same in Hk. split; [apply Hk|].
        apply (settled_skey mult (g_start s progs)). split; [reflexivity|]. exists (mkt s 0). split; [reflexivity|exact Hk].
      * intros v k _ [tb [Ev Hst]]. cbn [g_tabs] in Ev. destruct v as [|[|v]]; cbn in Ev; try discriminate. injection Ev as <-. left. unfold content. cbn [existsb]. rewrite orb_false_r. now apply memb_same.
      * intros l Hl. apply in_map_iff in Hl. destruct Hl as [p [<- _]]. unfold lJ, growing. cbn. discriminate.
    + intros t u lt lu H1 _ H3. cbn [g_start c_loc] in H1. apply nth_error_In in H1. apply in_map_iff in H1. destruct H1 as [p [<- _]]. now destruct H3.
  - split; [|exact Ha]. apply (gJ_step s c tr t l); auto. eapply gI_inv; eauto using apart_exec_exec.
Qed.

(** At rest the published table holds exactly the content. *)
Lemma rest_content s progs c tr : g_init s -> gkeys_nz progs -> apart_exec mult (g_start s progs) c tr -> all_between c ->
  forall k, in_tab (c_sh c) (g_tr (c_sh c)) k <-> content s tr k = true.
Proof.
  intros Hs Hp He Hb k. pose proof (gI_inv mult _ _ _ (gI_start s progs Hs Hp) (apart_exec_exec _ _ _ He)) as HI.
  destruct (gJ_inv s progs c tr Hs Hp He) as [[J1 [J2 _]] _]. destruct (between_settled _ HI Hb) as [E1 E2]. rewrite E2. split.
  - intros H. destruct (J2 _ k (le_n _) H) as [H'|[u [x [cx [X1 [X2 _]]]]]]; [exact H'|]. rewrite (Hb x (nth_error_In _ _ X1)) in X2. discriminate.
  - intros H. destruct (J1 k H) as [_ HK]. destruct (skey_settled mult _ _ _ HI HK E1) as [_ R]. exact R.
Qed.
End M.
