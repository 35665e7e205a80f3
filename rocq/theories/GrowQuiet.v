(** Inserts during which no table is under construction, and tables of capacity zero. *)
From Verif Require Import Outcome ListUtil WordsModel WordsProofs LPSetModel ProbeTheory LPSetProofs Conc ConcProbe ConcSetModel ConcSetProofs ConcSetSpec GrowModel GrowProofs GrowTabs GrowSafe GrowKeep GrowSpec GrowSeq.
Local Open Scope nat_scope.

Section M.
Variable mult : nat -> N.
Notation g_step := (g_step mult).

Lemma exec_mono c1 c2 tr : gI c1 -> exec g_step c1 c2 tr -> g_er (c_sh c1) <= g_er (c_sh c2) /\ g_tw (c_sh c1) <= g_tw (c_sh c2).
Proof.
  intros HI He. induction He as [|c tr t l sh' l' evs He IH Et E]; [auto|]. pose proof (gI_inv mult _ _ _ HI He) as [[HA Hl] _].
  destruct (gA_step mult _ _ _ _ _ _ _ HA (Hl l (nth_error_In _ _ Et)) Et E) as [_ [Hle _]]. destruct Hle. cbn [c_sh]. lia.
Qed.

(** A thread that was between calls while table [W] was the only current one. *)
Definition lW (W : nat) (l : gloc) : Prop :=
  match l_pc l with
  | PIdle | PCheck _ => True
  | PGetE (KTest _ te) => te <= W
  | PGetT (KTest _ te) => te <= W /\ h_ep l = W
  | PGetE (KAgain _) | PGetT (KAgain _) => False
  | PGetE _ => True
  | PGetT _ => h_ep l = W
  | POp _ _ | PLock1 _ => h_tab l = W
  | _ => False
  end.

Lemma lW_step c t l sh' l' evs W : gI c -> g_er (c_sh c) = W -> g_tw (c_sh c) = W -> g_tw sh' = W ->
  nth_error (c_loc c) t = Some l -> g_step (c_sh c) l = Step sh' l' evs -> lW W l -> lW W l'.
Proof.
  intros HI H1 H2 H3 Et E HW. pose proof HI as [[HA Hl] _]. pose proof (Hl l (nth_error_In _ _ Et)) as Hla.
  unfold GrowModel.g_step in E. destruct (nth_error (g_tabs (c_sh c)) (h_tab l)) as [tb|]; [|discriminate].
  destruct l as [ep ht pc prog]. unfold lW, shA, lA in *. destruct pc; cbn [l_pc h_ep h_tab l_prog] in *; try contradiction.
  - gcases E. exact I.
  - injection E as <- <- <-. destruct o as [|k|k]; cbn [check set_pc l_pc h_ep h_tab]; [exact I| |].
    + destruct (Nat.ltb_spec ep (g_ew (c_sh c))); [lia|]. cbn. lia.
    + destruct (Nat.ltb_spec ep (g_er (c_sh c))); [exact I|]. cbn. lia.
  - injection E as <- <- <-. cbn [l_pc h_ep h_tab]. destruct k; auto.
  - destruct (Nat.eqb_spec (g_tr (c_sh c)) ep); injection E as <- <- <-; cbn [l_pc h_ep h_tab]; [|destruct k; auto; lia].
    destruct k as [|o te|o|o]; cbn [after]; auto; [|cbn; lia]. destruct HW. destruct (Nat.ltb_spec ep te); cbn; lia.
  - destruct (op_done c0) as [[|b]|].
    + destruct o; try discriminate. injection E as <- <- <-. exact HW.
    + injection E as <- <- <-. exact I.
    + destruct (cs_step 64 true (t_set tb) c0); try discriminate. injection E as <- <- <-. exact HW.
  - destruct (Nat.eqb_spec (g_tw (c_sh c)) ht); [|lia]. destruct (_ <=? _)%N; [discriminate|]. injection E as <- <- <-. cbn [g_tw] in H3. lia.
Qed.

Lemma quiet_insert c1 c tr t l sh' l' evs k b : gI c1 -> between c1 t -> g_tw (c_sh c1) = g_er (c_sh c1) -> exec g_step c1 c tr ->
  nth_error (c_loc c) t = Some l -> g_step (c_sh c) l = Step sh' l' evs -> In (Return (GInsert k) (RB b)) evs ->
  g_tw (c_sh c) = g_tw (c_sh c1) -> settled sh' k.
Proof.
  intros HI [l0 [E0 P0]] Hq He Et E Hr Hw. set (W := g_er (c_sh c1)) in *.
  assert (G : forall x, nth_error (c_loc c) t = Some x -> lW W x).
  { clear l sh' l' evs Et E Hr. induction He as [|c tr u l sh' l' evs He IH Eu E].
    - intros x Hx. assert (x = l0) by congruence. subst x. unfold lW. now rewrite P0.
    - cbn [c_sh c_loc] in *. pose proof (gI_inv mult _ _ _ HI He) as HIc. destruct (exec_mono _ _ _ HI He) as [M1 M2]. pose proof HIc as [[HA Hl] _].
      destruct (gA_step mult _ _ _ _ _ _ _ HA (Hl l (nth_error_In _ _ Eu)) Eu E) as [HA' [Hle _]]. destruct Hle.
      assert (T1 : g_tw (c_sh c) = W) by lia. assert (T2 : g_er (c_sh c) = W) by (unfold shA in HA; unfold W in *; lia).
      intros x Hx. destruct (Nat.eq_dec u t) as [->|Hne].
      + rewrite nth_error_upd_eq in Hx by (eapply nth_error_lt; exact Eu). injection Hx as <-. apply (lW_step c t l sh' l' evs W HIc T2 T1 ltac:(lia) Eu E). apply IH; [lia|exact Eu].
      + rewrite nth_error_upd_neq in Hx by congruence. apply IH; [lia|exact Hx]. }
  pose proof (gI_inv mult _ _ _ HI He) as HIc. apply (insert_settles mult _ _ _ _ _ _ _ _ HIc Et E Hr).
  specialize (G l Et). unfold GrowModel.g_step in E. destruct (nth_error (g_tabs (c_sh c)) (h_tab l)) as [tb|]; [|discriminate].
  unfold lW in G. destruct (l_pc l); try contradiction; try (gcases E; cbn [In] in Hr; try contradiction; destruct Hr as [Hr|[]]; discriminate); [|congruence].
  destruct (_ =? _); injection E as <- <- <-; [|contradiction]. destruct k0; cbn in Hr; try contradiction. destruct Hr as [Hr|[]]; discriminate.
Qed.

(** *** Tables without cells *)
Definition zero_tab (tb : gtab) : Prop := s_arr (t_set tb) = [] /\ s_items (t_set tb) = 0.
Definition no_lookup (o : gop) : Prop := match o with GContains _ => False | _ => True end.
Definition cont_nl (k : gcont) : Prop := match k with KNew => True | KTest o _ | KOp o | KAgain o => no_lookup o end.
Definition lZ (l : gloc) : Prop :=
  (forall o, In o (l_prog l) -> no_lookup o) /\
  match l_pc l with
  | PIdle => True
  | PCheck o => no_lookup o
  | POp o c => exists k, o = GInsert k /\ (c = LIdle [SInsert k] \/ c = LEntry (SInsert k) [] \/ c = LRet (SInsert k) RFull [])
  | PGetE (KTest GNew _) | PGetT (KTest GNew _) | PGetE (KOp GNew) | PGetT (KOp GNew) => False
  | PGetE k | PGetT k => cont_nl k
  | PMig _ _ _ _ | PPut _ _ _ _ _ => False
  | PLock1 (KOp GNew) | PCasW _ (KOp GNew) | PUp _ (KOp GNew) | PBlock _ (KOp GNew) | PDown _ (KOp GNew) | PSpin _ (KOp GNew) | PLock2 _ (KOp GNew) | PCasR _ (KOp GNew) => False
  | PLock1 (KTest _ _) | PCasW _ (KTest _ _) | PUp _ (KTest _ _) | PBlock _ (KTest _ _) | PDown _ (KTest _ _) | PSpin _ (KTest _ _) | PLock2 _ (KTest _ _) | PCasR _ (KTest _ _) => False
  | PLock1 k | PCasW _ k | PUp _ k | PBlock _ k | PDown _ k | PSpin _ k | PLock2 _ k | PCasR _ k => cont_nl k
  end.
Definition gZ (c : config gsh gloc) : Prop := (forall tb, In tb (g_tabs (c_sh c)) -> zero_tab tb) /\ (forall l, In l (c_loc c) -> lZ l).

Lemma gZ_step c t l sh' l' evs : gZ c -> nth_error (c_loc c) t = Some l -> g_step (c_sh c) l = Step sh' l' evs ->
  gZ (mkc sh' (upd (c_loc c) t l')) /\ forall k r, ~ In (Return (GInsert k) r) evs.
Proof.
  intros [Z1 Z2] Et E. pose proof (Z2 l (nth_error_In _ _ Et)) as [HP HZ].
  assert (G : (forall tb, In tb (g_tabs sh') -> zero_tab tb) /\ lZ l' /\ forall k r, ~ In (Return (GInsert k) r) evs).
  { unfold GrowModel.g_step in E. destruct (nth_error (g_tabs (c_sh c)) (h_tab l)) as [tb|] eqn:Eh; [|discriminate].
    pose proof (Z1 tb (nth_error_In _ _ Eh)) as [Ha Hi]. destruct l as [ep ht pc prog]. cbn [l_pc h_ep h_tab l_prog] in *.
    destruct pc; cbn [l_pc h_ep h_tab l_prog] in *; try contradiction.
    - destruct prog as [|o p]; [discriminate|]. injection E as <- <- <-. split; [exact Z1|]. split; [|intros k r [H|[]]; discriminate].
      split; cbn [l_pc l_prog]; [intros x Hx; apply HP; now right|apply HP; now left].
    - injection E as <- <- <-. split; [exact Z1|]. split; [|intros k r []]. split; cbn [set_pc l_pc l_prog]; [exact HP|].
      destruct o as [|k|k]; cbn [check]; [exact I| |contradiction]. cbn [h_ep]. destruct (_ <? _); cbn; [exact I|]. eauto.
    - injection E as <- <- <-. split; [exact Z1|]. split; [|intros x r []]. split; cbn [l_pc l_prog]; [exact HP|exact HZ].
    - destruct (_ =? _); injection E as <- <- <-; (split; [exact Z1|]); (split; [split; cbn [l_pc l_prog]; [exact HP|]|]).
      + destruct k as [|[] te|[]|[]]; cbn [after cont_nl no_lookup] in *; try contradiction; try exact I; try destruct (_ <? _); cbn; eauto.
      + destruct k; cbn [after_ev In]; intros x r Hx; try contradiction. destruct Hx as [Hx|[]]; discriminate.
      + exact HZ.
      + intros x r [].
    - destruct HZ as [k [-> HZ]]. destruct HZ as [->|[->| ->]]; cbn [op_done cs_step] in E.
      + injection E as <- <- <-. split; [intros x Hx; cbn [set_tab g_tabs] in Hx; destruct (upd_In _ _ _ _ Hx) as [->|Hx']; [split; assumption|auto]|].
        split; [|intros x r []]. split; cbn [set_pc l_pc l_prog]; [exact HP|]. eauto.
      + assert (Hf : cs_full true (t_set tb) = true) by (unfold cs_full; rewrite Ha, Hi; reflexivity). cbn [is_insert andb] in E. rewrite Hf in E. cbn [andb] in E.
        injection E as <- <- <-. split; [intros x Hx; cbn [set_tab g_tabs] in Hx; destruct (upd_In _ _ _ _ Hx) as [->|Hx']; [split; assumption|auto]|].
        split; [|intros x r []]. split; cbn [set_pc l_pc l_prog]; [exact HP|]. eauto.
      + injection E as <- <- <-. split; [exact Z1|]. split; [|intros x r []]. split; cbn [set_pc l_pc l_prog]; [exact HP|exact I].
    - rewrite Ha in E. cbn [length N.of_nat N.mul] in E.
      destruct (_ =? _) in E.
      + change (wrap 64 0) with 0%N in E. change (2 ^ 60 <=? 0)%N with false in E. cbn iota in E. injection E as <- <- <-. split.
        * intros x Hx. cbn [g_tabs] in Hx. apply in_app_or in Hx. destruct Hx as [Hx|[<-|[]]]; [auto|]. split; reflexivity.
        * split; [|intros x r []]. split; cbn [set_pc l_pc l_prog]; [exact HP|exact HZ].
      + injection E as <- <- <-. split; [exact Z1|]. split; [|intros x r []]. split; cbn [set_pc l_pc l_prog]; [exact HP|exact HZ].
    - injection E as <- <- <-. split; [destruct (_ =? _); exact Z1|]. split; [|intros x r []]. split; cbn [set_pc l_pc l_prog]; [exact HP|exact HZ].
    - injection E as <- <- <-. split; [exact Z1|]. split; [|intros x r []]. split; cbn [set_pc l_pc l_prog]; [exact HP|exact HZ].
    - rewrite Ha in E. cbn [length] in E. change (t_copy tb <? 0) with false in E. injection E as <- <- <-.
      split; [intros x Hx; cbn [set_tab g_tabs] in Hx; destruct (upd_In _ _ _ _ Hx) as [->|Hx']; [split; assumption|auto]|].
      split; [|intros x r []]. split; cbn [set_pc l_pc l_prog]; [exact HP|exact HZ].
    - injection E as <- <- <-. split; [exact Z1|]. split; [|intros x r []]. split; cbn [set_pc l_pc l_prog]; [exact HP|exact HZ].
    - injection E as <- <- <-. split; [exact Z1|]. split; [|intros x r []]. split; cbn [set_pc l_pc l_prog]; [exact HP|]. destruct (_ =? _); exact HZ.
    - injection E as <- <- <-. split; [destruct (_ <? _); exact Z1|]. split; [|intros x r []]. split; cbn [set_pc l_pc l_prog]; [exact HP|exact HZ].
    - injection E as <- <- <-. split; [destruct (_ =? _); exact Z1|]. split; [|intros x r []]. split; cbn [set_pc l_pc l_prog]; [exact HP|]. destruct k as [|[]|[]|[]]; try contradiction; exact HZ. }
  destruct G as [G1 [G2 G3]]. split; [|exact G3]. split; [exact G1|]. intros x Hx. cbn [c_loc] in Hx. destruct (upd_In _ _ _ _ Hx) as [->|Hx']; auto.
Qed.

(** Inserts into a table made with size 0 never return: the table "grows" to twice zero cells. *)
Lemma zero_never a progs : (forall p o, In p progs -> In o p -> no_lookup o) ->
  forall c tr, exec g_step (g_start (cs_new 0 a) progs) c tr -> forall t k r, ~ In (t, Return (GInsert k) r) tr.
Proof.
  intros Hp c tr He.
  assert (G : gZ c /\ forall t k r, ~ In (t, Return (GInsert k) r) tr); [|apply G].
  induction He as [|c tr t l sh' l' evs He [IH1 IH2] Et E].
  - split; [|intros t k r []]. split; cbn [g_start c_sh c_loc g_tabs].
    + intros tb [<-|[]]. split; reflexivity.
    + intros l Hl. apply in_map_iff in Hl. destruct Hl as [p [<- Hin]]. split; cbn; eauto.
  - destruct (gZ_step _ _ _ _ _ _ IH1 Et E) as [G1 G2]. split; [exact G1|]. intros u k r H. apply in_app_or in H. destruct H as [H|H]; [|eapply IH2; eauto].
    apply in_map_iff in H. destruct H as [e [Ee Hi]]. injection Ee as _ ->. eapply G2; eauto.
Qed.
End M.
