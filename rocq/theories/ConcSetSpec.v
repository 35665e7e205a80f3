(** Vocabulary for the statements about Concurrent_LP_Set, and the lemmas in that form. *)
From Verif Require Import Outcome ListUtil WordsModel WordsProofs LPSetModel ProbeTheory LPSetProofs Conc ConcProbe ConcSetModel ConcSetProofs ConcSetWait.
From Coq Require Import Permutation.
Local Open Scope nat_scope.

(** No thread is inside a call; every thread has made all its calls. *)
Definition cs_resting (c : config lpset csloc) : Prop := forall l, In l (c_loc c) -> exists p, l = LIdle p.
Definition cs_finished (c : config lpset csloc) : Prop := forall l, In l (c_loc c) -> l = LIdle [].
(** The calls pass no key 0, the mark of a free cell. *)
Definition keys_nz (progs : list (list csop)) : Prop := forall p o, In p progs -> In o p -> cs_key o <> 0%N.
Definition stored (s : lpset) (k : N) : Prop := In k (s_arr s) /\ k <> 0%N.
(** A set of keys and the stored keys. *)
Definition same_keys (S : N -> bool) (s : lpset) : Prop := forall k, S k = true <-> stored s k.

(** Sets that can arise: from an allocation of a power of two of cells, by any phases of concurrent calls. *)
Inductive cs_made (w : N) (g : bool) : lpset -> Prop :=
| made_table k a : (k <= w)%N -> cs_made w g (mkset (alloc (2 ^ k)) 0 a)
| made_run s progs c tr : cs_made w g s -> keys_nz progs -> exec (cs_step w g) (cs_start s progs) c tr -> cs_resting c -> cs_made w g (c_sh c).

(** Results of the calls that add or look for [k]. *)
Definition won (k : N) (o : csop) (r : csret) : bool :=
  match o, r with SInsert j, RB true | SPut j, RB true => (j =? k)%N | _, _ => false end.
Definition answered (k : N) (o : csop) (r : csret) : bool :=
  match o, r with SInsert j, RB _ | SPut j, RB _ => (j =? k)%N | _, _ => false end.
Definition b2n (b : bool) : nat := if b then 1 else 0.

Lemma keys_nz_ok progs : keys_nz progs -> forall p, In p progs -> keys_ok p.
Proof. intros H p Hp o Ho. eapply H; eassumption. Qed.

Lemma resting_stg c : cs_resting c -> forall l, In l (c_loc c) -> stg l = Out.
Proof. intros H l Hl. destruct (H l Hl) as [p ->]. reflexivity. Qed.

(** A decidable copy of the stored set. *)
Definition memb (s : lpset) (k : N) : bool := negb (k =? 0)%N && existsb (N.eqb k) (s_arr s).
Lemma memb_same s : same_keys (memb s) s.
Proof.
  intros k. unfold memb, stored. rewrite andb_true_iff, negb_true_iff, N.eqb_neq, existsb_exists. split.
  - intros [H1 [x [H2 H3]]]. apply N.eqb_eq in H3. subst. auto.
  - intros [H1 H2]. split; [exact H2|]. exists k. split; [exact H1|apply N.eqb_refl].
Qed.

Lemma csspec_winner lim k l S T : legal (csspec lim) S l T -> count_lin (won k) l + b2n (S k) = b2n (T k).
Proof.
  unfold count_lin. induction 1 as [|l T o r T' Hl IH Hs]; [reflexivity|]. cbn [filter fst snd].
  assert (Hadd : forall j, (r = RB (negb (T j)) /\ forall x, T' x = (x =? j)%N || T x) ->
    length (if match r with RB true => (j =? k)%N | _ => false end then (o, r) :: filter (fun x => won k (fst x) (snd x)) l else filter (fun x => won k (fst x) (snd x)) l) + b2n (S k) = b2n (T' k)).
  { intros j [-> Hj]. rewrite Hj. rewrite (N.eqb_sym j k). destruct (N.eqb_spec k j) as [->|]; cbn [orb].
    - destruct (T j); cbn [negb b2n length] in *; lia.
    - destruct (negb (T j)); exact IH. }
  destruct o as [j|j|j]; cbn [won csspec] in *.
  - destruct Hs as [[-> [_ Hx]]|Hs]; [rewrite Hx; exact IH|now apply Hadd].
  - now apply Hadd.
  - destruct Hs as [-> Hx]. rewrite Hx. destruct (T j); exact IH.
Qed.

Lemma csspec_mono lim k l S T : legal (csspec lim) S l T -> S k = true -> T k = true.
Proof. intros H. pose proof (csspec_winner lim k l S T H) as E. destruct (S k), (T k); cbn [b2n] in E; auto; lia. Qed.

Lemma csspec_answered lim k o r S T : csspec lim S o T r -> answered k o r = true -> T k = true.
Proof.
  intros H E. destruct o as [j|j|j]; cbn [csspec answered] in *; try (destruct r; discriminate).
  - destruct r; [discriminate|]. apply N.eqb_eq in E. subst j. destruct H as [[H _]|[_ H]]; [discriminate|]. rewrite H, N.eqb_refl. reflexivity.
  - destruct r; [discriminate|]. apply N.eqb_eq in E. subst j. destruct H as [_ H]. rewrite H, N.eqb_refl. reflexivity.
Qed.

(** Where the stored keys come from. *)
Lemma csspec_origin lim k l S T : legal (csspec lim) S l T -> T k = true -> S k = true \/ exists o r, In (o, r) l /\ puts o /\ cs_key o = k.
Proof.
  induction 1 as [|l T o r T' Hl IH Hs]; [auto|]. intros HT.
  assert (Keep : T k = true -> S k = true \/ exists o0 r0, In (o0, r0) ((o, r) :: l) /\ puts o0 /\ cs_key o0 = k).
  { intros H. destruct (IH H) as [|[o' [r' [Hi Hp]]]]; [auto|]. right. exists o', r'. split; [now right|exact Hp]. }
  assert (Add : forall j, cs_key o = j -> puts o -> T' k = (k =? j)%N || T k -> S k = true \/ exists o0 r0, In (o0, r0) ((o, r) :: l) /\ puts o0 /\ cs_key o0 = k).
  { intros j Ej Hp E. rewrite E in HT. destruct (N.eqb_spec k j) as [->|]; [|now apply Keep]. right. exists o, r. split; [now left|auto]. }
  destruct o as [j|j|j]; cbn [csspec] in Hs.
  - destruct Hs as [[_ [_ Hx]]|[_ Hx]]; [apply Keep; now rewrite <- Hx|eapply Add; [reflexivity|exact I|apply Hx]].
  - destruct Hs as [_ Hx]. eapply Add; [reflexivity|exact I|apply Hx].
  - destruct Hs as [_ Hx]. apply Keep. now rewrite <- Hx.
Qed.

Section W.
Variable w : N.
Hypothesis Hw : (w <= 64)%N.
Variable g : bool.

Lemma made_wf s : cs_made w g s -> set_wf w s.
Proof.
  induction 1 as [k a Hk|s progs c tr Hm IH Hp He Hr].
  - apply (empty_wf w). exists k. split; [lia|exact Hk].
  - destruct IH as [W1 [W2 [W3 W4]]].
    pose proof (cs_inv w Hw g _ _ W1 (memb s) (cs_start s progs) c tr (cs_inv_start w Hw g _ _ s (memb s) progs eq_refl eq_refl W2 W3 W4 (memb_same s) (keys_nz_ok _ Hp)) He)
      as [H1 [H2 [HC [HU [_ [_ Hc]]]]]].
    unfold set_wf. rewrite H1, H2. split; [exact W1|]. split; [exact HC|]. split; [exact HU|].
    rewrite cnt_0 in Hc; [rewrite Nat.add_0_r in Hc; exact Hc|]. intros l Hl. destruct (Hr l Hl) as [p ->]. reflexivity.
Qed.

Lemma new_made size a : (1 <= size <= 2 ^ 63)%N -> (size <= 2 ^ w)%N -> cs_made w g (cs_new size a).
Proof.
  intros [H1 H2] H3. unfold cs_new. destruct (nextPow2_least 64 size) as [[k [Ek Hk]] [Hge Hle]]; [discriminate|exact H1|exact H2|].
  rewrite Ek. apply made_table. specialize (Hle w H3). rewrite Ek in Hle. apply N.pow_le_mono_r_iff in Hle; [exact Hle|reflexivity].
Qed.

Section R.
Variables (s : lpset) (S0 : N -> bool) (progs : list (list csop)).
Hypothesis Hm : cs_made w g s.
Hypothesis HS : same_keys S0 s.
Hypothesis Hp : keys_nz progs.
Notation n := (length (s_arr s)).
Notation lim := (full_lim g n).

Lemma inv_start : csI w g n (s_mult s) S0 (cs_start s progs) [].
Proof.
  destruct (made_wf s Hm) as [W1 [W2 [W3 W4]]].
  exact (cs_inv_start w Hw g _ _ s S0 progs eq_refl eq_refl W2 W3 W4 HS (keys_nz_ok _ Hp)).
Qed.
Lemma inv_of c tr : exec (cs_step w g) (cs_start s progs) c tr -> csI w g n (s_mult s) S0 c tr.
Proof. apply (cs_inv w Hw g _ _ (proj1 (made_wf s Hm))), inv_start. Qed.

Lemma stages c tr : exec (cs_step w g) (cs_start s progs) c tr -> forall t, exists st, tstage t tr st.
Proof. intros H. destruct (inv_of c tr H) as [_ [_ [_ [_ [_ [Ht _]]]]]]. exact (thr_stages _ _ _ _ Ht). Qed.

Lemma cs_safe : safe (cs_step w g) (cs_start s progs).
Proof. intros [sh locs] tr t l H E. eapply (cs_not_bad w Hw g); [exact (proj1 (made_wf s Hm))|exact (inv_of _ _ H)|exact E]. Qed.

Lemma cs_linearizable c tr : exec (cs_step w g) (cs_start s progs) c tr -> linearizable (csspec lim) S0 (observed tr).
Proof.
  intros H. destruct (inv_of c tr H) as [_ [_ [_ [_ [[S [HL _]] [Ht _]]]]]]. exists tr, S. split; [reflexivity|]. split; [exact HL|]. exact (thr_stages _ _ _ _ Ht).
Qed.

Lemma cs_once c tr : exec (cs_step w g) (cs_start s progs) c tr ->
  forall i j k, nth_error (s_arr (c_sh c)) i = Some k -> nth_error (s_arr (c_sh c)) j = Some k -> k <> 0%N -> i = j.
Proof. intros H. destruct (inv_of c tr H) as [_ [_ [_ [HU _]]]]. exact HU. Qed.

Lemma cs_winner c tr k : exec (cs_step w g) (cs_start s progs) c tr -> count_rsp (won k) tr + b2n (S0 k) <= 1.
Proof.
  intros H. destruct (inv_of c tr H) as [_ [_ [_ [_ [[S [HL _]] _]]]]]. pose proof (csspec_winner _ k _ _ _ HL).
  pose proof (rsp_le_lin (won k) tr (stages c tr H)). destruct (S k); cbn [b2n] in *; lia.
Qed.
Lemma cs_winner_rest c tr k : exec (cs_step w g) (cs_start s progs) c tr -> cs_resting c ->
  (stored (c_sh c) k <-> count_rsp (won k) tr + b2n (S0 k) = 1).
Proof.
  intros H Hr. destruct (inv_of c tr H) as [_ [_ [_ [_ [[S [HL HSt]] [Ht _]]]]]]. pose proof (csspec_winner _ k _ _ _ HL) as E.
  rewrite (lin_rsp_quiet (won k) tr (thr_quiet _ _ _ _ Ht (resting_stg c Hr))) in E. unfold stored. rewrite <- HSt, E. destruct (S k); cbn [b2n]; split; congruence || lia.
Qed.

Lemma in_split_rsp {Op Ret} p (tr : list (nat * ev Op Ret)) : 0 < count_rsp p tr -> exists u a b o r, tr = a ++ (u, Rsp o r) :: b /\ p o r = true.
Proof.
  induction tr as [|[u e] tr IH]; [cbn; lia|]. destruct e as [o|o r|o r]; cbn [count_rsp]; intros H.
  - destruct (IH H) as [v [a [b [o' [r' [-> E]]]]]]. exists v, ((u, Inv o) :: a), b, o', r'. auto.
  - destruct (IH H) as [v [a [b [o' [r' [-> E]]]]]]. exists v, ((u, Lin o r) :: a), b, o', r'. auto.
  - destruct (p o r) eqn:Ep; [exists u, [], tr, o, r; auto|].
    destruct (IH H) as [v [a [b [o' [r' [-> E]]]]]]. exists v, ((u, Rsp o r) :: a), b, o', r'. auto.
Qed.

Lemma lin_split {Op Ret} u (a b : list (nat * ev Op Ret)) o r : lins (a ++ (u, Lin o r) :: b) = lins a ++ (o, r) :: lins b.
Proof. now rewrite lins_app. Qed.

Lemma cs_answered c tr k : exec (cs_step w g) (cs_start s progs) c tr -> 0 < count_rsp (answered k) tr -> stored (c_sh c) k.
Proof.
  intros H Ha. destruct (inv_of c tr H) as [_ [_ [_ [_ [[S [HL HSt]] _]]]]]. apply in_split_rsp in Ha. destruct Ha as [u [a [b [o [r [E Hor]]]]]].
  destruct (stages c tr H u) as [st Hst]. rewrite E in Hst. destruct (rsp_lin _ _ _ _ _ _ Hst) as [b1 [b2 [Eb _]]]. subst b. subst tr.
  change ((u, Rsp o r) :: b1 ++ (u, Lin o r) :: b2) with (((u, Rsp o r) :: b1) ++ (u, Lin o r) :: b2) in HL. rewrite app_assoc, lin_split in HL.
  apply legal_app in HL. destruct HL as [M [HL1 HL2]]. inversion HL1; subst.
  apply HSt. eapply csspec_mono; [exact HL2|]. eapply csspec_answered; eassumption.
Qed.

(** A key answered before a lookup starts is found. *)
Lemma cs_visible c tr k late mid early u o r : exec (cs_step w g) (cs_start s progs) c tr ->
  tr = late ++ (u, Rsp (SContains k) r) :: mid ++ (u, Inv o) :: early -> (forall x, ~ In (u, Inv x) mid) ->
  (S0 k = true \/ 0 < count_rsp (answered k) early) -> r = RB true.
Proof.
  intros H E Hno Hk. destruct (inv_of c tr H) as [_ [_ [_ [_ [[S [HL HSt]] _]]]]]. pose proof (stages c tr H) as Hstg. subst tr.
  destruct (Hstg u) as [st Hst]. destruct (call_lin _ _ _ _ _ _ _ _ Hst Hno) as [-> [m1 [m2 ->]]].
  replace (late ++ (u, Rsp (SContains k) r) :: (m1 ++ (u, Lin (SContains k) r) :: m2) ++ (u, Inv (SContains k)) :: early)
    with ((late ++ (u, Rsp (SContains k) r) :: m1) ++ (u, Lin (SContains k) r) :: (m2 ++ (u, Inv (SContains k)) :: early)) in HL.
  2:{ rewrite <- app_assoc. cbn [app]. now rewrite <- app_assoc. }
  rewrite lin_split in HL. apply legal_app in HL. destruct HL as [M [HL _]]. inversion HL; subst.
  match goal with H1 : legal _ _ (lins (m2 ++ _)) ?T |- _ => rename H1 into HL2; rename T into T0 end.
  match goal with H1 : csspec _ T0 _ _ _ |- _ => destruct H1 as [Er _] end. rewrite Er. f_equal.
  destruct Hk as [Hk|Hk]; [eapply csspec_mono; eassumption|].
  apply in_split_rsp in Hk. destruct Hk as [v [a [b [o' [r' [-> Ho]]]]]].
  destruct (Hstg v) as [sv Hsv].
  replace (late ++ (u, Rsp (SContains k) r) :: (m1 ++ (u, Lin (SContains k) r) :: m2) ++ (u, Inv (SContains k)) :: a ++ (v, Rsp o' r') :: b)
    with ((late ++ (u, Rsp (SContains k) r) :: (m1 ++ (u, Lin (SContains k) r) :: m2) ++ (u, Inv (SContains k)) :: a) ++ (v, Rsp o' r') :: b) in Hsv.
  2:{ repeat (rewrite <- ?app_assoc; cbn [app]). reflexivity. }
  destruct (rsp_lin _ _ _ _ _ _ Hsv) as [b1 [b2 [-> _]]].
  replace (m2 ++ (u, Inv (SContains k)) :: a ++ (v, Rsp o' r') :: b1 ++ (v, Lin o' r') :: b2)
    with ((m2 ++ (u, Inv (SContains k)) :: a ++ (v, Rsp o' r') :: b1) ++ (v, Lin o' r') :: b2) in HL2.
  2:{ repeat (rewrite <- ?app_assoc; cbn [app]). reflexivity. }
  rewrite lin_split in HL2. apply legal_app in HL2. destruct HL2 as [M2 [HL3 HL4]]. inversion HL3; subst.
  eapply csspec_mono; [exact HL4|]. eapply csspec_answered; eassumption.
Qed.

(** A key is reported only if stored at the start or passed to an insert that started before. *)
Lemma cs_no_ghost c tr k late early u : exec (cs_step w g) (cs_start s progs) c tr ->
  tr = late ++ (u, Rsp (SContains k) (RB true)) :: early ->
  S0 k = true \/ exists v o, In (v, Inv o) early /\ puts o /\ cs_key o = k.
Proof.
  intros H E. destruct (inv_of c tr H) as [_ [_ [_ [_ [[S [HL HSt]] _]]]]]. pose proof (stages c tr H) as Hstg. subst tr.
  destruct (Hstg u) as [st Hst]. destruct (rsp_lin _ _ _ _ _ _ Hst) as [b1 [b2 [-> _]]].
  change (late ++ (u, Rsp (SContains k) (RB true)) :: b1 ++ (u, Lin (SContains k) (RB true)) :: b2)
    with (late ++ (((u, Rsp (SContains k) (RB true)) :: b1) ++ (u, Lin (SContains k) (RB true)) :: b2)) in HL.
  rewrite app_assoc, lin_split in HL. apply legal_app in HL. destruct HL as [M [HL _]]. inversion HL; subst.
  match goal with H1 : legal _ _ (lins b2) ?T |- _ => rename H1 into HL2; rename T into T0 end.
  match goal with H1 : csspec _ T0 _ _ _ |- _ => destruct H1 as [HT _] end. injection HT as HT.
  destruct (csspec_origin _ k _ _ _ HL2 (eq_sym HT)) as [|[o [r [Hi [Ho Hk]]]]]; [auto|]. right.
  assert (Hb2 : forall t, exists st, tstage t b2 st).
  { intros t. destruct (Hstg t) as [sx Hx]. change (late ++ (u, Rsp (SContains k) (RB true)) :: b1 ++ (u, Lin (SContains k) (RB true)) :: b2)
      with (late ++ (((u, Rsp (SContains k) (RB true)) :: b1) ++ ([(u, Lin (SContains k) (RB true))] ++ b2))) in Hx. rewrite !app_assoc in Hx. eapply tstage_app; exact Hx. }
  destruct (lin_inv b2 o r Hb2 Hi) as [v Hv]. exists v, o. split; [|auto]. apply in_or_app. right. now right.
Qed.

Lemma cs_size c tr : exec (cs_step w g) (cs_start s progs) c tr ->
  s_items (c_sh c) <= length (keys_of (s_arr (c_sh c))) /\ (cs_resting c -> s_items (c_sh c) = length (keys_of (s_arr (c_sh c)))).
Proof.
  intros H. destruct (inv_of c tr H) as [_ [_ [_ [_ [_ [_ Hc]]]]]]. split; [lia|]. intros Hr.
  rewrite cnt_0 in Hc; [lia|]. intros l Hl. destruct (Hr l Hl) as [p ->]. reflexivity.
Qed.

Lemma cs_progress c tr : exec (cs_step w g) (cs_start s progs) c tr -> (exists c', cstep (cs_step w g) c c') \/ cs_finished c.
Proof.
  intros H. destruct (cstep_or_stopped _ _ _ (cs_step w g) c) as [Hs|Hs].
  - intros t l Hl. eapply cs_safe; eassumption.
  - left. exact Hs.
  - right. intros l Hl. apply In_nth_error in Hl. destruct Hl as [t Ht]. apply (cs_not_stop w g _ _ (Hs t l Ht)).
Qed.

(** [U] contains the stored keys and the keys of inserting calls, and no call's key added to
    it makes more distinct keys than cells. *)
Definition fits (U : list N) : Prop :=
  (forall k, stored s k -> In k U) /\
  forall p o, In p progs -> In o p -> (puts o -> In (cs_key o) U) /\ distinct (cs_key o :: U) <= n.

Lemma wI_start U : fits U -> wI w g n (s_mult s) U S0 (cs_start s progs) [].
Proof.
  intros [H1 H2]. split; [exact inv_start|]. split.
  - intros k Hk Hk0. apply H1. split; assumption.
  - intros l Hl o Ho. cbn [cs_start c_loc] in Hl. apply in_map_iff in Hl. destruct Hl as [p [<- Hin]]. cbn [rest] in Ho. exact (H2 p o Hin Ho).
Qed.

Lemma cs_own U t p c tr k : fits U -> nth_error progs t = Some p -> exec_own (cs_step w g) t (cs_start s progs) c tr k ->
  k <= length p * (2 * n + 8).
Proof.
  intros HU Hpt H. exact (own_steps w Hw g n (s_mult s) (proj1 (made_wf s Hm)) U S0 _ _ _ t k (LIdle p) (wI_start U HU) (map_nth_error _ _ _ Hpt) H).
Qed.
Lemma cs_terminating U : fits U -> terminates (cs_step w g) (cs_start s progs).
Proof. intros HU. exact (cs_terminates w Hw g n (s_mult s) (proj1 (made_wf s Hm)) U S0 _ (wI_start U HU)). Qed.
End R.

(** *** growing tables: inserts give up *)
Definition gI (l : csloc) : Prop :=
  (forall o, In o (rest l) -> is_insert o = true) /\
  match l with LProbe _ _ cols _ | LCas _ _ cols _ => (cols <= 10)%N | _ => True end.
Definition grank (l : csloc) : nat :=
  match l with
  | LIdle p => length p * 30
  | LEntry o p => length p * 30 + 28
  | LProbe o _ cols p => length p * 30 + 2 * (11 - N.to_nat cols) + 4
  | LCas o _ cols p => length p * 30 + 2 * (11 - N.to_nat cols) + 3
  | LCount o p => length p * 30 + 2
  | LRet o r p => length p * 30 + 1
  end.
Lemma g_step : g = true -> (4 <= w)%N -> forall s l sh' l' evs, gI l -> cs_step w g s l = Step sh' l' evs -> gI l' /\ grank l' < grank l.
Proof.
  intros Hg Hw4 s l sh' l' evs [Hi Hc] Es. pose proof (proj1 (step_rest w g _ _ _ _ _ Es)) as Hr.
  assert (Hi' : forall o, In o (rest l') -> is_insert o = true) by (intros o Ho; apply Hi, Hr, Ho).
  assert (Hd : forall o idx cols p, is_insert o = true -> cs_head w g s o idx cols p = Step sh' l' evs -> gI l' /\ (grank l' <= length p * 30 + 2 * (11 - N.to_nat cols) + 4)).
  { intros o idx cols p Ho E. unfold cs_head in E. rewrite Hg, Ho in E. cbn [andb] in E. destruct (N.ltb_spec 10 cols); injection E as <- <- <-.
    - split; [split; [exact Hi'|exact I]|]. cbn [grank]. lia.
    - split; [split; [exact Hi'|assumption]|]. cbn [grank]. lia. }
  assert (Hnx : forall o i cols p, (cols <= 10)%N -> is_insert o = true -> cs_next w g s o i cols p = Step sh' l' evs ->
     gI l' /\ (grank l' < length p * 30 + 2 * (11 - N.to_nat cols) + 3)).
  { intros o i cols p Hle Ho E. unfold cs_next in E. apply Hd in E; [|exact Ho]. destruct E as [E1 E2]. split; [exact E1|].
    assert (2 ^ 4 <= 2 ^ w)%N by (apply N.pow_le_mono_r; [discriminate|exact Hw4]). change (2 ^ 4)%N with 16%N in H.
    rewrite wrap_id in E2 by lia. lia. }
  destruct l as [[|o p]|o p|o i cols p|o i cols p|o p|o r p]; cbn [cs_step] in Es.
  - discriminate.
  - injection Es as <- <- <-. split; [split; [exact Hi'|exact I]|]. cbn [grank length]. lia.
  - assert (Ho : is_insert o = true) by (apply Hi; now left).
    destruct (_ && _); [injection Es as <- <- <-; split; [split; [exact Hi'|exact I]|cbn [grank]; lia]|].
    apply Hd in Es; [|exact Ho]. destruct Es as [E1 E2]. split; [exact E1|]. cbn [grank N.to_nat] in *. lia.
  - assert (Ho : is_insert o = true) by (apply Hi; now left). destruct (nth_error _ _) as [c|]; [|discriminate].
    destruct o as [k|k|k]; try discriminate. destruct (N.eqb c k); [injection Es as <- <- <-; split; [split; [exact Hi'|exact I]|cbn [grank]; lia]|].
    destruct (N.eqb c 0); cbn [negb] in Es; [injection Es as <- <- <-; split; [split; [exact Hi'|exact Hc]|cbn [grank]; lia]|].
    apply Hnx in Es; [|exact Hc|exact Ho]. destruct Es as [E1 E2]. split; [exact E1|]. cbn [grank]. lia.
  - assert (Ho : is_insert o = true) by (apply Hi; now left). destruct (nth_error _ _) as [c|]; [|discriminate].
    destruct (N.eqb c 0); [injection Es as <- <- <-; split; [split; [exact Hi'|exact I]|cbn [grank]; lia]|].
    destruct (N.eqb c _); [injection Es as <- <- <-; split; [split; [exact Hi'|exact I]|cbn [grank]; lia]|].
    apply Hnx in Es; [|exact Hc|exact Ho]. destruct Es as [E1 E2]. split; [exact E1|]. cbn [grank]. lia.
  - injection Es as <- <- <-. split; [split; [exact Hi'|exact I]|]. cbn [grank]. lia.
  - injection Es as <- <- <-. split; [split; [exact Hi'|exact I]|]. cbn [grank]. lia.
Qed.

Lemma cs_growing_own s progs t p c tr k : g = true -> (4 <= w)%N -> (forall p o, In p progs -> In o p -> is_insert o = true) ->
  nth_error progs t = Some p -> exec_own (cs_step w g) t (cs_start s progs) c tr k -> k <= length p * 30.
Proof.
  intros Hg Hw4 Hi Hpt He.
  destruct (own_bound _ _ _ (cs_step w g) (fun c _ => forall l, In l (c_loc c) -> gI l) grank t (cs_start s progs)) with (c := c) (tr := tr) (k := k) (l0 := LIdle p) as [l [_ H]].
  - intros c1 tr1 H1. induction H1 as [|c1 tr1 u l sh' l' evs H1 IH Et Es].
    + intros l Hl. cbn [cs_start c_loc] in Hl. apply in_map_iff in Hl. destruct Hl as [q [<- Hin]]. split; [|exact I]. intros o Ho. exact (Hi q o Hin Ho).
    + cbn [c_loc]. intros x Hx. apply In_upd_any in Hx. destruct Hx as [->|Hx]; [|now apply IH].
      eapply g_step; eauto. apply IH. eapply nth_error_In; eassumption.
  - intros c1 tr1 u l sh' l' evs HI Et Es. eapply g_step; eauto. apply HI. eapply nth_error_In; eassumption.
  - cbn [cs_start c_loc]. now apply map_nth_error.
  - exact He.
  - cbn [grank] in H. lia.
Qed.
End W.
