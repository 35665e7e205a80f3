(** Concurrent_LP_Map: invariants on the values and on what get answers. *)
From Verif Require Import Outcome ListUtil WordsModel WordsProofs LPSetModel ProbeTheory LPMapModel LPMapProofs Conc ConcProbe ConcSetProofs ConcMapModel ConcMapProofs.
Local Open Scope nat_scope.

(** Sequential meaning on the set of keys.  Full only from [lim] keys on; get of an absent key answers 0. *)
Definition kspec (lim : nat) (S : N -> bool) (o : cmop) (S' : N -> bool) (r : cmret) : Prop :=
  match o with
  | KIns k _ => (r = RFull /\ at_least S lim /\ forall x, S' x = S x) \/ (r = RB (negb (S k)) /\ forall x, S' x = (x =? k)%N || S x)
  | KGet k => (exists ov, r = RV ov /\ (S k = false -> ov = Some 0%N)) /\ forall x, S' x = S x
  | _ => False
  end.

(** Some insert of [k] has returned an answer other than Full. *)
Definition ans (k : N) (tr : list (nat * ev cmop cmret)) : Prop := exists u v b, In (u, Rsp (KIns k v) (RB b)) tr.
(** What a get of [k] may answer, given the events before: a value of the start table or of an insert already called; or, as long
    as [k] was not in the start table and no insert of it has returned, 0 or an indeterminate value. *)
Definition get_ok (B0 : N -> N -> Prop) (k : N) (r : cmret) (tr : list (nat * ev cmop cmret)) : Prop :=
  exists ov, r = RV ov /\
    ((exists v, ov = Some v /\ (B0 k v \/ exists u, In (u, Inv (KIns k v)) tr)) \/
     (~ ans k tr /\ ~ (exists v, B0 k v) /\ (ov = Some 0%N \/ ov = None))).

Section W.
Variable w : N.
Hypothesis Hw : (w <= 64)%N.
Variables (n : nat) (a : N).
Hypothesis Hn : pow2cap w n.
Variable B0 : N -> N -> Prop.
Notation hm := (home w a n).

Definition wr (l : cmloc) (k v : N) : Prop :=
  match l with
  | MCnt o _ _ _ => o = KIns k v
  | MRet o (RB _) _ => o = KIns k v
  | _ => False
  end.
Definition origin (locs : list cmloc) (tr : list (nat * ev cmop cmret)) (k v : N) : Prop :=
  B0 k v \/ (exists t b, In (t, Rsp (KIns k v) (RB b)) tr) \/ exists t l, nth_error locs t = Some l /\ wr l k v.
Definition val_at (s : lpmap) (k : N) : Prop := exists i v, nth_error (m_keys s) i = Some k /\ nth_error (m_vals s) i = Some (Some v).
Definition fresh_at (locs : list cmloc) (i : nat) : Prop := exists t o j p, nth_error locs t = Some (MSet o (N.of_nat i) j true p).
Definition vals_ok (s : lpmap) (locs : list cmloc) (tr : list (nat * ev cmop cmret)) : Prop :=
  (forall i, nth_error (m_keys s) i = Some 0%N -> nth_error (m_vals s) i = Some None) /\
  (forall i k, nth_error (m_keys s) i = Some k -> k <> 0%N ->
     (nth_error (m_vals s) i = Some None /\ fresh_at locs i) \/ exists v, nth_error (m_vals s) i = Some (Some v) /\ origin locs tr k v) /\
  (forall k v, k <> 0%N -> origin locs tr k v -> val_at s k).
Definition gets_ok (tr : list (nat * ev cmop cmret)) : Prop :=
  forall tr1 t k r tr2, tr = tr1 ++ (t, Lin (KGet k) r) :: tr2 -> get_ok B0 k r tr2.

Definition mapI (S0 : N -> bool) (c : config lpmap cmloc) (tr : list (nat * ev cmop cmret)) : Prop :=
  cmI w false n a c tr /\
  (exists S, legal (kspec (n / 2)) S0 (lins tr) S /\ forall k, S k = true <-> In k (m_keys (c_sh c)) /\ k <> 0%N) /\
  vals_ok (c_sh c) (c_loc c) tr /\ gets_ok tr.

Lemma origin_step locs tr t l l' evs k v : nth_error locs t = Some l ->
  (wr l k v -> wr l' k v \/ exists b, In (Rsp (KIns k v) (RB b)) evs) -> origin locs tr k v ->
  origin (upd locs t l') (map (fun e => (t, e)) evs ++ tr) k v.
Proof.
  intros Et Hl [H|[[u [b H]]|[u [x [Hx Hr]]]]]; [now left|right; left; exists u, b; apply in_or_app; now right|].
  destruct (Nat.eq_dec u t) as [->|Hne].
  - rewrite Et in Hx. injection Hx as <-. destruct (Hl Hr) as [H|[b H]].
    + right. right. exists t, l'. split; [apply nth_error_upd_eq; eapply nth_error_lt; exact Et|exact H].
    + right. left. exists t, b. apply in_or_app. left. apply in_map_iff. eauto.
  - right. right. exists u, x. split; [rewrite nth_error_upd_neq by congruence; exact Hx|exact Hr].
Qed.
Lemma origin_back locs tr t l l' evs k v : nth_error locs t = Some l ->
  (wr l' k v -> wr l k v \/ origin locs tr k v) -> (forall b, In (Rsp (KIns k v) (RB b)) evs -> wr l k v) ->
  origin (upd locs t l') (map (fun e => (t, e)) evs ++ tr) k v -> origin locs tr k v.
Proof.
  intros Et Hl He [H|[[u [b H]]|[u [x [Hx Hr]]]]]; [now left| |].
  - apply in_app_or in H. destruct H as [H|H]; [|right; left; eauto]. apply in_map_iff in H. destruct H as [e [E Hin]]. injection E as E1 E2. subst.
    right. right. exists u, l. split; [exact Et|]. eapply He. eassumption.
  - destruct (Nat.eq_dec u t) as [->|Hne].
    + rewrite nth_error_upd_eq in Hx by (eapply nth_error_lt; exact Et). injection Hx as <-. destruct (Hl Hr) as [H|H]; [|exact H]. right. right. eauto.
    + rewrite nth_error_upd_neq in Hx by congruence. right. right. eauto.
Qed.
Lemma fresh_step locs t l l' i : nth_error locs t = Some l -> (forall o j p, l <> MSet o (N.of_nat i) j true p) -> fresh_at locs i -> fresh_at (upd locs t l') i.
Proof.
  intros Et Hl [u [o [j [p Hu]]]]. exists u, o, j, p. destruct (Nat.eq_dec u t) as [->|Hne]; [rewrite Et in Hu; injection Hu as ->; destruct (Hl o j p eq_refl)|].
  rewrite nth_error_upd_neq by congruence. exact Hu.
Qed.

(** A step that changes neither keys nor values and stores nothing. *)
Lemma vals_quiet s s' locs tr t l l' evs : nth_error locs t = Some l -> m_keys s' = m_keys s -> m_vals s' = m_vals s ->
  (forall k v, wr l k v -> wr l' k v \/ exists b, In (Rsp (KIns k v) (RB b)) evs) -> (forall k v, wr l' k v -> wr l k v) ->
  (forall k v b, In (Rsp (KIns k v) (RB b)) evs -> wr l k v) -> (forall o i j p, l <> MSet o i j true p) ->
  vals_ok s locs tr -> vals_ok s' (upd locs t l') (map (fun e => (t, e)) evs ++ tr).
Proof.
  intros Et Ek Ev H1 H2 H3 H4 [V0 [V1 V2]]. unfold vals_ok, val_at. rewrite Ek, Ev. split; [exact V0|]. split.
  - intros i k Hi Hk. destruct (V1 i k Hi Hk) as [[Hv Hf]|[v [Hv Ho]]]; [left|right].
    + split; [exact Hv|]. apply (fresh_step locs t l l' i Et); auto.
    + exists v. split; [exact Hv|]. apply (origin_step locs tr t l l' evs k v Et); auto.
  - intros k v Hk Ho. apply (V2 k v Hk). apply (origin_back locs tr t l l' evs k v Et); auto. intros b Hb. eapply H3; exact Hb.
Qed.

Lemma gets_app tr tr' : gets_ok tr -> (forall t e, In (t, e) tr' -> forall k r, e <> Lin (KGet k) r) -> gets_ok (tr' ++ tr).
Proof.
  intros H. induction tr' as [|[t e] tr' IH]; intros Hn'; [exact H|]. intros tr1 u k r tr2 E. destruct tr1 as [|x tr1]; cbn [app] in E.
  - injection E as E1 E2 E3. exfalso. apply (Hn' t e (or_introl eq_refl) k r). exact E2.
  - injection E as E1 E2. eapply IH; [|exact E2]. intros u' e' Hin. exact (Hn' u' e' (or_intror Hin)).
Qed.
Lemma gets_cons tr t k r : gets_ok tr -> get_ok B0 k r tr -> gets_ok ((t, Lin (KGet k) r) :: tr).
Proof.
  intros H Hg tr1 u k' r' tr2 E. destruct tr1 as [|x tr1]; cbn [app] in E; [injection E as E1 E2 E3 E4; subst; exact Hg|].
  injection E as E1 E2. eapply H; exact E2.
Qed.

(** The events of a step. *)
Lemma origin_inv locs tr k v : thr_ok (fun _ => True) cm_stg locs tr -> origin locs tr k v -> B0 k v \/ exists u, In (u, Inv (KIns k v)) tr.
Proof.
  intros Ht [H|[[u [b H]]|[u [x [Hx Hr]]]]]; [now left|right|right].
  - apply in_split in H. destruct H as [x [y ->]]. pose proof (thr_stages _ _ _ _ Ht u) as [st Hst]. destruct (rsp_lin u x y _ _ _ Hst) as [b1 [b2 [-> Hc]]].
    apply called_inv in Hc. destruct Hc as [c1 [c2 ->]]. exists u. rewrite !in_app_iff. right. right. apply in_or_app. right. right. apply in_or_app. right. now left.
  - destruct (thr_get _ _ _ _ _ _ Ht Hx) as [_ Hs]. exists u.
    assert (exists r, cm_stg x = Done (KIns k v) r) as [r E] by (destruct x as [| | | | | | |o [|b0|ov] p]; cbn [wr] in Hr; try contradiction; subst; cbn [cm_stg]; eauto).
    rewrite E in Hs. apply done_lin in Hs. destruct Hs as [b1 [b2 [-> Hc]]]. apply called_inv in Hc. destruct Hc as [c1 [c2 ->]].
    rewrite !in_app_iff. right. right. apply in_or_app. right. now left.
Qed.
Lemma ans_origin locs tr k : ans k tr -> exists v, origin locs tr k v.
Proof. intros [u [v [b H]]]. exists v. right. left. eauto. Qed.

Lemma map_inv_step S0 c tr t l sh' l' evs : mapI S0 c tr -> nth_error (c_loc c) t = Some l -> cm_step w false (c_sh c) l = Step sh' l' evs ->
  mapI S0 (mkc sh' (upd (c_loc c) t l')) (map (fun e => (t, e)) evs ++ tr).
Proof.
  intros [HI [[S [HL HS]] [HV HG]]] Et E. split; [eapply cm_inv_step; eassumption|].
  destruct c as [s locs]. cbn [c_sh c_loc] in *. pose proof HI as [H1 [H2 [H3 [HC [HU [Ht Hc]]]]]]. cbn [c_sh c_loc] in *.
  destruct (thr_get _ _ _ _ _ _ Ht Et) as [Hok Hst].
  assert (Hthr : thr_ok (fun _ => True) cm_stg locs tr) by (destruct Ht as [T1 T2]; split; [intros u x Hx; split; [exact I|apply (T1 u x Hx)]|exact T2]).
  (* steps without effect *)
  assert (Hnone : forall s', m_keys s' = m_keys s -> m_vals s' = m_vals s -> evs = [] -> (forall k v, wr l k v <-> wr l' k v) -> (forall o i j p, l <> MSet o i j true p) ->
     (exists S, legal (kspec (n / 2)) S0 (lins (map (fun e => (t, e)) evs ++ tr)) S /\ forall k, S k = true <-> In k (m_keys s') /\ k <> 0%N) /\
     vals_ok s' (upd locs t l') (map (fun e => (t, e)) evs ++ tr) /\ gets_ok (map (fun e => (t, e)) evs ++ tr)).
  { intros s' Ek Ev -> Hwr Hns. cbn [map app]. split; [exists S; rewrite Ek; auto|]. split; [|exact HG].
    apply (vals_quiet s s' locs tr t l l' []); auto; [intros k v Hv; left; now apply Hwr|intros k v Hv; now apply Hwr|intros k v b []]. }
  (* a moment of effect that changes nothing *)
  assert (Hlin : forall o r, sh' = s -> evs = [Lin o r] -> kspec (n / 2) S o S r -> cm_stg l = Called o -> (forall k v, ~ wr l k v) -> (forall k v, ~ wr l' k v) ->
     (forall k, o = KGet k -> get_ok B0 k r tr) ->
     (exists S, legal (kspec (n / 2)) S0 (lins (map (fun e => (t, e)) evs ++ tr)) S /\ forall k, S k = true <-> In k (m_keys sh') /\ k <> 0%N) /\
     vals_ok sh' (upd locs t l') (map (fun e => (t, e)) evs ++ tr) /\ gets_ok (map (fun e => (t, e)) evs ++ tr)).
  { intros o r -> -> Hsp Hca W1 W2 Hg. split; [exists S; split; [cbn [map app lins]; econstructor; eassumption|exact HS]|]. split.
    - apply (vals_quiet s s locs tr t l l'); auto.
      + intros k v Hv. destruct (W1 k v Hv).
      + intros k v Hv. destruct (W2 k v Hv).
      + intros k v b [Hb|[]]; discriminate.
      + intros o0 i j p ->. discriminate.
    - cbn [map app]. destruct o as [k v|k v|k|k].
      1,2,4: apply (gets_app tr [(t, Lin _ r)]); [exact HG|intros u e [Eq|[]] k0 r0; injection Eq as <- <-; discriminate].
      apply gets_cons; [exact HG|]. now apply Hg. }
  assert (Habs : forall o, cm_key o <> 0%N -> S (cm_key o) = false <-> ~ In (cm_key o) (m_keys s)).
  { intros o Hk. rewrite <- not_true_iff_false, HS. tauto. }
  destruct l as [p|o p|o i j p|o i j p|o i j b p|o i j p|o i p|o r p]; cbn [cm_step] in E.
  - destruct p as [|o p]; [discriminate|]. injection E as <- <- <-. cbn [map app lins]. split; [exists S; auto|]. split.
    + apply (vals_quiet s s locs tr t (MIdle (o :: p)) (MEntry o p) [Inv o]); auto; try (intros; contradiction); try discriminate. intros k v b [Hb|[]]; discriminate.
    + apply (gets_app tr [(t, Inv o)]); [exact HG|]. intros u e [Eq|[]] k r; injection Eq as <- <-; discriminate.
  - assert (Hh : cm_head w s o (hash w (m_mult s) (cm_key o)) 0 p = Step sh' l' evs -> evs = [] /\ sh' = s /\ forall k v, ~ wr l' k v).
    { unfold cm_head. intros E'. injection E' as <- <- <-. auto. }
    assert (Hq : (evs = [] /\ sh' = s /\ forall k v, ~ wr l' k v) -> 
      (exists S, legal (kspec (n / 2)) S0 (lins (map (fun e => (t, e)) evs ++ tr)) S /\ forall k, S k = true <-> In k (m_keys sh') /\ k <> 0%N) /\
     vals_ok sh' (upd locs t l') (map (fun e => (t, e)) evs ++ tr) /\ gets_ok (map (fun e => (t, e)) evs ++ tr)).
    { intros [Ee [Es Hwr]]. rewrite Es. apply Hnone; auto; [|discriminate]. intros k v. split; [intros []|intros Hv; destruct (Hwr k v Hv)]. }
    destruct o as [k v|k v|k|k]; try (apply Hq, Hh, E). destruct (Nat.leb (length (m_keys s) / 2) (m_items s)) eqn:El; [|apply Hq, Hh, E].
    injection E as <- <- <-. apply Nat.leb_le in El. eapply (Hlin (KIns k v) RFull); auto; try discriminate. left. split; [reflexivity|]. split; [|auto].
    eapply at_least_le with (m := length (keys_of (m_keys s))); [exact Hw|exact a|rewrite H1 in El; lia|].
    exists (keys_of (m_keys s)). split; [exact (uniq_NoDup _ (HU eq_refl))|]. split; [reflexivity|]. intros x Hx. apply HS. now apply in_keys_of.
  - cbn [cm_loc_ok] in Hok. destruct Hok as [Hk [Ei Hsn]]. assert (Hk0 : cm_key o <> 0%N) by (apply Hk; now left).
    destruct (nth_error (m_keys s) (N.to_nat i)) as [c|] eqn:Ec; [|discriminate].
    assert (Hn' : cm_next w s o i j p = Step sh' l' evs -> 
      (exists S, legal (kspec (n / 2)) S0 (lins (map (fun e => (t, e)) evs ++ tr)) S /\ forall k, S k = true <-> In k (m_keys sh') /\ k <> 0%N) /\
     vals_ok sh' (upd locs t l') (map (fun e => (t, e)) evs ++ tr) /\ gets_ok (map (fun e => (t, e)) evs ++ tr)).
    { intros E'. unfold cm_next, cm_head in E'. injection E' as <- <- <-. apply Hnone; auto; [tauto|discriminate]. }
    unfold seen in Hsn. cbn [andb] in Hsn.
    assert (Ha : c = 0%N -> ~ In (cm_key o) (m_keys s)).
    { intros ->. rewrite Ei, Nat2N.id in Ec. eapply (walked_absent hm); [exact HC|exact Hk0|exact Hsn|]. rewrite H1. exact Ec. }
    assert (Hpres : c = cm_key o -> S (cm_key o) = true) by (intros Eq; apply HS; split; [rewrite <- Eq; eapply nth_error_In; exact Ec|exact Hk0]).
    destruct o as [k v|k v|k|k]; cbn [cm_key negb andb] in *.
    + destruct (N.eqb_spec c k) as [Eck|Eck].
      * injection E as <- <- <-. apply (Hlin (KIns k v) (RB false)); auto; try discriminate. right. rewrite (Hpres Eck). split; [reflexivity|].
        intros x. destruct (N.eqb_spec x k) as [->|]; [now rewrite (Hpres Eck)|reflexivity].
      * destruct (N.eqb_spec c 0); cbn [negb] in E; [injection E as <- <- <-; apply Hnone; auto; [tauto|discriminate]|now apply Hn'].
    + exfalso. destruct (Hk (KPut k v)) as [_ F]; [now left|discriminate F].
    + destruct (N.eqb_spec c k) as [Eck|Eck]; [injection E as <- <- <-; apply Hnone; auto; [tauto|discriminate]|].
      destruct (N.eqb_spec c 0) as [Ec0|Ec0]; [|now apply Hn']. injection E as <- <- <-.
      apply (Hlin (KGet k) (RV (Some 0%N))); auto.
      * cbn [kspec]. split; [eauto|auto].
      * intros k0 E0. injection E0 as <-. exists (Some 0%N). split; [reflexivity|]. right. destruct HV as [_ [_ V2]].
        assert (Hno : forall v, ~ origin locs tr k v).
        { intros v Ho. destruct (V2 k v Hk0 Ho) as [q [x [Hq _]]]. apply (Ha Ec0). eapply nth_error_In; exact Hq. }
        split; [intros Hans; destruct (ans_origin locs tr k Hans) as [v Hv]; exact (Hno v Hv)|]. split; [intros [v Hv]; apply (Hno v); now left|auto].
    + exfalso. destruct (Hk (KHas k)) as [_ F]; [now left|discriminate F].
  - cbn [cm_loc_ok] in Hok. destruct Hok as [Hk [Ei [Hsn Hput]]]. assert (Hk0 : cm_key o <> 0%N) by (apply Hk; now left).
    destruct (nth_error (m_keys s) (N.to_nat i)) as [c|] eqn:Ec; [|discriminate]. unfold seen in Hsn. cbn [andb] in Hsn.
    destruct (N.eqb_spec c 0) as [Ec0|Ec0].
    + injection E as <- <- <-. subst c. rewrite Ei in *. clear Ei i. rewrite Nat2N.id in *. set (q := slot n (hm (cm_key o)) j) in *.
      assert (Ha : ~ In (cm_key o) (m_keys s)).
      { eapply (walked_absent hm); [exact HC|exact Hk0|exact Hsn|]. rewrite H1. exact Ec. }
      clearbody q. clear Hnone Hlin. cbn [m_keys]. split; [|split].
      * exists (fun x => (x =? cm_key o)%N || S x). split.
        -- cbn [map app lins]. econstructor; [exact HL|]. destruct o as [k v|k v|k|k]; try discriminate.
           ++ right. cbn [cm_key] in *. pose proof (proj2 (Habs (KIns k v) Hk0) Ha) as Hf. cbn [cm_key] in Hf. rewrite Hf. split; reflexivity.
           ++ destruct (Hk (KPut k v)) as [_ F]; [now left|discriminate F].
        -- intros x. rewrite In_upd_free by assumption. rewrite orb_true_iff, N.eqb_eq, HS. reflexivity.
      * destruct HV as [V0 [V1 V2]]. unfold vals_ok, val_at. cbn [m_keys m_vals].
        assert (Hor : forall k v, origin (upd locs t (MSet o (N.of_nat q) j true p)) (map (fun e => (t, e)) [Lin o (RB true)] ++ tr) k v -> origin locs tr k v).
        { intros k v. eapply origin_back; [exact Et|cbn [wr]; tauto|intros b [F|[]]; discriminate]. }
        assert (Hor' : forall k v, origin locs tr k v -> origin (upd locs t (MSet o (N.of_nat q) j true p)) (map (fun e => (t, e)) [Lin o (RB true)] ++ tr) k v).
        { intros k v. eapply origin_step; [exact Et|cbn [wr]; tauto]. }
        split; [|split].
        -- intros i Hi. rewrite nth_error_upd in Hi. destruct (Nat.eqb q i); [destruct (Nat.ltb _ _); [|discriminate]; injection Hi as Hi; contradiction|]. now apply V0.
        -- intros i k Hi Hkz. rewrite nth_error_upd in Hi. destruct (Nat.eqb_spec q i) as [Eq|Hne].
           ++ destruct (Nat.ltb _ _); [|discriminate]. subst i. left. split; [now apply V0|].
              exists t, o, j, p. apply nth_error_upd_eq. eapply nth_error_lt; exact Et.
           ++ destruct (V1 i k Hi Hkz) as [[Hv Hf]|[v [Hv Ho]]]; [left; split; [exact Hv|eapply fresh_step; eauto; discriminate]|right; eauto].
        -- intros k v Hkz Ho. destruct (V2 k v Hkz (Hor k v Ho)) as [i [x [Hi Hx]]]. exists i, x. split; [|exact Hx].
           rewrite nth_error_upd_neq; [exact Hi|]. intros ->. congruence.
      * apply (gets_app tr [(t, Lin o (RB true))]); [exact HG|]. intros u e [Eq|[]] k r; injection Eq as <- <-. destruct o; discriminate.
    + cbn [negb andb] in E. destruct (N.eqb_spec c (cm_key o)) as [Eck|Eck].
      * injection E as <- <- <-. assert (Hpres : S (cm_key o) = true) by (apply HS; split; [rewrite <- Eck; eapply nth_error_In; exact Ec|exact Hk0]).
        apply (Hlin o (RB false)); auto.
        -- destruct o as [k v|k v|k|k]; try discriminate; cbn [cm_key kspec] in *.
           ++ right. rewrite Hpres. split; [reflexivity|]. intros x. destruct (N.eqb_spec x k) as [->|]; [now rewrite Hpres|reflexivity].
           ++ destruct (Hk (KPut k v)) as [_ F]; [now left|discriminate F].
        -- intros k ->. discriminate.
      * unfold cm_next, cm_head in E. injection E as <- <- <-. apply Hnone; auto; [tauto|discriminate].
  - cbn [cm_loc_ok] in Hok. destruct Hok as [Hk [Hcell [Hput Hb]]]. assert (Hk0 : cm_key o <> 0%N) by (apply Hk; now left).
    destruct (nth_error (m_vals s) (N.to_nat i)) as [ov|] eqn:Ev; [|discriminate].
    assert (Ho : exists k v, o = KIns k v).
    { destruct o as [k v|k v|k|k]; try discriminate; [eauto|]. destruct (Hk (KPut k v)) as [_ F]; [now left|discriminate F]. }
    destruct Ho as [k [v ->]]. cbn [cm_key cm_val] in *.
    assert (Hl' : sh' = mkmap (m_keys s) (upd (m_vals s) (N.to_nat i) (Some v)) (m_items s) (m_mult s) /\ evs = [] /\ wr l' k v /\ forall k' v', wr l' k' v' -> k' = k /\ v' = v).
    { cbn zeta in E. destruct b; [injection E as <- <- <-|unfold cm_done in E; injection E as <- <- <-]; cbn [wr];
        (split; [reflexivity|]; split; [reflexivity|]; split; [reflexivity|]; intros k' v' F; injection F as <- <-; auto). }
    destruct Hl' as [-> [-> [Hwr Hwr']]]. clear Hnone Hlin E. cbn [map app m_keys].
    split; [exists S; auto|]. split; [|exact HG]. set (q := N.to_nat i) in *.
    assert (Hqi : i = N.of_nat q) by (subst q; lia). clearbody q. subst i.
    destruct HV as [V0 [V1 V2]]. unfold vals_ok, val_at. cbn [m_keys m_vals].
    assert (Hor' : forall k v, origin locs tr k v -> origin (upd locs t l') tr k v).
    { intros k0 v0 Ho0. apply (origin_step locs tr t _ l' [] k0 v0 Et) in Ho0; [exact Ho0|]. cbn [wr]. tauto. }
    assert (Hnew : origin (upd locs t l') tr k v).
    { right. right. exists t, l'. split; [apply nth_error_upd_eq; eapply nth_error_lt; exact Et|exact Hwr]. }
    pose proof (nth_error_lt _ _ _ Ev) as Hlt.
    split; [|split].
    + intros i Hi. rewrite nth_error_upd_neq; [now apply V0|]. intros ->. congruence.
    + intros i k0 Hi Hkz. destruct (Nat.eq_dec q i) as [<-|Hne].
      * right. exists v. rewrite nth_error_upd_eq by exact Hlt. split; [reflexivity|]. rewrite Hcell in Hi. injection Hi as <-. exact Hnew.
      * rewrite nth_error_upd_neq by exact Hne. destruct (V1 i k0 Hi Hkz) as [[Hv Hf]|[v0 [Hv Ho]]]; [left; split; [exact Hv|]|right; eauto].
        eapply fresh_step; [exact Et| |exact Hf]. intros o0 j0 p0 F. injection F as _ F _ _. lia.
    + intros k0 v0 Hkz Ho.
      assert (G : origin locs tr k0 v0 \/ k0 = k /\ v0 = v).
      { destruct Ho as [H|[H|[u [x [Hx Hr]]]]]; [left; now left|left; right; now left|]. destruct (Nat.eq_dec u t) as [->|Hne].
        - rewrite nth_error_upd_eq in Hx by (eapply nth_error_lt; exact Et). injection Hx as <-. right. now apply Hwr'.
        - rewrite nth_error_upd_neq in Hx by congruence. left. right. right. eauto. }
      destruct G as [G|[-> ->]].
      * destruct (V2 k0 v0 Hkz G) as [i [x [Hi Hx]]]. destruct (Nat.eq_dec q i) as [<-|Hne].
        -- exists q, v. rewrite nth_error_upd_eq by exact Hlt. auto.
        -- exists i, x. rewrite nth_error_upd_neq by exact Hne. auto.
      * exists q, v. rewrite nth_error_upd_eq by exact Hlt. auto.
  - cbn [cm_loc_ok] in Hok. destruct Hok as [Hk [Hcell Hput]]. unfold cm_done in E.
    destruct o as [k v|k v|k|k]; try discriminate.
    + injection E as <- <- <-. apply Hnone; auto; [|discriminate]. intros k0 v0. cbn [wr]. tauto.
    + destruct (Hk (KPut k v)) as [_ F]; [now left|discriminate F].
  - cbn [cm_loc_ok] in Hok. destruct Hok as [Hk [Hcell [k ->]]]. assert (Hk0 : cm_key (KGet k) <> 0%N) by (apply Hk; now left). cbn [cm_key] in *.
    destruct (nth_error (m_vals s) (N.to_nat i)) as [ov|] eqn:Ev; [|discriminate]. injection E as <- <- <-.
    assert (Hpres : S k = true) by (apply HS; split; [eapply nth_error_In; exact Hcell|exact Hk0]).
    apply (Hlin (KGet k) (RV ov)); auto.
    + cbn [kspec]. split; [|auto]. exists ov. split; [reflexivity|]. congruence.
    + intros k0 E0. injection E0 as <-. exists ov. split; [reflexivity|]. destruct HV as [V0 [V1 V2]].
      destruct (V1 _ _ Hcell Hk0) as [[Hv Hf]|[v [Hv Ho]]].
      * right. rewrite Ev in Hv. injection Hv as ->.
        assert (Hno : forall v, ~ origin locs tr k v).
        { intros v Ho. destruct (V2 k v Hk0 Ho) as [q [x [Hq Hx]]].
          assert (q = N.to_nat i) by (eapply (HU eq_refl); eassumption). subst q. congruence. }
        split; [intros Hans; destruct (ans_origin locs tr k Hans) as [v Hv]; exact (Hno v Hv)|]. split; [intros [v Hv]; apply (Hno v); now left|auto].
      * left. exists v. rewrite Ev in Hv. injection Hv as ->. split; [reflexivity|]. eapply origin_inv; eassumption.
  - injection E as <- <- <-. cbn [map app lins]. split; [exists S; auto|]. split.
    + apply (vals_quiet s s locs tr t (MRet o r p) (MIdle p) [Rsp o r]); auto; try (intros; contradiction); try discriminate.
      * intros k v. cbn [wr]. destruct r as [|b|ov]; try contradiction. intros ->. right. exists b. now left.
      * intros k v b [F|[]]. injection F as -> ->. reflexivity.
    + apply (gets_app tr [(t, Rsp o r)]); [exact HG|]. intros u e [Eq|[]] k r0; injection Eq as <- <-; discriminate.
Qed.

Lemma map_inv_start s S0 progs : cmI w false n a (cm_start s progs) [] ->
  (forall k, S0 k = true <-> In k (m_keys s) /\ k <> 0%N) -> (forall k v, B0 k v <-> bind s k v) ->
  (forall i, nth_error (m_keys s) i = Some 0%N -> nth_error (m_vals s) i = Some None) ->
  (forall i k, nth_error (m_keys s) i = Some k -> k <> 0%N -> exists v, nth_error (m_vals s) i = Some (Some v)) ->
  mapI S0 (cm_start s progs) [].
Proof.
  intros HI HS HB V0 V1. split; [exact HI|]. split; [exists S0; split; [constructor|exact HS]|]. unfold cm_start. cbn [c_sh c_loc].
  split; [|intros [|x tr1] t k r tr2 E; discriminate].
  split; [exact V0|]. split.
  - intros i k Hi Hk. right. destruct (V1 i k Hi Hk) as [v Hv]. exists v. split; [exact Hv|]. left. apply HB. unfold bind. split; [exact Hk|]. exists i. auto.
  - intros k v Hk [H|[[t [b []]]|[t [l [Hl Hr]]]]].
    + apply HB in H. destruct H as [_ [i [H4 H5]]]. exists i, v. auto.
    + exfalso. apply nth_error_In in Hl. apply in_map_iff in Hl. destruct Hl as [p [<- _]]. destruct Hr.
Qed.

Lemma map_inv S0 c0 c tr : mapI S0 c0 [] -> exec (cm_step w false) c0 c tr -> mapI S0 c tr.
Proof. intros H0. apply exec_inv; [exact H0|]. intros. eapply map_inv_step; eassumption. Qed.
End W.
