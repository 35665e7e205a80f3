(** Rehashing, migrating and merging Concurrent_LP_Map and Concurrent_LP_MultiMap: phases of concurrent inserts into a fresh table. *)
From Coq Require Import Permutation.
From Verif Require Import Outcome ListUtil WordsModel WordsProofs LPSetModel ProbeTheory LPSetProofs LPMapModel LPMapProofs LPMultiMapModel LPMultiMapProofs LPMultiMapSpec Conc ConcProbe ConcSetModel ConcSetProofs ConcSetSpec ConcSetMerge ConcMapModel ConcMapProofs ConcMapVal ConcMMVal ConcMapSpec.
Local Open Scope nat_scope.

Section W.
Variable w : N.
Hypothesis Hw : (w <= 64)%N.

(** *** the value of a key that was inserted comes from an insert *)
Section Latest.
Variables (n : nat) (a : N) (B0 : N -> N -> Prop) (S0 : N -> bool).
Hypothesis Hn : pow2cap w n.
Notation written := (origin (fun _ _ => False)).
Definition latest (c : config lpmap cmloc) (tr : list (nat * ev cmop cmret)) : Prop :=
  forall k v i, k <> 0%N -> written (c_loc c) tr k v -> nth_error (m_keys (c_sh c)) i = Some k ->
  exists v', nth_error (m_vals (c_sh c)) i = Some (Some v') /\ written (c_loc c) tr k v'.

Lemma written_origin locs tr k v : written locs tr k v -> origin B0 locs tr k v.
Proof. intros [[]|H]. now right. Qed.

Lemma latest_quiet s s' locs tr t l l' evs : nth_error locs t = Some l -> m_keys s' = m_keys s -> m_vals s' = m_vals s ->
  (forall k v, wr l k v -> wr l' k v \/ exists b, In (Rsp (KIns k v) (RB b)) evs) -> (forall k v, wr l' k v -> wr l k v) ->
  (forall k v b, In (Rsp (KIns k v) (RB b)) evs -> wr l k v) ->
  latest (mkc s locs) tr -> latest (mkc s' (upd locs t l')) (map (fun e => (t, e)) evs ++ tr).
Proof.
  intros Et Ek Ev H1 H2 H3 HJ k v i Hk Hwr Hi. cbn [c_sh c_loc] in *. rewrite Ek in Hi. rewrite Ev.
  destruct (HJ k v i Hk) as [v' [Hv' Ho]]; cbn [c_sh c_loc]; [|exact Hi|].
  - apply (origin_back (fun _ _ => False) locs tr t l l' evs k v Et); auto. intros b Hb. eapply H3; exact Hb.
  - exists v'. split; [exact Hv'|]. apply (origin_step (fun _ _ => False) locs tr t l l' evs k v' Et); auto.
Qed.

Lemma latest_step c tr t l sh' l' evs : mapI w n a B0 S0 c tr -> latest c tr -> nth_error (c_loc c) t = Some l -> cm_step w false (c_sh c) l = Step sh' l' evs ->
  latest (mkc sh' (upd (c_loc c) t l')) (map (fun e => (t, e)) evs ++ tr).
Proof.
  intros HI HJ Et E. pose proof (map_inv_step w Hw n a Hn B0 S0 c tr t l sh' l' evs HI Et E) as HI'.
  destruct c as [s locs]. cbn [c_sh c_loc] in *.
  destruct HI as [[H1 [H2 [H3 [HC [HU [Ht Hc]]]]]] [_ [[V0 [V1 V2]] _]]]. cbn [c_sh c_loc] in *.
  destruct HI' as [[_ [_ [_ [_ [HU' _]]]]] _]. cbn [c_sh c_loc] in HU'. specialize (HU eq_refl). specialize (HU' eq_refl).
  destruct (thr_get _ _ _ _ _ _ Ht Et) as [Hok _].
  assert (Hq : m_keys sh' = m_keys s -> m_vals sh' = m_vals s -> (forall o r, ~ In (Rsp o r) evs) -> (forall k v, wr l k v <-> wr l' k v) ->
     latest (mkc sh' (upd locs t l')) (map (fun e => (t, e)) evs ++ tr)).
  { intros Ek Ev Ee Hwr. apply (latest_quiet s sh' locs tr t l l' evs); auto.
    - intros k v Hv. left. now apply Hwr.
    - intros k v Hv. now apply Hwr.
    - intros k v b Hb. destruct (Ee _ _ Hb). }
  destruct l as [p|o p|o i j p|o i j p|o i j b p|o i j p|o i p|o r p]; cbn [cm_step] in E; unfold cm_done, cm_next, cm_head in E.
  - destruct p as [|o p]; [discriminate|]. injection E as <- <- <-. apply Hq; auto; [intros x y [F|[]]; discriminate|intros; cbn [wr]; tauto].
  - destruct o; [destruct (Nat.leb _ _)| | |]; injection E as <- <- <-; apply Hq; auto; try (intros x y [F|[]]; discriminate); intros; cbn [wr]; tauto.
  - destruct (nth_error (m_keys s) (N.to_nat i)); [|discriminate].
    assert (G : m_keys sh' = m_keys s /\ m_vals sh' = m_vals s /\ (forall o r, ~ In (Rsp o r) evs) /\ (forall k v, ~ wr l' k v)).
    { repeat match type of E with
       | Step _ _ _ = _ => injection E as <- <- <-
       | context [match ?x with _ => _ end] => destruct x
       end; (split; [reflexivity|]; split; [reflexivity|]; split; [intros x y F; cbn [In] in F; intuition discriminate|intros k1 v1 F; cbn [wr] in F; (contradiction || discriminate F)]). }
    destruct G as [G1 [G2 [G3 G4]]]. apply Hq; auto. intros k v. split; [intros []|intros F; destruct (G4 k v F)].
  - cbn [cm_loc_ok] in Hok. destruct (nth_error (m_keys s) (N.to_nat i)) as [c|] eqn:Ec; [|discriminate].
    destruct (N.eqb_spec c 0) as [Ec0|Ec0].
    + injection E as <- <- <-. intros k v q Hk Hwr Hi. cbn [c_sh c_loc m_keys m_vals] in *.
      assert (Hold : written locs tr k v) by (apply (origin_back (fun _ _ => False) locs tr t _ (MSet o i j true p) [Lin o (RB true)] k v Et); [cbn [wr]; tauto|intros b [F|[]]; discriminate|exact Hwr]).
      assert (Hfw : forall x y, written locs tr x y -> written (upd locs t (MSet o i j true p)) (map (fun e => (t, e)) [Lin o (RB true)] ++ tr) x y)
        by (intros x y; apply (origin_step (fun _ _ => False) locs tr t _ (MSet o i j true p) [Lin o (RB true)] x y Et); cbn [wr]; tauto).
      destruct (V2 k v Hk (written_origin _ _ _ _ Hold)) as [q' [v1 [Hq' Hv1]]].
      assert (Hne : N.to_nat i <> q') by (intros Eq; rewrite <- Eq in Hq'; congruence).
      assert (Eq : q = q'). { eapply HU'; [exact Hi| |exact Hk]. rewrite nth_error_upd_neq by exact Hne. exact Hq'. }
      subst q'. destruct (HJ k v q Hk Hold Hq') as [v2 [Hv2 Ho]]. exists v2. split; [exact Hv2|]. now apply Hfw.
    + destruct (negb false && (c =? cm_key o)%N); injection E as <- <- <-; apply Hq; auto; try (intros x y [F|[]]; discriminate); intros; cbn [wr]; tauto.
  - cbn [cm_loc_ok] in Hok. destruct Hok as [Hk [Hcell [Hput Hb]]]. assert (Hk0 : cm_key o <> 0%N) by (apply Hk; now left).
    destruct (nth_error (m_vals s) (N.to_nat i)) as [ov|] eqn:Ev; [|discriminate].
    assert (Ho : exists k v, o = KIns k v).
    { destruct o as [k v|k v|k|k]; try discriminate; [eauto|]. destruct (Hk (KPut k v)) as [_ F]; [now left|discriminate F]. }
    destruct Ho as [k [v ->]]. cbn [cm_key cm_val] in *.
    assert (Hl' : sh' = mkmap (m_keys s) (upd (m_vals s) (N.to_nat i) (Some v)) (m_items s) (m_mult s) /\ evs = [] /\ wr l' k v /\ forall k' v', wr l' k' v' -> k' = k /\ v' = v).
    { cbn zeta in E. destruct b; injection E as <- <- <-; cbn [wr];
        (split; [reflexivity|]; split; [reflexivity|]; split; [reflexivity|]; intros k' v' F; injection F as <- <-; auto). }
    destruct Hl' as [-> [-> [Hwr Hwr']]]. clear Hq E. cbn [map app]. intros k0 v0 q Hkz Hw0 Hi. cbn [c_sh c_loc m_keys m_vals] in *.
    pose proof (nth_error_lt _ _ _ Ev) as Hlt.
    destruct (Nat.eq_dec (N.to_nat i) q) as [Eq|Hne].
    + subst q. rewrite Hcell in Hi. injection Hi as <-. exists v. rewrite nth_error_upd_eq by exact Hlt. split; [reflexivity|].
      right. right. exists t, l'. split; [apply nth_error_upd_eq; eapply nth_error_lt; exact Et|exact Hwr].
    + rewrite nth_error_upd_neq by exact Hne.
      assert (Hold : written locs tr k0 v0).
      { destruct Hw0 as [[]|[H|[u [x [Hx Hr]]]]]; [right; now left|]. destruct (Nat.eq_dec u t) as [->|Hu].
        - rewrite nth_error_upd_eq in Hx by (eapply nth_error_lt; exact Et). injection Hx as <-. destruct (Hwr' _ _ Hr) as [-> ->].
          exfalso. apply Hne. eapply HU; eassumption.
        - rewrite nth_error_upd_neq in Hx by congruence. right. right. eauto. }
      destruct (HJ k0 v0 q Hkz Hold Hi) as [v2 [Hv2 Ho]]. exists v2. split; [exact Hv2|].
      apply (origin_step (fun _ _ => False) locs tr t _ l' [] k0 v2 Et) in Ho; [exact Ho|]. cbn [wr]. tauto.
  - cbn [cm_loc_ok] in Hok. destruct Hok as [Hk _]. destruct o as [k v|k v|k|k].
    2: { destruct (Hk (KPut k v)) as [_ F]; [now left|discriminate F]. }
    all: injection E as <- <- <-; apply Hq; auto; intros; cbn [wr]; tauto.
  - destruct (nth_error (m_vals s) (N.to_nat i)) as [ov|] eqn:Ev; [|discriminate]. injection E as <- <- <-. apply Hq; auto; [intros x y [F|[]]; discriminate|]. intros; cbn [wr]. tauto.
  - injection E as <- <- <-. apply (latest_quiet s s locs tr t (MRet o r p) (MIdle p) [Rsp o r]); auto; try (intros; contradiction).
    + intros k v. cbn [wr]. destruct r as [|b|ov]; try contradiction. intros ->. right. exists b. now left.
    + intros k v b [F|[]]. injection F as -> ->. reflexivity.
Qed.
End Latest.

Lemma map_latest s progs c tr : cm_made w false s -> calls_ok false progs -> exec (cm_step w false) (cm_start s progs) c tr -> latest c tr.
Proof.
  intros Hm Hp He. pose proof (cm_made_wf w Hw false s Hm) as Hwf.
  assert (G : mapI w (length (m_keys s)) (m_mult s) (bind s) (kmemb s) c tr /\ latest c tr); [|apply G].
  revert c tr He. apply exec_inv.
  - split; [exact (map_start w Hw s progs Hwf Hp)|]. intros k v i Hk [[]|[[t [b []]]|[t [l [Hl Hr]]]]].
    cbn [cm_start c_loc] in Hl. apply nth_error_In, in_map_iff in Hl. destruct Hl as [p [<- _]]. destruct Hr.
  - intros c tr t l sh' l' evs _ [HI HJ] Et Es. split; [eapply map_inv_step; try eassumption; apply Hwf|eapply latest_step; try eassumption; apply Hwf].
Qed.

(** At rest, for a key with an answered insert: the value is of such an insert. *)
Lemma map_rest_written s progs c tr k v v0 b : cm_made w false s -> calls_ok false progs -> exec (cm_step w false) (cm_start s progs) c tr -> cm_resting c ->
  In (KIns k v0, RB b) (rsps tr) -> bind (c_sh c) k v -> exists b', In (KIns k v, RB b') (rsps tr).
Proof.
  intros Hm Hp He Hr Hin [Hk [i [Hi Hv]]]. pose proof (map_latest s progs c tr Hm Hp He) as HJ.
  apply in_rsps in Hin. destruct Hin as [t Hin].
  destruct (HJ k v0 i Hk) as [v' [Hv' Ho]]; [right; left; eauto|exact Hi|]. rewrite Hv in Hv'. injection Hv' as <-.
  destruct Ho as [[]|[[u [b' H]]|[u [l [Hl Hwr]]]]]; [exists b'; apply in_rsps; eauto|].
  destruct (Hr l (nth_error_In _ _ Hl)) as [p ->]. destruct Hwr.
Qed.

(** *** a phase of inserts that fits into half of the table *)
Definition phase_ok (mm : bool) (s : lpmap) (progs : list (list cmop)) : Prop :=
  calls_ok mm progs /\ (forall p o, In p progs -> In o p -> is_put o = true) /\ 2 * (m_items s + length (concat progs)) <= length (m_keys s).

Lemma puts_all l : (forall o, In o l -> is_put o = true) -> puts_of l = length l.
Proof.
  unfold puts_of. induction l as [|o l IH]; intros H; [reflexivity|]. cbn [filter]. rewrite (H o) by now left. cbn [length]. rewrite IH; [reflexivity|].
  intros x Hx. apply H. now right.
Qed.
Lemma concat_all {A} (P : A -> Prop) progs : (forall p o, In p progs -> In o p -> P o) -> forall o, In o (concat progs) -> P o.
Proof. intros H o Ho. apply in_concat in Ho. destruct Ho as [p [Hp Ho]]. eauto. Qed.

Lemma phase_runs mm s progs : cm_made w mm s -> phase_ok mm s progs ->
  safe (cm_step w mm) (cm_start s progs) /\ terminates (cm_step w mm) (cm_start s progs) /\
  (forall c tr, exec (cm_step w mm) (cm_start s progs) c tr -> (exists c', cstep (cm_step w mm) c c') \/ cm_finished c) /\
  forall c tr, exec (cm_step w mm) (cm_start s progs) c tr -> cm_finished c ->
    cm_made w mm (c_sh c) /\ Permutation (map fst (rsps tr)) (concat progs) /\ forall o r, In (o, r) (rsps tr) -> exists b, r = RB b.
Proof.
  intros Hm [Hp [Hput Hsz]]. pose proof (puts_all _ (concat_all (fun o => is_put o = true) progs Hput)) as Hpn.
  assert (Hsafe := cm_is_safe w Hw mm s progs Hm Hp).
  split; [exact Hsafe|]. split; [|split].
  - apply (cm_all_terminate w Hw mm s progs Hm Hp). unfold fits_all. rewrite Hpn. split; [lia|right; exact Hput].
  - intros c tr He. destruct (cstep_or_stopped _ _ _ (cm_step w mm) c) as [H|H]; [intros t l E; eapply Hsafe; eassumption|now left|right].
    eapply (cm_stop w Hw mm); try eassumption. intros c' Hc. destruct Hc as [t [l [sh' [l' [evs [Et [Es _]]]]]]]. rewrite (H t l Et) in Es. discriminate.
  - intros c tr He Hf. pose proof (finished_resting c Hf) as Hr. split; [eapply cmade_run; eassumption|]. split.
    + rewrite <- (acct w mm s progs c tr He). rewrite (flat_map_nil togo); [now rewrite app_nil_r|]. intros l Hl. rewrite (Hf l Hl). reflexivity.
    + intros o r Hin.
      assert (Hst : forall t, tstage t tr Out).
      { assert (Hstg : thr_ok (cm_loc_ok w mm (length (m_keys s)) (m_mult s) (m_keys (c_sh c))) cm_stg (c_loc c) tr).
        { pose proof (cm_made_wf w Hw mm s Hm) as Hwf. pose proof (cm_inv w Hw mm _ _ (proj1 Hwf) _ c tr (cm_start_inv w Hw mm s progs Hwf Hp) He) as HI. apply HI. }
        exact (thr_quiet _ _ _ _ Hstg (cm_resting_stg c Hr)). }
      pose proof (lins_rsps tr Hst) as Hlr. assert (Hl : In (o, r) (lins tr)) by (eapply Permutation_in; [apply Permutation_sym; exact Hlr|exact Hin]).
      assert (Hnf : r <> RFull).
      { intros ->. assert (Hhalf : m_items s + puts_of (concat progs) <= length (m_keys s) / 2) by (rewrite Hpn; apply Nat.div_le_lower_bound; lia).
        exact (no_full w Hw mm s progs c tr Hm Hp Hhalf He o Hl). }
      assert (Hop : is_put o = true).
      { apply (concat_all (fun o => is_put o = true) progs Hput). eapply Permutation_in; [exact (acct w mm s progs c tr He)|]. apply in_or_app. left.
        apply in_map_iff. exists (o, r). auto. }
      assert (Hlegal : (exists S, legal (kspec (length (m_keys s) / 2)) (kmemb s) (lins tr) S) \/ exists E, legal (bspec (length (m_keys s) / 2)) (entries s) (lins tr) E).
      { destruct mm; [right|left].
        - destruct (mm_invariant w Hw s progs c tr Hm Hp He) as [_ [[E [HL _]] _]]. eauto.
        - destruct (map_invariant w Hw s progs c tr Hm Hp He) as [_ [[S [HL _]] _]]. eauto. }
      clear - Hl Hnf Hop Hlegal. destruct Hlegal as [[S HL]|[E HL]].
      * induction HL as [|l T o' r' T' HL IH Hs]; [destruct Hl|]. destruct Hl as [Eq|Hl]; [|auto]. injection Eq as -> ->.
        destruct o as [j v|j v|j|j]; cbn [kspec] in Hs; try contradiction; try discriminate. destruct Hs as [[-> _]|[-> _]]; [contradiction|eauto].
      * induction HL as [|l T o' r' T' HL IH Hs]; [destruct Hl|]. destruct Hl as [Eq|Hl]; [|auto]. injection Eq as -> ->.
        destruct o as [j v|j v|j|j]; cbn [bspec] in Hs; try contradiction; try discriminate; [destruct Hs as [[-> _]|[-> _]]; [contradiction|eauto]|].
        destruct Hs as [-> _]. eauto.
Qed.

(** The pair passed by an inserting call. *)
Definition pair_of (o : cmop) : list (N * N) := match o with KIns k v | KPut k v => [(k, v)] | _ => [] end.

Lemma phase_map s progs c tr : cm_made w false s -> phase_ok false s progs -> exec (cm_step w false) (cm_start s progs) c tr -> cm_finished c ->
  (forall k v, bind (c_sh c) k v -> In (KIns k v) (concat progs) \/ (bind s k v /\ forall v', ~ In (KIns k v') (concat progs))) /\
  (forall k, (exists v, bind s k v) \/ (exists v, In (KIns k v) (concat progs)) -> exists v, bind (c_sh c) k v).
Proof.
  intros Hm Hph He Hf. destruct (phase_runs false s progs Hm Hph) as [_ [_ [_ G]]]. destruct (G c tr He Hf) as [_ [P R]]. destruct Hph as [Hp _].
  assert (Hex : forall k v, In (KIns k v) (concat progs) <-> exists b, In (KIns k v, RB b) (rsps tr)).
  { intros k v. split.
    - intros H. apply (Permutation_in _ (Permutation_sym P)) in H. apply in_map_iff in H. destruct H as [[o r] [Eo H]]. cbn [fst] in Eo. subst o. destruct (R _ _ H) as [b ->]. eauto.
    - intros [b H]. eapply Permutation_in; [exact P|]. apply in_map_iff. exists (KIns k v, RB b). auto. }
  pose proof (finished_resting c Hf) as Hr. destruct (map_at_rest w Hw s progs c tr Hm Hp He Hr) as [_ [B1 B2]].
  split.
  - intros k v Hb. destruct (existsb (fun o => match o with KIns j _ => (j =? k)%N | _ => false end) (concat progs)) eqn:Ex.
    + apply existsb_exists in Ex. destruct Ex as [o [Ho Ek]]. destruct o as [j v0|j v0|j|j]; try discriminate. apply N.eqb_eq in Ek. subst j.
      apply Hex in Ho. destruct Ho as [b Ho]. left. apply Hex. eapply map_rest_written; eassumption.
    + assert (Hno : forall v', ~ In (KIns k v') (concat progs)).
      { intros v' H. assert (F : existsb (fun o => match o with KIns j _ => (j =? k)%N | _ => false end) (concat progs) = true); [|congruence].
        apply existsb_exists. exists (KIns k v'). split; [exact H|apply N.eqb_refl]. }
      right. split; [|exact Hno]. destruct (B1 k v Hb) as [|H]; [assumption|]. apply Hex in H. destruct (Hno v H).
  - intros k [H|[v H]]; apply B2; [now left|right]. apply Hex in H. destruct H as [b H]. eauto.
Qed.

Lemma phase_mm s progs c tr : cm_made w true s -> phase_ok true s progs -> exec (cm_step w true) (cm_start s progs) c tr -> cm_finished c ->
  Permutation (entries (c_sh c)) (flat_map pair_of (concat progs) ++ entries s).
Proof.
  intros Hm Hph He Hf. destruct (phase_runs true s progs Hm Hph) as [_ [_ [_ G]]]. destruct (G c tr He Hf) as [_ [P R]]. destruct Hph as [Hp _].
  pose proof (finished_resting c Hf) as Hr. destruct (mm_at_rest w Hw s progs c tr Hm Hp He Hr) as [_ HP]. rewrite HP. apply Permutation_app_tail.
  rewrite <- (flat_map_perm pair_of _ _ P). rewrite flat_map_map.
  assert (Htrue : forall o b, In (o, RB b) (rsps tr) -> is_put o = true -> b = true).
  { intros o b Hin Hop. destruct (mm_invariant w Hw s progs c tr Hm Hp He) as [HI [[E [HL _]] _]].
    assert (Hl : In (o, RB b) (lins tr)).
    { eapply Permutation_in; [apply Permutation_sym, lins_rsps|exact Hin]. destruct HI as [_ [_ [_ [_ [_ [Ht _]]]]]]. exact (thr_quiet _ _ _ _ Ht (cm_resting_stg c Hr)). }
    clear - HL Hl Hop. induction HL as [|l T o' r' T' HL IH Hs]; [destruct Hl|]. destruct Hl as [Eq|Hl]; [|auto]. injection Eq as -> ->.
    destruct o as [j v|j v|j|j]; cbn [bspec] in Hs; try contradiction; try discriminate; [destruct Hs as [[F _]|[F _]]; congruence|destruct Hs as [F _]; congruence]. }
  assert (G2 : forall l, (forall x, In x l -> In x (rsps tr)) -> flat_map new_pair l = flat_map (fun x => pair_of (fst x)) l).
  { induction l as [|[o r] l IH]; intros Hl; [reflexivity|]. cbn [flat_map fst]. rewrite IH by (intros x Hx; apply Hl; now right). f_equal.
    assert (Hin := Hl (o, r) (or_introl eq_refl)). destruct (R o r Hin) as [b ->].
    destruct o as [j v|j v|j|j]; cbn [new_pair pair_of]; try reflexivity; rewrite (Htrue _ _ Hin eq_refl); reflexivity. }
  rewrite (G2 (rsps tr)) by auto. reflexivity.
Qed.

(** *** distributing the loop indices over threads *)
Definition spread (f : nat -> list cmop) (chunks : list (list nat)) : list (list cmop) := map (flat_map f) chunks.
Lemma spread_concat f chunks : concat (spread f chunks) = flat_map f (concat chunks).
Proof. unfold spread. induction chunks as [|ch chunks IH]; [reflexivity|]. cbn [map concat]. rewrite IH, flat_map_app. reflexivity. Qed.
Lemma spread_perm f chunks n : Permutation (concat chunks) (seq 0 n) -> Permutation (concat (spread f chunks)) (flat_map f (seq 0 n)).
Proof. intros H. rewrite spread_concat. now apply flat_map_perm. Qed.

Definition keeping (keep : N -> bool) (s : lpmap) : list (N * N) := filter (fun p => keep (fst p)) (entries s).
Lemma combine_nth_error {A B} (l1 : list A) (l2 : list B) i : 
  nth_error (combine l1 l2) i = match nth_error l1 i, nth_error l2 i with Some x, Some y => Some (x, y) | _, _ => None end.
Proof. revert l2 i. induction l1 as [|x l1 IH]; intros [|y l2] [|i]; cbn [combine nth_error]; try reflexivity; [now destruct (nth_error l1 i)|apply IH]. Qed.
Lemma cell_ops op keep s i : (forall k v, pair_of (op k v) = [(k, v)]) ->
  flat_map pair_of (cell_op op keep (m_keys s) (m_vals s) i) = match nth_error (cells s) i with Some c => filter (fun p => keep (fst p)) (ent c) | None => [] end.
Proof.
  intros Hop. unfold cell_op, cells. rewrite combine_nth_error. destruct (nth_error (m_keys s) i) as [k|]; [|reflexivity].
  destruct (nth_error (m_vals s) i) as [[v|]|]; try reflexivity.
  - unfold ent, nz. cbn [fst snd]. destruct (k =? 0)%N; cbn [negb andb]; [reflexivity|]. cbn [filter fst]. destruct (keep k); [|reflexivity]. cbn [flat_map app]. now rewrite Hop.
Qed.
Lemma flat_map_flat {A B C} (f : A -> list B) (g : B -> list C) l : flat_map g (flat_map f l) = flat_map (fun x => flat_map g (f x)) l.
Proof. induction l as [|x l IH]; [reflexivity|]. cbn [flat_map]. now rewrite flat_map_app, IH. Qed.
Lemma seq_cells {B} (g : N * option N -> list B) l n : length l <= n ->
  flat_map (fun i => match nth_error l i with Some c => g c | None => [] end) (seq 0 n) = flat_map g l.
Proof.
  revert n. induction l as [|c l IH]; intros n Hn.
  - apply flat_map_nil. intros i _. now destruct i.
  - destruct n as [|n]; [cbn [length] in Hn; lia|]. cbn [seq flat_map nth_error]. f_equal. rewrite <- seq_shift, flat_map_map. cbn [nth_error]. apply IH. cbn [length] in Hn. lia.
Qed.
Lemma all_ops op keep s n : (forall k v, pair_of (op k v) = [(k, v)]) -> length (m_keys s) <= n ->
  flat_map pair_of (flat_map (cell_op op keep (m_keys s) (m_vals s)) (seq 0 n)) = keeping keep s.
Proof.
  intros Hop Hn. rewrite flat_map_flat. unfold keeping, entries. rewrite filter_flat_map. rewrite <- (seq_cells _ (cells s) n).
  - apply flat_map_ext. intros i. now apply cell_ops.
  - unfold cells. rewrite combine_length. lia.
Qed.
Lemma cell_op_in op keep ks vs i o : In o (cell_op op keep ks vs i) -> exists k v, o = op k v /\ k <> 0%N.
Proof.
  unfold cell_op. destruct (nth_error ks i) as [k|]; [|intros []]. destruct (nth_error vs i) as [[v|]|]; try (intros []).
  destruct (N.eqb_spec k 0); cbn [negb andb]; [intros []|]. destruct (keep k); [|intros []]. intros [<-|[]]. eauto.
Qed.
Lemma pairs_length l : (forall o, In o l -> is_put o = true) -> length (flat_map pair_of l) = length l.
Proof.
  induction l as [|o l IH]; intros H; [reflexivity|]. cbn [flat_map length]. rewrite app_length, IH by (intros x Hx; apply H; now right).
  pose proof (H o (or_introl eq_refl)). now destruct o.
Qed.
Lemma keeping_length keep s : mm_wf w s -> length (keeping keep s) <= m_items s.
Proof.
  intros Hm. unfold keeping. etransitivity; [apply (filter_length_le w Hw)|]. now rewrite (entries_length w Hw s).
Qed.
Lemma keeping_true s : keeping (fun _ => true) s = entries s.
Proof. apply filter_true. Qed.
Lemma entries_bind s k v : In (k, v) (entries s) <-> bind s k v.
Proof.
  unfold entries, bind. rewrite in_flat_map. split.
  - intros [[x ov] [Hin He]]. unfold ent in He. cbn [fst snd] in He. unfold nz in He. destruct ov as [y|]; [|destruct He].
    destruct (N.eqb_spec x 0) as [|Hx]; cbn [negb] in He; [destruct He|]. destruct He as [He|[]]. injection He as -> ->. split; [exact Hx|].
    apply In_nth_error in Hin. destruct Hin as [i Hi]. unfold cells in Hi. rewrite combine_nth_error in Hi. exists i.
    destruct (nth_error (m_keys s) i), (nth_error (m_vals s) i); try discriminate. injection Hi as -> ->. auto.
  - intros [Hk [i [H1 H2]]]. exists (k, Some v). split.
    + unfold cells. eapply nth_error_In. rewrite combine_nth_error, H1, H2. reflexivity.
    + unfold ent, nz. cbn [fst snd]. apply N.eqb_neq in Hk. rewrite Hk. now left.
Qed.
Lemma in_pairs k v l : (forall o, In o l -> exists x y, o = KIns x y) -> (In (KIns k v) l <-> In (k, v) (flat_map pair_of l)).
Proof.
  intros Hl. rewrite in_flat_map. split; [intros H; exists (KIns k v); split; [exact H|now left]|].
  intros [o [Ho Hi]]. destruct (Hl o Ho) as [x [y ->]]. destruct Hi as [E|[]]. injection E as -> ->. exact Ho.
Qed.

Lemma made_mm mm s : cm_made w mm s -> mm_wf w s.
Proof. intros Hm. apply (cm_wf_mm w mm). now apply cm_made_wf. Qed.

(** What a fresh table of [2 ^ k] cells holds after the phase. *)
Definition good_phase (mm : bool) (s : lpmap) (progs : list (list cmop)) (Q : lpmap -> Prop) : Prop :=
  safe (cm_step w mm) (cm_start s progs) /\ terminates (cm_step w mm) (cm_start s progs) /\
  (forall c tr, exec (cm_step w mm) (cm_start s progs) c tr -> (exists c', cstep (cm_step w mm) c c') \/ cm_finished c) /\
  forall c tr, exec (cm_step w mm) (cm_start s progs) c tr -> cm_finished c -> cm_made w mm (c_sh c) /\ Q (c_sh c).

Lemma good_phase_of mm s progs (Q : lpmap -> Prop) : cm_made w mm s -> phase_ok mm s progs ->
  (forall c tr, exec (cm_step w mm) (cm_start s progs) c tr -> cm_finished c -> Q (c_sh c)) -> good_phase mm s progs Q.
Proof.
  intros Hm Hp HQ. destruct (phase_runs mm s progs Hm Hp) as [G1 [G2 [G3 G4]]]. split; [exact G1|]. split; [exact G2|]. split; [exact G3|].
  intros c tr He Hf. split; [apply (G4 c tr He Hf)|eapply HQ; eassumption].
Qed.

Lemma alloc_facts k a : m_items (map_alloc (2 ^ k) a) = 0 /\ length (m_keys (map_alloc (2 ^ k) a)) = N.to_nat (2 ^ k) /\ (forall x v, ~ bind (map_alloc (2 ^ k) a) x v) /\ entries (map_alloc (2 ^ k) a) = [].
Proof.
  split; [reflexivity|]. split; [cbn [map_alloc m_keys]; unfold alloc; apply repeat_length|]. split; [|apply mm_alloc_entries].
  intros x v [Hx [i [Hi _]]]. cbn [map_alloc m_keys] in Hi. unfold alloc in Hi. apply nth_error_repeat_inv in Hi. congruence.
Qed.

Lemma np2_table newSize : (1 <= newSize <= 2 ^ 63)%N -> (newSize <= 2 ^ w)%N -> exists k, nextPow2 64 newSize = (2 ^ k)%N /\ (k <= w)%N /\ (newSize <= 2 ^ k)%N.
Proof.
  intros [H1 H2] H3. destruct (nextPow2_least 64 newSize) as [[k [Ek Hk]] [Hge Hle]]; [discriminate|exact H1|exact H2|]. exists k. split; [exact Ek|]. split; [|rewrite <- Ek; exact Hge].
  specialize (Hle w H3). rewrite Ek in Hle. apply N.pow_le_mono_r_iff in Hle; [exact Hle|reflexivity].
Qed.

Lemma work_calls mm f chunks : (forall i o, In o (f i) -> exists k v, (o = KIns k v \/ o = KPut k v /\ mm = true) /\ k <> 0%N) ->
  calls_ok mm (spread f chunks) /\ (forall p o, In p (spread f chunks) -> In o p -> is_put o = true).
Proof.
  intros Hf. assert (G : forall p o, In p (spread f chunks) -> In o p -> exists k v, (o = KIns k v \/ o = KPut k v /\ mm = true) /\ k <> 0%N).
  { intros p o Hp Ho. unfold spread in Hp. apply in_map_iff in Hp. destruct Hp as [ch [<- _]]. apply in_flat_map in Ho. destruct Ho as [i [_ Ho]]. eapply Hf; exact Ho. }
  split; intros p o Hp Ho; destruct (G p o Hp Ho) as [k [v [[->|[-> ->]] Hk]]]; try reflexivity; split; auto.
Qed.

(** *** unsafe_rehash and _migrate *)
Lemma rehash_calls mm s i o : In o (rehash_work s i) -> exists k v, (o = KIns k v \/ o = KPut k v /\ mm = true) /\ k <> 0%N.
Proof. intros H. apply cell_op_in in H. destruct H as [k [v [-> Hk]]]. exists k, v. auto. Qed.
Lemma rehash_pairs s chunks n : length (m_keys s) <= n -> Permutation (concat chunks) (seq 0 n) ->
  Permutation (flat_map pair_of (concat (spread (rehash_work s) chunks))) (entries s).
Proof.
  intros Hn Hc. rewrite (flat_map_perm pair_of _ _ (spread_perm (rehash_work s) chunks n Hc)). unfold rehash_work. rewrite all_ops by (try exact Hn; reflexivity). now rewrite keeping_true.
Qed.
Lemma rehash_count s chunks n : mm_wf w s -> length (m_keys s) <= n -> Permutation (concat chunks) (seq 0 n) -> length (concat (spread (rehash_work s) chunks)) = m_items s.
Proof.
  intros Hm Hn Hc. rewrite <- pairs_length.
  - rewrite (Permutation_length (rehash_pairs s chunks n Hn Hc)). now apply (entries_length w Hw).
  - apply (concat_all (fun o => is_put o = true)). apply (work_calls false (rehash_work s) chunks). apply rehash_calls.
Qed.
Lemma ins_only s chunks o : In o (concat (spread (rehash_work s) chunks)) -> exists x y, o = KIns x y.
Proof.
  intros H. rewrite spread_concat in H. apply in_flat_map in H. destruct H as [i [_ H]]. apply cell_op_in in H. destruct H as [k [v [-> _]]]. eauto.
Qed.

Lemma bind_items s s' : map_wf w s -> map_wf w s' -> (forall k v, bind s k v <-> bind s' k v) -> m_items s = m_items s'.
Proof.
  intros H1 H2 HB. pose proof (elem_bind w s) as E1. pose proof (elem_bind w s') as E2.
  destruct H1 as [[A1 [A2 [A3 A4]]] A5] eqn:D1. destruct H2 as [[B1 [B2 [B3 B4]]] B5] eqn:D2. cbn [keyset s_arr s_items] in *.
  rewrite A4, B4. apply Permutation_length, NoDup_Permutation; [apply uniq_NoDup; exact A3|apply uniq_NoDup; exact B3|]. intros k.
  assert (G : forall t, map_wf w t -> (In k (keys_of (m_keys t)) <-> exists v, bind t k v)).
  { intros t Ht. rewrite <- (elem_bind w t k Ht), elem_In. cbn [keyset s_arr]. now rewrite in_keys_of. }
  rewrite (G s), (G s') by (try rewrite <- D1; try rewrite <- D2; assumption). split; intros [v Hv]; exists v; now apply HB.
Qed.

Lemma map_rehash_ok s newSize chunks : cm_made w false s -> (1 <= newSize <= 2 ^ 63)%N -> (newSize <= 2 ^ w)%N ->
  (2 * N.of_nat (m_items s) <= nextPow2 64 newSize)%N -> Permutation (concat chunks) (seq 0 (length (m_keys s))) ->
  cm_made w false (rehash_table s newSize) /\
  good_phase false (rehash_table s newSize) (spread (rehash_work s) chunks)
    (fun s' => (forall k v, bind s' k v <-> bind s k v) /\ m_items s' = m_items s /\ N.of_nat (length (m_keys s')) = nextPow2 64 newSize).
Proof.
  intros Hm H1 H2 H3 Hc. unfold rehash_table. destruct (np2_table newSize H1 H2) as [k [Ek [Hk _]]]. rewrite Ek in *.
  destruct (alloc_facts k (m_mult s)) as [F1 [F2 [F3 _]]]. assert (Hma : cm_made w false (map_alloc (2 ^ k) (m_mult s))) by now apply cmade_table.
  split; [exact Hma|]. pose proof (rehash_count s chunks _ (made_mm _ _ Hm) (le_n _) Hc) as Hcnt.
  assert (Hph : phase_ok false (map_alloc (2 ^ k) (m_mult s)) (spread (rehash_work s) chunks)).
  { destruct (work_calls false (rehash_work s) chunks (rehash_calls false s)) as [P1 P2]. split; [exact P1|]. split; [exact P2|]. rewrite F1, F2, Hcnt. lia. }
  apply good_phase_of; [exact Hma|exact Hph|]. intros c tr He Hf. destruct (phase_map _ _ _ _ Hma Hph He Hf) as [B1 B2].
  assert (HinI : forall x v, In (KIns x v) (concat (spread (rehash_work s) chunks)) <-> bind s x v).
  { intros x v. rewrite in_pairs by (intros o; apply ins_only). rewrite <- entries_bind. pose proof (rehash_pairs s chunks _ (le_n _) Hc) as P.
    split; apply Permutation_in; [exact P|now symmetry]. }
  assert (Hwf : map_wf w s) by (apply (cm_wf_map w false); [reflexivity|now apply cm_made_wf]).
  assert (Hbind : forall x v, bind (c_sh c) x v <-> bind s x v).
  { intros x v. split.
    - intros Hb. destruct (B1 x v Hb) as [H|[H _]]; [now apply HinI|destruct (F3 x v H)].
    - intros Hb. destruct (B2 x) as [v' Hv']; [right; exists v; now apply HinI|]. destruct (B1 x v' Hv') as [H|[H _]]; [|destruct (F3 x v' H)].
      apply HinI in H. rewrite (bind_fun w s x v v' Hwf Hb H). exact Hv'. }
  split; [exact Hbind|]. assert (Hmc : cm_made w false (c_sh c)) by (eapply cmade_run; [exact Hma|apply Hph|exact He|now apply finished_resting]).
  split.
  - apply bind_items; [|exact Hwf|exact Hbind]. apply (cm_wf_map w false); [reflexivity|now apply cm_made_wf].
  - destruct (map_invariant w Hw _ _ _ _ Hma (proj1 Hph) He) as [[L _] _]. rewrite L, F2. lia.
Qed.

Lemma mm_rehash_ok s newSize chunks : cm_made w true s -> (1 <= newSize <= 2 ^ 63)%N -> (newSize <= 2 ^ w)%N ->
  (2 * N.of_nat (m_items s) <= nextPow2 64 newSize)%N -> Permutation (concat chunks) (seq 0 (length (m_keys s))) ->
  cm_made w true (rehash_table s newSize) /\
  good_phase true (rehash_table s newSize) (spread (rehash_work s) chunks) (fun s' => Permutation (entries s') (entries s) /\ m_items s' = m_items s).
Proof.
  intros Hm H1 H2 H3 Hc. unfold rehash_table. destruct (np2_table newSize H1 H2) as [k [Ek [Hk _]]]. rewrite Ek in *.
  destruct (alloc_facts k (m_mult s)) as [F1 [F2 [_ F3]]]. assert (Hma : cm_made w true (map_alloc (2 ^ k) (m_mult s))) by now apply cmade_table.
  split; [exact Hma|]. pose proof (rehash_count s chunks _ (made_mm _ _ Hm) (le_n _) Hc) as Hcnt.
  assert (Hph : phase_ok true (map_alloc (2 ^ k) (m_mult s)) (spread (rehash_work s) chunks)).
  { destruct (work_calls true (rehash_work s) chunks (rehash_calls true s)) as [P1 P2]. split; [exact P1|]. split; [exact P2|]. rewrite F1, F2, Hcnt. lia. }
  apply good_phase_of; [exact Hma|exact Hph|]. intros c tr He Hf. pose proof (phase_mm _ _ _ _ Hma Hph He Hf) as P. rewrite F3, app_nil_r, (rehash_pairs s chunks _ (le_n _) Hc) in P.
  split; [exact P|]. assert (Hmc : cm_made w true (c_sh c)) by (eapply cmade_run; [exact Hma|apply Hph|exact He|now apply finished_resting]).
  rewrite <- (entries_length w Hw _ (made_mm _ _ Hmc)), <- (entries_length w Hw _ (made_mm _ _ Hm)). now apply Permutation_length.
Qed.

(** *** Concurrent_LP_Map::unsafe_merge: rehash to twice the sum of the capacities, then insert the other's entries *)
Definition sum_cap (s other : lpmap) : N := 2 * N.of_nat (length (m_keys s) + length (m_keys other)).
Lemma items_le mm s : cm_made w mm s -> m_items s <= length (m_keys s).
Proof. intros Hm. apply (mm_items_le w). now apply (made_mm mm). Qed.

Lemma map_merge_first s other chunks : cm_made w false s -> cm_made w false other -> (sum_cap s other <= 2 ^ 63)%N -> (sum_cap s other <= 2 ^ w)%N ->
  Permutation (concat chunks) (seq 0 (length (m_keys s))) ->
  cm_made w false (rehash_table s (sum_cap s other)) /\
  good_phase false (rehash_table s (sum_cap s other)) (spread (rehash_work s) chunks)
    (fun s' => (forall k v, bind s' k v <-> bind s k v) /\ m_items s' = m_items s /\ N.of_nat (length (m_keys s')) = nextPow2 64 (sum_cap s other)).
Proof.
  intros Hm Ho H1 H2 Hc. pose proof (items_le _ _ Hm) as Hi. pose proof (pow2cap_pos w Hw _ (proj1 (cm_made_wf w Hw _ _ Hm))) as Hpos.
  assert (Hr : (1 <= sum_cap s other <= 2 ^ 63)%N) by (split; [unfold sum_cap; lia|exact H1]). apply map_rehash_ok; auto.
  destruct (np2_table _ Hr H2) as [k [Ek [_ Hge]]]. rewrite Ek. etransitivity; [|exact Hge]. unfold sum_cap. lia.
Qed.
Lemma map_merge_second s other s1 chunks : cm_made w false s -> cm_made w false other -> (sum_cap s other <= 2 ^ 63)%N -> (sum_cap s other <= 2 ^ w)%N ->
  cm_made w false s1 -> (forall k v, bind s1 k v <-> bind s k v) -> m_items s1 = m_items s -> N.of_nat (length (m_keys s1)) = nextPow2 64 (sum_cap s other) ->
  Permutation (concat chunks) (seq 0 (length (m_keys other))) ->
  good_phase false s1 (spread (rehash_work other) chunks)
    (fun s' => forall k v, bind s' k v <-> bind other k v \/ (bind s k v /\ forall v', ~ bind other k v')).
Proof.
  intros Hm Ho H1 H2 Hm1 Hb1 Hi1 Hc1 Hc. pose proof (items_le _ _ Hm) as Hi. pose proof (items_le _ _ Ho) as Hio. pose proof (pow2cap_pos w Hw _ (proj1 (cm_made_wf w Hw _ _ Hm))) as Hpos.
  assert (Hr : (1 <= sum_cap s other <= 2 ^ 63)%N) by (split; [unfold sum_cap; lia|exact H1]). destruct (np2_table _ Hr H2) as [k [Ek [_ Hge]]]. rewrite Ek in Hc1.
  pose proof (rehash_count other chunks _ (made_mm _ _ Ho) (le_n _) Hc) as Hcnt.
  assert (Hph : phase_ok false s1 (spread (rehash_work other) chunks)).
  { destruct (work_calls false (rehash_work other) chunks (rehash_calls false other)) as [P1 P2]. split; [exact P1|]. split; [exact P2|]. rewrite Hcnt, Hi1.
    unfold sum_cap in Hge. clear - Hc1 Hge Hi Hio. lia. }
  apply good_phase_of; [exact Hm1|exact Hph|]. intros c tr He Hf. destruct (phase_map _ _ _ _ Hm1 Hph He Hf) as [B1 B2].
  assert (HinI : forall x v, In (KIns x v) (concat (spread (rehash_work other) chunks)) <-> bind other x v).
  { intros x v. rewrite in_pairs by (intros o; apply ins_only). rewrite <- entries_bind. pose proof (rehash_pairs other chunks _ (le_n _) Hc) as P.
    split; apply Permutation_in; [exact P|now symmetry]. }
  assert (Hwf : forall t, cm_made w false t -> map_wf w t) by (intros t Ht; apply (cm_wf_map w false); [reflexivity|now apply cm_made_wf]).
  intros x v. split.
  - intros Hb. destruct (B1 x v Hb) as [H|[H Hno]]; [left; now apply HinI|right]. split; [now apply Hb1|]. intros v' Hv'. apply (Hno v'). now apply HinI.
  - intros [Hb|[Hb Hno]].
    + destruct (B2 x) as [v' Hv']; [right; exists v; now apply HinI|]. destruct (B1 x v' Hv') as [H|[_ Hn]]; [|exfalso; apply (Hn v); now apply HinI].
      apply HinI in H. rewrite (bind_fun w other x v v' (Hwf _ Ho) Hb H). exact Hv'.
    + destruct (B2 x) as [v' Hv']; [left; exists v; now apply Hb1|]. destruct (B1 x v' Hv') as [H|[H _]]; [apply HinI in H; destruct (Hno v' H)|].
      apply Hb1 in H. rewrite (bind_fun w s x v v' (Hwf _ Hm) Hb H). exact Hv'.
Qed.

(** *** the filtered merges: one loop over the indices of both tables *)
Lemma concat2 f g chunks n : Permutation (concat chunks) (seq 0 n) ->
  Permutation (concat (spread (fun i => f i ++ g i) chunks)) (flat_map f (seq 0 n) ++ flat_map g (seq 0 n)).
Proof.
  intros H. rewrite (spread_perm _ chunks n H). clear H. generalize (seq 0 n). intros l. induction l as [|x l IH]; [reflexivity|]. cbn [flat_map]. rewrite IH.
  rewrite <- !app_assoc. apply Permutation_app_head. rewrite !app_assoc. apply Permutation_app_tail. apply Permutation_app_comm.
Qed.
Lemma two_pairs opa opb keep s other chunks n : (forall k v, pair_of (opa k v) = [(k, v)]) -> (forall k v, pair_of (opb k v) = [(k, v)]) ->
  length (m_keys s) <= n -> length (m_keys other) <= n -> Permutation (concat chunks) (seq 0 n) ->
  Permutation (flat_map pair_of (concat (spread (fun i => cell_op opa keep (m_keys s) (m_vals s) i ++ cell_op opb keep (m_keys other) (m_vals other) i) chunks)))
    (keeping keep s ++ keeping keep other).
Proof.
  intros Ha Hb Hs Ho Hc. rewrite (flat_map_perm pair_of _ _ (concat2 _ _ chunks n Hc)). rewrite flat_map_app, !all_ops by assumption. reflexivity.
Qed.
Definition loop2 (s other : lpmap) : nat := Nat.max (length (m_keys s)) (length (m_keys other)).

Lemma map_fmerge_ok flt s other chunks : cm_made w false s -> cm_made w false other -> (sum_cap s other <= 2 ^ 63)%N -> (sum_cap s other <= 2 ^ w)%N ->
  Permutation (concat chunks) (seq 0 (loop2 s other)) ->
  cm_made w false (rehash_table s (sum_cap s other)) /\
  good_phase false (rehash_table s (sum_cap s other)) (spread (merge_work2 flt s other) chunks)
    (fun s' => (forall k v, bind s' k v -> flt k = false /\ (bind s k v \/ bind other k v)) /\
               (forall k v, flt k = false -> bind s k v \/ bind other k v -> exists v', bind s' k v')).
Proof.
  intros Hm Ho H1 H2 Hc. pose proof (items_le _ _ Hm) as Hi. pose proof (items_le _ _ Ho) as Hio. pose proof (pow2cap_pos w Hw _ (proj1 (cm_made_wf w Hw _ _ Hm))) as Hpos.
  assert (Hr : (1 <= sum_cap s other <= 2 ^ 63)%N) by (split; [unfold sum_cap; lia|exact H1]). destruct (np2_table _ Hr H2) as [k [Ek [Hk Hge]]].
  unfold rehash_table. rewrite Ek. destruct (alloc_facts k (m_mult s)) as [F1 [F2 [F3 _]]]. assert (Hma : cm_made w false (map_alloc (2 ^ k) (m_mult s))) by now apply cmade_table.
  split; [exact Hma|].
  assert (Hins : forall i o, In o (merge_work2 flt s other i) -> exists x y, o = KIns x y /\ x <> 0%N).
  { intros i o H. unfold merge_work2 in H. apply in_app_or in H. destruct H as [H|H]; apply cell_op_in in H; exact H. }
  destruct (work_calls false (merge_work2 flt s other) chunks) as [P1 P2]; [intros i o H; destruct (Hins i o H) as [x [y [-> Hx]]]; exists x, y; auto|].
  assert (P : Permutation (flat_map pair_of (concat (spread (merge_work2 flt s other) chunks))) (keeping (fun k => negb (flt k)) s ++ keeping (fun k => negb (flt k)) other)).
  { unfold merge_work2. apply two_pairs with (n := loop2 s other); try reflexivity; try (unfold loop2; lia). exact Hc. }
  assert (Hph : phase_ok false (map_alloc (2 ^ k) (m_mult s)) (spread (merge_work2 flt s other) chunks)).
  { split; [exact P1|]. split; [exact P2|]. rewrite F1, F2. rewrite <- pairs_length by (apply (concat_all (fun o => is_put o = true)); exact P2).
    rewrite (Permutation_length P), app_length. pose proof (keeping_length (fun k => negb (flt k)) s (made_mm _ _ Hm)). pose proof (keeping_length (fun k => negb (flt k)) other (made_mm _ _ Ho)).
    unfold sum_cap in Hge. clear - Hge Hi Hio H H0. lia. }
  apply good_phase_of; [exact Hma|exact Hph|]. intros c tr He Hf. destruct (phase_map _ _ _ _ Hma Hph He Hf) as [B1 B2].
  assert (HinI : forall x v, In (KIns x v) (concat (spread (merge_work2 flt s other) chunks)) <-> flt x = false /\ (bind s x v \/ bind other x v)).
  { intros x v. rewrite in_pairs.
    - assert (G : In (x, v) (keeping (fun k => negb (flt k)) s ++ keeping (fun k => negb (flt k)) other) <-> flt x = false /\ (bind s x v \/ bind other x v)).
      { unfold keeping. rewrite in_app_iff, !filter_In, !entries_bind. cbn [fst]. rewrite negb_true_iff. tauto. }
      rewrite <- G. split; apply Permutation_in; [exact P|now symmetry].
    - intros o H. rewrite spread_concat in H. apply in_flat_map in H. destruct H as [i [_ H]]. destruct (Hins i o H) as [x0 [y0 [-> _]]]. eauto. }
  split.
  - intros x v Hb. destruct (B1 x v Hb) as [H|[H _]]; [now apply HinI|destruct (F3 x v H)].
  - intros x v Hfl Hb. apply B2. right. exists v. now apply HinI.
Qed.

Lemma mm_merge_ok flt s other : cm_made w true s -> mm_wf w other -> m_items s + m_items other <> 0 -> (4 * N.of_nat (m_items s + m_items other) <= 2 ^ w)%N ->
  exists sz, returns (fun f => grow_size f (N.of_nat (m_items s + m_items other)) (nextPow2 64 (N.of_nat (m_items s + m_items other)))) sz /\
  forall chunks, Permutation (concat chunks) (seq 0 (loop2 s other)) ->
  cm_made w true (map_alloc sz (m_mult s)) /\
  good_phase true (map_alloc sz (m_mult s)) (spread (mmerge_work flt s other) chunks)
    (fun s' => Permutation (entries s') (filter (fun p => negb (flt (fst p))) (entries s ++ entries other)) /\ 2 * m_items s' <= length (m_keys s')).
Proof.
  intros Hm Ho Hpos Hbig. destruct (grow_size_ok w (N.of_nat (m_items s + m_items other)) Hw ltac:(lia) Hbig) as [k [Hret [Hk Hhalf]]]. exists (2 ^ k)%N. split; [exact Hret|].
  intros chunks Hc. destruct (alloc_facts k (m_mult s)) as [F1 [F2 [_ F3]]]. assert (Hma : cm_made w true (map_alloc (2 ^ k) (m_mult s))) by now apply cmade_table.
  split; [exact Hma|].
  assert (H2c : 2 * (m_items s + m_items other) <= N.to_nat (2 ^ k)).
  { pose proof (N.mul_div_le (2 ^ k) 2 ltac:(discriminate)). clear - H Hhalf. lia. }
  destruct (work_calls true (mmerge_work flt s other) chunks) as [P1 P2].
  { intros i o H. unfold mmerge_work in H. apply in_app_or in H. destruct H as [H|H]; apply cell_op_in in H; destruct H as [x [y [-> Hx]]]; exists x, y; auto. }
  assert (P : Permutation (flat_map pair_of (concat (spread (mmerge_work flt s other) chunks))) (filter (fun p => negb (flt (fst p))) (entries s ++ entries other))).
  { rewrite filter_app. change (Permutation (flat_map pair_of (concat (spread (mmerge_work flt s other) chunks))) (keeping (fun k => negb (flt k)) s ++ keeping (fun k => negb (flt k)) other)).
    unfold mmerge_work. apply two_pairs with (n := loop2 s other); try reflexivity; try (unfold loop2; lia). exact Hc. }
  assert (Hlen : length (concat (spread (mmerge_work flt s other) chunks)) <= m_items s + m_items other).
  { rewrite <- pairs_length by (apply (concat_all (fun o => is_put o = true)); exact P2). rewrite (Permutation_length P). etransitivity; [apply (filter_length_le w Hw)|].
    rewrite app_length, !(entries_length w Hw) by (try exact Ho; now apply (made_mm true)). lia. }
  assert (Hph : phase_ok true (map_alloc (2 ^ k) (m_mult s)) (spread (mmerge_work flt s other) chunks)).
  { split; [exact P1|]. split; [exact P2|]. rewrite F1, F2. clear - Hlen H2c. lia. }
  apply good_phase_of; [exact Hma|exact Hph|]. intros c tr He Hf. pose proof (phase_mm _ _ _ _ Hma Hph He Hf) as Pf. rewrite F3, app_nil_r in Pf.
  split; [now rewrite Pf|].
  assert (Hmc : cm_made w true (c_sh c)) by (eapply cmade_run; [exact Hma|apply Hph|exact He|now apply finished_resting]).
  rewrite <- (entries_length w Hw _ (made_mm _ _ Hmc)), (Permutation_length Pf), pairs_length by (apply (concat_all (fun o => is_put o = true)); exact P2).
  destruct (mm_invariant w Hw _ _ _ _ Hma (proj1 Hph) He) as [[L _] _]. rewrite L, F2. clear - Hlen H2c. lia.
Qed.
End W.
