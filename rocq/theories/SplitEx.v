(** The splitters meet the contract of DCTriangulator, and give a result. *)
From Verif Require Import Outcome ListUtil WordsModel WordsProofs LPSetModel ProbeTheory LPSetProofs LPSetHistory LPSetIter SimplexModel PointModel PointProofs GeoModel GeoSpec GeoProofs
  Conc ConcSetModel ConcSetProofs ConcSetSpec PartModel PartStats PartSpec PartProofs PartConc PartTop PartProps DelSpec PlaceSpec DcModel DcSpec SplitModel SplitProofs.
From Coq Require Import Classical Lra.
Local Open Scope nat_scope.

(** What cannot run forever comes to an end. *)
Section Ends.
Context {Sh L Ev : Type}.
Variable step : Sh -> L -> sres Sh L Ev.
Fixpoint try_from (c : config Sh L) (ts : list nat) : option (config Sh L * list (nat * Ev)) :=
  match ts with
  | [] => None
  | t :: r => match nth_error (c_loc c) t with
              | Some l => match step (c_sh c) l with Step sh' l' evs => Some (mkc sh' (upd (c_loc c) t l'), map (fun e => (t, e)) evs) | _ => try_from c r end
              | None => try_from c r
              end
  end.
Lemma try_some c ts c' evs : try_from c ts = Some (c', evs) -> exists t l sh' l' e, nth_error (c_loc c) t = Some l /\ step (c_sh c) l = Step sh' l' e /\ c' = mkc sh' (upd (c_loc c) t l') /\ evs = map (fun e => (t, e)) e.
Proof.
  induction ts as [|t r IH]; cbn [try_from]; [discriminate|]. destruct (nth_error (c_loc c) t) as [l|] eqn:El; [|exact IH].
  destruct (step (c_sh c) l) as [sh' l' e| |] eqn:Es; [|exact IH|exact IH]. intros H. injection H as <- <-. exists t, l, sh', l', e. auto.
Qed.
Lemma try_none c : try_from c (seq 0 (length (c_loc c))) = None -> ~ exists c', cstep step c c'.
Proof.
  intros H [c' [t [l [sh' [l' [evs [El [Es _]]]]]]]]. assert (Hin : In t (seq 0 (length (c_loc c)))).
  { apply in_seq. split; [lia|]. apply nth_error_Some. congruence. }
  revert H Hin. generalize (seq 0 (length (c_loc c))). induction l0 as [|a r IH]; cbn [try_from]; [easy|]. intros H [->|Hin]; [rewrite El, Es in H; discriminate|].
  destruct (nth_error (c_loc c) a) as [la|]; [|auto]. destruct (step (c_sh c) la); [discriminate|auto|auto].
Qed.
Definition go (c : config Sh L) : config Sh L := match try_from c (seq 0 (length (c_loc c))) with Some (c', _) => c' | None => c end.
Lemma ends c0 : terminates step c0 -> exists c tr, exec step c0 c tr /\ ~ exists c', cstep step c c'.
Proof.
  intros Ht. apply NNPP. intros H. set (f := fun n => Nat.iter n go c0).
  assert (Hf : forall n, exists tr, exec step c0 (f n) tr).
  { induction n as [|n [tr IH]]; [exists []; constructor|]. change (f (S n)) with (go (f n)). unfold go. destruct (try_from (f n) (seq 0 (length (c_loc (f n))))) as [[c' evs]|] eqn:E; [|eauto].
    apply try_some in E. destruct E as [t [l [sh' [l' [e [El [Es [-> ->]]]]]]]]. eexists. econstructor; eauto. }
  apply (Ht f eq_refl). intros n. destruct (Hf n) as [tr E]. change (f (S n)) with (go (f n)). unfold go.
  destruct (try_from (f n) (seq 0 (length (c_loc (f n))))) as [[c' evs]|] eqn:En.
  - apply try_some in En. destruct En as [t [l [sh' [l' [e [El [Es [-> ->]]]]]]]]. exists t, l, sh', l', e. auto.
  - exfalso. apply H. exists (f n), tr. split; [exact E|]. now apply try_none.
Qed.
End Ends.

Section Split.
Variable D : nat.
Hypothesis HD : 0 < D /\ D <= 8.
Variables (pts : points vec) (tiny huge : R) (co : N -> vec) (r : vec) (S : list N).
Notation DN := (N.of_nat D).
Notation fin v := (p_finite DN v = true).
Hypothesis HP : placed DN co r S.
Hypothesis HS : NoDup S.
Hypothesis Hlen : (N.of_nat (length S) <= 2 ^ 60)%N.
Hypothesis Hget : forall v, In v S -> fin v -> p_get DN pts v = Val (co v).
Hypothesis Hhuge : forall v k, In v S -> fin v -> k < D -> (co v k <= huge)%R.
Hypothesis Htiny : forall k, k < D -> (tiny <= r k)%R.

Lemma size_ids ids : lists ids S -> set_size ids = length S.
Proof. intros [_ H]. unfold set_size. rewrite (repr_items 64 ids S H). unfold ListUtil.distinct. now rewrite nodup_fixed_point. Qed.
Lemma sizes : small 64 (4 * (length S + Nat.pow 2 D)).
Proof.
  assert (Hp : Nat.pow 2 D <= 256) by (change 256 with (Nat.pow 2 8); apply Nat.pow_le_mono_r; lia).
  split; [apply N.le_trans with (2 ^ 63)%N; [|discriminate]|]; change (2 ^ 63)%N with (8 * 2 ^ 60)%N; assert (1024 <= 2 ^ 60)%N by (vm_compute; discriminate); lia.
Qed.
Lemma same_size (l : list N) : NoDup l -> (forall i, In i l <-> In i S) -> length l = length S.
Proof. intros Hn H. apply Nat.le_antisymm; apply NoDup_incl_length; auto; intros x Hx; now apply H. Qed.
(** Two finite points. *)
Notation two := (exists u v, In u S /\ In v S /\ fin u /\ fin v /\ u <> v).
Lemma one_in : 1 <= length S.
Proof.
  assert (Hu : In (p_inf DN) S) by (apply (pl_inf _ _ _ _ HP); rewrite p_inf_val by (pose proof (d30 D HD); lia); split; [lia|]; assert (0 < 2 ^ DN)%N by (apply N.neq_0_lt_0, N.pow_nonzero; discriminate); lia).
  destruct S; [destruct Hu|cbn [length]; lia].
Qed.
Lemma wide st : two -> stats_for DN co r S st -> exists d, d < D /\ (st_min st d < st_max st d)%R.
Proof.
  intros [u [v [Hu [Hv [Hfu [Hfv Hne]]]]]] Hst.
  apply NNPP. intros H. apply Hne. apply (pl_distinct _ _ _ _ HP u v Hu Hv). intros d Hd. rewrite Nat2N.id in *.
  pose proof (sf_in _ _ _ _ _ Hst u d Hu Hfu ltac:(rewrite Nat2N.id; exact Hd)). pose proof (sf_in _ _ _ _ _ Hst v d Hv Hfv ltac:(rewrite Nat2N.id; exact Hd)).
  assert (~ (st_min st d < st_max st d)%R) by (intros Hlt; apply H; eauto). lra.
Qed.

Section Given.
Variables (sp : splitter) (prov : list (option nat)).
Hypothesis Hsp : forall k, sp = OneDim k -> k < D.

Section Run.
Variables (ids : lpset) (work' : list (list N)) (st : stats) (mult : nat -> N).
Hypothesis Hids : lists ids S.
Hypothesis Hst : stats_for DN co r S st.
Hypothesis Hcov : covers D pts S st.
Hypothesis Hn' : NoDup (concat work').
Hypothesis Hs' : forall i, In i (concat work') <-> In i S.

Lemma nz_in i : In i S -> (0 < i < 2 ^ 64)%N.
Proof. clear Hsp. intros Hi. split; [|exact (pl_small _ _ _ _ HP i Hi)]. destruct (N.eq_dec i 0) as [->|]; [|lia]. exfalso. exact (rep_nz ids S (proj2 Hids) Hi). Qed.

Lemma halved_ok k ps : k < D -> halved D pts st mult (route1 D st k) k ids work' ps -> parts_of D pts S false (route1 D st k) 2 (half_box st k) ps.
Proof.
  clear Hsp. intros Hk [c [tr [E [Hd R]]]]. rewrite (size_ids ids Hids), <- (same_size _ Hn' Hs') in E.
  destruct (two_done D (d30 D HD) pts st mult S false work' k Hk Hs' nz_in Hcov) with (c := c) (tr := tr) as [ps' [R' [Hp _]]].
  - rewrite (same_size _ Hn' Hs'). exact one_in.
  - rewrite (same_size _ Hn' Hs'). exact sizes.
  - exact E.
  - exact Hd.
  - now rewrite (returns_det _ _ _ R R').
Qed.
Lemma halved_ex k : k < D -> exists ps, halved D pts st mult (route1 D st k) k ids work' ps.
Proof.
  clear Hsp. intros Hk. unfold halved. rewrite (size_ids ids Hids), <- (same_size _ Hn' Hs').
  assert (H1 : 1 <= length (concat work')) by (rewrite (same_size _ Hn' Hs'); exact one_in).
  assert (H2 : small 64 (4 * (length (concat work') + Nat.pow 2 D))) by (rewrite (same_size _ Hn' Hs'); exact sizes).
  destruct (ends _ _ (two_terminates D (d30 D HD) pts st mult S work' k Hk Hs' nz_in Hcov H1 H2)) as [c [tr [E He]]].
  destruct (two_progress D (d30 D HD) pts st mult S work' k Hk Hs' nz_in Hcov H1 H2 c tr E) as [Hx|Hd]; [contradiction|].
  destruct (two_done D (d30 D HD) pts st mult S false work' k Hk Hs' nz_in Hcov H1 H2 c tr E Hd) as [ps [R _]]. exists ps, c, tr. auto.
Qed.

Lemma parted_by_ok ps : parted_by D pts sp st mult (N.of_nat (length prov) + 1) ids work' ps ->
  parts_of D pts S false (routed D st) (Nat.pow 2 D) (d_box st) ps \/ exists k, k < D /\ parts_of D pts S false (route1 D st k) 2 (half_box st k) ps.
Proof.
  assert (Hsz : small 64 (4 * (set_size ids + Nat.pow 2 D))) by (rewrite (size_ids ids Hids); exact sizes).
  intros H. destruct sp as [|k| |] eqn:Esp; cbn [parted_by] in H.
  - left. destruct (d_way_ok D (d30 D HD) pts st mult ids S false (proj2 Hids) (fun i Hi => proj2 (nz_in i Hi)) Hcov Hsz) as [ps' [R [Hp _]]]. now rewrite (returns_det _ _ _ H R).
  - right. exists k. split; [now apply Hsp|]. destruct (one_dim_ok D (d30 D HD) pts st mult ids S false (proj2 Hids) (fun i Hi => proj2 (nz_in i Hi)) Hcov Hsz k (Hsp k eq_refl)) as [ps' [R [Hp _]]]. now rewrite (returns_det _ _ _ H R).
  - right. assert (Hc : cycle_dim D (N.of_nat (length prov) + 1) < D) by (apply (cycle_dim_lt D (d30 D HD) mult); lia). eexists. split; [exact Hc|]. now apply halved_ok.
  - right. destruct H as [k [Ek H]]. pose proof (extend_lt D (d30 D HD) st mult k Ek) as Hk. exists k. split; [exact Hk|].
    apply halved_ok; [exact Hk|]. unfold halved, route_id, extend_route in *. rewrite Ek in H. exact H.
Qed.
Lemma parted_by_ex : (sp = Extend -> two) -> exists ps, parted_by D pts sp st mult (N.of_nat (length prov) + 1) ids work' ps.
Proof.
  intros H2. assert (Hsz : small 64 (4 * (set_size ids + Nat.pow 2 D))) by (rewrite (size_ids ids Hids); exact sizes).
  destruct sp as [|k| |] eqn:Esp; cbn [parted_by].
  - destruct (d_way_ok D (d30 D HD) pts st mult ids S false (proj2 Hids) (fun i Hi => proj2 (nz_in i Hi)) Hcov Hsz) as [ps' [R [Hp _]]]. eauto.
  - destruct (one_dim_ok D (d30 D HD) pts st mult ids S false (proj2 Hids) (fun i Hi => proj2 (nz_in i Hi)) Hcov Hsz k (Hsp k eq_refl)) as [ps' [R [Hp _]]]. eauto.
  - apply halved_ex. apply (cycle_dim_lt D (d30 D HD) mult); lia.
  - destruct (extend_some D (d30 D HD) st mult (wide st (H2 eq_refl) Hst)) as [k [Ek [Hk _]]]. destruct (halved_ex k Hk) as [ps H]. exists ps, k. split; [exact Ek|].
    unfold halved, route_id, extend_route in *. rewrite Ek. exact H.
Qed.
End Run.
Hypothesis Hmany : exists u, In u S /\ fin u.

(** Every result of the splitter meets the contract. *)
Lemma splits_ok qs : splits D pts tiny huge sp prov S qs -> split_ok DN co r S qs.
Proof.
  intros [ids [work [st [mult [work' [ps [Hids [_ [Hw [Est [Hn' [Hs' [Hps Hqs]]]]]]]]]]]]].
  pose proof (stats_right D HD pts tiny huge co r S HP Hmany Hget Hhuge Htiny work st Hw Est) as Hst.
  pose proof (C35_covers D pts tiny huge S co work st (d30 D HD) (small_in D co r S HP) (coords_in D HD pts co r S HP Hget) Hw Est) as Hcov.
  destruct (parted_by_ok ids work' st mult Hids Hcov Hn' Hs' ps Hps) as [Hp|[k [Hk Hp]]].
  - exact (d_way_split D HD pts tiny huge co r S HP Hget Hhuge Htiny st Hst ps qs Hp Hqs).
  - exact (half_split D HD pts tiny huge co r S HP Hget Hhuge Htiny st Hst k ps qs Hk Hp Hqs).
Qed.

Hypothesis Hnz : ~ In 0%N S.
Lemma splits_ex : (sp = Extend -> two) -> exists qs, splits D pts tiny huge sp prov S qs /\ length qs <= Nat.pow 2 D.
Proof.
  intros H2. assert (Hids : exists ids, lists ids S).
  { destruct (init_ok D (d30 D HD) (fun _ => 0%N) 0 0) as [R [_ _]]; [discriminate|]. destruct (add_all_ok S (set_new 0 0) [] R Hnz) as [s' [_ [R' _]]].
    - eapply small_le; [discriminate| |exact sizes]. cbn [length]. lia.
    - exists s'. split; [exact HS|]. destruct R' as [Hwf He]. split; [exact Hwf|]. intros x. rewrite He, app_nil_r. symmetry. apply in_rev. }
  destruct Hids as [ids Hids]. assert (Ew : forall i, In i (concat [S]) <-> In i S) by (intros i; cbn [concat]; now rewrite app_nil_r).
  destruct (C35_stats_partial D pts tiny huge S co [S] (d30 D HD) (small_in D co r S HP) (coords_in D HD pts co r S HP Hget) Ew) as [st [Est _]].
  pose proof (stats_right D HD pts tiny huge co r S HP Hmany Hget Hhuge Htiny [S] st Ew Est) as Hst.
  pose proof (C35_covers D pts tiny huge S co [S] st (d30 D HD) (small_in D co r S HP) (coords_in D HD pts co r S HP Hget) Ew Est) as Hcov.
  assert (Hn : NoDup (concat [S])) by (cbn [concat]; now rewrite app_nil_r).
  destruct (parted_by_ex ids [S] st (fun _ => 0%N) Hids Hst Hcov Hn Ew H2) as [ps Hps].
  assert (Hp : exists m K, m <= Nat.pow 2 D /\ length ps = m /\ forall j p, nth_error ps j = Some p -> repr 64 (pa_pts p) (K j)).
  { assert (H1 : Nat.pow 2 1 <= Nat.pow 2 D) by (apply Nat.pow_le_mono_r; lia). change (Nat.pow 2 1) with 2 in H1.
    destruct (parted_by_ok ids [S] st _ Hids Hcov Hn Ew ps Hps) as [Hp|[k [Hk Hp]]]; destruct Hp as [l [_ [_ [Hl HR]]]]; eexists _, _; (split; [|split; [exact Hl|intros j p Hj; apply (HR j p Hj)]]); lia. }
  destruct Hp as [m [K [Hm [Hl HR]]]].
  assert (Hq : forall ps off, (forall j p, nth_error ps j = Some p -> repr 64 (pa_pts p) (K (off + j))) -> exists qs, Forall2 (fun p q => lists (pa_pts p) (fst q) /\ snd q = pa_box p) ps qs).
  { clear. induction ps as [|p t IH]; intros off H; [exists []; constructor|]. destruct (IH (Datatypes.S off)) as [qs Hqs].
    - intros j q Hj. replace (Datatypes.S off + j) with (off + Datatypes.S j) by lia. now apply H.
    - exists ((nodup N.eq_dec (K (off + 0)), pa_box p) :: qs). constructor; [|exact Hqs]. cbn [fst snd]. split; [|reflexivity]. split; [apply NoDup_nodup|].
      destruct (H 0 p eq_refl) as [Hwf He]. split; [exact Hwf|]. intros x. rewrite He. symmetry. apply nodup_In. }
  destruct (Hq ps 0 HR) as [qs Hqs]. exists qs. split; [|pose proof (forall2_len _ _ _ Hqs); lia].
  exists ids, [S], st, (fun _ => 0%N), [S], ps. auto 10.
Qed.
End Given.
End Split.
