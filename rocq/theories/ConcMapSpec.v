(** Vocabulary for the statements about Concurrent_LP_Map and Concurrent_LP_MultiMap, and the lemmas in that form. *)
From Coq Require Import Permutation.
From Verif Require Import Outcome ListUtil WordsModel WordsProofs LPSetModel ProbeTheory LPSetProofs LPMapModel LPMapProofs LPMultiMapModel LPMultiMapProofs Conc ConcProbe ConcSetProofs ConcSetSpec ConcMapModel ConcMapProofs ConcMapVal ConcMMVal.
Local Open Scope nat_scope.

Definition cm_resting (c : config lpmap cmloc) : Prop := forall l, In l (c_loc c) -> exists p, l = MIdle p.
Definition cm_finished (c : config lpmap cmloc) : Prop := forall l, In l (c_loc c) -> l = MIdle [].
(** The calls fit the class ([mm]: multimap) and pass no key 0. *)
Definition calls_ok (mm : bool) (progs : list (list cmop)) : Prop := forall p o, In p progs -> In o p -> op_ok mm o.
(** Tables that can arise: an allocation of a power of two of cells, then any phases of concurrent calls. *)
Inductive cm_made (w : N) (mm : bool) : lpmap -> Prop :=
| cmade_table k a : (k <= w)%N -> cm_made w mm (map_alloc (2 ^ k) a)
| cmade_run s progs c tr : cm_made w mm s -> calls_ok mm progs -> exec (cm_step w mm) (cm_start s progs) c tr -> cm_resting c -> cm_made w mm (c_sh c).

(** The calls that returned, with their results. *)
Fixpoint rsps (tr : list (nat * ev cmop cmret)) : list (cmop * cmret) :=
  match tr with
  | [] => []
  | (_, Rsp o r) :: t => (o, r) :: rsps t
  | _ :: t => rsps t
  end.
(** The pairs stored by inserts that answered true. *)
Definition new_pair (x : cmop * cmret) : list (N * N) :=
  match x with
  | (KIns k v, RB true) | (KPut k v, RB true) => [(k, v)]
  | _ => []
  end.
Definition mwon (k : N) (o : cmop) (r : cmret) : bool := match o, r with KIns j _, RB true => (j =? k)%N | _, _ => false end.

(** *** general *)
Lemma calls_progs mm progs : calls_ok mm progs -> forall p, In p progs -> ops_ok mm p.
Proof. intros H p Hp o Ho. eapply H; eassumption. Qed.
Lemma cm_resting_stg c : cm_resting c -> forall l, In l (c_loc c) -> cm_stg l = Out.
Proof. intros H l Hl. destruct (H l Hl) as [p ->]. reflexivity. Qed.
Lemma finished_resting c : cm_finished c -> cm_resting c.
Proof. intros H l Hl. exists []. now apply H. Qed.
Lemma in_rsps tr o r : In (o, r) (rsps tr) <-> exists t, In (t, Rsp o r) tr.
Proof.
  induction tr as [|[u [x|x y|x y]] tr IH]; cbn [rsps In].
  - split; [intros []|intros [t []]].
  - rewrite IH. split; [intros [t H]; eauto|intros [t [H|H]]; [discriminate|eauto]].
  - rewrite IH. split; [intros [t H]; eauto|intros [t [H|H]]; [discriminate|eauto]].
  - rewrite IH. split.
    + intros [E|[t H]]; [injection E as -> ->; eauto|eauto].
    + intros [t [H|H]]; [injection H as _ -> ->; now left|eauto].
Qed.
Lemma cret_dec (x y : cmop * cmret) : {x = y} + {x <> y}.
Proof. repeat decide equality. Defined.
Lemma rsps_count p tr : count_rsp p tr = count_lin p (rsps tr).
Proof.
  unfold count_lin. induction tr as [|[u [x|x y|x y]] tr IH]; cbn [rsps count_rsp]; [reflexivity|exact IH|exact IH|].
  cbn [filter fst snd]. rewrite IH. destruct (p x y); reflexivity.
Qed.
Lemma count_occ_lin x l : count_occ cret_dec l x = count_lin (fun o r => if cret_dec (o, r) x then true else false) l.
Proof.
  unfold count_lin. induction l as [|[o r] l IH]; [reflexivity|]. cbn [count_occ filter fst snd]. rewrite IH. destruct (cret_dec (o, r) x); reflexivity.
Qed.
Lemma lins_rsps tr : (forall t, tstage t tr Out) -> Permutation (lins tr) (rsps tr).
Proof.
  intros H. apply (Permutation_count_occ cret_dec). intros x. rewrite !count_occ_lin, <- rsps_count. now apply lin_rsp_quiet.
Qed.

(** Every call of the programs is still to come, under way, or has returned. *)
Definition togo (l : cmloc) : list cmop :=
  match l with
  | MIdle p => p
  | MEntry o p | MProbe o _ _ p | MCas o _ _ p | MSet o _ _ _ p | MCnt o _ _ p | MRead o _ p | MRet o _ p => o :: p
  end.
Lemma step_togo w mm s l sh' l' evs : cm_step w mm s l = Step sh' l' evs ->
  (exists o r, evs = [Rsp o r] /\ togo l = o :: togo l') \/ (togo l' = togo l /\ rsps (map (fun e => (0, e)) evs) = []).
Proof.
  intros E. destruct l as [[|o p]|o p|o i j p|o i j p|o i j b p|o i j p|o i p|o r p]; cbn [cm_step] in E; unfold cm_done, cm_next, cm_head in E;
  repeat match type of E with
   | Stop = _ => discriminate
   | Bad = _ => discriminate
   | Step _ _ _ = _ => injection E as <- <- <-
   | context [match ?x with _ => _ end] => destruct x
   end; cbn [togo map rsps]; eauto.
Qed.
Lemma rsps_app a b : rsps (a ++ b) = rsps a ++ rsps b.
Proof. induction a as [|[u [x|x y|x y]] a IH]; cbn [app rsps]; [reflexivity|exact IH|exact IH|now rewrite IH]. Qed.
Lemma rsps_thread t u evs : rsps (map (fun e => (t, e)) evs) = rsps (map (fun e => (u, e)) evs).
Proof. induction evs as [|[x|x y|x y] evs IH]; cbn [map rsps]; [reflexivity|exact IH|exact IH|now rewrite IH]. Qed.
Lemma acct w mm s progs c tr : exec (cm_step w mm) (cm_start s progs) c tr -> Permutation (map fst (rsps tr) ++ flat_map togo (c_loc c)) (concat progs).
Proof.
  induction 1 as [|c tr u l sh' l' evs H IH Et Es].
  - cbn [rsps map app cm_start c_loc]. rewrite flat_map_map. cbn [togo]. rewrite flat_map_concat_map. now rewrite map_id.
  - cbn [c_loc]. rewrite <- IH. rewrite rsps_app, map_app. apply step_togo in Es. destruct Es as [[o [r [-> El]]]|[El Ee]].
    + cbn [map rsps app fst]. rewrite Permutation_middle. apply Permutation_app_head.
      clear - Et El. revert u Et. induction (c_loc c) as [|x locs IH]; intros [|u] Et; cbn [nth_error upd flat_map] in *; try discriminate.
      * injection Et as ->. now rewrite El.
      * rewrite <- (IH u Et). rewrite Permutation_middle. reflexivity.
    + rewrite (rsps_thread u 0), Ee. cbn [map app]. apply Permutation_app_head. rewrite (flat_map_upd_same togo (c_loc c) u l l' Et); [reflexivity|now symmetry].
Qed.

Section M.
Variable w : N.
Hypothesis Hw : (w <= 64)%N.
Variable mm : bool.

(** At rest. *)
Definition cm_wf (s : lpmap) : Prop :=
  pow2cap w (length (m_keys s)) /\ chained (home w (m_mult s) (length (m_keys s))) (m_keys s) /\ (mm = false -> uniq (m_keys s)) /\
  m_items s = length (keys_of (m_keys s)) /\ length (m_vals s) = length (m_keys s) /\
  (forall i, nth_error (m_keys s) i = Some 0%N -> nth_error (m_vals s) i = Some None) /\
  (forall i k, nth_error (m_keys s) i = Some k -> k <> 0%N -> exists v, nth_error (m_vals s) i = Some (Some v)).

Lemma cm_wf_mm s : cm_wf s -> mm_wf w s.
Proof. intros [W1 [W2 [W3 [W4 [W5 [W6 W7]]]]]]. unfold mm_wf, mcap. auto. Qed.
Lemma cm_wf_map s : mm = false -> cm_wf s -> map_wf w s.
Proof. intros Em [W1 [W2 [W3 [W4 [W5 [W6 W7]]]]]]. unfold map_wf, set_wf, keyset. cbn [s_arr s_items s_mult]. specialize (W3 Em). tauto. Qed.

Lemma cm_start_inv s progs : cm_wf s -> calls_ok mm progs -> cmI w mm (length (m_keys s)) (m_mult s) (cm_start s progs) [].
Proof.
  intros [W1 [W2 [W3 [W4 [W5 _]]]]] Hp. apply cm_inv_start; auto. now apply calls_progs.
Qed.

Definition kmemb (s : lpmap) (k : N) : bool := negb (k =? 0)%N && existsb (N.eqb k) (m_keys s).
Lemma kmemb_same s k : kmemb s k = true <-> In k (m_keys s) /\ k <> 0%N.
Proof.
  unfold kmemb. rewrite andb_true_iff, negb_true_iff, N.eqb_neq, existsb_exists. split.
  - intros [H1 [x [H2 H3]]]. apply N.eqb_eq in H3. subst. auto.
  - intros [H1 H2]. split; [exact H2|]. exists k. split; [exact H1|apply N.eqb_refl].
Qed.
End M.

Section R.
Variable w : N.
Hypothesis Hw : (w <= 64)%N.

Lemma map_start s progs : cm_wf w false s -> calls_ok false progs ->
  mapI w (length (m_keys s)) (m_mult s) (bind s) (kmemb s) (cm_start s progs) [].
Proof.
  intros Hwf Hp. apply map_inv_start; auto.
  - now apply cm_start_inv.
  - intros k. apply kmemb_same.
  - intros k v. reflexivity.
  - apply Hwf.
  - apply Hwf.
Qed.
Lemma mm_start s progs : cm_wf w true s -> calls_ok true progs ->
  mmI w (length (m_keys s)) (m_mult s) (entries s) (cm_start s progs) [].
Proof.
  intros Hwf Hp. apply mm_inv_start; auto.
  - now apply cm_start_inv.
  - apply Hwf.
  - now apply (cm_wf_mm w true).
Qed.

Lemma map_rest_wf n a B0 S0 c tr : pow2cap w n -> mapI w n a B0 S0 c tr -> cm_resting c -> cm_wf w false (c_sh c).
Proof.
  intros Hn [[H1 [H2 [H3 [HC [HU [Ht Hc]]]]]] [_ [[V0 [V1 V2]] _]]] Hr. unfold cm_wf. rewrite H1, H2, H3. repeat (split; [assumption|]). split; [|split; [reflexivity|split; [exact V0|]]].
  - rewrite cnt_0 in Hc; [rewrite Nat.add_0_r in Hc; exact Hc|]. intros l Hl. destruct (Hr l Hl) as [p ->]. reflexivity.
  - intros i k Hi Hk. destruct (V1 i k Hi Hk) as [[_ [t [o [j [p Hf]]]]]|[v [Hv _]]]; [|eauto]. destruct (Hr _ (nth_error_In _ _ Hf)) as [q Hq]. discriminate.
Qed.
Lemma mm_rest_wf n a E0 c tr : pow2cap w n -> mmI w n a E0 c tr -> cm_resting c -> cm_wf w true (c_sh c).
Proof.
  intros Hn [[H1 [H2 [H3 [HC [HU [Ht Hc]]]]]] [_ [HV _]]] Hr. unfold cm_wf. rewrite H1, H2, H3. repeat (split; [assumption|]).
  assert (Hno : flat_map own (c_loc c) = []) by (apply flat_map_nil; intros l Hl; destruct (Hr l Hl) as [p ->]; reflexivity). rewrite Hno in HV.
  split; [|split; [reflexivity|split]].
  - rewrite cnt_0 in Hc; [rewrite Nat.add_0_r in Hc; exact Hc|]. intros l Hl. destruct (Hr l Hl) as [p ->]. reflexivity.
  - intros i Hi. apply (HV i 0%N Hi). now left.
  - intros i k Hi Hk. assert (Hlt : i < length (m_vals (c_sh c))) by (apply nth_error_lt in Hi; lia). destruct (nth_error_ex _ _ Hlt) as [[v|] Hov]; [eauto|].
    apply (HV i k Hi) in Hov. destruct Hov as [|[]]; contradiction.
Qed.
Lemma cm_made_wf mm s : cm_made w mm s -> cm_wf w mm s.
Proof.
  induction 1 as [k a Hk|s progs c tr Hm IH Hp He Hr].
  - unfold cm_wf, map_alloc, alloc. cbn [m_keys m_vals m_items m_mult]. rewrite !repeat_length. split; [exists k; split; [lia|exact Hk]|].
    split; [apply chained_repeat0|]. split; [intros _; apply uniq_repeat0|]. split; [now rewrite keys_of_repeat0|]. split; [reflexivity|]. split.
    + intros i Hi. apply nth_error_lt in Hi. rewrite repeat_length in Hi. now apply nth_error_repeat.
    + intros i x Hi Hx. apply nth_error_repeat_inv in Hi. congruence.
  - pose proof (proj1 IH) as Hn. destruct mm.
    + eapply mm_rest_wf; [exact Hn| |exact Hr]. eapply mm_inv; [exact Hw|exact Hn|apply mm_start; eassumption|exact He].
    + eapply map_rest_wf; [exact Hn| |exact Hr]. eapply map_inv; [exact Hw|exact Hn|apply map_start; eassumption|exact He].
Qed.
Lemma cm_new_made mm size a : (1 <= size <= 2 ^ 63)%N -> (size <= 2 ^ w)%N -> cm_made w mm (cm_new size a).
Proof.
  intros [H1 H2] H3. unfold cm_new. destruct (nextPow2_least 64 size) as [[k [Ek Hk]] [Hge Hle]]; [discriminate|exact H1|exact H2|].
  rewrite Ek. apply cmade_table. specialize (Hle w H3). rewrite Ek in Hle. apply N.pow_le_mono_r_iff in Hle; [exact Hle|reflexivity].
Qed.

(** *** safety, termination *)
Lemma cm_is_safe mm s progs : cm_made w mm s -> calls_ok mm progs -> safe (cm_step w mm) (cm_start s progs).
Proof.
  intros Hm Hp c tr t l H E. pose proof (cm_made_wf mm s Hm) as Hwf. eapply (cm_no_bad w Hw mm); [exact (proj1 Hwf)| |exact E].
  eapply cm_inv; [exact Hw|exact (proj1 Hwf)| |exact H]. now apply cm_start_inv.
Qed.

Lemma puts_concat progs : list_sum (map (fun l => puts_of (todo_of l)) (map MIdle progs)) = puts_of (concat progs).
Proof.
  induction progs as [|p progs IH]; [reflexivity|]. cbn [map concat]. change (list_sum (?x :: ?l)) with (x + list_sum l). rewrite IH. cbn [todo_of].
  unfold puts_of. now rewrite filter_app, app_length.
Qed.
Lemma start_room mm s progs : cm_made w mm s -> room (m_keys s) (map MIdle progs) = m_items s + puts_of (concat progs).
Proof. intros Hm. unfold room. rewrite puts_concat. destruct (cm_made_wf mm s Hm) as [_ [_ [_ [-> _]]]]. reflexivity. Qed.
(** Enough free cells for all inserts, and one more if there are lookups. *)
Definition fits_all (s : lpmap) (progs : list (list cmop)) : Prop :=
  m_items s + puts_of (concat progs) <= length (m_keys s) /\
  (m_items s + puts_of (concat progs) < length (m_keys s) \/ forall p o, In p progs -> In o p -> is_put o = true).
Lemma fits_roomy mm s progs : cm_made w mm s -> fits_all s progs -> roomy (length (m_keys s)) (cm_start s progs).
Proof.
  intros Hm [F1 F2]. unfold roomy, cm_start. cbn [c_sh c_loc]. rewrite (start_room mm s progs Hm). split; [exact F1|]. destruct F2 as [F2|F2]; [now left|right].
  intros l Hl o Ho. apply in_map_iff in Hl. destruct Hl as [p [<- Hp]]. eapply F2; eassumption.
Qed.
Lemma cm_all_terminate mm s progs : cm_made w mm s -> calls_ok mm progs -> fits_all s progs -> terminates (cm_step w mm) (cm_start s progs).
Proof.
  intros Hm Hp Hf. pose proof (cm_made_wf mm s Hm) as Hwf. eapply cm_terminates; [exact Hw|exact (proj1 Hwf)|now apply cm_start_inv|now apply (fits_roomy mm)].
Qed.
Lemma cm_bounded mm s progs c tr t p k : cm_made w mm s -> calls_ok mm progs -> fits_all s progs -> nth_error progs t = Some p ->
  exec_own (cm_step w mm) t (cm_start s progs) c tr k -> k <= length p * (2 * length (m_keys s) + 8).
Proof.
  intros Hm Hp Hf Ht He. pose proof (cm_made_wf mm s Hm) as Hwf.
  pose proof (cm_own_steps w Hw mm _ _ (proj1 Hwf) _ c tr t k (MIdle p) (cm_start_inv w Hw mm s progs Hwf Hp) (fits_roomy mm s progs Hm Hf)) as H.
  cbn [cm_rank] in H. apply H; [|exact He]. cbn [cm_start c_loc]. now apply map_nth_error.
Qed.
(** Where the program stops, all calls have returned. *)
Lemma cm_stop mm s progs c tr : cm_made w mm s -> calls_ok mm progs -> exec (cm_step w mm) (cm_start s progs) c tr ->
  (forall c', ~ cstep (cm_step w mm) c c') -> cm_finished c.
Proof.
  intros Hm Hp He Hs. pose proof (cm_is_safe mm s progs Hm Hp) as Hsafe.
  destruct (cstep_or_stopped _ _ _ (cm_step w mm) c) as [[c' Hc]|Hst].
  { intros t l E. eapply Hsafe; eassumption. }
  { destruct (Hs c' Hc). }
  intros l Hl. apply In_nth_error in Hl. destruct Hl as [t Et]. specialize (Hst t l Et). clear - Hst.
  destruct l as [[|o p]|o p|o i j p|o i j p|o i j b p|o i j p|o i p|o r p]; cbn [cm_step] in Hst; unfold cm_done, cm_next, cm_head in Hst; try reflexivity; exfalso;
  repeat match type of Hst with
   | Step _ _ _ = _ => discriminate
   | Bad = _ => discriminate
   | context [match ?x with _ => _ end] => destruct x
   end.
Qed.

(** *** inserts within half of the cells never answer Full *)
Lemma no_full mm s progs c tr : cm_made w mm s -> calls_ok mm progs -> m_items s + puts_of (concat progs) <= length (m_keys s) / 2 ->
  exec (cm_step w mm) (cm_start s progs) c tr -> forall o, ~ In (o, RFull) (lins tr).
Proof.
  intros Hm Hp Hh He. pose proof (cm_made_wf mm s Hm) as Hwf. set (n := length (m_keys s)) in *.
  assert (G : (cmI w mm n (m_mult s) c tr /\ room (m_keys (c_sh c)) (c_loc c) <= n / 2) /\ forall o, ~ In (o, RFull) (lins tr)); [|apply G].
  revert c tr He. apply exec_inv.
  - split; [split|auto].
    + now apply cm_start_inv.
    + unfold cm_start. cbn [c_sh c_loc]. rewrite (start_room mm s progs Hm). exact Hh.
  - intros c tr t l sh' l' evs _ [[HI HR] HF] Et Es. split; [split; [eapply (cm_inv_step w Hw mm n _ (proj1 Hwf)); eassumption|]|].
    + destruct (step_todo w Hw mm n _ c tr t l sh' l' evs HI Et Es) as [_ Hle]. unfold room in *. cbn [c_sh c_loc].
      pose proof (sum_upd_same (fun l => puts_of (todo_of l)) (c_loc c) t l l' Et) as Hs. cbn beta in Hs. lia.
    + intros o Hin. rewrite lins_app in Hin. apply in_app_or in Hin. destruct Hin as [Hin|Hin]; [|exact (HF o Hin)].
      assert (El : exists k v p, l = MEntry (KIns k v) p /\ length (m_keys (c_sh c)) / 2 <= m_items (c_sh c)).
      { destruct l as [[|x p]|x p|x i j p|x i j p|x i j b p|x i j p|x i p|x r p]; cbn [cm_step] in Es; unfold cm_done, cm_next, cm_head in Es;
        repeat match type of Es with
         | Stop = _ => discriminate
         | Bad = _ => discriminate
         | Step _ _ _ = _ => injection Es as <- <- <-
         | context [if Nat.leb ?a ?b then _ else _] => destruct (Nat.leb_spec a b)
         | context [match ?x with _ => _ end] => destruct x
         end; cbn [map lins In] in Hin; try contradiction; destruct Hin as [Hin|[]]; try discriminate Hin. eauto. }
      destruct El as [k [v [p [-> Hi]]]]. pose proof HI as [H1 [_ [_ [_ [_ [_ Hc]]]]]]. unfold room in HR.
      pose proof (sum_upd_same (fun l => puts_of (todo_of l)) (c_loc c) t _ (MIdle []) Et) as Hs. cbn beta in Hs.
      change (puts_of (todo_of (MIdle []))) with 0 in Hs. assert (1 <= puts_of (todo_of (MEntry (KIns k v) p))) by (unfold puts_of; cbn [todo_of filter is_put length]; lia).
      rewrite H1 in Hi. lia.
Qed.

(** *** the map *)
Section Map.
Variables (s : lpmap) (progs : list (list cmop)) (c : config lpmap cmloc) (tr : list (nat * ev cmop cmret)).
Hypothesis Hm : cm_made w false s.
Hypothesis Hp : calls_ok false progs.
Hypothesis He : exec (cm_step w false) (cm_start s progs) c tr.
Let n := length (m_keys s).
Let Hwf := cm_made_wf false s Hm.

Lemma map_invariant : mapI w n (m_mult s) (bind s) (kmemb s) c tr.
Proof. eapply map_inv; [exact Hw|exact (proj1 Hwf)|exact (map_start s progs Hwf Hp)|exact He]. Qed.
Lemma map_stages : forall t, exists st, tstage t tr st.
Proof. destruct map_invariant as [[_ [_ [_ [_ [_ [Ht _]]]]]] _]. exact (thr_stages _ _ _ _ Ht). Qed.
Lemma map_linearizable : linearizable (kspec (n / 2)) (kmemb s) (observed tr).
Proof. destruct map_invariant as [_ [[S [HL _]] _]]. exists tr, S. split; [reflexivity|]. split; [exact HL|exact map_stages]. Qed.
Lemma map_once : uniq (m_keys (c_sh c)).
Proof. destruct map_invariant as [[_ [_ [_ [_ [HU _]]]]] _]. now apply HU. Qed.

Lemma kspec_winner lim k l S T : legal (kspec lim) S l T -> count_lin (mwon k) l + b2n (S k) = b2n (T k).
Proof.
  unfold count_lin. induction 1 as [|l T o r T' Hl IH Hs]; [reflexivity|]. cbn [filter fst snd].
  destruct o as [j v|j v|j|j]; cbn [mwon kspec] in *; try contradiction.
  - destruct Hs as [[-> [_ Hx]]|[-> Hx]]; [rewrite Hx; exact IH|]. rewrite Hx. rewrite (N.eqb_sym j k). destruct (N.eqb_spec k j) as [->|]; cbn [orb].
    + destruct (T j); cbn [negb b2n length] in *; lia.
    + destruct (negb (T j)); exact IH.
  - destruct Hs as [_ Hx]. rewrite Hx. exact IH.
Qed.
Lemma map_winner k : count_rsp (mwon k) tr + b2n (kmemb s k) <= 1.
Proof.
  destruct map_invariant as [_ [[S [HL _]] _]]. pose proof (kspec_winner _ k _ _ _ HL). pose proof (rsp_le_lin (mwon k) tr map_stages). destruct (S k); cbn [b2n] in *; lia.
Qed.

(** At rest: every key of the start or of an answered insert is bound, to a value of the start or of an answered insert of it. *)
Lemma map_at_rest : cm_resting c -> map_wf w (c_sh c) /\
  (forall k v, bind (c_sh c) k v -> bind s k v \/ exists b, In (KIns k v, RB b) (rsps tr)) /\
  (forall k, (exists v, bind s k v) \/ (exists v b, In (KIns k v, RB b) (rsps tr)) -> exists v, bind (c_sh c) k v).
Proof.
  intros Hr. pose proof map_invariant as HI. pose proof (map_rest_wf _ _ _ _ _ _ (proj1 Hwf) HI Hr) as Hwf'. split; [now apply (cm_wf_map w false)|].
  destruct HI as [[_ [_ [_ [_ [HU [Ht _]]]]]] [_ [[V0 [V1 V2]] _]]].
  split.
  - intros k v [Hk [i [Hi Hv]]]. destruct (V1 i k Hi Hk) as [[Hn _]|[v' [Hv' Ho]]]; [congruence|]. rewrite Hv in Hv'. injection Hv' as <-.
    destruct Ho as [H|[[t [b H]]|[t [l [Hl Hwr]]]]]; [now left|right; exists b; apply in_rsps; eauto|].
    destruct (Hr l (nth_error_In _ _ Hl)) as [p ->]. destruct Hwr.
  - intros k Hor. assert (Hk : k <> 0%N).
    { destruct Hor as [[v Hb]|[v [b Hb]]]; [apply Hb|]. apply in_rsps in Hb. destruct Hb as [t Hb].
      assert (Hin : In (KIns k v) (concat progs)).
      { eapply Permutation_in; [exact (acct w false s progs c tr He)|]. apply in_or_app. left. apply in_map_iff. exists (KIns k v, RB b). split; [reflexivity|]. apply in_rsps. eauto. }
      apply in_concat in Hin. destruct Hin as [p [Hpp Hin]]. apply (Hp p _ Hpp Hin). }
    assert (exists v, origin (bind s) (c_loc c) tr k v) as [v Ho].
    { destruct Hor as [[v Hb]|[v [b Hb]]]; exists v; [now left|]. right. left. apply in_rsps in Hb. destruct Hb as [t Hb]. eauto. }
    destruct (V2 k v Hk Ho) as [i [x [Hi Hx]]]. exists x. split; [exact Hk|]. eauto.
Qed.
Lemma map_read k r tr1 u tr2 : tr = tr1 ++ (u, Rsp (KGet k) r) :: tr2 -> exists a b, tr2 = a ++ (u, Lin (KGet k) r) :: b /\ get_ok (bind s) k r b.
Proof.
  intros E. destruct map_invariant as [_ [_ [_ HG]]]. destruct (map_stages u) as [st Hst]. rewrite E in Hst. apply rsp_lin in Hst. destruct Hst as [a [b [Eb _]]].
  exists a, b. split; [exact Eb|]. eapply (HG (tr1 ++ (u, Rsp (KGet k) r) :: a) u). rewrite E, Eb. now rewrite <- app_assoc.
Qed.
(** A get called after an insert of its key returned, or of a key in the start table. *)
Lemma map_visible k r late u mid early : tr = late ++ (u, Rsp (KGet k) r) :: mid ++ (u, Inv (KGet k)) :: early ->
  (forall x, ~ In (u, Inv x) mid) -> ans k early \/ (exists v, bind s k v) ->
  exists v, r = RV (Some v) /\ (bind s k v \/ exists x, In (x, Inv (KIns k v)) (mid ++ early)).
Proof.
  intros E Hmid Ha. destruct map_invariant as [_ [_ [_ HG]]]. destruct (map_stages u) as [st Hst]. rewrite E in Hst.
  destruct (call_lin u late mid early (KGet k) (KGet k) r st Hst Hmid) as [_ [a [b Eb]]].
  assert (Hg : get_ok (bind s) k r (b ++ (u, Inv (KGet k)) :: early)).
  { apply (HG (late ++ (u, Rsp (KGet k) r) :: a) u). rewrite E, Eb. repeat (rewrite <- app_assoc; cbn [app]). reflexivity. }
  destruct Hg as [ov [-> [[v [-> Hv]]|[Hna [Hnb _]]]]].
  - exists v. split; [reflexivity|]. destruct Hv as [Hv|[x Hx]]; [now left|right]. exists x. rewrite Eb. apply in_app_or in Hx.
    rewrite !in_app_iff. cbn [In]. destruct Hx as [Hx|[Hx|Hx]]; [tauto|discriminate|tauto].
  - exfalso. destruct Ha as [[x [v [bb Ha]]]|Ha]; [|exact (Hnb Ha)]. apply Hna. exists x, v, bb. apply in_or_app. right. right. exact Ha.
Qed.
End Map.

(** *** the multimap *)
Section MM.
Variables (s : lpmap) (progs : list (list cmop)) (c : config lpmap cmloc) (tr : list (nat * ev cmop cmret)).
Hypothesis Hm : cm_made w true s.
Hypothesis Hp : calls_ok true progs.
Hypothesis He : exec (cm_step w true) (cm_start s progs) c tr.
Let n := length (m_keys s).
Let Hwf := cm_made_wf true s Hm.

Lemma mm_invariant : mmI w n (m_mult s) (entries s) c tr.
Proof. eapply mm_inv; [exact Hw|exact (proj1 Hwf)|exact (mm_start s progs Hwf Hp)|exact He]. Qed.
Lemma mm_stages : forall t, exists st, tstage t tr st.
Proof. destruct mm_invariant as [[_ [_ [_ [_ [_ [Ht _]]]]]] _]. exact (thr_stages _ _ _ _ Ht). Qed.
Lemma mm_linearizable : linearizable (bspec (n / 2)) (entries s) (observed tr).
Proof. destruct mm_invariant as [_ [[E [HL _]] _]]. exists tr, E. split; [reflexivity|]. split; [exact HL|exact mm_stages]. Qed.

Lemma bspec_pairs lim l E T : legal (bspec lim) E l T -> T = flat_map new_pair l ++ E.
Proof.
  induction 1 as [|l T o r T' Hl IH Hs]; [reflexivity|]. cbn [flat_map].
  destruct o as [j v|j v|j|j]; cbn [bspec] in Hs; try contradiction.
  - destruct Hs as [[-> [_ ->]]|[-> ->]]; cbn [new_pair app]; [exact IH|now rewrite IH].
  - destruct Hs as [-> ->]. cbn [new_pair app]. now rewrite IH.
  - destruct Hs as [-> ->]. destruct (has T j); exact IH.
Qed.
Lemma mm_at_rest : cm_resting c -> mm_wf w (c_sh c) /\ Permutation (entries (c_sh c)) (flat_map new_pair (rsps tr) ++ entries s).
Proof.
  intros Hr. pose proof mm_invariant as HI. split; [apply (cm_wf_mm w true); eapply mm_rest_wf; [exact (proj1 Hwf)|exact HI|exact Hr]|].
  destruct HI as [[_ [_ [_ [_ [_ [Ht _]]]]]] [[E [HL [HP _]]] _]]. apply bspec_pairs in HL.
  assert (Hno : flat_map pend (c_loc c) = []) by (apply flat_map_nil; intros l Hl; destruct (Hr l Hl) as [p ->]; reflexivity).
  rewrite Hno, app_nil_r in HP. rewrite HP, HL. apply Permutation_app_tail. apply flat_map_perm. apply lins_rsps.
  exact (thr_quiet _ _ _ _ Ht (cm_resting_stg c Hr)).
Qed.
End MM.
End R.
