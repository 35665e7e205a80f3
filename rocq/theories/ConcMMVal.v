(** Concurrent_LP_MultiMap: the stored pairs. *)
From Coq Require Import Permutation.
From Verif Require Import Outcome ListUtil WordsModel WordsProofs LPSetModel ProbeTheory LPMapModel LPMapProofs LPMultiMapModel LPMultiMapProofs Conc ConcProbe ConcMapModel ConcMapProofs.
Local Open Scope nat_scope.

(** Sequential meaning on the bag of stored pairs. *)
Definition has (E : list (N * N)) (k : N) : bool := existsb (fun p => (fst p =? k)%N) E.
Definition bspec (lim : nat) (E : list (N * N)) (o : cmop) (E' : list (N * N)) (r : cmret) : Prop :=
  match o with
  | KIns k v => (r = RFull /\ lim <= length E /\ E' = E) \/ (r = RB true /\ E' = (k, v) :: E)
  | KPut k v => r = RB true /\ E' = (k, v) :: E
  | KHas k => r = RB (has E k) /\ E' = E
  | KGet _ => False
  end.

Lemma flat_map_upd_out {A B} (f : A -> list B) l p x y :
  nth_error l p = Some x -> f y = [] -> Permutation (flat_map f l) (f x ++ flat_map f (upd l p y)).
Proof.
  revert p. induction l as [|a l IH]; intros [|p] H Hf; cbn [nth_error upd flat_map] in *; try discriminate.
  - injection H as ->. now rewrite Hf.
  - rewrite (IH p H Hf). rewrite !app_assoc. apply Permutation_app_tail, Permutation_app_comm.
Qed.
Lemma flat_map_upd_same {A B} (f : A -> list B) l p x y : nth_error l p = Some x -> f x = f y -> flat_map f (upd l p y) = flat_map f l.
Proof.
  revert p. induction l as [|a l IH]; intros [|p] H Hf; cbn [nth_error upd flat_map] in *; try discriminate.
  - injection H as ->. now rewrite Hf.
  - now rewrite (IH p H Hf).
Qed.
Lemma combine_upd_l {A B} (l1 : list A) (l2 : list B) p x y : nth_error l2 p = Some y -> combine (upd l1 p x) l2 = upd (combine l1 l2) p (x, y).
Proof.
  revert l2 p. induction l1 as [|a l1 IH]; intros [|b l2] [|p] H; cbn [nth_error upd combine] in *; try discriminate; try reflexivity.
  - injection H as ->. reflexivity.
  - now rewrite (IH l2 p H).
Qed.
Lemma combine_upd_r {A B} (l1 : list A) (l2 : list B) p x y : nth_error l1 p = Some x -> combine l1 (upd l2 p y) = upd (combine l1 l2) p (x, y).
Proof.
  revert l2 p. induction l1 as [|a l1 IH]; intros [|b l2] [|p] H; cbn [nth_error upd combine] in *; try discriminate; try reflexivity.
  - injection H as ->. reflexivity.
  - now rewrite (IH l2 p H).
Qed.
Lemma nth_error_combine_some {A B} (l1 : list A) (l2 : list B) p x y : nth_error l1 p = Some x -> nth_error l2 p = Some y -> nth_error (combine l1 l2) p = Some (x, y).
Proof.
  revert l2 p. induction l1 as [|a l1 IH]; intros [|b l2] [|p] H1 H2; cbn [nth_error combine] in *; try discriminate; [congruence|]. now apply IH.
Qed.
Lemma has_In E k : has E k = true <-> exists v, In (k, v) E.
Proof.
  unfold has. rewrite existsb_exists. split.
  - intros [[k' v] [Hin Eq]]. apply N.eqb_eq in Eq. cbn [fst] in Eq. subst. eauto.
  - intros [v Hv]. exists (k, v). split; [exact Hv|apply N.eqb_refl].
Qed.

Section W.
Variable w : N.
Hypothesis Hw : (w <= 64)%N.
Variables (n : nat) (a : N).
Hypothesis Hn : pow2cap w n.
Notation hm := (home w a n).

(** Pairs placed whose value is still to be stored, and the cells concerned. *)
Definition pend (l : cmloc) : list (N * N) := match l with MSet o _ _ _ _ => [(cm_key o, cm_val o)] | _ => [] end.
Definition own (l : cmloc) : list nat := match l with MSet _ i _ _ _ => [N.to_nat i] | _ => [] end.
Definition mmI (E0 : list (N * N)) (c : config lpmap cmloc) (tr : list (nat * ev cmop cmret)) : Prop :=
  cmI w true n a c tr /\
  (exists E, legal (bspec (n / 2)) E0 (lins tr) E /\ Permutation (entries (c_sh c) ++ flat_map pend (c_loc c)) E /\ length E = length (keys_of (m_keys (c_sh c)))) /\
  (forall i k, nth_error (m_keys (c_sh c)) i = Some k -> (nth_error (m_vals (c_sh c)) i = Some None <-> k = 0%N \/ In i (flat_map own (c_loc c)))) /\
  NoDup (flat_map own (c_loc c)).

Lemma mm_has E0 c tr E k : mmI E0 c tr -> Permutation (entries (c_sh c) ++ flat_map pend (c_loc c)) E -> k <> 0%N ->
  has E k = true <-> In k (m_keys (c_sh c)).
Proof.
  intros [[H1 [H2 [_ [_ [_ [Ht _]]]]]] [_ [HV _]]] HP Hk. destruct c as [s locs]. cbn [c_sh c_loc] in *. rewrite has_In. split.
  - intros [v Hv]. apply (Permutation_in _ (Permutation_sym HP)) in Hv. apply in_app_or in Hv. destruct Hv as [Hv|Hv].
    + unfold entries in Hv. apply in_flat_map in Hv. destruct Hv as [[k' [v'|]] [Hin He]]; cbn [ent] in He; [|destruct He].
      destruct (N.eqb k' 0); [destruct He|]. destruct He as [He|[]]. injection He as -> ->. unfold cells in Hin. eapply in_combine_l; exact Hin.
    + apply in_flat_map in Hv. destruct Hv as [l [Hin Hp]]. apply In_nth_error in Hin. destruct Hin as [t Et].
      destruct (thr_get _ _ _ _ _ _ Ht Et) as [Hok _]. destruct l; cbn [pend In] in Hp; try contradiction; destruct Hp as [Hp|[]]. injection Hp as <- _.
      cbn [cm_loc_ok] in Hok. eapply nth_error_In. apply Hok.
  - intros Hin. apply In_nth_error in Hin. destruct Hin as [i Hi].
    assert (Hlt : i < length (m_vals s)) by (apply nth_error_lt in Hi; lia). destruct (nth_error_ex _ _ Hlt) as [ov Hov].
    destruct ov as [v|].
    + exists v. apply (Permutation_in _ HP). apply in_or_app. left. unfold entries. apply in_flat_map. exists (k, Some v). split.
      * unfold cells. eapply nth_error_In. apply nth_error_combine_some; eassumption.
      * cbn [ent]. apply N.eqb_neq in Hk. rewrite Hk. now left.
    + apply (HV i k Hi) in Hov. destruct Hov as [|Hown]; [contradiction|]. apply in_flat_map in Hown. destruct Hown as [l [Hl Ho]].
      apply In_nth_error in Hl. destruct Hl as [t Et]. destruct (thr_get _ _ _ _ _ _ Ht Et) as [Hok _].
      destruct l; cbn [own In] in Ho; try contradiction; destruct Ho as [Ho|[]]. subst i. cbn [cm_loc_ok] in Hok. destruct Hok as [_ [Hc _]].
      rewrite Hi in Hc. injection Hc as ->. eexists. apply (Permutation_in _ HP). apply in_or_app. right. apply in_flat_map. eexists. split; [eapply nth_error_In; exact Et|]. cbn [pend]. now left.
Qed.

Lemma mm_inv_step E0 c tr t l sh' l' evs : mmI E0 c tr -> nth_error (c_loc c) t = Some l -> cm_step w true (c_sh c) l = Step sh' l' evs ->
  mmI E0 (mkc sh' (upd (c_loc c) t l')) (map (fun e => (t, e)) evs ++ tr).
Proof.
  intros HM Et Es. pose proof HM as [HI [[E [HL [HP HE]]] [HV HN]]]. split; [eapply cm_inv_step; eassumption|].
  pose proof (fun k => mm_has E0 c tr E k HM HP) as Hhas. clear HM.
  destruct c as [s locs]. cbn [c_sh c_loc] in *. pose proof HI as [H1 [H2 [H3 [HC [_ [Ht Hc]]]]]]. cbn [c_sh c_loc] in *.
  destruct (thr_get _ _ _ _ _ _ Ht Et) as [Hok Hst].
  (* steps that change neither keys nor values *)
  assert (Hq : m_keys sh' = m_keys s -> m_vals sh' = m_vals s -> pend l = [] -> pend l' = [] -> own l = [] -> own l' = [] ->
     legal (bspec (n / 2)) E0 (lins (map (fun e => (t, e)) evs ++ tr)) E ->
     (exists E, legal (bspec (n / 2)) E0 (lins (map (fun e => (t, e)) evs ++ tr)) E /\ Permutation (entries sh' ++ flat_map pend (upd locs t l')) E /\ length E = length (keys_of (m_keys sh'))) /\
     (forall i k, nth_error (m_keys sh') i = Some k -> (nth_error (m_vals sh') i = Some None <-> k = 0%N \/ In i (flat_map own (upd locs t l')))) /\
     NoDup (flat_map own (upd locs t l'))).
  { intros Ek Ev P1 P2 O1 O2 HL'. unfold entries, cells. rewrite Ek, Ev.
    rewrite (flat_map_upd_same pend locs t l l' Et) by congruence. rewrite (flat_map_upd_same own locs t l l' Et) by congruence.
    split; [exists E; auto|]. split; assumption. }
  assert (Hnext : forall o i j p, cm_next w s o i j p = Step sh' l' evs -> m_keys sh' = m_keys s /\ m_vals sh' = m_vals s /\ pend l' = [] /\ own l' = [] /\ evs = []).
  { intros o i j p E'. unfold cm_next, cm_head in E'. injection E' as <- <- <-. auto. }
  assert (Hhead : forall o i j p, cm_head w s o i j p = Step sh' l' evs -> m_keys sh' = m_keys s /\ m_vals sh' = m_vals s /\ pend l' = [] /\ own l' = [] /\ evs = []).
  { intros o i j p E'. unfold cm_head in E'. injection E' as <- <- <-. auto. }
  destruct l as [p|o p|o i j p|o i j p|o i j b p|o i j p|o i p|o r p]; cbn [cm_step] in Es.
  - destruct p as [|o p]; [discriminate|]. injection Es as <- <- <-. apply Hq; auto.
  - assert (Hh : forall idx, cm_head w s o idx 0 p = Step sh' l' evs -> (exists E, legal (bspec (n / 2)) E0 (lins (map (fun e => (t, e)) evs ++ tr)) E /\ Permutation (entries sh' ++ flat_map pend (upd locs t l')) E /\ length E = length (keys_of (m_keys sh'))) /\
     (forall i k, nth_error (m_keys sh') i = Some k -> (nth_error (m_vals sh') i = Some None <-> k = 0%N \/ In i (flat_map own (upd locs t l')))) /\
     NoDup (flat_map own (upd locs t l'))).
    { intros idx E'. apply Hhead in E'. destruct E' as [A [B [C [D F]]]]. apply Hq; auto. rewrite F. exact HL. }
    destruct o as [k v|k v|k|k]; try (eapply Hh; exact Es). destruct (Nat.leb (length (m_keys s) / 2) (m_items s)) eqn:El; [|eapply Hh; exact Es].
    injection Es as <- <- <-. apply Hq; auto. cbn [map app lins]. econstructor; [exact HL|]. left. split; [reflexivity|]. split; [|reflexivity].
    apply Nat.leb_le in El. rewrite H1 in El. lia.
  - cbn [cm_loc_ok] in Hok. destruct Hok as [Hk [Ei Hsn]]. assert (Hk0 : cm_key o <> 0%N) by (apply Hk; now left).
    destruct (nth_error (m_keys s) (N.to_nat i)) as [c|] eqn:Ec; [|discriminate].
    assert (Hh : cm_next w s o i j p = Step sh' l' evs -> (exists E, legal (bspec (n / 2)) E0 (lins (map (fun e => (t, e)) evs ++ tr)) E /\ Permutation (entries sh' ++ flat_map pend (upd locs t l')) E /\ length E = length (keys_of (m_keys sh'))) /\
     (forall i k, nth_error (m_keys sh') i = Some k -> (nth_error (m_vals sh') i = Some None <-> k = 0%N \/ In i (flat_map own (upd locs t l')))) /\
     NoDup (flat_map own (upd locs t l'))).
    { intros E'. apply Hnext in E'. destruct E' as [A [B [C [D F]]]]. apply Hq; auto. rewrite F. exact HL. }
    destruct o as [k v|k v|k|k]; cbn [cm_key negb andb] in *.
    + destruct (N.eqb_spec c 0); cbn [negb] in Es; [injection Es as <- <- <-; apply Hq; auto|now apply Hh].
    + destruct (N.eqb_spec c 0); cbn [negb] in Es; [injection Es as <- <- <-; apply Hq; auto|now apply Hh].
    + destruct (Hk (KGet k)) as [_ F]; [now left|discriminate F].
    + destruct (N.eqb_spec c k) as [Eck|Eck].
      * injection Es as <- <- <-. apply Hq; auto. cbn [map app lins]. econstructor; [exact HL|]. cbn [bspec]. split; [|reflexivity].
        f_equal. symmetry. apply (Hhas k Hk0). rewrite <- Eck. eapply nth_error_In; exact Ec.
      * destruct (N.eqb_spec c 0) as [Ec0|Ec0]; [|now apply Hh]. injection Es as <- <- <-. apply Hq; auto. cbn [map app lins].
        econstructor; [exact HL|]. cbn [bspec]. split; [|reflexivity]. f_equal. symmetry. apply not_true_iff_false. rewrite (Hhas k Hk0). subst c.
        unfold seen in Hsn. cbn [is_put andb cm_key] in Hsn. rewrite Ei, Nat2N.id in Ec. eapply (walked_absent hm); [exact HC|exact Hk0|exact Hsn|]. rewrite H1. exact Ec.
  - cbn [cm_loc_ok] in Hok. destruct Hok as [Hk [Ei [Hsn Hput]]]. assert (Hk0 : cm_key o <> 0%N) by (apply Hk; now left).
    destruct (nth_error (m_keys s) (N.to_nat i)) as [c|] eqn:Ec; [|discriminate].
    destruct (N.eqb_spec c 0) as [Ec0|Ec0].
    2:{ cbn [negb andb] in Es. apply Hnext in Es. destruct Es as [A [B [C [D F]]]]. apply Hq; auto. rewrite F. exact HL. }
    injection Es as <- <- <-. subst c. clear Hq Hnext Hhead Hhas Ei Hsn. set (q := N.to_nat i) in *. cbn [m_keys m_vals].
    assert (Hvq : nth_error (m_vals s) q = Some None) by (apply (HV q 0%N Ec); now left).
    assert (Hnq : ~ In q (flat_map own locs)).
    { intros Hin. apply in_flat_map in Hin. destruct Hin as [x [Hx Ho]]. apply In_nth_error in Hx. destruct Hx as [u Eu].
      destruct (thr_get _ _ _ _ _ _ Ht Eu) as [Hox _]. destruct x as [| | | |o0 i0 j0 b0 p0| | |]; cbn [own In] in Ho; try contradiction; destruct Ho as [Ho|[]]. rewrite <- Ho in Ec.
      cbn [cm_loc_ok] in Hox. destruct Hox as [Hk1 [Hcell _]]. rewrite Ec in Hcell. injection Hcell as Hz. destruct (Hk1 o0) as [Hnz _]; [now left|]. congruence. }
    assert (Po : Permutation (flat_map own (upd locs t (MSet o i j true p))) (q :: flat_map own locs)) by exact (flat_map_upd own locs t _ (MSet o i j true p) Et eq_refl).
    assert (Pp : Permutation (flat_map pend (upd locs t (MSet o i j true p))) ((cm_key o, cm_val o) :: flat_map pend locs)) by exact (flat_map_upd pend locs t _ (MSet o i j true p) Et eq_refl).
    split; [|split].
    + exists ((cm_key o, cm_val o) :: E). split; [|split].
      * cbn [map app lins]. econstructor; [exact HL|]. destruct o as [k v|k v|k|k]; try discriminate; cbn [bspec cm_key cm_val]; auto.
      * rewrite Pp. rewrite <- Permutation_middle. apply perm_skip. rewrite <- HP. apply Permutation_app_tail.
        unfold entries, cells. cbn [m_keys m_vals]. rewrite (combine_upd_l _ _ q (cm_key o) None Hvq).
        rewrite (flat_map_upd ent _ q (0%N, None)); [reflexivity| |reflexivity]. now apply nth_error_combine_some.
      * cbn [length]. rewrite keys_upd_free by assumption. now rewrite HE.
    + intros x k Hx. assert (Hin : In x (flat_map own (upd locs t (MSet o i j true p))) <-> q = x \/ In x (flat_map own locs)).
      { split; intros H; [apply (Permutation_in _ Po) in H; exact H|apply (Permutation_in _ (Permutation_sym Po)); exact H]. }
      rewrite Hin. rewrite nth_error_upd in Hx. destruct (Nat.eqb_spec q x) as [Eq|Hne].
      * destruct (Nat.ltb _ _); [|discriminate]. rewrite <- Eq. split; [auto|]. intros _. exact Hvq.
      * rewrite (HV x k Hx). intuition.
    + apply (Permutation_NoDup (Permutation_sym Po)). constructor; assumption.
  - cbn [cm_loc_ok] in Hok. destruct Hok as [Hk [Hcell [Hput Hb]]]. assert (Hk0 : cm_key o <> 0%N) by (apply Hk; now left).
    destruct Hb as [->|F]; [|discriminate]. destruct (nth_error (m_vals s) (N.to_nat i)) as [ov|] eqn:Ev; [|discriminate]. cbn zeta in Es.
    injection Es as <- <- <-. clear Hq Hnext Hhead Hhas. set (q := N.to_nat i) in *. cbn [m_keys m_vals map app].
    pose proof (flat_map_upd_out own locs t _ (MCnt o i j p) Et eq_refl) as Po. cbn [own app] in Po. fold q in Po.
    pose proof (flat_map_upd_out pend locs t _ (MCnt o i j p) Et eq_refl) as Pp. cbn [pend app] in Pp.
    assert (HN' : NoDup (q :: flat_map own (upd locs t (MCnt o i j p)))) by (apply (Permutation_NoDup Po HN)).
    inversion HN' as [|? ? Hnq HN'' Eq]; subst.
    assert (Hvq : nth_error (m_vals s) q = Some None).
    { apply (HV q _ Hcell). right. apply (Permutation_in _ (Permutation_sym Po)). now left. }
    split; [|split].
    + exists E. split; [exact HL|]. split; [|exact HE]. rewrite <- HP, Pp. unfold entries, cells. cbn [m_keys m_vals].
      rewrite (combine_upd_r _ _ q (cm_key o) (Some (cm_val o)) Hcell).
      rewrite (flat_map_upd ent _ q (cm_key o, None)); [|now apply nth_error_combine_some|reflexivity]. cbn [ent]. apply N.eqb_neq in Hk0. rewrite Hk0.
      cbn [app]. apply Permutation_middle.
    + intros x k Hx. rewrite nth_error_upd. destruct (Nat.eqb_spec q x) as [Eq|Hne].
      * subst x. rewrite Hcell in Hx. injection Hx as <-. destruct (Nat.ltb_spec q (length (m_vals s))) as [_|Hge]; [|apply nth_error_lt in Hvq; lia].
        split; [discriminate|]. intros [F|F]; contradiction.
      * rewrite (HV x k Hx). split; intros [F|F]; auto; right.
        -- apply (Permutation_in _ Po) in F. destruct F as [F|F]; [contradiction|exact F].
        -- apply (Permutation_in _ (Permutation_sym Po)). now right.
    + exact HN''.
  - cbn [cm_loc_ok] in Hok. destruct Hok as [Hk [Hcell Hput]]. unfold cm_done in Es.
    destruct o as [k v|k v|k|k]; try discriminate; injection Es as <- <- <-; apply Hq; auto.
  - cbn [cm_loc_ok] in Hok. destruct Hok as [Hk [_ [k ->]]]. destruct (Hk (KGet k)) as [_ F]; [now left|discriminate F].
  - injection Es as <- <- <-. apply Hq; auto.
Qed.

Lemma flat_map_idle {B} (f : cmloc -> list B) progs : (forall p, f (MIdle p) = []) -> flat_map f (map MIdle progs) = [].
Proof. intros H. apply flat_map_nil. intros x Hx. apply in_map_iff in Hx. destruct Hx as [p [<- _]]. apply H. Qed.

Lemma mm_inv_start s progs : cmI w true n a (cm_start s progs) [] ->
  (forall i, nth_error (m_keys s) i = Some 0%N -> nth_error (m_vals s) i = Some None) -> mm_wf w s ->
  mmI (entries s) (cm_start s progs) [].
Proof.
  intros HI V0 Hwf. pose proof Hwf as [_ [_ [Hi [_ V1]]]]. split; [exact HI|]. unfold cm_start. cbn [c_sh c_loc lins].
  rewrite !flat_map_idle by reflexivity. split; [|split; [|constructor]].
  - exists (entries s). split; [constructor|]. rewrite app_nil_r. split; [reflexivity|]. rewrite (entries_length w Hw s Hwf). exact Hi.
  - intros i k Hk. split.
    + intros Hv. left. destruct (N.eq_dec k 0) as [->|Hne]; [reflexivity|]. destruct (V1 i k Hk Hne) as [v Hv']. congruence.
    + intros [->|[]]. now apply V0.
Qed.

Lemma mm_inv E0 c0 c tr : mmI E0 c0 [] -> exec (cm_step w true) c0 c tr -> mmI E0 c tr.
Proof. intros H0. apply exec_inv; [exact H0|]. intros. eapply mm_inv_step; eassumption. Qed.
End W.
