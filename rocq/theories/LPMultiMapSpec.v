(** Vocabulary for the statements about LP_MultiMap, and the lemmas in that form. *)
From Coq Require Import Permutation.
From Verif Require Import Outcome ListUtil WordsModel WordsProofs RangeModel RangeProofs LPSetModel ProbeTheory LPSetProofs LPSetHistory LPSetIter LPSetSpec LPMapModel LPMapProofs LPMapSpec LPMultiMapModel LPMultiMapProofs.
Local Open Scope nat_scope.

(** A multimap constructed with [size >= 1] after the calls insert(k, v) for the pairs in
    [W]; the specification is the multiset [W], [under k W] being the pairs with key k. *)
Definition mm_after (w size a : N) (W : list (N * N)) (m : lpmap) : Prop :=
  in_range w size (length W) /\ (1 <= size)%N /\ Forall (fun p => fst p <> 0%N) W /\
  returns (fun f => mm_run w f (mm_new size a) W) m.

Lemma mm_new_wf w size a : in_range w size 0 -> (1 <= size)%N -> mm_wf w (mm_new size a) /\ entries (mm_new size a) = [].
Proof.
  intros [[W1 W2] [S1 [S2 _]]] S0. unfold mm_new. destruct (np2_cap w W2 size S0 S1 S2) as [n [En [Pn Hn]]]. rewrite En.
  split; [now apply mm_alloc_wf|apply mm_alloc_entries].
Qed.

Lemma in_range_0 w size n : in_range w size n -> in_range w size 0.
Proof. intros [W [S1 [S2 [N1 N2]]]]. unfold in_range. repeat split; try lia. Qed.

Lemma mm_runs w size a W :
  in_range w size (length W) -> (1 <= size)%N -> Forall (fun p => fst p <> 0%N) W ->
  exists m, returns (fun f => mm_run w f (mm_new size a) W) m /\ mm_wf w m /\ Permutation (entries m) W /\ msize m = length W.
Proof.
  intros H S0 Hok. destruct (mm_new_wf w size a (in_range_0 _ _ _ H) S0) as [W0 E0].
  destruct H as [[W1 W2] [S1 [S2 [N1 N2]]]].
  destruct (mm_run_spec w W2 W (mm_new size a) W0 Hok) as [m [E [Wm [P I]]]].
  { split; unfold mm_new, map_alloc; cbn [m_items]; lia. }
  exists m. split; [exact E|]. split; [exact Wm|]. rewrite E0, app_nil_r in P. split; [exact P|exact I].
Qed.

Lemma mm_after_wf w size a W m : mm_after w size a W m -> mm_wf w m /\ Permutation (entries m) W /\ msize m = length W.
Proof.
  intros [H [S0 [Hok Hr]]]. destruct (mm_runs w size a W H S0 Hok) as [m' [E R]].
  now rewrite (returns_det _ _ _ Hr E).
Qed.

Lemma under_perm k W W' : Permutation W W' -> Permutation (under k W) (under k W').
Proof.
  unfold under. induction 1; cbn [filter]; auto.
  - destruct (N.eqb (fst x) k); auto.
  - destruct (N.eqb (fst y) k), (N.eqb (fst x) k); auto. apply perm_swap.
  - etransitivity; eassumption.
Qed.

Lemma mm_get_after w size a W m k :
  mm_after w size a W m -> k <> 0%N -> msize m + 2 <= capacity m ->
  exists l, returns (fun f => mm_get_values w f m k) l /\ Permutation l (under k W).
Proof.
  intros Ha Hk Hf. destruct (mm_after_wf _ _ _ _ _ Ha) as [Hwf [P _]]. assert (W2 : (w <= 64)%N) by apply Ha.
  unfold msize, capacity in Hf. fold (mcap m) in Hf.
  destruct (get_values_spec w W2 m k Hwf Hk) as [l [E [H|[_ [H _]]]]]; [lia| |lia].
  exists l. split; [exact E|]. rewrite H. now apply under_perm.
Qed.

Lemma mm_get_one_free w size a W m k :
  mm_after w size a W m -> k <> 0%N -> msize m + 1 = capacity m ->
  exists l, returns (fun f => mm_get_values w f m k) l /\
    (Permutation l (under k W) \/
     (l = [] /\ nth_error (m_keys m) (home w (m_mult m) (capacity m) k) = Some k)).
Proof.
  intros Ha Hk Hf. destruct (mm_after_wf _ _ _ _ _ Ha) as [Hwf [P _]]. assert (W2 : (w <= 64)%N) by apply Ha.
  unfold msize, capacity in Hf. fold (mcap m) in Hf.
  destruct (get_values_spec w W2 m k Hwf Hk) as [l [E H]]; [lia|].
  exists l. split; [exact E|]. destruct H as [H|[H1 [_ H2]]].
  - left. rewrite H. now apply under_perm.
  - right. split; [exact H1|]. unfold slot in H2. rewrite Nat.add_0_r, Nat.mod_small in H2; [exact H2|].
    apply (home_lt w W2). exact (mm_cap_pos w W2 m Hwf).
Qed.

Lemma mm_get_full w size a W m k :
  mm_after w size a W m -> k <> 0%N -> msize m = capacity m -> diverges (fun f => mm_get_values w f m k).
Proof.
  intros Ha Hk Hf. destruct (mm_after_wf _ _ _ _ _ Ha) as [Hwf [P _]]. assert (W2 : (w <= 64)%N) by apply Ha.
  now apply (get_values_full w W2 m k Hwf).
Qed.

Lemma mm_keys_In w m W k : (w <= 64)%N -> mm_wf w m -> Permutation (entries m) W -> k <> 0%N -> (In k (m_keys m) <-> In k (map fst W)).
Proof.
  intros W2 Hwf P Hk. rewrite <- (Permutation_map fst P). rewrite (entries_keys w W2 m Hwf). unfold keys_of. rewrite filter_In, nz_spec. tauto.
Qed.

Lemma mm_contains_after w size a W m k :
  mm_after w size a W m -> k <> 0%N ->
  (In k (map fst W) -> returns (fun f => mm_contains w f m k) true) /\
  (~ In k (map fst W) -> msize m < capacity m -> returns (fun f => mm_contains w f m k) false) /\
  (~ In k (map fst W) -> msize m = capacity m -> diverges (fun f => mm_contains w f m k)) /\
  msize m = length W /\ msize m <= capacity m.
Proof.
  intros Ha Hk. destruct (mm_after_wf _ _ _ _ _ Ha) as [Hwf [P I]]. assert (W2 : (w <= 64)%N) by apply Ha.
  destruct (mm_contains_cases w W2 m k Hwf Hk) as [C1 [C2 C3]]. rewrite (mm_keys_In w m W k W2 Hwf P Hk) in C1, C2, C3.
  repeat (split; [assumption|]). exact (mm_items_le w m Hwf).
Qed.

Lemma mm_merge_after w size1 size2 a1 a2 ops1 ops2 m1 m2 :
  mm_after w size1 a1 ops1 m1 -> mm_after w size2 a2 ops2 m2 -> small w (2 * (capacity m1 + capacity m2)) ->
  exists m, returns (fun f => mm_merge w f m1 m2) m /\ msize m = length ops1 + length ops2 /\
    forall k, k <> 0%N ->
      (msize m + 2 <= capacity m -> exists l, returns (fun f => mm_get_values w f m k) l /\ Permutation l (under k (ops1 ++ ops2))) /\
      (In k (map fst (ops1 ++ ops2)) -> returns (fun f => mm_contains w f m k) true) /\
      (~ In k (map fst (ops1 ++ ops2)) -> msize m < capacity m -> returns (fun f => mm_contains w f m k) false).
Proof.
  intros A1 A2 Hsm. assert (W2 : (w <= 64)%N) by apply A1.
  destruct (mm_after_wf _ _ _ _ _ A1) as [Hwf1 [P1 I1]]. destruct (mm_after_wf _ _ _ _ _ A2) as [Hwf2 [P2 I2]].
  destruct (mm_merge_spec w W2 m1 m2 Hwf1 Hwf2 Hsm) as [m [E [Hwf P]]].
  assert (P' : Permutation (entries m) (ops1 ++ ops2)) by (rewrite P; now apply Permutation_app).
  exists m. split; [exact E|]. split.
  - unfold msize. rewrite <- (entries_length w W2 m Hwf), (Permutation_length P'). apply app_length.
  - intros k Hk. split.
    + intros Hf. unfold msize, capacity in Hf. fold (mcap m) in Hf.
      destruct (get_values_spec w W2 m k Hwf Hk) as [l [El [H|[_ [H _]]]]]; [lia| |lia].
      exists l. split; [exact El|]. rewrite H. now apply under_perm.
    + destruct (mm_contains_cases w W2 m k Hwf Hk) as [C1 [C2 C3]]. rewrite (mm_keys_In w m _ k W2 Hwf P' Hk) in C1, C2, C3.
      split; assumption.
Qed.

Lemma mm_merge_filter_after w g size1 size2 size3 a1 a2 a3 ops1 ops2 ops3 m1 m2 flt :
  mm_after w size1 a1 ops1 m1 -> mm_after w size2 a2 ops2 m2 -> set_after w g size3 a3 ops3 flt ->
  set_size flt < set_end flt -> small w (2 * (capacity m1 + capacity m2)) ->
  exists m, returns (fun f => mm_merge_filter w f m1 m2 flt) m /\
    forall k, k <> 0%N -> msize m + 2 <= capacity m ->
    exists l, returns (fun f => mm_get_values w f m k) l /\
      (In k (inserted ops3) -> l = []) /\ (~ In k (inserted ops3) -> Permutation l (under k (ops1 ++ ops2))).
Proof.
  intros A1 A2 A3 Hfr Hsm. assert (W2 : (w <= 64)%N) by apply A1.
  destruct (mm_after_wf _ _ _ _ _ A1) as [Hwf1 [P1 I1]]. destruct (mm_after_wf _ _ _ _ _ A2) as [Hwf2 [P2 I2]].
  pose proof (after_repr _ _ _ _ _ _ A3) as [Hwf3 _].
  destruct (mm_merge_filter_spec w W2 m1 m2 flt Hwf1 Hwf2 Hwf3 Hfr Hsm) as [m [E [Hwf P]]].
  exists m. split; [exact E|]. intros k Hk Hf. unfold msize, capacity in Hf. fold (mcap m) in Hf.
  destruct (get_values_spec w W2 m k Hwf Hk) as [l [El [H|[_ [H _]]]]]; [lia| |lia].
  exists l. split; [exact El|].
  assert (U : forall W, under k (filter (fun p => negb (if elem_dec flt (fst p) then true else false)) W) =
              if elem_dec flt k then [] else under k W).
  { induction W as [|[x v] W IH]; [unfold under; cbn; now destruct (elem_dec flt k)|].
    cbn [filter fst]. destruct (elem_dec flt x) as [Hx|Hx]; cbn [negb].
    - rewrite IH. destruct (elem_dec flt k) as [Hy|Hy]; [reflexivity|]. unfold under. cbn [filter fst].
      destruct (N.eqb_spec x k) as [->|]; [contradiction|reflexivity].
    - unfold under in *. cbn [filter fst]. destruct (N.eqb_spec x k) as [->|]; [|exact IH].
      rewrite IH. destruct (elem_dec flt k); [contradiction|reflexivity]. }
  pose proof (under_perm k _ _ P) as PU. rewrite U in PU.
  pose proof (after_elem _ _ _ _ _ _ k A3) as Hel.
  destruct (elem_dec flt k) as [Hy|Hy].
  - split; [|intros Hn; exfalso; apply Hn, Hel, Hy]. intros _. rewrite PU in H. now apply Permutation_nil.
  - split; [intros Hin; exfalso; apply Hy, Hel, Hin|]. intros _. rewrite H, PU. apply under_perm. now apply Permutation_app.
Qed.

Lemma mm_iter_after w size a W m grain t :
  mm_after w size a W m ->
  exists l, returns (fun f => map_parallel f m grain t) l /\ Permutation l (map (fun p => (fst p, Some (snd p))) W).
Proof.
  intros Ha. destruct (mm_after_wf _ _ _ _ _ Ha) as [Hwf [P _]]. pose proof Hwf as [_ [_ [_ [HL HV]]]].
  eexists. split.
  - exists (S (length (m_keys m))). intros f Hf. unfold map_parallel.
    rewrite (split_all (fun i => negb (map_empty_at m i)) (length (m_keys m)) (skip (length (m_keys m)) (map_empty_at m)));
      [reflexivity|apply skip_skips|reflexivity|lia].
  - rewrite <- (Permutation_map _ P). unfold entries. rewrite flat_map_index.
    assert (EL : length (cells m) = length (m_keys m)) by (unfold cells; rewrite combine_length; lia). rewrite EL.
    unfold occupied. rewrite Nat.sub_0_r.
    assert (G : forall l, (forall i, In i l -> i < length (m_keys m)) ->
      map (map_at m) (filter (fun i => negb (map_empty_at m i)) l) =
      map (fun p => (fst p, Some (snd p))) (flat_map (fun i => match nth_error (cells m) i with Some x => ent x | None => [] end) l)).
    { induction l as [|i l IH]; intros Hl; [reflexivity|]. cbn [filter flat_map]. rewrite map_app, <- IH by (intros; apply Hl; now right).
      destruct (nth_error_ex (m_keys m) i) as [k Hk]; [apply Hl; now left|].
      destruct (nth_error_ex (m_vals m) i) as [ov Hov]; [rewrite HL; apply Hl; now left|].
      assert (Ec : nth_error (cells m) i = Some (k, ov)) by (apply nth_error_combine; auto). rewrite Ec.
      unfold map_empty_at at 1. rewrite Hk. destruct (N.eqb_spec k 0) as [->|Hz]; cbn [negb].
      - destruct ov; reflexivity.
      - destruct (HV i k Hk Hz) as [v Hv]. rewrite Hv in Hov. injection Hov as <-. cbn [ent map].
        apply N.eqb_neq in Hz. rewrite Hz. cbn [map app fst snd]. f_equal.
        unfold map_at. now rewrite (nth_error_nth _ _ 0%N Hk), (nth_error_nth _ _ None Hv). }
    rewrite G; [reflexivity|]. intros i Hi. apply in_seq in Hi. lia.
Qed.

Lemma mm_save_load_after w size a W m : mm_after w size a W m -> map_load (map_save m) = m.
Proof.
  intros Ha. destruct (mm_after_wf _ _ _ _ _ Ha) as [[_ [_ [_ [HL _]]]] _]. destruct (map_load_save m); [assumption|congruence].
Qed.

(** The two smallest failing tables. *)
Lemma two_cells l k h : length l = 2 -> h < 2 -> nth_error l h = Some k -> k <> 0%N -> length (keys_of l) = 1 ->
  nth_error l (slot 2 h 1) = Some 0%N.
Proof.
  intros Hl Hh Hk Hk0 Hi. destruct l as [|x [|y [|]]]; try discriminate Hl. unfold keys_of, nz in Hi. cbn [filter] in Hi.
  destruct h as [|[|]]; [| |lia]; cbn in Hk; injection Hk as ->; apply N.eqb_neq in Hk0; rewrite Hk0 in Hi; cbn [negb] in Hi.
  - destruct (N.eqb_spec y 0) as [->|]; [reflexivity|discriminate Hi].
  - destruct (N.eqb_spec x 0) as [->|]; [reflexivity|discriminate Hi].
Qed.

Lemma mm_one_of_two w a k v m : in_range w 2 1 -> mm_after w 2 a [(k, v)] m -> returns (fun f => mm_get_values w f m k) [].
Proof.
  intros IR Ha. assert (Hk : k <> 0%N). { destruct Ha as [_ [_ [H _]]]. inversion H; subst. assumption. }
  destruct (mm_after_wf _ _ _ _ _ Ha) as [Hwf [P I]]. assert (W2 : (w <= 64)%N) by apply Ha.
  destruct (mm_new_wf w 2 a (in_range_0 _ _ _ IR) ltac:(lia)) as [W0 E0].
  assert (C0 : mcap (mm_new 2 a) = 2) by reflexivity.
  assert (I0 : m_items (mm_new 2 a) = 0) by reflexivity.
  destruct (mm_insert_raw_spec w W2 (mm_new 2 a) k v W0 Hk ltac:(lia)) as [m1 [E1 [W1 [P1 [C1 [M1 I1]]]]]].
  assert (m1 = m).
  { destruct Ha as [_ [_ [_ [n E]]]]. specialize (E (n + 2) ltac:(lia)). unfold mm_run in E. cbn [fold_res fst snd] in E.
    rewrite mm_insert_notfull in E by (auto; lia). rewrite E1 in E by (rewrite C0; lia). cbn [rbind] in E. congruence. }
  subst m1.
  (* the key sits in its home cell: of the two cells both were free *)
  assert (Hhome : nth_error (m_keys m) (home w (m_mult m) (mcap m) k) = Some k).
  { specialize (E1 (2) ltac:(rewrite C0; lia)). unfold mm_insert_raw in E1.
    assert (Epf : probe_free w 2 (m_keys (mm_new 2 a)) (hash w (m_mult (mm_new 2 a)) k) = Val (home w a 2 k)).
    { pose proof (home_lt w W2 a 2 k ltac:(lia)) as Hl. assert (P2 : pow2cap w 2) by exact (proj1 W0).
      change (m_keys (mm_new 2 a)) with [0%N; 0%N]. change (m_mult (mm_new 2 a)) with a.
      assert (Es : slot 2 (home w a 2 k) 0 = home w a 2 k) by (unfold slot; rewrite Nat.add_0_r; now apply Nat.mod_small).
      rewrite (probe_free_from w W2 [0%N; 0%N] (home w a 2 k) P2 0 0 0); try reflexivity.
      - change (length [0%N; 0%N]) with 2. now rewrite Es.
      - change (length [0%N; 0%N]) with 2. rewrite Es. destruct (home w a 2 k) as [|[|]]; [reflexivity|reflexivity|lia].
      - intros; lia.
      - exact (mask_home w W2 a 2 k P2).
      - lia. }
    rewrite Epf in E1. cbn [rmap] in E1. rewrite C1, M1, C0. change (m_mult (mm_new 2 a)) with a.
    apply (f_equal (fun r => match r with Val x => m_keys x | _ => [] end)) in E1. cbn [m_keys] in E1. rewrite <- E1.
    change (m_keys (mm_new 2 a)) with [0%N; 0%N].
    apply nth_error_upd_eq. change (length _) with 2. apply (home_lt w W2). lia. }
  destruct (get_values_spec w W2 m k Hwf Hk) as [l [El H]]; [lia|].
  assert (m_items m = 1 /\ mcap m = 2) as [Im Cm] by lia.
  (* the free cell is the predecessor of the home cell *)
  destruct (get_start w W2 m k Hwf Hk) as [G1 G2].
  assert (Hh : home w (m_mult m) (mcap m) k < 2) by (rewrite Cm; apply (home_lt w W2); lia).
  set (h := home w (m_mult m) (mcap m) k) in *.
  assert (Z : nth_error (m_keys m) (slot (mcap m) h 1) = Some 0%N).
  { rewrite Cm. apply (two_cells (m_keys m) k); auto. destruct Hwf as [_ [_ [Hi _]]]. congruence. }
  assert (Hcell0 : nth_error (m_keys m) (slot (mcap m) h 0) = Some k).
  { unfold slot. rewrite Nat.add_0_r, Nat.mod_small by lia. exact Hhome. }
  exists 10. intros f Hf. unfold mm_get_values, mm_get. fold (mcap m). rewrite G1.
  rewrite (get_search w W2 m k Hwf Hk 1 0) with (d := 0); auto; try (fold h; lia).
  - cbn [rbind fst snd]. fold h. destruct f as [|f]; [lia|]. cbn [mm_collect].
    assert (E : slot (mcap m) h 2 = slot (mcap m) h 0).
    { rewrite Cm. unfold slot. replace (h + 2) with (h + 0 + 1 * 2) by lia. rewrite Nat.mod_add by lia. reflexivity. }
    rewrite E, N.eqb_refl. reflexivity.
  - intros i Hi E. replace i with 0 in E by lia. fold h in E. congruence.
Qed.
