(** Proofs about the sequential linear-probing map. *)
From Verif Require Import Outcome ListUtil WordsModel WordsProofs RangeModel RangeProofs LPSetModel ProbeTheory LPSetProofs LPSetHistory LPSetIter LPMapModel.
Local Open Scope nat_scope.

Definition keyset (m : lpmap) : lpset := mkset (m_keys m) (m_items m) (m_mult m).
Definition mcap (m : lpmap) : nat := length (m_keys m).
Definition bind (m : lpmap) (k v : N) : Prop :=
  k <> 0%N /\ exists i, nth_error (m_keys m) i = Some k /\ nth_error (m_vals m) i = Some (Some v).
Definition cells (m : lpmap) := combine (m_keys m) (m_vals m).
Definition selc (keep : N -> bool) (l : list (N * option N)) := filter (fun c => nz (fst c) && keep (fst c)) l.

Lemma selc_cons keep k ov l :
  selc keep ((k, ov) :: l) = if N.eqb k 0 then selc keep l else if keep k then (k, ov) :: selc keep l else selc keep l.
Proof. unfold selc. cbn [filter fst]. unfold nz at 1. destruct (N.eqb k 0); cbn [negb andb]; [reflexivity|]. destruct (keep k); reflexivity. Qed.

Lemma selc_combine keep ks : forall vs, length vs = length ks -> map fst (selc keep (combine ks vs)) = sel keep ks.
Proof.
  induction ks as [|k ks IH]; intros [|v vs] H; cbn [length] in H; try discriminate; [reflexivity|].
  cbn [combine]. rewrite selc_cons, sel_cons. rewrite <- (IH vs) by lia.
  destruct (N.eqb k 0); [reflexivity|]. destruct (keep k); reflexivity.
Qed.

Section W.
Variable w : N.
Hypothesis Hw : (w <= 64)%N.

Definition map_wf (m : lpmap) : Prop :=
  set_wf w (keyset m) /\ length (m_vals m) = length (m_keys m) /\
  (forall i k, nth_error (m_keys m) i = Some k -> k <> 0%N -> exists v, nth_error (m_vals m) i = Some (Some v)).

Lemma bind_fun m k v v' : map_wf m -> bind m k v -> bind m k v' -> v = v'.
Proof.
  intros [[_ [_ [U _]]] _] [Hk [i [H1 H2]]] [_ [j [H3 H4]]].
  assert (i = j) by (apply (U i j k); assumption). subst. congruence.
Qed.

Lemma elem_bind m k : map_wf m -> (elem (keyset m) k <-> exists v, bind m k v).
Proof.
  intros [_ [_ V]]. rewrite elem_In. cbn [keyset s_arr]. split.
  - intros [H Hz]. apply In_nth_error in H. destruct H as [i Hi]. destruct (V i k Hi Hz) as [v Hv].
    exists v. split; [exact Hz|]. exists i. auto.
  - intros [v [Hz [i [H1 _]]]]. split; [|exact Hz]. eapply nth_error_In; eassumption.
Qed.

Lemma map_alloc_wf n a : pow2cap w n -> map_wf (map_alloc (N.of_nat n) a).
Proof.
  intros H. unfold map_alloc, alloc. rewrite Nat2N.id. split; [|split].
  - apply (empty_wf w n a H).
  - cbn [m_keys m_vals]. now rewrite !repeat_length.
  - intros i k Hi Hk. cbn [m_keys] in Hi. apply nth_error_repeat_inv in Hi. congruence.
Qed.

Lemma map_alloc_bind n a k v : ~ bind (map_alloc n a) k v.
Proof. intros [Hk [i [H _]]]. cbn [map_alloc m_keys] in H. unfold alloc in H. apply nth_error_repeat_inv in H. congruence. Qed.

Lemma map_alloc_cap n a : mcap (map_alloc (N.of_nat n) a) = n.
Proof. unfold mcap, map_alloc, alloc. cbn [m_keys]. rewrite Nat2N.id. apply repeat_length. Qed.

Lemma map_insert_raw_spec m k v :
  map_wf m -> k <> 0%N -> elem (keyset m) k \/ m_items m < mcap m ->
  exists m', (forall fuel, mcap m <= fuel -> map_insert_raw w fuel m k v = Val (m', if elem_dec (keyset m) k then false else true)) /\
    map_wf m' /\ (forall x y, bind m' x y <-> (x = k /\ y = v) \/ (x <> k /\ bind m x y)) /\
    mcap m' = mcap m /\ m_mult m' = m_mult m /\
    m_items m' = m_items m + (if elem_dec (keyset m) k then 0 else 1).
Proof.
  intros Hm Hz Hor. pose proof Hm as [Hwf [HL HV]]. pose proof Hwf as [Hp [Hc [Hu Hi]]].
  cbn [keyset s_arr s_items s_mult] in Hp, Hc, Hu, Hi.
  assert (Hor' : In k (m_keys m) \/ In 0%N (m_keys m)).
  { destruct Hor as [H|H].
    - left. apply elem_In in H. apply H.
    - right. apply (free_In w Hw (keyset m) Hwf H). }
  destruct (probe_spec w Hw (m_mult m) (m_keys m) k Hp Hc Hz Hor') as [j [Hj [Hf [PI PO]]]].
  set (p := slot (length (m_keys m)) (home w (m_mult m) (length (m_keys m)) k) j) in *. clearbody p.
  destruct (elem_dec (keyset m) k) as [He|He].
  - apply elem_In in He. cbn [keyset s_arr] in He. destruct He as [He _].
    destruct (PI He) as [P0 P']. clear PI PO.
    assert (Hpl : p < length (m_vals m)) by (rewrite HL; eapply nth_error_lt; exact P0).
    exists (mkmap (m_keys m) (upd (m_vals m) p (Some v)) (m_items m) (m_mult m)).
    split; [|split; [|split; [|split; [reflexivity|split; [reflexivity|cbn [m_items]; lia]]]]].
    + intros fuel Hfu. unfold map_insert_raw. rewrite P' by exact Hfu. reflexivity.
    + split; [exact Hwf|]. cbn [m_keys m_vals]. rewrite upd_length. split; [exact HL|].
      intros i k' Hi' Hk'. rewrite nth_error_upd. destruct (Nat.eqb_spec p i) as [<-|].
      * destruct (Nat.ltb_spec p (length (m_vals m))); [eauto|lia].
      * eapply HV; eassumption.
    + intros x y. unfold bind. cbn [m_keys m_vals]. split.
      * intros [Hx [i [H1 H2]]]. rewrite nth_error_upd in H2. destruct (Nat.eqb_spec p i) as [<-|Hpi].
        -- destruct (Nat.ltb_spec p (length (m_vals m))); [|discriminate]. left. split; congruence.
        -- right. split; [|eauto]. intros ->. apply Hpi. symmetry. apply (Hu i p k); auto.
      * intros [[-> ->]|[Hx [Hxz [i [H1 H2]]]]].
        -- split; [exact Hz|]. exists p. split; [exact P0|]. now apply nth_error_upd_eq.
        -- split; [exact Hxz|]. exists i. split; [exact H1|]. rewrite nth_error_upd_neq; [exact H2|]. intros <-. congruence.
  - assert (He' : ~ In k (m_keys m)) by (intros H; apply He, elem_In; auto).
    destruct (PO He') as [P0 P']. clear PI PO.
    assert (Hpl : p < length (m_vals m)) by (rewrite HL; eapply nth_error_lt; exact P0).
    assert (Hfree : m_items m < mcap m) by tauto.
    destruct (insert_raw_out w Hw (keyset m) k Hwf Hz He Hfree) as [s' [E' [W' _]]].
    assert (Es : s' = mkset (upd (m_keys m) p k) (S (m_items m)) (m_mult m)).
    { specialize (E' (mcap m) ltac:(unfold mcap, cap, keyset; cbn; lia)). unfold insert_raw in E'. cbn [keyset s_arr s_items s_mult] in E'.
      rewrite P' in E' by (unfold mcap; lia). cbn [rmap] in E'. congruence. }
    exists (mkmap (upd (m_keys m) p k) (upd (m_vals m) p (Some v)) (S (m_items m)) (m_mult m)).
    split; [|split; [|split; [|split; [|split; [reflexivity|cbn [m_items]; lia]]]]].
    + intros fuel Hfu. unfold map_insert_raw. rewrite P' by exact Hfu. reflexivity.
    + split; [subst s'; exact W'|]. cbn [m_keys m_vals]. rewrite !upd_length. split; [exact HL|].
      intros i k' Hi' Hk'. cbn [m_keys] in Hi'. rewrite nth_error_upd in Hi'. rewrite nth_error_upd. destruct (Nat.eqb_spec p i) as [<-|].
      * destruct (Nat.ltb_spec p (length (m_vals m))); [eauto|lia].
      * eapply HV; eassumption.
    + assert (Hpk : p < length (m_keys m)) by lia.
      intros x y. unfold bind. cbn [m_keys m_vals]. split.
      * intros [Hx [i [H1 H2]]]. rewrite nth_error_upd in H1. rewrite nth_error_upd in H2.
        destruct (Nat.eq_dec p i) as [Hpi|Hpi]; [rewrite <- Hpi, Nat.eqb_refl in *|apply Nat.eqb_neq in Hpi as Hpi'; rewrite Hpi' in *].
        -- destruct (Nat.ltb_spec p (length (m_vals m))); [|discriminate].
           destruct (Nat.ltb_spec p (length (m_keys m))); [|discriminate]. left. split; congruence.
        -- right. split; [|eauto]. intros ->. apply He'. eapply nth_error_In; eassumption.
      * intros [[-> ->]|[Hx [Hxz [i [H1 H2]]]]].
        -- split; [exact Hz|]. exists p. split; now apply nth_error_upd_eq.
        -- split; [exact Hxz|]. exists i.
           assert (p <> i) by (intros <-; congruence). now rewrite !nth_error_upd_neq by assumption.
    + unfold mcap. cbn [m_keys]. apply upd_length.
Qed.

(** The copying loop. *)
Lemma fold_cells_spec (keepb : N -> bool) (ins : nat -> lpmap -> N -> N -> res (lpmap * bool))
      (keep : nat -> N -> res bool) (lim : nat) l :
  (forall fuel k, lim <= fuel -> In k (map fst l) -> k <> 0%N -> keep fuel k = Val (keepb k)) ->
  (forall fuel t k v, map_wf t -> m_items t < mcap t -> ins fuel t k v = map_insert_raw w fuel t k v) ->
  (forall k ov, In (k, ov) l -> k <> 0%N -> exists v, ov = Some v) ->
  NoDup (map fst (selc keepb l)) ->
  forall t, map_wf t -> m_items t + length (selc keepb l) <= mcap t ->
  exists t', (forall fuel, lim <= fuel -> mcap t <= fuel -> fold_res (map_copy_cell (ins fuel) (keep fuel)) l t = Val t') /\
    map_wf t' /\
    (forall x y, bind t' x y <-> In (x, Some y) (selc keepb l) \/ (bind t x y /\ ~ In x (map fst (selc keepb l)))) /\
    mcap t' = mcap t /\ m_mult t' = m_mult t.
Proof.
  intros Hkeep Hins. induction l as [|[k ov] l IH]; intros Hsome Hnd t Hwf Hcap.
  - exists t. cbn [fold_res]. split; [reflexivity|split; [exact Hwf|split; [|split; reflexivity]]].
    intros x y. cbn. tauto.
  - assert (Hkeep' : forall fuel k, lim <= fuel -> In k (map fst l) -> k <> 0%N -> keep fuel k = Val (keepb k)).
    { intros; apply Hkeep; auto. right; assumption. }
    specialize (IH Hkeep' ltac:(intros; eapply Hsome; [right|]; eassumption)).
    rewrite selc_cons in Hnd, Hcap |- *. destruct (N.eqb_spec k 0) as [->|Hz].
    + destruct (IH Hnd t Hwf Hcap) as [t' [E R]]. exists t'. split; [|exact R].
      intros fuel H1 H2. cbn [fold_res map_copy_cell]. cbn [N.eqb rbind]. now apply E.
    + destruct (keepb k) eqn:Ek.
      * destruct (Hsome k ov (or_introl eq_refl) Hz) as [v ->].
        cbn [map fst] in Hnd. inversion Hnd as [|? ? Hnin Hnd']; subst. cbn [length] in Hcap.
        destruct (map_insert_raw_spec t k v Hwf Hz) as [t1 [E1 [W1 [X1 [C1 [M1 I1]]]]]]; [right; lia|].
        destruct (IH Hnd' t1 W1) as [t' [E [W' [X' [C' M']]]]].
        { rewrite C1. destruct (elem_dec (keyset t) k); lia. }
        exists t'. split; [|split; [exact W'|split; [|split; congruence]]].
        -- intros fuel H1 H2. cbn [fold_res map_copy_cell]. pose proof Hz as Hz'. apply N.eqb_neq in Hz'. rewrite Hz'.
           rewrite Hkeep by (auto; left; reflexivity). cbn [rbind]. rewrite Ek.
           rewrite Hins by (auto; lia). rewrite E1 by assumption. cbn [rmap rbind fst]. apply E; [assumption|lia].
        -- intros x y. rewrite X', X1. cbn [In map fst]. split.
           ++ intros [H|[[[-> ->]|[Hne Hb]] Hn]]; auto. right. split; [exact Hb|]. intros [Heq|Hin]; [congruence|tauto].
           ++ intros [[Heq|Hin]|[Hb Hn]].
              ** injection Heq as -> ->. right. auto.
              ** auto.
              ** right. split; [|tauto]. right. split; [|exact Hb]. intros ->. tauto.
      * destruct (IH Hnd t Hwf Hcap) as [t' [E R]]. exists t'. split; [|exact R].
        intros fuel H1 H2. cbn [fold_res map_copy_cell]. pose proof Hz as Hz'. apply N.eqb_neq in Hz'. rewrite Hz'.
        rewrite Hkeep by (auto; left; reflexivity). cbn [rbind]. rewrite Ek. cbn [rbind]. now apply E.
Qed.

Lemma cells_some m k ov : map_wf m -> In (k, ov) (cells m) -> k <> 0%N -> exists v, ov = Some v.
Proof.
  intros [_ [HL HV]] Hin Hk. apply In_nth_error in Hin. destruct Hin as [i Hi].
  unfold cells in Hi.
  assert (G : forall (l1 : list N) (l2 : list (option N)) i a b, nth_error (combine l1 l2) i = Some (a, b) -> nth_error l1 i = Some a /\ nth_error l2 i = Some b).
  { induction l1 as [|x l1 IH]; intros [|y l2] [|n] a b H; cbn in *; try discriminate; [injection H as -> ->; auto|now apply IH]. }
  apply G in Hi. destruct Hi as [H1 H2]. destruct (HV i k H1 Hk) as [v Hv]. exists v. congruence.
Qed.

Lemma nth_error_combine {A B} (l1 : list A) (l2 : list B) i a b :
  nth_error (combine l1 l2) i = Some (a, b) <-> nth_error l1 i = Some a /\ nth_error l2 i = Some b.
Proof.
  revert l2 i. induction l1 as [|x l1 IH]; intros [|y l2] [|n]; cbn; split; try (intros H; discriminate); try (intros [H1 H2]; discriminate).
  - intros H; injection H as -> ->; auto.
  - intros [H1 H2]. congruence.
  - apply IH.
  - apply IH.
Qed.

Lemma In_selc_cells m keep x y :
  In (x, Some y) (selc keep (cells m)) <-> bind m x y /\ keep x = true.
Proof.
  unfold selc. rewrite filter_In. cbn [fst]. rewrite andb_true_iff, nz_spec. unfold bind, cells. split.
  - intros [Hin [Hz Hk]]. split; [|exact Hk]. split; [exact Hz|]. apply In_nth_error in Hin. destruct Hin as [i Hi].
    exists i. now apply nth_error_combine.
  - intros [[Hz [i Hi]] Hk]. split; [|auto]. eapply nth_error_In. apply nth_error_combine. exact Hi.
Qed.

Lemma In_fst_selc m keep x : map_wf m ->
  (In x (map fst (selc keep (cells m))) <-> elem (keyset m) x /\ keep x = true).
Proof. intros [_ [HL _]]. unfold cells. rewrite selc_combine by exact HL. rewrite In_sel. reflexivity. Qed.

Lemma NoDup_selc m keep : map_wf m -> NoDup (map fst (selc keep (cells m))).
Proof.
  intros [Hwf [HL _]]. unfold cells. rewrite selc_combine by exact HL. apply NoDup_filter.
  exact (wf_NoDup w (keyset m) Hwf).
Qed.

Lemma selc_length m keep : map_wf m -> length (selc keep (cells m)) <= m_items m.
Proof.
  intros [Hwf [HL _]]. rewrite <- (map_length fst). unfold cells. rewrite selc_combine by exact HL.
  destruct Hwf as [_ [_ [_ E]]]. cbn [keyset s_items s_arr] in E. rewrite E. apply (sel_length w Hw).
Qed.

Lemma map_items_le m : map_wf m -> m_items m <= mcap m.
Proof. intros [H _]. exact (wf_items_le w (keyset m) H). Qed.

Lemma map_cap_pos m : map_wf m -> mcap m <> 0.
Proof. intros [H _]. exact (wf_cap_pos w Hw (keyset m) H). Qed.

Lemma map_rehash_spec m newSize n :
  map_wf m -> nextPow2 64 newSize = N.of_nat n -> pow2cap w n -> m_items m <= n ->
  exists m', (forall fuel, n <= fuel -> map_rehash w fuel m newSize = Val m') /\
    map_wf m' /\ (forall x y, bind m' x y <-> bind m x y) /\ mcap m' = n /\ m_mult m' = m_mult m.
Proof.
  intros Hwf En Hn Hit.
  destruct (fold_cells_spec (fun _ => true) (fun fuel => map_insert_raw w fuel) (fun _ _ => Val true) 0 (cells m))
    with (t := map_alloc (N.of_nat n) (m_mult m)) as [t' [E [W' [X' [C' M']]]]].
  - reflexivity.
  - reflexivity.
  - intros. eapply cells_some; eassumption.
  - now apply NoDup_selc.
  - now apply map_alloc_wf.
  - rewrite map_alloc_cap. pose proof (selc_length m (fun _ => true) Hwf). cbn [map_alloc m_items]. lia.
  - exists t'. rewrite map_alloc_cap in *. split; [|split; [exact W'|split; [|split; [exact C'|exact M']]]].
    + intros fuel Hf. unfold map_rehash. rewrite En. apply (E fuel); lia.
    + intros x y. rewrite X', In_selc_cells. pose proof (map_alloc_bind (N.of_nat n) (m_mult m) x y). tauto.
Qed.

Lemma map_insert_notfull fuel m k v : map_wf m -> m_items m < mcap m -> map_insert w fuel m k v = map_insert_raw w fuel m k v.
Proof.
  intros Hwf H. unfold map_insert. fold (mcap m). destruct (Nat.eqb_spec (mcap m) 0); [lia|].
  rewrite Nat.div_small by exact H. reflexivity.
Qed.

(** A map insertion: into a full table it doubles first. *)
Lemma map_insert_spec m k v :
  map_wf m -> k <> 0%N -> (m_items m = mcap m -> can_double w (keyset m)) ->
  exists m', (exists n, forall fuel, n <= fuel -> map_insert w fuel m k v = Val (m', if elem_dec (keyset m) k then false else true)) /\
    map_wf m' /\ (forall x y, bind m' x y <-> (x = k /\ y = v) \/ (x <> k /\ bind m x y)) /\
    mcap m' = (if Nat.eqb (m_items m) (mcap m) then 2 * mcap m else mcap m) /\ m_mult m' = m_mult m /\
    m_items m' = m_items m + (if elem_dec (keyset m) k then 0 else 1).
Proof.
  intros Hwf Hz Hpre. pose proof (map_cap_pos m Hwf) as Hc0. pose proof (map_items_le m Hwf) as Hle.
  destruct (Nat.eqb_spec (m_items m) (mcap m)) as [Hfull|Hnf].
  - destruct (Hpre Hfull) as [D1 D2]. change (cap (keyset m)) with (mcap m) in D1, D2.
    assert (P2 : pow2cap w (2 * mcap m)) by (apply (double_pow2cap w Hw); [apply Hwf|exact D1]).
    destruct (map_rehash_spec m (wrap 64 (2 * N.of_nat (mcap m))) (2 * mcap m) Hwf) as [m1 [E1 [W1 [X1 [C1 M1]]]]]; auto; try lia.
    { replace (2 * N.of_nat (mcap m))%N with (N.of_nat (2 * mcap m)) by lia. rewrite wrap_id.
      - now apply (nextPow2_cap w Hw).
      - eapply N.le_lt_trans; [exact D2|]. reflexivity. }
    assert (Ee : forall x, elem (keyset m1) x <-> elem (keyset m) x).
    { intros x. rewrite !elem_bind by assumption. split; intros [y Hy]; exists y; now apply X1. }
    assert (I1 : m_items m1 = m_items m).
    { apply (items_same w (keyset m1) (keyset m)); [apply W1|apply Hwf|exact Ee]. }
    destruct (map_insert_raw_spec m1 k v W1 Hz) as [m2 [E2 [W2 [X2 [C2 [M2 I2]]]]]]; [right; lia|].
    exists m2. split; [|split; [exact W2|split; [|split; [lia|split; [congruence|]]]]].
    + exists (2 * mcap m). intros fuel Hf. unfold map_insert. fold (mcap m).
      destruct (Nat.eqb_spec (mcap m) 0); [lia|]. rewrite Hfull, Nat.div_same by assumption. cbn [Nat.leb].
      rewrite E1 by exact Hf. cbn [rbind]. rewrite E2 by lia.
      destruct (elem_dec (keyset m1) k) as [H|H], (elem_dec (keyset m) k) as [H'|H']; try reflexivity; exfalso; [apply H', Ee, H|apply H, Ee, H'].
    + intros x y. rewrite X2, X1. tauto.
    + rewrite I2, I1. destruct (elem_dec (keyset m1) k) as [H|H], (elem_dec (keyset m) k) as [H'|H']; try reflexivity; exfalso; [apply H', Ee, H|apply H, Ee, H'].
  - destruct (map_insert_raw_spec m k v Hwf Hz) as [m2 [E2 H2]]; [right; lia|].
    exists m2. split; [|exact H2]. exists (mcap m). intros fuel Hf. rewrite map_insert_notfull by (auto; lia). now apply E2.
Qed.

(** *** get *)
Lemma map_get_in m k v : map_wf m -> bind m k v -> forall fuel, mcap m <= fuel -> map_get w fuel m k = Val v.
Proof.
  intros Hwf Hb fuel Hf. pose proof Hwf as [[Hp [Hc [Hu Hi]]] [HL HV]]. cbn [keyset s_arr s_items s_mult] in *.
  pose proof Hb as [Hz [i [H1 H2]]].
  destruct (probe_spec w Hw (m_mult m) (m_keys m) k Hp Hc Hz (or_introl (nth_error_In _ _ H1))) as [j [_ [_ [P _]]]].
  destruct (P (nth_error_In _ _ H1)) as [P0 P']. unfold map_get. rewrite P' by exact Hf. cbn [rbind].
  assert (E : slot (length (m_keys m)) (home w (m_mult m) (length (m_keys m)) k) j = i) by (apply (Hu _ i k); assumption).
  rewrite E, H2. reflexivity.
Qed.

Lemma map_get_out m k : map_wf m -> k <> 0%N -> ~ elem (keyset m) k -> m_items m < mcap m ->
  forall fuel, mcap m <= fuel -> map_get w fuel m k = Val 0%N.
Proof.
  intros Hwf Hz He Hfree fuel Hf. pose proof Hwf as [Hs _].
  pose proof (contains_out w Hw (keyset m) k fuel Hs Hz He Hfree Hf) as H.
  unfold set_contains in H. unfold map_get. cbn [keyset s_arr s_mult] in H.
  destruct (probe w fuel (m_keys m) k (hash w (m_mult m) k)) as [[i b]| |]; cbn in H; try discriminate.
  injection H as ->. reflexivity.
Qed.

Lemma map_get_full_diverges m k : map_wf m -> k <> 0%N -> ~ elem (keyset m) k -> m_items m = mcap m ->
  diverges (fun f => map_get w f m k).
Proof.
  intros Hwf Hz He Hfull f. pose proof Hwf as [Hs _].
  pose proof (contains_full_diverges w Hw (keyset m) k Hs Hz He Hfull f) as H.
  unfold set_contains in H. unfold map_get. cbn [keyset s_arr s_mult] in H.
  destruct (probe w f (m_keys m) k (hash w (m_mult m) k)) as [[i b]| |]; cbn in H; try discriminate. reflexivity.
Qed.

(** *** merge *)
Lemma map_merge_spec m o :
  map_wf m -> map_wf o -> small w (4 * (mcap m + mcap o)) ->
  exists m', returns (fun f => map_merge w f m o) m' /\ map_wf m' /\
    (forall x y, bind m' x y <-> bind o x y \/ (bind m x y /\ ~ elem (keyset o) x)) /\ m_items m' < mcap m'.
Proof.
  intros Hm Ho [S1 S2]. pose proof (map_cap_pos m Hm) as Cm. pose proof (map_items_le m Hm) as Im. pose proof (map_items_le o Ho) as Io.
  set (x := wrap 64 (2 * (N.of_nat (mcap m) + N.of_nat (mcap o)))).
  assert (Ex : x = N.of_nat (2 * (mcap m + mcap o))).
  { unfold x. rewrite wrap_id; [lia|]. change (2 ^ 64)%N with (2 * 2 ^ 63)%N. lia. }
  destruct (np2_cap w Hw x) as [n [En [Pn Hn]]]; try (rewrite Ex; lia).
  destruct (map_rehash_spec m x n Hm En Pn) as [m1 [E1 [W1 [X1 [C1 M1]]]]]; [lia|].
  assert (I1 : m_items m1 = m_items m).
  { apply (items_same w (keyset m1) (keyset m)); [apply W1|apply Hm|].
    intros z. rewrite !elem_bind by assumption. split; intros [y Hy]; exists y; now apply X1. }
  pose proof (selc_length o (fun _ => true) Ho) as So.
  destruct (fold_cells_spec (fun _ => true) (fun fuel => map_insert w fuel) (fun _ _ => Val true) 0 (cells o))
    with (t := m1) as [m2 [E2 [W2 [X2 [C2 M2]]]]].
  - reflexivity.
  - intros. now apply map_insert_notfull.
  - intros. eapply (cells_some o); eassumption.
  - now apply NoDup_selc.
  - exact W1.
  - lia.
  - assert (HX : forall a b, bind m2 a b <-> bind o a b \/ (bind m a b /\ ~ elem (keyset o) a)).
    { intros a b. rewrite X2, In_selc_cells, In_fst_selc by assumption. rewrite X1. tauto. }
    exists m2. split; [|split; [exact W2|split; [exact HX|]]].
    + exists n. intros f Hf. unfold map_merge. fold (mcap m) (mcap o). fold x. rewrite E1 by lia. cbn [rbind].
      apply E2; lia.
    + (* the items of the result are among those of the two maps *)
      assert (incl (keys_of (m_keys m2)) (keys_of (m_keys m) ++ keys_of (m_keys o))).
      { intros z Hz. change (In z (keys_of (m_keys m2))) with (elem (keyset m2) z) in Hz.
        apply elem_bind in Hz; [|exact W2]. destruct Hz as [y Hy]. apply HX in Hy. apply in_or_app.
        destruct Hy as [Hy|[Hy _]]; [right|left].
        - change (elem (keyset o) z). apply elem_bind; eauto.
        - change (elem (keyset m) z). apply elem_bind; eauto. }
      assert (Hl : length (keys_of (m_keys m2)) <= length (keys_of (m_keys m) ++ keys_of (m_keys o))).
      { apply NoDup_incl_length; [|assumption]. apply (wf_NoDup w (keyset m2)). apply W2. }
      rewrite app_length in Hl.
      destruct Hm as [[_ [_ [_ Em]]] _], Ho as [[_ [_ [_ Eo]]] _], W2 as [[_ [_ [_ E2']]] _].
      cbn [keyset s_arr s_items] in *. lia.
Qed.

Lemma map_merge_filter_spec m o flt :
  map_wf m -> map_wf o -> set_wf w flt -> s_items flt < cap flt -> small w (4 * (mcap m + mcap o)) ->
  exists m', returns (fun f => map_merge_filter w f m o flt) m' /\ map_wf m' /\
    (forall x y, bind m' x y <-> ~ elem flt x /\ (bind o x y \/ (bind m x y /\ ~ elem (keyset o) x))) /\ m_items m' < mcap m'.
Proof.
  intros Hm Ho Hf Hffree [S1 S2]. pose proof (map_cap_pos m Hm) as Cm. pose proof (map_items_le m Hm) as Im. pose proof (map_items_le o Ho) as Io.
  set (x := wrap 64 (2 * (N.of_nat (mcap m) + N.of_nat (mcap o)))).
  assert (Ex : x = N.of_nat (2 * (mcap m + mcap o))).
  { unfold x. rewrite wrap_id; [lia|]. change (2 ^ 64)%N with (2 * 2 ^ 63)%N. lia. }
  destruct (np2_cap w Hw x) as [n [En [Pn Hn]]]; try (rewrite Ex; lia).
  set (keepb := fun k => negb (if elem_dec flt k then true else false)).
  assert (Hkeep : forall fuel k, cap flt <= fuel -> k <> 0%N -> rmap negb (set_contains w fuel flt k) = Val (keepb k)).
  { intros fuel k H1 H2. rewrite (contains_dec w Hw) by assumption. reflexivity. }
  assert (Hkb : forall k, keepb k = true <-> ~ elem flt k).
  { intros k. unfold keepb. destruct (elem_dec flt k); cbn; intuition congruence. }
  pose proof (selc_length m keepb Hm) as Sm.
  destruct (fold_cells_spec keepb (fun fuel => map_insert_raw w fuel) (fun fuel k => rmap negb (set_contains w fuel flt k)) (cap flt) (cells m))
    with (t := map_alloc (N.of_nat n) (m_mult m)) as [m1 [E1 [W1 [X1 [C1 M1]]]]].
  - intros. now apply Hkeep.
  - reflexivity.
  - intros. eapply (cells_some m); eassumption.
  - now apply NoDup_selc.
  - now apply map_alloc_wf.
  - rewrite map_alloc_cap. cbn [map_alloc m_items]. lia.
  - rewrite map_alloc_cap in *.
    assert (X1' : forall a b, bind m1 a b <-> bind m a b /\ ~ elem flt a).
    { intros a b. rewrite X1, In_selc_cells, Hkb. pose proof (map_alloc_bind (N.of_nat n) (m_mult m) a b). tauto. }
    assert (I1 : m_items m1 <= m_items m).
    { assert (incl (keys_of (m_keys m1)) (keys_of (m_keys m))).
      { intros z Hz. change (In z (keys_of (m_keys m1))) with (elem (keyset m1) z) in Hz.
        apply elem_bind in Hz; [|exact W1]. destruct Hz as [y Hy]. apply X1' in Hy.
        change (elem (keyset m) z). apply elem_bind; [exact Hm|]. exists y. apply Hy. }
      pose proof (NoDup_incl_length (wf_NoDup w (keyset m1) (proj1 W1)) H) as Hl.
      destruct Hm as [[_ [_ [_ Em]]] _], W1 as [[_ [_ [_ E1']]] _]. cbn [keyset s_arr s_items] in *. lia. }
    pose proof (selc_length o keepb Ho) as So.
    destruct (fold_cells_spec keepb (fun fuel => map_insert w fuel) (fun fuel k => rmap negb (set_contains w fuel flt k)) (cap flt) (cells o))
      with (t := m1) as [m2 [E2 [W2 [X2 [C2 M2]]]]].
    + intros. now apply Hkeep.
    + intros. now apply map_insert_notfull.
    + intros. eapply (cells_some o); eassumption.
    + now apply NoDup_selc.
    + exact W1.
    + lia.
    + assert (HX : forall x y, bind m2 x y <-> ~ elem flt x /\ (bind o x y \/ (bind m x y /\ ~ elem (keyset o) x))).
      { intros a b. rewrite X2, In_selc_cells, In_fst_selc, Hkb, X1' by assumption. tauto. }
      exists m2. split; [|split; [exact W2|split; [exact HX|]]].
      * exists (n + cap flt). intros f Hfu. unfold map_merge_filter. fold (mcap m) (mcap o). fold x.
        unfold map_rehash_filter. rewrite En. fold (cells m) (cells o). rewrite E1 by lia. cbn [rbind]. apply E2; lia.
      * assert (H : incl (keys_of (m_keys m2)) (keys_of (m_keys m) ++ keys_of (m_keys o))).
        { intros z Hz. change (In z (keys_of (m_keys m2))) with (elem (keyset m2) z) in Hz.
          apply elem_bind in Hz; [|exact W2]. destruct Hz as [y Hy]. apply HX in Hy. apply in_or_app.
          destruct Hy as [_ [Hy|[Hy _]]]; [right|left].
          - change (elem (keyset o) z). apply elem_bind; eauto.
          - change (elem (keyset m) z). apply elem_bind; eauto. }
        pose proof (NoDup_incl_length (wf_NoDup w (keyset m2) (proj1 W2)) H) as Hl.
        rewrite app_length in Hl.
        destruct Hm as [[_ [_ [_ Em]]] _], Ho as [[_ [_ [_ Eo]]] _], W2 as [[_ [_ [_ E2']]] _].
        cbn [keyset s_arr s_items] in *. lia.
Qed.

Lemma map_load_save m : map_load (map_save m) = m \/ length (m_vals m) <> length (m_keys m).
Proof.
  destruct (Nat.eq_dec (length (m_vals m)) (length (m_keys m))) as [E|E]; [left|right; exact E].
  unfold map_load, map_save. cbn [ma_size ma_items ma_keys ma_vals ma_mult].
  rewrite !firstn_app, firstn_all, Nat.sub_diag. rewrite <- E at 2 3. rewrite firstn_all, Nat.sub_diag.
  cbn [firstn]. rewrite !app_nil_r. destruct m; reflexivity.
Qed.
End W.
