(** Proofs about the sequential linear-probing multimap. *)
From Coq Require Import Permutation.
From Verif Require Import Outcome ListUtil WordsModel WordsProofs RangeModel RangeProofs LPSetModel ProbeTheory LPSetProofs LPSetHistory LPSetIter LPSetSpec LPMapModel LPMapProofs LPMultiMapModel.
Local Open Scope nat_scope.

(** Specification: the pairs stored in a table, as a multiset. *)
Definition ent (c : N * option N) : list (N * N) :=
  match c with (k, Some v) => if N.eqb k 0 then [] else [(k, v)] | (_, None) => [] end.
Definition entries (m : lpmap) : list (N * N) := flat_map ent (cells m).
Definition under (k : N) (W : list (N * N)) : list (N * N) := filter (fun p => N.eqb (fst p) k) W.

(** ** List lemmas *)
Lemma flat_map_upd {A B} (f : A -> list B) l p x y :
  nth_error l p = Some x -> f x = [] -> Permutation (flat_map f (upd l p y)) (f y ++ flat_map f l).
Proof.
  revert p. induction l as [|a l IH]; intros [|p] H Hf; cbn in *; try discriminate.
  - injection H as ->. now rewrite Hf.
  - rewrite (IH p H Hf). rewrite !app_assoc. apply Permutation_app_tail, Permutation_app_comm.
Qed.

Lemma combine_upd {A B} (l1 : list A) (l2 : list B) p x y :
  combine (upd l1 p x) (upd l2 p y) = upd (combine l1 l2) p (x, y).
Proof.
  revert l2 p. induction l1 as [|a l1 IH]; intros [|b l2] [|p]; cbn; try reflexivity.
  now rewrite IH.
Qed.

Lemma flat_map_index {A B} (f : A -> list B) l :
  flat_map f l = flat_map (fun i => match nth_error l i with Some x => f x | None => [] end) (seq 0 (length l)).
Proof.
  assert (G : forall pre l, flat_map f l = flat_map (fun i => match nth_error (pre ++ l) i with Some x => f x | None => [] end) (seq (length pre) (length l))).
  { intros pre l0. revert pre. induction l0 as [|x l0 IH]; intros pre; [reflexivity|]. cbn [flat_map length seq].
    rewrite nth_error_app2, Nat.sub_diag by lia. cbn [nth_error]. f_equal.
    specialize (IH (pre ++ [x])). rewrite <- app_assoc, app_length in IH. cbn [app length] in IH. now rewrite Nat.add_1_r in IH. }
  apply (G [] l).
Qed.

Lemma filter_flat_map {A B} (p : B -> bool) (f : A -> list B) l :
  filter p (flat_map f l) = flat_map (fun x => filter p (f x)) l.
Proof. induction l as [|x l IH]; [reflexivity|]. cbn [flat_map]. now rewrite filter_app, IH. Qed.

Lemma flat_map_perm {A B} (f : A -> list B) l l' : Permutation l l' -> Permutation (flat_map f l) (flat_map f l').
Proof.
  induction 1; cbn [flat_map]; auto.
  - now apply Permutation_app_head.
  - rewrite !app_assoc. apply Permutation_app_tail, Permutation_app_comm.
  - etransitivity; eassumption.
Qed.

Lemma flat_map_map {A B C} (g : A -> B) (f : B -> list C) l : flat_map f (map g l) = flat_map (fun x => f (g x)) l.
Proof. induction l as [|x l IH]; cbn; [reflexivity|]. now rewrite IH. Qed.

Lemma flat_map_nil {A B} (f : A -> list B) l : (forall x, In x l -> f x = []) -> flat_map f l = [].
Proof. induction l as [|x l IH]; intros H; cbn; [reflexivity|]. rewrite H by now left. apply IH. intros. apply H. now right. Qed.

Lemma NoDup_app_l {A} (l1 l2 : list A) : NoDup (l1 ++ l2) -> NoDup l1.
Proof.
  induction l1 as [|x l1 IH]; intros H; [constructor|]. cbn in H. inversion H; subst. constructor; [|auto].
  intros Hin. apply H2. apply in_or_app. auto.
Qed.

Lemma keys_no_free l : In 0%N l -> length (keys_of l) < length l.
Proof.
  induction l as [|x l IH]; intros H; [destruct H|]. unfold keys_of in *. cbn [filter length]. pose proof (keys_of_length l) as Hl. unfold keys_of in Hl.
  destruct H as [->|H]; [cbn; lia|]. specialize (IH H). destruct (nz x); cbn [length]; lia.
Qed.

Lemma slots_perm n h : n <> 0 -> h < n -> Permutation (map (slot n h) (seq 0 n)) (seq 0 n).
Proof.
  intros Hn Hh. apply NoDup_Permutation_bis.
  - assert (G : forall l, NoDup l -> (forall j, In j l -> j < n) -> NoDup (map (slot n h) l)).
    { induction l as [|j l IH]; intros Hnd Hl; cbn [map]; constructor; inversion Hnd; subst.
      - intros Hin. apply in_map_iff in Hin. destruct Hin as [i [E Hi]].
        assert (i = j). { apply (slot_inj n h); auto; apply Hl; [right; exact Hi|left; reflexivity]. } subst. contradiction.
      - apply IH; auto. intros. apply Hl. now right. }
    apply G; [apply seq_NoDup|]. intros j Hj. apply in_seq in Hj. lia.
  - rewrite map_length. lia.
  - intros x Hx. apply in_map_iff in Hx. destruct Hx as [j [<- _]]. apply in_seq. pose proof (slot_lt n h j Hn). lia.
Qed.

Section W.
Variable w : N.
Hypothesis Hw : (w <= 64)%N.

Definition mm_wf (m : lpmap) : Prop :=
  pow2cap w (mcap m) /\ chained (home w (m_mult m) (mcap m)) (m_keys m) /\
  m_items m = length (keys_of (m_keys m)) /\ length (m_vals m) = length (m_keys m) /\
  (forall i k, nth_error (m_keys m) i = Some k -> k <> 0%N -> exists v, nth_error (m_vals m) i = Some (Some v)).

Lemma mm_cap_pos m : mm_wf m -> mcap m <> 0.
Proof. intros [H _]. exact (pow2cap_pos w Hw _ H). Qed.

Lemma mm_items_le m : mm_wf m -> m_items m <= mcap m.
Proof. intros [_ [_ [-> _]]]. apply keys_of_length. Qed.

Lemma mm_alloc_wf n a : pow2cap w n -> mm_wf (map_alloc (N.of_nat n) a).
Proof.
  intros H. unfold mm_wf. rewrite map_alloc_cap. unfold map_alloc, alloc. cbn [m_keys m_vals m_items m_mult]. rewrite Nat2N.id.
  split; [exact H|]. split; [apply chained_repeat0|]. split; [now rewrite keys_of_repeat0|].
  split; [now rewrite !repeat_length|]. intros i k Hi Hk. apply nth_error_repeat_inv in Hi. congruence.
Qed.

Lemma mm_alloc_entries n a : entries (map_alloc n a) = [].
Proof.
  unfold entries, cells, map_alloc, alloc. cbn [m_keys m_vals]. apply flat_map_nil. intros [k ov] H.
  apply in_combine_l in H. apply repeat_spec in H. subst. destruct ov; reflexivity.
Qed.

(** *** finding a free cell *)
Lemma free_first arr h : arr <> [] -> h < length arr -> In 0%N arr ->
  exists j, j < length arr /\ nth_error arr (slot (length arr) h j) = Some 0%N /\
    forall i, i < j -> exists c, nth_error arr (slot (length arr) h i) = Some c /\ c <> 0%N.
Proof.
  intros Hne Hh Hin. assert (Hn : length arr <> 0) by (destruct arr; [congruence|discriminate]).
  apply In_nth_error in Hin. destruct Hin as [p Hp].
  destruct (free_hit arr 0%N h p Hh Hp) as [j0 Hj0].
  destruct (first_hit_ex arr 0%N h j0 Hn Hj0) as [j [[[c [Hc Hor]] Hmin] [_ Hj]]].
  exists j. split; [exact Hj|]. split; [destruct Hor; subst; exact Hc|].
  intros i Hi. destruct (nth_error_ex arr (slot (length arr) h i)) as [c' Hc']; [now apply slot_lt|].
  exists c'. split; [exact Hc'|]. intros ->. apply (Hmin i Hi). exists 0%N. auto.
Qed.

Lemma probe_free_from arr h : pow2cap w (length arr) ->
  forall d j z idx, z = j + d -> nth_error arr (slot (length arr) h z) = Some 0%N ->
  (forall i, i < z -> exists c, nth_error arr (slot (length arr) h i) = Some c /\ c <> 0%N) ->
  mask w (length arr) idx = N.of_nat (slot (length arr) h j) ->
  forall fuel, d < fuel -> probe_free w fuel arr idx = Val (slot (length arr) h z).
Proof.
  intros Hn. induction d as [|d IH]; intros j z idx Hd Hz Hocc Hm fuel Hf; (destruct fuel as [|fuel]; [lia|]); cbn [probe_free].
  - replace z with j in * by lia. rewrite Hm, Nat2N.id, Hz. reflexivity.
  - rewrite Hm, Nat2N.id. destruct (Hocc j ltac:(lia)) as [c [Hc Hcz]]. rewrite Hc. apply N.eqb_neq in Hcz. rewrite Hcz. cbn [negb].
    apply (IH (S j) z); auto; [lia| |lia]. now apply (mask_step w Hw).
Qed.

Lemma probe_free_full_diverges arr h : pow2cap w (length arr) -> ~ In 0%N arr ->
  forall fuel j idx, mask w (length arr) idx = N.of_nat (slot (length arr) h j) -> probe_free w fuel arr idx = NoFuel.
Proof.
  intros Hn H0. induction fuel as [|fuel IH]; intros j idx Hm; [reflexivity|]. cbn [probe_free]. rewrite Hm, Nat2N.id.
  destruct (nth_error_ex arr (slot (length arr) h j)) as [c Hc]; [apply slot_lt; now apply (pow2cap_pos w Hw)|].
  rewrite Hc. destruct (N.eqb_spec c 0) as [->|Hne]; [exfalso; apply H0; eapply nth_error_In; eassumption|]. cbn [negb].
  apply (IH (S j)). now apply (mask_step w Hw).
Qed.

Lemma mm_free_In m : mm_wf m -> m_items m < mcap m -> In 0%N (m_keys m).
Proof.
  intros [_ [_ [E _]]] H. destruct (in_dec N.eq_dec 0%N (m_keys m)) as [|Hn]; [assumption|exfalso].
  assert (Hf : length (keys_of (m_keys m)) = length (m_keys m)).
  { apply keys_of_full. intros k Hk ->. contradiction. }
  unfold mcap in H. lia.
Qed.

Lemma mm_insert_raw_spec m k v :
  mm_wf m -> k <> 0%N -> m_items m < mcap m ->
  exists m', (forall fuel, mcap m <= fuel -> mm_insert_raw w fuel m k v = Val m') /\
    mm_wf m' /\ Permutation (entries m') ((k, v) :: entries m) /\ mcap m' = mcap m /\ m_mult m' = m_mult m /\
    m_items m' = S (m_items m).
Proof.
  intros Hwf Hk Hfree. pose proof Hwf as [Hp [Hc [Hi [HL HV]]]].
  pose proof (mm_cap_pos m Hwf) as Hn0. pose proof (home_lt w Hw (m_mult m) (mcap m) k Hn0) as Hh.
  destruct (free_first (m_keys m) (home w (m_mult m) (mcap m) k)) as [j [Hj [Hz Hocc]]]; auto.
  { intros E. apply Hn0. unfold mcap. now rewrite E. }
  { now apply mm_free_In. }
  fold (mcap m) in *. set (p := slot (mcap m) (home w (m_mult m) (mcap m) k) j) in *.
  assert (Hpl : p < length (m_keys m)) by (apply slot_lt; exact Hn0).
  assert (Hpv : p < length (m_vals m)) by (rewrite HL; exact Hpl).
  exists (mkmap (upd (m_keys m) p k) (upd (m_vals m) p (Some v)) (S (m_items m)) (m_mult m)).
  split; [|split; [|split; [|split; [|split; reflexivity]]]].
  - intros fuel Hf. unfold mm_insert_raw.
    rewrite (probe_free_from (m_keys m) (home w (m_mult m) (mcap m) k) Hp j 0 j); auto.
    + now apply (mask_home w Hw).
    + lia.
  - unfold mm_wf, mcap. cbn [m_keys m_vals m_items m_mult]. rewrite !upd_length. split; [exact Hp|]. split.
    + (* the new key sits at the first free cell of its chain *)
      intros q x Hq Hx. rewrite upd_length. rewrite nth_error_upd in Hq.
      assert (Hstay : forall y c, nth_error (m_keys m) y = Some c -> c <> 0%N -> exists c', nth_error (upd (m_keys m) p k) y = Some c' /\ c' <> 0%N).
      { intros y c Hy Hcz. rewrite nth_error_upd. destruct (Nat.eqb_spec p y) as [E|]; [|eauto].
        exists k. destruct (Nat.ltb_spec p (length (m_keys m))); [auto|lia]. }
      destruct (Nat.eqb_spec p q) as [E|Hne].
      * destruct (Nat.ltb_spec p (length (m_keys m))); [|lia]. injection Hq as <-. exists j. split; [exact Hj|].
        split; [symmetry; exact E|]. intros i Hi'. destruct (Hocc i Hi') as [c [H1 H2]]. eapply Hstay; eassumption.
      * destruct (Hc q x Hq Hx) as [j0 [H1 [H2 H3]]]. exists j0. split; [exact H1|]. split; [exact H2|].
        intros i Hi'. destruct (H3 i Hi') as [c [H4 H5]]. eapply Hstay; eassumption.
    + split.
      * rewrite (Permutation_length (keys_of_upd _ _ _ Hz Hk)). cbn [length]. lia.
      * split; [exact HL|]. intros i x Hix Hx. rewrite nth_error_upd in Hix. rewrite nth_error_upd.
        destruct (Nat.eqb_spec p i) as [E|].
        -- destruct (Nat.ltb_spec p (length (m_vals m))); [eauto|lia].
        -- eapply HV; eassumption.
  - unfold entries, cells. cbn [m_keys m_vals]. rewrite combine_upd.
    destruct (nth_error_ex (m_vals m) p Hpv) as [ov Hov].
    rewrite (flat_map_upd ent _ p (0%N, ov)).
    + cbn [ent]. pose proof Hk as Hk'. apply N.eqb_neq in Hk'. rewrite Hk'. reflexivity.
    + apply nth_error_combine. auto.
    + destruct ov; reflexivity.
  - unfold mcap. cbn [m_keys]. apply upd_length.
Qed.


(** *** the copying loops *)
Lemma mm_fold_spec (keepb : N -> bool) (ins : nat -> lpmap -> N -> N -> res lpmap)
      (keep : nat -> N -> res bool) (lim : nat) l :
  (forall fuel k, lim <= fuel -> In k (map fst l) -> k <> 0%N -> keep fuel k = Val (keepb k)) ->
  (forall fuel t k v, mm_wf t -> m_items t < mcap t -> ins fuel t k v = mm_insert_raw w fuel t k v) ->
  (forall k ov, In (k, ov) l -> k <> 0%N -> exists v, ov = Some v) ->
  forall t, mm_wf t -> m_items t + length (filter (fun p => keepb (fst p)) (flat_map ent l)) <= mcap t ->
  exists t', (forall fuel, lim <= fuel -> mcap t <= fuel -> fold_res (mm_copy_cell (ins fuel) (keep fuel)) l t = Val t') /\
    mm_wf t' /\ Permutation (entries t') (filter (fun p => keepb (fst p)) (flat_map ent l) ++ entries t) /\
    mcap t' = mcap t /\ m_mult t' = m_mult t.
Proof.
  intros Hkeep Hins. induction l as [|[k ov] l IH]; intros Hsome t Hwf Hcap.
  - exists t. cbn [fold_res flat_map filter app]. split; [reflexivity|]. split; [exact Hwf|]. split; [reflexivity|]. auto.
  - specialize (IH (fun fuel k H1 H2 H3 => Hkeep fuel k H1 (or_intror H2) H3) ltac:(intros; eapply Hsome; [right|]; eassumption)).
    cbn [flat_map] in Hcap |- *. destruct (N.eqb_spec k 0) as [->|Hz].
    + replace (ent (0%N, ov)) with (@nil (N * N)) in * by (destruct ov; reflexivity). cbn [app] in *.
      destruct (IH t Hwf Hcap) as [t' [E R]]. exists t'. split; [|exact R].
      intros fuel H1 H2. cbn [fold_res mm_copy_cell N.eqb rbind]. now apply E.
    + destruct (Hsome k ov (or_introl eq_refl) Hz) as [v ->]. pose proof Hz as Hz'. apply N.eqb_neq in Hz'.
      cbn [ent] in Hcap |- *. rewrite Hz' in Hcap |- *. cbn [app filter fst] in Hcap |- *. destruct (keepb k) eqn:Ek.
      * cbn [length] in Hcap. destruct (mm_insert_raw_spec t k v Hwf Hz) as [t1 [E1 [W1 [P1 [C1 [M1 I1]]]]]]; [lia|].
        destruct (IH t1 W1) as [t' [E [W' [P' [C' M']]]]]; [lia|].
        exists t'. split; [|split; [exact W'|split; [|split; congruence]]].
        -- intros fuel H1 H2. cbn [fold_res mm_copy_cell]. rewrite Hz'.
           rewrite Hkeep by (auto; left; reflexivity). cbn [rbind]. rewrite Ek.
           rewrite Hins by (auto; lia). rewrite E1 by assumption. cbn [rbind]. apply E; [assumption|lia].
        -- rewrite P', P1. cbn [app]. symmetry. apply Permutation_middle.
      * destruct (IH t Hwf Hcap) as [t' [E R]]. exists t'. split; [|exact R].
        intros fuel H1 H2. cbn [fold_res mm_copy_cell]. rewrite Hz'.
        rewrite Hkeep by (auto; left; reflexivity). cbn [rbind]. rewrite Ek. cbn [rbind]. now apply E.
Qed.

Lemma mm_cells_some m k ov : mm_wf m -> In (k, ov) (cells m) -> k <> 0%N -> exists v, ov = Some v.
Proof.
  intros [_ [_ [_ [HL HV]]]] Hin Hk. apply In_nth_error in Hin. destruct Hin as [i Hi].
  apply nth_error_combine in Hi. destruct Hi as [H1 H2]. destruct (HV i k H1 Hk) as [v Hv]. exists v. congruence.
Qed.

Lemma entries_keys m : mm_wf m -> map fst (entries m) = keys_of (m_keys m).
Proof.
  intros [_ [_ [_ [HL HV]]]]. unfold entries, cells.
  assert (HS : forall i k, nth_error (m_keys m) i = Some k -> k <> 0%N -> exists v, nth_error (m_vals m) i = Some (Some v)) by exact HV.
  revert HL HS. generalize (m_keys m) (m_vals m). clear HV. clear m.
  intros ks. induction ks as [|k ks IH]; intros [|ov vs] HL HS; cbn [length] in HL; try discriminate; [reflexivity|].
  cbn [combine flat_map]. rewrite map_app, IH; [|lia|intros i x H1 H2; apply (HS (S i) x H1 H2)].
  unfold keys_of. cbn [filter]. unfold nz at 2. destruct (N.eqb_spec k 0) as [->|Hz]; cbn [negb].
  - destruct ov; reflexivity.
  - destruct (HS 0 k eq_refl Hz) as [v Hv]. cbn in Hv. injection Hv as ->. cbn [ent].
    apply N.eqb_neq in Hz. rewrite Hz. reflexivity.
Qed.

Lemma entries_length m : mm_wf m -> length (entries m) = m_items m.
Proof. intros Hwf. rewrite <- (map_length fst), entries_keys by exact Hwf. symmetry. apply Hwf. Qed.

Lemma filter_length_le {A} (f : A -> bool) l : length (filter f l) <= length l.
Proof. induction l as [|x l IH]; cbn; [lia|]. destruct (f x); cbn; lia. Qed.

Lemma filter_true {A} (l : list A) : filter (fun _ => true) l = l.
Proof. induction l as [|x l IH]; cbn; congruence. Qed.

Lemma mm_rehash_spec m newSize n :
  mm_wf m -> nextPow2 64 newSize = N.of_nat n -> pow2cap w n -> m_items m <= n ->
  exists m', (forall fuel, n <= fuel -> mm_rehash w fuel m newSize = Val m') /\
    mm_wf m' /\ Permutation (entries m') (entries m) /\ mcap m' = n /\ m_mult m' = m_mult m.
Proof.
  intros Hwf En Hn Hit.
  destruct (mm_fold_spec (fun _ => true) (fun fuel => mm_insert_raw w fuel) (fun _ _ => Val true) 0 (cells m))
    with (t := map_alloc (N.of_nat n) (m_mult m)) as [t' [E [W' [P' [C' M']]]]].
  - reflexivity.
  - reflexivity.
  - intros. eapply (mm_cells_some m); eassumption.
  - now apply mm_alloc_wf.
  - rewrite map_alloc_cap. rewrite filter_true. fold (entries m). rewrite entries_length by exact Hwf. cbn [map_alloc m_items]. lia.
  - exists t'. rewrite map_alloc_cap in *. split; [|split; [exact W'|split; [|split; [exact C'|exact M']]]].
    + intros fuel Hf. unfold mm_rehash. rewrite En. apply (E fuel); lia.
    + rewrite P', filter_true, mm_alloc_entries, app_nil_r. reflexivity.
Qed.

Lemma mm_insert_notfull fuel m k v : mm_wf m -> m_items m < mcap m -> mm_insert w fuel m k v = mm_insert_raw w fuel m k v.
Proof.
  intros Hwf H. unfold mm_insert. fold (mcap m). destruct (Nat.eqb_spec (mcap m) 0); [lia|].
  rewrite Nat.div_small by exact H. reflexivity.
Qed.

Lemma mm_insert_spec m k v :
  mm_wf m -> k <> 0%N -> small w (2 * m_items m) ->
  exists m', returns (fun f => mm_insert w f m k v) m' /\ mm_wf m' /\ Permutation (entries m') ((k, v) :: entries m) /\
    mcap m' = (if Nat.eqb (m_items m) (mcap m) then 2 * mcap m else mcap m) /\ m_mult m' = m_mult m.
Proof.
  intros Hwf Hz [S1 S2]. pose proof (mm_cap_pos m Hwf) as Hc0. pose proof (mm_items_le m Hwf) as Hle.
  destruct (Nat.eqb_spec (m_items m) (mcap m)) as [Hfull|Hnf].
  - rewrite Hfull in S1, S2.
    assert (P2 : pow2cap w (2 * mcap m)) by (apply (double_pow2cap w Hw); [apply Hwf|exact S1]).
    destruct (mm_rehash_spec m (wrap 64 (2 * N.of_nat (mcap m))) (2 * mcap m) Hwf) as [m1 [E1 [W1 [P1 [C1 M1]]]]]; auto; try lia.
    { replace (2 * N.of_nat (mcap m))%N with (N.of_nat (2 * mcap m)) by lia. rewrite wrap_id.
      - now apply (nextPow2_cap w Hw).
      - eapply N.le_lt_trans; [exact S2|]. reflexivity. }
    assert (I1 : m_items m1 = m_items m).
    { rewrite <- !entries_length by assumption. now apply Permutation_length. }
    destruct (mm_insert_raw_spec m1 k v W1 Hz) as [m2 [E2 [W2 [P2' [C2 [M2 I2]]]]]]; [lia|].
    exists m2. split; [|split; [exact W2|split; [|split; [lia|congruence]]]].
    + exists (2 * mcap m). intros fuel Hf. unfold mm_insert. fold (mcap m).
      destruct (Nat.eqb_spec (mcap m) 0); [lia|]. rewrite Hfull, Nat.div_same by assumption. cbn [Nat.leb].
      rewrite E1 by exact Hf. cbn [rbind]. apply E2. lia.
    + rewrite P2', P1. reflexivity.
  - destruct (mm_insert_raw_spec m k v Hwf Hz) as [m2 [E2 [W2 [P2 [C2 [M2 I2]]]]]]; [lia|].
    exists m2. split; [|repeat (split; [assumption|]); assumption]. exists (mcap m). intros fuel Hf.
    rewrite mm_insert_notfull by (auto; lia). now apply E2.
Qed.

Lemma mm_run_spec : forall W m,
  mm_wf m -> Forall (fun p => fst p <> 0%N) W -> small w (2 * (m_items m + length W)) ->
  exists m', returns (fun f => mm_run w f m W) m' /\ mm_wf m' /\ Permutation (entries m') (W ++ entries m) /\
    m_items m' = m_items m + length W.
Proof.
  induction W as [|[k v] W IH]; intros m Hwf Hok Hsm.
  - exists m. split; [exists 0; reflexivity|]. cbn [app length]. split; [exact Hwf|]. split; [reflexivity|lia].
  - inversion Hok as [|? ? Hk Hok']; subst. cbn [fst] in Hk. cbn [length] in Hsm.
    destruct (mm_insert_spec m k v Hwf Hk) as [m1 [[n1 E1] [W1 [P1 _]]]].
    { apply (small_le w Hw) with (m := 2 * (m_items m + S (length W))); [lia|exact Hsm]. }
    assert (I1 : m_items m1 = S (m_items m)).
    { rewrite <- !entries_length by assumption. now rewrite (Permutation_length P1). }
    destruct (IH m1 W1 Hok') as [m2 [[n2 E2] [W2 [P2 I2]]]].
    { apply (small_le w Hw) with (m := 2 * (m_items m + S (length W))); [lia|exact Hsm]. }
    exists m2. split; [|split; [exact W2|split; [|cbn [length]; lia]]].
    + exists (n1 + n2). intros f Hf. unfold mm_run. cbn [fold_res fst snd]. rewrite E1 by lia. cbn [rbind]. apply E2. lia.
    + rewrite P2, P1. cbn [app]. symmetry. apply Permutation_middle.
Qed.

(** *** get *)
Section G.
Variable m : lpmap.
Variable key : N.
Hypothesis Hwf : mm_wf m.
Hypothesis Hkey : key <> 0%N.
Let n := mcap m.
Let h := home w (m_mult m) (mcap m) key.
Let cell j := nth_error (m_keys m) (slot n h j).

Lemma p64 : pow2cap 64 n.
Proof. destruct Hwf as [[k [E Hk]] _]. exists k. split; [exact E|lia]. Qed.

Lemma n0 : n <> 0. Proof. exact (mm_cap_pos m Hwf). Qed.

Lemma cell_ex j : exists c, cell j = Some c.
Proof. apply nth_error_ex. apply slot_lt, n0. Qed.

Lemma step64 j : mask 64 n (wrap 64 (N.of_nat (slot n h j) + 1)) = N.of_nat (slot n h (S j)).
Proof. apply (mask_step 64 ltac:(lia)), p64. Qed.

Lemma stepw j : mask w n (wrap w (N.of_nat (slot n h j) + 1)) = N.of_nat (slot n h (S j)).
Proof. apply (mask_step w Hw), Hwf. Qed.

Lemma slot_neq i j : i < n -> j < n -> i <> j -> N.eqb (N.of_nat (slot n h i)) (N.of_nat (slot n h j)) = false.
Proof. intros Hi Hj Hne. apply N.eqb_neq. intros E. apply Hne. apply (slot_inj n h); auto. lia. Qed.

(** Matches lie before the first free cell. *)
Lemma match_before z j : z < n -> cell z = Some 0%N -> j < n -> cell j = Some key -> j < z.
Proof.
  intros Hz Ez Hj Ej. destruct Hwf as [_ [Hc _]]. destruct (Hc _ key Ej Hkey) as [j0 [H1 [H2 H3]]].
  change (length (m_keys m)) with n in *. fold h in H2, H3.
  assert (j0 = j) by (apply (slot_inj n h); auto). subst j0.
  destruct (Nat.lt_trichotomy j z) as [H|[->|H]]; [exact H| |].
  - congruence.
  - destruct (H3 z H) as [c [Hc1 Hc2]]. unfold cell in Ez. congruence.
Qed.

Lemma get_found z jm : z < n -> cell z = Some 0%N -> (forall i, i < z -> cell i <> Some 0%N) -> jm < z ->
  forall d j idx, z = j + d -> jm < j -> mask w n idx = N.of_nat (slot n h j) ->
  forall fuel, d < fuel ->
  mm_get_loop w fuel (m_keys m) key (N.of_nat (slot n h jm)) (N.of_nat (slot n h j)) idx =
  Val (N.of_nat (slot n h jm), N.of_nat (slot n h (S z))).
Proof.
  intros Hz Ez Hocc Hjm. induction d as [|d IH]; intros j idx Hd Hj Hm fuel Hf; (destruct fuel as [|fuel]; [lia|]); cbn [mm_get_loop].
  - replace z with j in * by lia. fold (mcap m). fold n. rewrite Hm, Nat2N.id. fold (cell j). rewrite Ez.
    rewrite slot_neq by lia. rewrite !andb_false_r. cbn [N.eqb]. rewrite step64. reflexivity.
  - fold (mcap m). fold n. rewrite Hm, Nat2N.id. fold (cell j). destruct (cell_ex j) as [c Hc]. rewrite Hc.
    rewrite slot_neq by lia. rewrite !andb_false_r.
    destruct (N.eqb_spec c 0) as [->|Hne]; [exfalso; apply (Hocc j); [lia|exact Hc]|].
    rewrite step64. apply IH; [lia|lia|apply stepw|lia].
Qed.

Lemma get_search z jm : z < n -> cell z = Some 0%N -> (forall i, i < z -> cell i <> Some 0%N) ->
  jm < z -> cell jm = Some key -> (forall i, i < jm -> cell i <> Some key) ->
  forall d j idx, jm = j + d -> mask w n idx = N.of_nat (slot n h j) ->
  forall fuel, n <= fuel + j ->
  mm_get_loop w fuel (m_keys m) key (N.of_nat (slot n h j)) (N.of_nat (slot n h j)) idx =
  Val (N.of_nat (slot n h jm), N.of_nat (slot n h (S z))).
Proof.
  intros Hz Ez Hocc Hjm Em Hfirst. induction d as [|d IH]; intros j idx Hd Hm fuel Hf; (destruct fuel as [|fuel]; [lia|]); cbn [mm_get_loop].
  - replace j with jm in * by lia. fold (mcap m). fold n. rewrite Hm, Nat2N.id. fold (cell jm). rewrite Em.
    destruct (N.eqb_spec key 0) as [|_]; [contradiction|]. rewrite !N.eqb_refl. cbn [negb andb].
    rewrite step64. apply (get_found z jm) with (d := z - S jm); auto; try lia. apply stepw.
  - fold (mcap m). fold n. rewrite Hm, Nat2N.id. fold (cell j). destruct (cell_ex j) as [c Hc]. rewrite Hc.
    destruct (N.eqb_spec c 0) as [->|Hne]; [exfalso; apply (Hocc j); [lia|exact Hc]|]. cbn [andb].
    destruct (N.eqb_spec c key) as [->|Hnk]; [exfalso; apply (Hfirst j); [lia|exact Hc]|].
    rewrite N.eqb_refl. cbn [negb andb]. rewrite step64. apply IH; [lia|apply stepw|lia].
Qed.

Lemma get_none z : z < n -> cell z = Some 0%N -> (forall i, i < z -> cell i <> Some 0%N) ->
  (forall i, i < z -> cell i <> Some key) ->
  forall d j idx, z = j + d -> mask w n idx = N.of_nat (slot n h j) ->
  forall fuel, d < fuel ->
  mm_get_loop w fuel (m_keys m) key (N.of_nat (slot n h j)) (N.of_nat (slot n h j)) idx = Val (N.of_nat n, N.of_nat n).
Proof.
  intros Hz Ez Hocc Hfirst. induction d as [|d IH]; intros j idx Hd Hm fuel Hf; (destruct fuel as [|fuel]; [lia|]); cbn [mm_get_loop].
  - replace j with z in * by lia. fold (mcap m). fold n. rewrite Hm, Nat2N.id. fold (cell z). rewrite Ez.
    rewrite !N.eqb_refl. reflexivity.
  - fold (mcap m). fold n. rewrite Hm, Nat2N.id. fold (cell j). destruct (cell_ex j) as [c Hc]. rewrite Hc.
    destruct (N.eqb_spec c 0) as [->|Hne]; [exfalso; apply (Hocc j); [lia|exact Hc]|]. cbn [andb].
    destruct (N.eqb_spec c key) as [->|Hnk]; [exfalso; apply (Hfirst j); [lia|exact Hc]|].
    rewrite N.eqb_refl. cbn [negb andb]. rewrite step64. apply IH; [lia|apply stepw|lia].
Qed.

(** Without a free cell get never returns. *)
Lemma get_full : ~ In 0%N (m_keys m) ->
  forall fuel first last j idx, mask w n idx = N.of_nat (slot n h j) ->
  mm_get_loop w fuel (m_keys m) key first last idx = NoFuel.
Proof.
  intros H0. induction fuel as [|fuel IH]; intros first last j idx Hm; [reflexivity|]. cbn [mm_get_loop].
  fold (mcap m). fold n. rewrite Hm, Nat2N.id. fold (cell j). destruct (cell_ex j) as [c Hc]. rewrite Hc.
  destruct (N.eqb_spec c 0) as [->|Hne]; [exfalso; apply H0; eapply nth_error_In; exact Hc|]. cbn [andb].
  apply (IH _ _ (S j)). apply stepw.
Qed.

(** The values at offsets [j .. z]. *)
Definition pick (j : nat) : list (N * N) :=
  match nth_error (cells m) (slot n h j) with Some c => under key (ent c) | None => [] end.

Lemma pick_match j : cell j = Some key -> exists v, nth_error (m_vals m) (slot n h j) = Some (Some v) /\ pick j = [(key, v)].
Proof.
  intros E. destruct Hwf as [_ [_ [_ [_ HV]]]]. destruct (HV _ key E Hkey) as [v Hv]. exists v. split; [exact Hv|].
  unfold pick, cells. assert (Ec : nth_error (combine (m_keys m) (m_vals m)) (slot n h j) = Some (key, Some v)) by (apply nth_error_combine; auto).
  rewrite Ec. cbn [ent]. pose proof Hkey as Hk. apply N.eqb_neq in Hk. rewrite Hk. unfold under. cbn [filter fst]. now rewrite N.eqb_refl.
Qed.

Lemma pick_other j : cell j <> Some key -> pick j = [].
Proof.
  intros E. unfold pick. destruct (nth_error (cells m) (slot n h j)) as [[k ov]|] eqn:Ec; [|reflexivity].
  apply nth_error_combine in Ec. destruct Ec as [E1 E2].
  assert (Hk : k <> key) by (intros ->; apply E; exact E1). apply N.eqb_neq in Hk.
  destruct ov as [v|]; [|reflexivity]. cbn [ent]. destruct (N.eqb k 0); [reflexivity|]. unfold under. cbn [filter fst]. now rewrite Hk.
Qed.

Lemma slot_shift a b : slot n h (a + b) = slot n (slot n h a) b.
Proof. unfold slot. rewrite Nat.add_mod_idemp_l by exact n0. f_equal. lia. Qed.

Section C.
Variables z jm : nat.
Hypothesis Hz : z < n.
Hypothesis Hjm : jm < z.
Hypothesis Hsp : S z - jm < n.

Lemma bound_neq j : jm <= j -> j <= z -> N.eqb (N.of_nat (slot n h j)) (N.of_nat (slot n h (S z))) = false.
Proof.
  intros H1 H2. apply N.eqb_neq. intros E. assert (E' : slot n h j = slot n h (S z)) by lia.
  replace j with (jm + (j - jm)) in E' by lia. replace (S z) with (jm + (S z - jm)) in E' by lia.
  rewrite !slot_shift in E'. apply slot_inj in E'; lia.
Qed.

Lemma next_spec : forall d j, S z = j + S d -> jm <= j ->
  exists j', j < j' <= S z /\ (forall i, j < i < j' -> cell i <> Some key) /\ (j' <= z -> cell j' = Some key) /\
  forall fuel, S d <= fuel -> mm_next fuel (m_keys m) key (N.of_nat (slot n h (S z))) (N.of_nat (slot n h j)) = Val (N.of_nat (slot n h j')).
Proof.
  induction d as [|d IH]; intros j Hd Hj.
  - exists (S z). split; [lia|]. split; [intros; lia|]. split; [lia|]. intros fuel Hf. destruct fuel as [|fuel]; [lia|].
    cbn [mm_next]. fold (mcap m). fold n. rewrite step64. replace (S j) with (S z) by lia. now rewrite N.eqb_refl.
  - destruct (cell_ex (S j)) as [c Hc].
    destruct (N.eq_dec c key) as [->|Hne].
    + exists (S j). split; [lia|]. split; [intros; lia|]. split; [auto|]. intros fuel Hf. destruct fuel as [|fuel]; [lia|].
      cbn [mm_next]. fold (mcap m). fold n. rewrite step64, bound_neq by lia. rewrite Nat2N.id. fold (cell (S j)). rewrite Hc.
      pose proof Hkey as Hk. apply N.eqb_neq in Hk. rewrite Hk, N.eqb_refl. reflexivity.
    + destruct (IH (S j)) as [j' [H1 [H2 [H3 H4]]]]; [lia|lia|].
      exists j'. split; [lia|]. split; [|split; [exact H3|]].
      * intros i Hi. destruct (Nat.eq_dec i (S j)) as [->|]; [congruence|]. apply H2. lia.
      * intros fuel Hf. destruct fuel as [|fuel]; [lia|].
        cbn [mm_next]. fold (mcap m). fold n. rewrite step64, bound_neq by lia. rewrite Nat2N.id. fold (cell (S j)). rewrite Hc.
        apply N.eqb_neq in Hne. rewrite Hne. rewrite orb_true_r. apply H4. lia.
Qed.

Lemma collect_spec : forall d j, S z - j <= d -> jm <= j <= S z -> (j <= z -> cell j = Some key) ->
  forall fuel, d + n < fuel ->
  mm_collect fuel m key (N.of_nat (slot n h (S z))) (N.of_nat (slot n h j)) = Val (flat_map pick (seq j (S z - j))).
Proof.
  induction d as [|d IH]; intros j Hd Hj Hm fuel Hf; (destruct fuel as [|fuel]; [lia|]); cbn [mm_collect].
  - replace j with (S z) by lia. rewrite N.eqb_refl, Nat.sub_diag. reflexivity.
  - destruct (Nat.eq_dec j (S z)) as [->|Hne]; [rewrite N.eqb_refl, Nat.sub_diag; reflexivity|].
    rewrite bound_neq by lia. rewrite Nat2N.id. fold (cell j). rewrite Hm by lia.
    destruct (pick_match j (Hm ltac:(lia))) as [v [Hv Hp]]. rewrite Hv.
    destruct (next_spec (z - j) j) as [j' [H1 [H2 [H3 H4]]]]; [lia|lia|].
    rewrite H4 by lia. cbn [rbind]. rewrite IH; [|lia|lia|exact H3|lia]. cbn [rmap]. f_equal.
    replace (S z - j) with (S ((j' - S j) + (S z - j'))) by lia. cbn [seq flat_map]. rewrite Hp. cbn [app]. f_equal.
    rewrite seq_app, flat_map_app. replace (S j + (j' - S j)) with j' by lia.
    rewrite (flat_map_nil pick (seq (S j) (j' - S j))); [reflexivity|].
    intros i Hi. apply in_seq in Hi. apply pick_other, H2. lia.
Qed.
End C.

Lemma pick_all : Permutation (flat_map pick (seq 0 n)) (under key (entries m)).
Proof.
  unfold entries, under. rewrite filter_flat_map, (flat_map_index _ (cells m)).
  assert (HL : length (cells m) = n). { unfold cells. rewrite combine_length. destruct Hwf as [_ [_ [_ [-> _]]]]. unfold n, mcap. lia. }
  rewrite HL. rewrite <- (slots_perm n h n0) at 2 by (apply (home_lt w Hw), n0).
  rewrite flat_map_map. apply Permutation_refl.
Qed.

Lemma first_match z : (exists j, j < z /\ cell j = Some key /\ forall i, i < j -> cell i <> Some key) \/ (forall i, i < z -> cell i <> Some key).
Proof.
  induction z as [|z' IH]; [right; intros; lia|]. destruct IH as [[j [H1 H2]]|Hn]; [left; exists j; split; [lia|exact H2]|].
  destruct (cell_ex z') as [c Hc]. destruct (N.eq_dec c key) as [->|Hne].
  - left. exists z'. split; [lia|]. auto.
  - right. intros i Hi. destruct (Nat.eq_dec i z') as [->|]; [congruence|]. apply Hn. lia.
Qed.

Lemma get_start : mask 64 n (hash w (m_mult m) key) = N.of_nat (slot n h 0) /\
  mask w n (wrap w (N.of_nat (slot n h 0))) = N.of_nat (slot n h 0).
Proof.
  assert (E : mask 64 n (hash w (m_mult m) key) = N.of_nat (slot n h 0)).
  { rewrite (mask_mod 64 ltac:(lia) _ _ p64). pose proof (mask_home w Hw (m_mult m) n key (proj1 Hwf)) as H.
    rewrite (mask_mod w Hw _ _ (proj1 Hwf)) in H. exact H. }
  split; [exact E|]. rewrite wrap_id.
  - rewrite (mask_mod w Hw _ _ (proj1 Hwf)). apply N.mod_small. pose proof (slot_lt n h 0 n0). lia.
  - destruct Hwf as [[k [Ek Hk]] _]. pose proof (slot_lt n h 0 n0).
    assert (2 ^ k <= 2 ^ w)%N by (apply N.pow_le_mono_r; lia). unfold n in *. lia.
Qed.

(** With two free cells get returns exactly the stored values; with one free cell it may
    return nothing instead. *)
Lemma get_values_spec :
  m_items m < mcap m ->
  exists l, returns (fun f => mm_get_values w f m key) l /\
    (Permutation l (under key (entries m)) \/
     (l = [] /\ S (m_items m) = mcap m /\ cell 0 = Some key)).
Proof.
  intros Hfree.
  destruct (free_first (m_keys m) h) as [z [Hz [Ez Hocc]]].
  { intros E. apply n0. unfold n, mcap. now rewrite E. }
  { apply (home_lt w Hw), n0. }
  { now apply mm_free_In. }
  change (length (m_keys m)) with n in *.
  assert (Hocc' : forall i, i < z -> cell i <> Some 0%N).
  { intros i Hi. destruct (Hocc i Hi) as [c [H1 H2]]. unfold cell. congruence. }
  destruct get_start as [G1 G2].
  destruct (first_match z) as [[jm [Hjm [Em Hfirst]]]|Hnone].
  - destruct (Nat.lt_ge_cases (S z - jm) n) as [Hsp|Hsp].
    + exists (flat_map pick (seq jm (S z - jm))). split.
      * exists (2 * n + 5). intros f Hf. unfold mm_get_values, mm_get. fold (mcap m). fold n. rewrite G1.
        rewrite (get_search z jm Hz Ez Hocc' Hjm Em Hfirst jm 0) by (auto; lia). cbn [rbind fst snd].
        apply (collect_spec z jm Hz Hjm Hsp (S z - jm)); auto; lia.
      * left. rewrite <- pick_all. 
        replace n with (jm + ((S z - jm) + (n - S z))) at 1 by lia. rewrite !seq_app, !flat_map_app. cbn [Nat.add].
        rewrite (flat_map_nil pick (seq 0 jm)), (flat_map_nil pick (seq (jm + (S z - jm)) (n - S z))).
        -- now rewrite app_nil_r.
        -- intros i Hi. apply in_seq in Hi. apply pick_other. intros E.
           pose proof (match_before z i Hz Ez ltac:(lia) E). lia.
        -- intros i Hi. apply in_seq in Hi. apply pick_other, Hfirst. lia.
    + (* the only free cell lies directly before the home cell *)
      assert (jm = 0) by lia. assert (S z = n) by lia. subst jm.
      exists []. split.
      * exists (2 * n + 5). intros f Hf. unfold mm_get_values, mm_get. fold (mcap m). fold n. rewrite G1.
        rewrite (get_search z 0 Hz Ez Hocc' Hjm Em Hfirst 0 0) by (auto; lia). cbn [rbind fst snd].
        destruct f as [|f]; [lia|]. cbn [mm_collect].
        assert (E : slot n h (S z) = slot n h 0).
        { rewrite H0. unfold slot. rewrite Nat.add_0_r. rewrite <- (Nat.mod_add h 1 n) by exact n0. f_equal. lia. }
        rewrite E, N.eqb_refl. reflexivity.
      * right. split; [reflexivity|]. split; [|exact Em].
        (* all cells but one are occupied *)
        destruct Hwf as [_ [_ [-> _]]].
        assert (Hle : n - 1 <= length (keys_of (m_keys m))).
        { assert (Hp : Permutation (map (slot n h) (seq 0 n)) (seq 0 n)) by (apply slots_perm; [exact n0|apply (home_lt w Hw), n0]).
          assert (incl (map (slot n h) (seq 0 z)) (filter (fun i => nz (nth i (m_keys m) 0%N)) (seq 0 n))).
          { intros i Hi. apply in_map_iff in Hi. destruct Hi as [j [<- Hj]]. apply in_seq in Hj. apply filter_In. split.
            - apply in_seq. pose proof (slot_lt n h j n0). lia.
            - destruct (Hocc j ltac:(lia)) as [c [Hc1 Hc2]]. rewrite (nth_error_nth _ _ 0%N Hc1). now apply nz_spec. }
          apply NoDup_incl_length in H.
          - rewrite map_length, seq_length in H.
            rewrite <- (map_at_occupied (m_keys m) (fun i => nz (nth i (m_keys m) 0%N))) by reflexivity.
            rewrite map_length. unfold occupied. rewrite Nat.sub_0_r. change (length (m_keys m)) with n. lia.
          - assert (Hnd : NoDup (map (slot n h) (seq 0 n))) by (eapply Permutation_NoDup; [symmetry; exact Hp|apply seq_NoDup]).
            replace n with (z + (n - z)) in Hnd at 2 by lia. rewrite seq_app, map_app in Hnd.
            exact (NoDup_app_l _ _ Hnd). }
        destruct Hwf as [_ [_ [Hi _]]]. fold n. unfold n in *. lia.
  - exists []. split.
    + exists (2 * n + 5). intros f Hf. unfold mm_get_values, mm_get. fold (mcap m). fold n. rewrite G1.
      rewrite (get_none z Hz Ez Hocc' Hnone z 0) by (auto; lia). cbn [rbind fst snd].
      destruct f as [|f]; [lia|]. cbn [mm_collect]. now rewrite N.eqb_refl.
    + left. rewrite <- pick_all. rewrite flat_map_nil; [constructor|]. intros i Hi. apply in_seq in Hi. apply pick_other.
      intros E. pose proof (match_before z i Hz Ez ltac:(lia) E). apply (Hnone i); assumption.
Qed.

Lemma get_values_full : m_items m = mcap m -> diverges (fun f => mm_get_values w f m key).
Proof.
  intros Hfull f. unfold mm_get_values, mm_get. fold (mcap m). fold n. destruct get_start as [G1 G2].
  rewrite G1. rewrite (get_full) with (j := 0); [reflexivity| |exact G2].
  intros Hin. destruct Hwf as [_ [_ [Hi _]]]. pose proof (keys_no_free _ Hin). unfold mcap in Hfull. lia.
Qed.

(** contains. *)
Lemma mm_contains_cases :
  (In key (m_keys m) -> returns (fun f => mm_contains w f m key) true) /\
  (~ In key (m_keys m) -> m_items m < mcap m -> returns (fun f => mm_contains w f m key) false) /\
  (~ In key (m_keys m) -> m_items m = mcap m -> diverges (fun f => mm_contains w f m key)).
Proof.
  pose proof Hwf as [Hp [Hc [Hi _]]]. unfold mm_contains. split; [|split].
  - intros Hin. destruct (probe_spec w Hw (m_mult m) (m_keys m) key Hp Hc Hkey (or_introl Hin)) as [j [_ [_ [P _]]]].
    destruct (P Hin) as [_ E]. exists (length (m_keys m)). intros f Hf. now rewrite E.
  - intros Hn Hf. pose proof (mm_free_In m Hwf Hf) as H0.
    destruct (probe_spec w Hw (m_mult m) (m_keys m) key Hp Hc Hkey (or_intror H0)) as [j [_ [_ [_ P]]]].
    destruct (P Hn) as [_ E]. exists (length (m_keys m)). intros f Hfu. now rewrite E.
  - intros Hn Hfull f. rewrite (probe_full_diverges w Hw (m_mult m) (m_keys m) key Hp Hn); [reflexivity|].
    intros Hin. pose proof (keys_no_free _ Hin). unfold mcap in Hfull. lia.
Qed.
End G.

(** *** merging *)
Lemma mm_merge_spec m o :
  mm_wf m -> mm_wf o -> small w (2 * (mcap m + mcap o)) ->
  exists m', returns (fun f => mm_merge w f m o) m' /\ mm_wf m' /\ Permutation (entries m') (entries m ++ entries o).
Proof.
  intros Hm Ho [S1 S2]. pose proof (mm_cap_pos m Hm) as Cm. pose proof (mm_items_le m Hm) as Im. pose proof (mm_items_le o Ho) as Io.
  set (x := wrap 64 (N.of_nat (mcap m) + N.of_nat (mcap o))).
  assert (Ex : x = N.of_nat (mcap m + mcap o)).
  { unfold x. rewrite wrap_id; [lia|]. change (2 ^ 64)%N with (2 * 2 ^ 63)%N. lia. }
  destruct (np2_cap w Hw x) as [n [En [Pn Hn]]]; try (rewrite Ex; lia).
  destruct (mm_rehash_spec m x n Hm En Pn) as [m1 [E1 [W1 [P1 [C1 M1]]]]]; [lia|].
  assert (I1 : m_items m1 = m_items m) by (rewrite <- !entries_length by assumption; now apply Permutation_length).
  destruct (mm_fold_spec (fun _ => true) (fun fuel => mm_insert w fuel) (fun _ _ => Val true) 0 (cells o))
    with (t := m1) as [m2 [E2 [W2 [P2 [C2 M2]]]]].
  - reflexivity.
  - intros. now apply mm_insert_notfull.
  - intros. eapply (mm_cells_some o); eassumption.
  - exact W1.
  - rewrite filter_true. fold (entries o). rewrite entries_length by exact Ho. lia.
  - exists m2. split; [|split; [exact W2|]].
    + exists n. intros f Hf. unfold mm_merge. fold (mcap m) (mcap o). fold x. rewrite E1 by lia. cbn [rbind]. apply E2; lia.
    + rewrite P2, filter_true, P1. fold (entries o). apply Permutation_app_comm.
Qed.

Lemma mm_merge_filter_spec m o flt :
  mm_wf m -> mm_wf o -> set_wf w flt -> s_items flt < cap flt -> small w (2 * (mcap m + mcap o)) ->
  exists m', returns (fun f => mm_merge_filter w f m o flt) m' /\ mm_wf m' /\
    Permutation (entries m') (filter (fun p => negb (if elem_dec flt (fst p) then true else false)) (entries m ++ entries o)).
Proof.
  intros Hm Ho Hf Hffree [S1 S2]. pose proof (mm_cap_pos m Hm) as Cm. pose proof (mm_items_le m Hm) as Im. pose proof (mm_items_le o Ho) as Io.
  set (x := wrap 64 (N.of_nat (mcap m) + N.of_nat (mcap o))).
  assert (Ex : x = N.of_nat (mcap m + mcap o)).
  { unfold x. rewrite wrap_id; [lia|]. change (2 ^ 64)%N with (2 * 2 ^ 63)%N. lia. }
  destruct (np2_cap w Hw x) as [n [En [Pn Hn]]]; try (rewrite Ex; lia).
  set (keepb := fun k => negb (if elem_dec flt k then true else false)).
  assert (Hkeep : forall fuel k, cap flt <= fuel -> k <> 0%N -> rmap negb (set_contains w fuel flt k) = Val (keepb k)).
  { intros fuel k H1 H2. rewrite (contains_dec w Hw) by assumption. reflexivity. }
  pose proof (filter_length_le (fun p : N * N => keepb (fst p)) (entries m)) as Fm.
  pose proof (filter_length_le (fun p : N * N => keepb (fst p)) (entries o)) as Fo.
  rewrite entries_length in Fm, Fo by assumption.
  destruct (mm_fold_spec keepb (fun fuel => mm_insert_raw w fuel) (fun fuel k => rmap negb (set_contains w fuel flt k)) (cap flt) (cells m))
    with (t := map_alloc (N.of_nat n) (m_mult m)) as [m1 [E1 [W1 [P1 [C1 M1]]]]].
  - intros. now apply Hkeep.
  - reflexivity.
  - intros. eapply (mm_cells_some m); eassumption.
  - now apply mm_alloc_wf.
  - rewrite map_alloc_cap. fold (entries m). cbn [map_alloc m_items]. lia.
  - rewrite map_alloc_cap in *. rewrite mm_alloc_entries, app_nil_r in P1. fold (entries m) in P1.
    assert (I1 : m_items m1 <= m_items m).
    { rewrite <- (entries_length m1 W1), (Permutation_length P1). exact Fm. }
    destruct (mm_fold_spec keepb (fun fuel => mm_insert w fuel) (fun fuel k => rmap negb (set_contains w fuel flt k)) (cap flt) (cells o))
      with (t := m1) as [m2 [E2 [W2 [P2 [C2 M2]]]]].
    + intros. now apply Hkeep.
    + intros. now apply mm_insert_notfull.
    + intros. eapply (mm_cells_some o); eassumption.
    + exact W1.
    + fold (entries o). lia.
    + exists m2. split; [|split; [exact W2|]].
      * exists (n + cap flt). intros f Hfu. unfold mm_merge_filter. fold (mcap m) (mcap o). fold x.
        unfold mm_rehash_filter. rewrite En. fold (cells m) (cells o). rewrite E1 by lia. cbn [rbind]. apply E2; lia.
      * rewrite P2, P1, filter_app. fold (entries o). apply Permutation_app_comm.
Qed.
End W.
