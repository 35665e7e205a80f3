From Verif Require Import Outcome ListUtil WordsModel WordsProofs LPSetModel ProbeTheory LPSetProofs LPSetHistory LPSetIter LPSetSpec SimplexModel SimplexProofs PointModel BlockProofs.
Local Open Scope N_scope.

Section D.
Variable D : N.
Hypothesis HD : D <= 30.

Lemma pow_split : 2 ^ 64 = 2 ^ (64 - D) * 2 ^ D.
Proof. rewrite <- N.pow_add_r. f_equal. lia. Qed.
Lemma pow_D_le : 2 ^ D <= 2 ^ 30.
Proof. apply N.pow_le_mono_r; [discriminate|exact HD]. Qed.

Lemma p_inf_shift : p_inf D = N.shiftl (N.ones (64 - D)) D.
Proof.
  unfold p_inf. change (2 ^ 64 - 1) with (N.ones 64). replace (2 ^ D - 1) with (N.ones D) by (rewrite N.ones_equiv; lia).
  apply N.bits_inj. intros i. rewrite N.lxor_spec.
  destruct (N.lt_ge_cases i D) as [L|L].
  - rewrite N.shiftl_spec_low by exact L. rewrite !N.ones_spec_low by lia. reflexivity.
  - rewrite N.shiftl_spec_high' by exact L. rewrite (N.ones_spec_high D) by exact L. rewrite xorb_false_r.
    destruct (N.lt_ge_cases i 64) as [L2|L2].
    + rewrite !N.ones_spec_low by lia. reflexivity.
    + rewrite !N.ones_spec_high by lia. reflexivity.
Qed.
Lemma p_inf_val : p_inf D = 2 ^ 64 - 2 ^ D.
Proof.
  rewrite p_inf_shift, N.shiftl_mul_pow2, N.ones_equiv, pow_split. pose proof (pow2_pos (64 - D)). pose proof (pow2_pos D). nia.
Qed.
Lemma p_ninf_val : p_ninf D = 2 ^ D.
Proof.
  unfold p_ninf. rewrite p_inf_val. pose proof pow_D_le. pose proof (pow2_pos D).
  assert (2 ^ 30 < 2 ^ 64) by reflexivity. rewrite wrap_id by lia. lia.
Qed.

Lemma land_inf i : i < 2 ^ 64 -> N.land i (p_inf D) = 2 ^ D * (i / 2 ^ D).
Proof.
  intros Hi. rewrite p_inf_shift. pose proof (pow2_pos D).
  assert (E : N.land i (N.shiftl (N.ones (64 - D)) D) = N.shiftl (N.land (N.shiftr i D) (N.ones (64 - D))) D).
  { apply N.bits_inj. intros j. rewrite N.land_spec. destruct (N.lt_ge_cases j D) as [L|L].
    - rewrite !N.shiftl_spec_low by exact L. apply andb_false_r.
    - rewrite !N.shiftl_spec_high' by exact L. rewrite N.land_spec, N.shiftr_spec'. do 2 f_equal. lia. }
  rewrite E, N.land_ones, N.shiftr_div_pow2, N.shiftl_mul_pow2, N.mod_small; [lia|].
  apply N.div_lt_upper_bound; [lia|]. rewrite pow_split in Hi. lia.
Qed.

Lemma p_finite_spec i : i < 2 ^ 64 -> p_finite D i = true <-> i < 2 ^ 64 - 2 ^ D.
Proof.
  intros Hi. unfold p_finite. rewrite negb_true_iff, N.eqb_neq, land_inf, p_inf_val by exact Hi.
  pose proof (pow2_pos D) as HP. pose proof (N.div_mod' i (2 ^ D)) as Hdm. pose proof (N.mod_upper_bound i (2 ^ D) ltac:(lia)) as Hm.
  pose proof (pow2_pos (64 - D)) as HQ. rewrite pow_split in *. set (q := i / 2 ^ D) in *. set (P := 2 ^ D) in *. set (Q := 2 ^ (64 - D)) in *.
  clearbody q P Q. assert (q < Q) by nia. split; intros H1.
  - assert (q <> Q - 1) by (intros ->; apply H1; nia). assert (q + 2 <= Q) by lia. nia.
  - intros E. assert (q = Q - 1) by nia. subst q. nia.
Qed.
Lemma p_infidx_spec i : i < 2 ^ 64 -> p_infidx D i = i mod 2 ^ D.
Proof.
  intros Hi. unfold p_infidx.
  assert (E : N.lxor (2 ^ 64 - 1) (p_inf D) = N.ones D).
  { unfold p_inf. rewrite <- N.lxor_assoc, N.lxor_nilpotent, N.lxor_0_l. rewrite N.ones_equiv. lia. }
  rewrite E, N.land_comm. apply N.land_ones.
Qed.
Lemma p_infidx_inf i : i < 2 ^ 64 -> p_finite D i = false -> p_infidx D i = i - (2 ^ 64 - 2 ^ D) /\ 2 ^ 64 - 2 ^ D <= i.
Proof.
  intros Hi Hf. assert (2 ^ 64 - 2 ^ D <= i).
  { destruct (N.lt_ge_cases i (2 ^ 64 - 2 ^ D)) as [L|]; [|assumption]. apply p_finite_spec in L; congruence. }
  split; [|assumption]. rewrite p_infidx_spec by exact Hi.
  pose proof (pow2_pos D) as HP. pose proof (pow2_pos (64 - D)) as HQ. rewrite pow_split in *.
  symmetry. apply (N.mod_unique _ _ (2 ^ (64 - D) - 1)); nia.
Qed.

Context {A : Type}.
(** The finite ids lie below the infinite ones. *)
Definition pts_ok (p : points A) : Prop :=
  p_vec p <> [] /\ p_off p + finite_size p <= 2 ^ 64 - 2 ^ D /\ N.of_nat (length (p_infs p)) = 2 ^ D.
(** The ids of a set of points. *)
Definition is_fin_id (p : points A) (i : N) : Prop := p_off p < i < p_off p + N.of_nat (length (p_vec p)).
Definition is_inf_id (i : N) : Prop := 2 ^ 64 - 2 ^ D <= i < 2 ^ 64.
Definition is_id (p : points A) (i : N) : Prop := is_fin_id p i \/ is_inf_id i.

Lemma fin_idx_val (p : points A) i : pts_ok p -> p_off p <= i -> i < 2 ^ 64 -> fin_idx p i = i - p_off p.
Proof.
  intros [_ [H _]] Hi Hi2. unfold fin_idx. replace (i + 2 ^ 64 - p_off p) with (i - p_off p + 1 * 2 ^ 64) by lia.
  unfold wrap. rewrite N.mod_add by discriminate. apply N.mod_small. lia.
Qed.

Lemma contains_id p i : pts_ok p -> i < 2 ^ 64 -> p_contains D p i = true <-> is_id p i.
Proof.
  intros Hp Hi. unfold p_contains, is_id, is_fin_id, is_inf_id. destruct (p_finite D i) eqn:Ef.
  - pose proof (proj1 (p_finite_spec i Hi) Ef) as Hlt. rewrite andb_true_iff, N.ltb_lt, N.ltb_lt.
    fold (finite_size p). split.
    + intros [H1 H2]. rewrite fin_idx_val in H2 by (auto; lia). left. lia.
    + intros [[H1 H2]|H1]; [|lia]. rewrite fin_idx_val by (auto; lia). lia.
  - destruct (p_infidx_inf i Hi Ef) as [E Hge]. rewrite E, p_ninf_val, N.ltb_lt. pose proof pow_D_le. pose proof (pow2_pos D). split.
    + intros _. right. lia.
    + intros _. assert (2 ^ 30 < 2 ^ 64) by reflexivity. lia.
Qed.

(** The cell of an id. *)
Lemma get_id p i : pts_ok p -> is_id p i ->
  exists a, p_get D p i = Val a /\
    ((is_fin_id p i /\ nth_error (p_vec p) (N.to_nat (i - p_off p)) = Some a) \/
     (is_inf_id i /\ nth_error (p_infs p) (N.to_nat (i - (2 ^ 64 - 2 ^ D))) = Some a)).
Proof.
  intros Hp Hid. pose proof Hp as [Hne [Hlt Hinf]]. pose proof pow_D_le. assert (Hc : 2 ^ 30 < 2 ^ 64) by reflexivity. unfold p_get.
  assert (Hi : i < 2 ^ 64) by (destruct Hid as [[_ Hid]|[_ Hid]]; [unfold finite_size in Hlt; lia|exact Hid]).
  destruct (p_finite D i) eqn:Ef.
  - pose proof (proj1 (p_finite_spec i Hi) Ef) as Hi2. destruct Hid as [Hid|[Hid _]]; [|lia]. unfold is_fin_id in Hid.
    rewrite fin_idx_val by (auto; lia). destruct (nth_error_ex (p_vec p) (N.to_nat (i - p_off p))) as [a Ea]; [lia|]. rewrite Ea.
    exists a. split; [reflexivity|]. left. split; [exact Hid|reflexivity].
  - destruct (p_infidx_inf i Hi Ef) as [E Hge]. rewrite E.
    destruct (nth_error_ex (p_infs p) (N.to_nat (i - (2 ^ 64 - 2 ^ D)))) as [a Ea]; [lia|]. rewrite Ea.
    exists a. split; [reflexivity|]. right. split; [|reflexivity]. unfold is_inf_id. lia.
Qed.

Lemma range_In p i : pts_ok p -> In i (p_range p) <-> is_fin_id p i.
Proof.
  intros [Hne [Hlt _]]. unfold p_range, is_fin_id, finite_size in *. rewrite in_map_iff.
  assert (p_vec p <> [] -> (0 < length (p_vec p))%nat) as H0 by (destruct (p_vec p); [congruence|cbn; lia]). specialize (H0 Hne). split.
  - intros [j [<- Hj]]. apply in_seq in Hj. lia.
  - intros H. exists (N.to_nat (i - (p_off p + 1))). rewrite in_seq. lia.
Qed.
Lemma map_inj_NoDup {B C} (f : B -> C) l : (forall a b, In a l -> In b l -> f a = f b -> a = b) -> NoDup l -> NoDup (map f l).
Proof.
  induction l as [|a l IH]; intros Hf Hn; cbn [map]; constructor.
  - rewrite in_map_iff. intros [b [E Hb]]. inversion Hn; subst. assert (b = a) by (apply Hf; [now right|now left|exact E]). congruence.
  - apply IH; [intros b c Hb Hc; apply Hf; now right|now inversion Hn].
Qed.
Lemma range_NoDup (p : points A) : NoDup (p_range p).
Proof. unfold p_range. apply map_inj_NoDup; [intros; lia|apply seq_NoDup]. Qed.

Lemma keys_In p i : pts_ok p -> In i (id_keys D p) <-> is_id p i.
Proof.
  intros [Hne [Hlt Hinf]]. unfold id_keys, is_id, is_fin_id, is_inf_id. rewrite in_app_iff, !in_map_iff, p_ninf_val, p_inf_val.
  unfold finite_size in Hlt. pose proof pow_D_le. pose proof (pow2_pos D). assert (Hc : 2 ^ 30 < 2 ^ 64) by reflexivity. split.
  - intros [[j [<- Hj]]|[j [<- Hj]]]; apply in_seq in Hj; rewrite wrap_id by lia; lia.
  - intros [H1|H1].
    + left. exists (N.to_nat (i - p_off p)). rewrite in_seq, wrap_id by lia. lia.
    + right. exists (N.to_nat (i - (2 ^ 64 - 2 ^ D))). rewrite in_seq, wrap_id by lia. lia.
Qed.
Lemma keys_length p : pts_ok p -> N.of_nat (length (id_keys D p)) = finite_size p - 1 + 2 ^ D.
Proof.
  intros [Hne _]. unfold id_keys, finite_size. rewrite app_length, !map_length, !seq_length, p_ninf_val. lia.
Qed.
Lemma keys_NoDup p : pts_ok p -> NoDup (id_keys D p).
Proof.
  intros [Hne [Hlt _]]. unfold finite_size in Hlt. pose proof pow_D_le. pose proof (pow2_pos D). assert (Hc : 2 ^ 30 < 2 ^ 64) by reflexivity.
  unfold id_keys. apply NoDup_app_intro.
  - apply map_inj_NoDup; [|apply seq_NoDup]. intros a b Ha Hb. apply in_seq in Ha, Hb. rewrite !wrap_id by lia. lia.
  - apply map_inj_NoDup; [|apply seq_NoDup]. intros a b Ha Hb. apply in_seq in Ha, Hb. rewrite p_ninf_val in *. rewrite p_inf_val, !wrap_id by lia. lia.
  - intros x H1 H2. apply in_map_iff in H1, H2. destruct H1 as [a [<- Ha]], H2 as [b [E Hb]]. apply in_seq in Ha, Hb.
    rewrite p_ninf_val in Hb. rewrite p_inf_val, !wrap_id in E by lia. lia.
Qed.

Lemma inserted_map ks : inserted (map OpInsert ks) = ks.
Proof. induction ks as [|k ks IH]; cbn; congruence. Qed.

Lemma p_size_val p : pts_ok p -> p_size D p = finite_size p + 2 ^ D \/ finite_size p + 2 ^ D = 2 ^ 64.
Proof.
  intros [_ [Hlt _]]. unfold p_size. rewrite p_ninf_val. pose proof pow_D_le. pose proof (pow2_pos D).
  destruct (N.lt_ge_cases (finite_size p + 2 ^ D) (2 ^ 64)) as [L|L]; [left; now apply wrap_id|right]. lia.
Qed.

Lemma make_ids_spec p a : pts_ok p -> 4 * (finite_size p + 2 ^ D) <= 2 ^ 63 -> exists s,
  returns (fun f => make_ids D f a p) s /\ set_after 64 true (p_size D p) a (map OpInsert (id_keys D p)) s.
Proof.
  intros Hp Hs. pose proof (keys_length p Hp) as HL. pose proof pow_D_le. pose proof (pow2_pos D). assert (Hc : 2 ^ 63 < 2 ^ 64) by reflexivity.
  assert (Hz : p_size D p = finite_size p + 2 ^ D) by (destruct (p_size_val p Hp) as [E|E]; [exact E|lia]).
  assert (R : in_range 64 (p_size D p) (length (map OpInsert (id_keys D p)))).
  { unfold in_range. rewrite map_length, Hz. lia. }
  assert (Hok : Forall op_ok (map OpInsert (id_keys D p))).
  { rewrite Forall_map, Forall_forall. intros x Hx. apply keys_In in Hx; [|exact Hp]. unfold op_ok. cbn [key_of]. intros [= ->].
    destruct Hp as [_ [Hlt _]]. destruct Hx as [[Hx _]|[Hx _]]; [lia|]. assert (2 ^ 30 < 2 ^ 64) by reflexivity. lia. }
  assert (Hq : Forall not_query (map OpInsert (id_keys D p))) by (rewrite Forall_map, Forall_forall; now intros).
  destruct (growing_inserts_after 64 (p_size D p) a _ R Hok Hq) as [s [n Hn]]. exists s. split.
  - exists n. intros f Hf. unfold make_ids. rewrite Hn by exact Hf. reflexivity.
  - split; [exact R|]. split; [exact Hok|]. eexists. exists n. exact Hn.
Qed.

(** operator== against a container without repetitions. *)
Lemma p_eq_spec p ids : pts_ok p -> finite_size p + 2 ^ D < 2 ^ 64 -> NoDup ids -> (forall i, In i ids -> i < 2 ^ 64) ->
  p_eq D p ids = true <-> (forall i, In i ids <-> is_id p i).
Proof.
  intros Hp Hs Hn Hr. pose proof (keys_length p Hp) as HL. pose proof pow_D_le. pose proof (pow2_pos D).
  assert (Hz : p_size D p = finite_size p + 2 ^ D) by (destruct (p_size_val p Hp) as [E|E]; [exact E|lia]).
  assert (H1 : 1 <= finite_size p) by (destruct Hp as [Hne _]; unfold finite_size; destruct (p_vec p); [congruence|cbn [length]; lia]).
  assert (Hw : wrap 64 (p_size D p + 2 ^ 64 - 1) = N.of_nat (length (id_keys D p))).
  { rewrite Hz, HL. replace (finite_size p + 2 ^ D + 2 ^ 64 - 1) with (finite_size p - 1 + 2 ^ D + 1 * 2 ^ 64) by lia.
    unfold wrap. rewrite N.mod_add by discriminate. apply N.mod_small. lia. }
  unfold p_eq. rewrite Hw. split.
  - destruct (N.eqb_spec (N.of_nat (length (id_keys D p))) (N.of_nat (length ids))) as [E|]; [|discriminate]. cbn [negb].
    rewrite forallb_forall. intros HA.
    assert (Hincl : incl ids (id_keys D p)).
    { intros x Hx. apply keys_In; [exact Hp|]. apply contains_id; auto. }
    assert (Hincl2 : incl (id_keys D p) ids) by (apply NoDup_length_incl; [exact Hn|lia|exact Hincl]).
    intros i. rewrite <- (keys_In p i Hp). split; [apply Hincl|apply Hincl2].
  - intros HA.
    assert (E : length ids = length (id_keys D p)).
    { apply Nat.le_antisymm; apply NoDup_incl_length; auto using keys_NoDup; intros x Hx; [apply keys_In|apply HA, keys_In]; auto. now apply HA. }
    rewrite E, N.eqb_refl. cbn [negb]. apply forallb_forall. intros x Hx. apply contains_id; auto. now apply HA.
Qed.
End D.
