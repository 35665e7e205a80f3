(** Proofs about Bit_Set. *)
From Verif Require Import Outcome ListUtil WordsModel WordsProofs RangeModel RangeProofs BitSetModel.
Local Open Scope N_scope.

(** *** bits of words *)
Lemma land_pow2 v k : negb (N.land v (2 ^ k) =? 0) = N.testbit v k.
Proof.
  destruct (N.testbit v k) eqn:E.
  - destruct (N.eqb_spec (N.land v (2 ^ k)) 0) as [H|]; [|reflexivity]. exfalso.
    assert (N.testbit (N.land v (2 ^ k)) k = true) by (rewrite N.land_spec, E, N.pow2_bits_true; reflexivity).
    rewrite H, N.bits_0 in H0. discriminate.
  - destruct (N.eqb_spec (N.land v (2 ^ k)) 0) as [|H]; [reflexivity|]. exfalso. apply H. apply N.bits_inj. intros j.
    rewrite N.land_spec, N.bits_0. destruct (N.eq_dec j k) as [->|Hn]; [now rewrite E|].
    rewrite N.pow2_bits_false by congruence. apply andb_false_r.
Qed.

Lemma nonzero_test v k : negb (v =? 0) && negb (N.land v (2 ^ k) =? 0) = N.testbit v k.
Proof.
  rewrite land_pow2. destruct (N.eqb_spec v 0) as [->|]; [now rewrite N.bits_0|reflexivity].
Qed.

Lemma lt_pow2_bits v n : (forall j, n <= j -> N.testbit v j = false) -> v < 2 ^ n.
Proof.
  intros H. destruct (N.eq_dec v 0) as [->|Hz]; [apply N.neq_0_lt_0, N.pow_nonzero; discriminate|].
  apply N.log2_lt_pow2; [lia|]. destruct (N.le_gt_cases n (N.log2 v)) as [Hl|]; [|assumption].
  specialize (H _ Hl). rewrite N.bit_log2 in H by exact Hz. discriminate.
Qed.

Lemma bits_above v n j : v < 2 ^ n -> n <= j -> N.testbit v j = false.
Proof.
  intros Hv Hj. destruct (N.eq_dec v 0) as [->|Hz]; [apply N.bits_0|]. apply N.bits_above_log2.
  apply N.log2_lt_pow2; [lia|]. eapply N.lt_le_trans; [exact Hv|]. apply N.pow_le_mono_r; [discriminate|exact Hj].
Qed.

Lemma lor_lt x y n : x < 2 ^ n -> y < 2 ^ n -> N.lor x y < 2 ^ n.
Proof.
  intros Hx Hy. apply lt_pow2_bits. intros j Hj. rewrite N.lor_spec, (bits_above x n), (bits_above y n); auto.
Qed.

Lemma land_lt x y n : x < 2 ^ n -> N.land x y < 2 ^ n.
Proof. intros Hx. apply lt_pow2_bits. intros j Hj. now rewrite N.land_spec, (bits_above x n). Qed.

Lemma ones32_bits j : N.testbit (2 ^ 32 - 1) j = (j <? 32).
Proof. change (2 ^ 32 - 1) with (N.ones 32). destruct (N.ltb_spec j 32); [now apply N.ones_spec_low|now apply N.ones_spec_high]. Qed.

Lemma not32_bits x j : j < 32 -> N.testbit (not32 x) j = negb (N.testbit x j).
Proof.
  intros Hj. unfold not32. rewrite N.lxor_spec, ones32_bits. apply N.ltb_lt in Hj. rewrite Hj. apply xorb_true_r.
Qed.

Lemma mod32 i : i mod 32 < 32. Proof. apply N.mod_lt. discriminate. Qed.
Lemma div32 i : i = 32 * (i / 32) + i mod 32. Proof. apply N.div_mod. discriminate. Qed.

(** *** reads *)
Lemma rd_some l b v : rd l b = Some v <-> nth_error l (N.to_nat b) = Some v.
Proof.
  unfold rd. destruct (N.ltb_spec b (N.of_nat (length l))) as [H|H]; [reflexivity|]. split; [discriminate|].
  intros E. apply nth_error_lt in E. lia.
Qed.
Lemma rd_in l b : b < N.of_nat (length l) -> exists v, rd l b = Some v.
Proof. intros H. destruct (nth_error_ex l (N.to_nat b)) as [v E]; [lia|]. exists v. now apply rd_some. Qed.
Lemma rd_nth l b v : rd l b = Some v -> nth (N.to_nat b) l 0 = v.
Proof. intros H. apply rd_some in H. now apply nth_error_nth. Qed.
Lemma wr_length l b v : length (wr l b v) = length l. Proof. apply upd_length. Qed.
Lemma rd_wr l b v c : b < N.of_nat (length l) -> rd (wr l b v) c = if c =? b then Some v else rd l c.
Proof.
  intros Hb. unfold rd. rewrite wr_length. unfold wr. rewrite nth_error_upd.
  destruct (N.eqb_spec c b) as [->|Hn].
  - destruct (N.ltb_spec b (N.of_nat (length l))); [|lia]. rewrite Nat.eqb_refl. destruct (Nat.ltb_spec (N.to_nat b) (length l)); [reflexivity|lia].
  - destruct (Nat.eqb_spec (N.to_nat b) (N.to_nat c)); [lia|reflexivity].
Qed.

(** *** well-formed sets *)
Definition bs_wf (s : bitset) : Prop :=
  (exists a, b_lo s = 32 * a) /\ (exists e, b_up s = 32 * e) /\ b_lo s <= b_up s /\ b_up s <= 2 ^ 32 /\
  N.of_nat (length (b_words s)) = (b_up s - b_lo s) / 32 /\ Forall (fun v => v < 2 ^ 32) (b_words s).

(** Membership, the abstraction function. *)
Definition has (s : bitset) (i : N) : bool :=
  (b_lo s <=? i) && (i <? b_up s) && N.testbit (nth (N.to_nat ((i - b_lo s) / 32)) (b_words s) 0) (i mod 32).

Lemma wf_block s i : bs_wf s -> b_lo s <= i -> i < b_up s ->
  bs_block s i = (i - b_lo s) / 32 /\ (i - b_lo s) / 32 < N.of_nat (length (b_words s)).
Proof.
  intros [[a Ha] [[e He] [Hle [Hm [Hl _]]]]] H1 H2. split.
  - unfold bs_block, wrap. replace (i + 2 ^ 64 - b_lo s) with (i - b_lo s + 1 * 2 ^ 64) by lia.
    rewrite N.mod_add by discriminate. rewrite N.mod_small; [reflexivity|]. lia.
  - rewrite Hl, Ha, He. replace (32 * e - 32 * a) with ((e - a) * 32) by lia. rewrite N.div_mul by discriminate.
    apply N.div_lt_upper_bound; lia.
Qed.

Lemma wf_length s : bs_wf s -> b_up s - b_lo s = 32 * N.of_nat (length (b_words s)).
Proof.
  intros [[a Ha] [[e He] [Hle [_ [Hl _]]]]]. rewrite Hl, Ha, He. replace (32 * e - 32 * a) with ((e - a) * 32) by lia.
  rewrite N.div_mul by discriminate. lia.
Qed.

Lemma wf_read s i : bs_wf s -> b_lo s <= i -> i < b_up s ->
  exists v, rd (b_words s) (bs_block s i) = Some v /\ v < 2 ^ 32 /\ has s i = N.testbit v (i mod 32) /\
            (i - b_lo s) / 32 < N.of_nat (length (b_words s)) /\ bs_block s i = (i - b_lo s) / 32.
Proof.
  intros Hwf H1 H2. destruct (wf_block s i Hwf H1 H2) as [E L]. rewrite E.
  destruct (rd_in _ _ L) as [v Hv]. exists v. split; [exact Hv|]. split.
  - destruct Hwf as [_ [_ [_ [_ [_ F]]]]]. rewrite Forall_forall in F. apply F. eapply nth_error_In. apply rd_some. exact Hv.
  - split; [|split; [exact L|reflexivity]]. unfold has. apply rd_nth in Hv. rewrite Hv.
    apply N.leb_le in H1. apply N.ltb_lt in H2. now rewrite H1, H2.
Qed.

Lemma isSet_has s i : bs_wf s -> bs_isSet s i = Val (has s i).
Proof.
  intros Hwf. unfold bs_isSet. destruct (N.leb_spec (b_lo s) i) as [H1|H1]; cbn [andb].
  - destruct (N.ltb_spec i (b_up s)) as [H2|H2].
    + destruct (wf_read s i Hwf H1 H2) as [v [E [_ [Hh _]]]]. rewrite E, Hh. unfold bmask. now rewrite nonzero_test.
    + unfold has. apply N.ltb_ge in H2. rewrite H2, andb_false_r. reflexivity.
  - unfold has. apply N.leb_gt in H1. now rewrite H1.
Qed.

Lemma has_bounds s i : has s i = true -> b_lo s <= i < b_up s.
Proof. unfold has. rewrite !andb_true_iff, N.leb_le, N.ltb_lt. tauto. Qed.

(** Two indices share word and bit only if equal. *)
Lemma idx_eq lo a i j : lo = 32 * a -> lo <= i -> lo <= j -> (i - lo) / 32 = (j - lo) / 32 -> i mod 32 = j mod 32 -> i = j.
Proof.
  intros -> Hi Hj E1 E2. pose proof (div32 i). pose proof (div32 j).
  assert (forall x, 32 * a <= x -> (x - 32 * a) / 32 = x / 32 - a) as D.
  { intros x Hx. pose proof (div32 x) as Dx. pose proof (mod32 x).
    symmetry. apply (N.div_unique _ _ _ (x mod 32)); [assumption|]. assert (a <= x / 32) by (apply N.div_le_lower_bound; lia). lia. }
  rewrite !D in E1 by assumption. assert (a <= i / 32) by (apply N.div_le_lower_bound; lia).
  assert (a <= j / 32) by (apply N.div_le_lower_bound; lia). lia.
Qed.

(** Replacing the word of index [i]. *)
Lemma has_wr s i v' ones : bs_wf s -> b_lo s <= i -> i < b_up s ->
  forall j, has (mkbs (b_lo s) (b_up s) (wr (b_words s) ((i - b_lo s) / 32) v') ones) j =
    if (b_lo s <=? j) && (j <? b_up s) && ((j - b_lo s) / 32 =? (i - b_lo s) / 32) then N.testbit v' (j mod 32) else has s j.
Proof.
  intros Hwf H1 H2 j. unfold has. cbn [b_lo b_up b_words].
  destruct ((b_lo s <=? j) && (j <? b_up s)) eqn:Eb; cbn [andb]; [|reflexivity].
  apply andb_true_iff in Eb. destruct Eb as [J1 J2]. apply N.leb_le in J1. apply N.ltb_lt in J2.
  destruct (wf_block s i Hwf H1 H2) as [_ Li]. destruct (wf_block s j Hwf J1 J2) as [_ Lj].
  destruct (rd_in (wr (b_words s) ((i - b_lo s) / 32) v') ((j - b_lo s) / 32)) as [x Hx]; [now rewrite wr_length|].
  rewrite (rd_nth _ _ _ Hx). rewrite rd_wr in Hx by exact Li.
  destruct (N.eqb_spec ((j - b_lo s) / 32) ((i - b_lo s) / 32)) as [E|E]; [congruence|].
  now rewrite (rd_nth _ _ _ Hx).
Qed.

Lemma wf_wr s b v ones : bs_wf s -> v < 2 ^ 32 -> bs_wf (mkbs (b_lo s) (b_up s) (wr (b_words s) b v) ones).
Proof.
  intros [Ha [He [Hle [Hm [Hl F]]]]] Hv. unfold bs_wf. cbn [b_lo b_up b_words]. rewrite wr_length.
  repeat (split; [assumption|]). apply Forall_forall. intros x Hx. apply In_nth_error in Hx. destruct Hx as [k Hk].
  unfold wr in Hk. rewrite nth_error_upd in Hk. rewrite Forall_forall in F.
  destruct (Nat.eqb _ _); [destruct (Nat.ltb _ _); congruence|]. eapply F, nth_error_In, Hk.
Qed.

(** *** the element list *)
Local Open Scope nat_scope.
Definition bitn (ws : list N) (j : nat) : bool :=
  match nth_error ws (j / 32) with Some v => N.testbit v (N.of_nat (j mod 32)) | None => false end.
Definition elems (s : bitset) : list N :=
  map (fun j => (b_lo s + N.of_nat j)%N) (filter (bitn (b_words s)) (seq 0 (32 * length (b_words s)))).

Lemma elems_In s i : bs_wf s -> (In i (elems s) <-> has s i = true).
Proof.
  intros Hwf. unfold elems. rewrite in_map_iff. pose proof (wf_length s Hwf) as Hlen.
  assert (A : exists a, b_lo s = (32 * a)%N) by apply Hwf. destruct A as [a Ha].
  assert (K : forall j, j < 32 * length (b_words s) -> bitn (b_words s) j = has s (b_lo s + N.of_nat j)%N).
  { intros j Hj. unfold bitn, has.
    assert (E1 : (b_lo s <=? b_lo s + N.of_nat j)%N = true) by lia.
    assert (E2 : (b_lo s + N.of_nat j <? b_up s)%N = true) by lia. rewrite E1, E2. cbn [andb].
    replace (b_lo s + N.of_nat j - b_lo s)%N with (N.of_nat j) by lia.
    assert (Ed : N.to_nat (N.of_nat j / 32) = j / 32).
    { change 32%N with (N.of_nat 32). rewrite <- Nnat.Nat2N.inj_div. apply Nnat.Nat2N.id. }
    rewrite Ed. assert (Hb : j / 32 < length (b_words s)) by (apply Nat.div_lt_upper_bound; lia).
    destruct (nth_error_ex _ _ Hb) as [v Hv]. rewrite Hv, (nth_error_nth _ _ 0%N Hv). f_equal.
    rewrite Ha, N.add_comm, N.mul_comm, N.mod_add by discriminate. change 32%N with (N.of_nat 32). apply Nnat.Nat2N.inj_mod. }
  split.
  - intros [j [<- Hj]]. apply filter_In in Hj. destruct Hj as [Hj Hb]. apply in_seq in Hj. rewrite K in Hb by lia. exact Hb.
  - intros H. pose proof (has_bounds _ _ H) as [H1 H2]. exists (N.to_nat (i - b_lo s)).
    assert (E : (b_lo s + N.of_nat (N.to_nat (i - b_lo s)))%N = i) by lia. split; [exact E|].
    apply filter_In. split; [apply in_seq; lia|]. rewrite K by lia. now rewrite E.
Qed.

Lemma elems_NoDup s : NoDup (elems s).
Proof.
  unfold elems. apply FinFun.Injective_map_NoDup; [intros x y H; lia|]. apply NoDup_filter, seq_NoDup.
Qed.

Definition counted (s : bitset) : Prop := b_ones s = N.of_nat (length (elems s)).

(** Any duplicate-free list with the same elements has the same length. *)
Lemma count_of s l : bs_wf s -> NoDup l -> (forall i, In i l <-> has s i = true) -> length (elems s) = length l.
Proof.
  intros Hwf Hn Hl. apply NoDup_same_length; [apply elems_NoDup|exact Hn|]. intros i. rewrite elems_In, Hl by exact Hwf. reflexivity.
Qed.

(** The sum of the word counts is the number of elements. *)
Lemma filter_map_length {A B} (f : B -> bool) (g : A -> B) l : length (filter f (map g l)) = length (filter (fun x => f (g x)) l).
Proof. induction l as [|x l IH]; [reflexivity|]. cbn [map filter]. destruct (f (g x)); cbn [length]; congruence. Qed.

Lemma filter_ext_len {A} (f g : A -> bool) l : (forall x, In x l -> f x = g x) -> length (filter f l) = length (filter g l).
Proof. intros H. now rewrite (filter_ext_in f g l H). Qed.

Lemma bitn_count ws : length (filter (bitn ws) (seq 0 (32 * length ws))) = list_sum (map (fun v => ones_below v 32) ws).
Proof.
  induction ws as [|v ws IH]; [reflexivity|]. cbn [length map]. 
  change (list_sum (ones_below v 32 :: map (fun v0 => ones_below v0 32) ws)) with (ones_below v 32 + list_sum (map (fun v0 => ones_below v0 32) ws)).
  replace (32 * S (length ws)) with (32 + 32 * length ws) by lia. rewrite seq_app, filter_app, app_length.
  rewrite <- IH. f_equal.
  - unfold ones_below. rewrite filter_map_length. apply filter_ext_len. intros j Hj. apply in_seq in Hj.
    unfold bitn. rewrite Nat.div_small, Nat.mod_small by lia. reflexivity.
  - assert (S : forall m, seq (0 + 32) m = map (fun j => 32 + j) (seq 0 m)).
    { intros m. assert (G : forall a, seq (a + 32) m = map (fun j => 32 + j) (seq a m)); [|apply G].
      induction m as [|m IHm]; intros a; [reflexivity|]. cbn [seq map]. f_equal; [lia|]. apply (IHm (S a)). }
    rewrite S, filter_map_length. apply filter_ext_len. intros j _. unfold bitn.
    replace (32 + j) with (j + 1 * 32) by lia. rewrite Nat.div_add, Nat.mod_add by lia.
    rewrite Nat.add_1_r. reflexivity.
Qed.

Lemma sum_pop_eq ws : Forall (fun v => (v < 2 ^ 32)%N) ws -> sum_pop ws = N.of_nat (list_sum (map (fun v => ones_below v 32) ws)).
Proof.
  intros F. unfold sum_pop. assert (G : forall a, fold_left (fun a v => (a + popcount 32 v)%N) ws a = (a + N.of_nat (list_sum (map (fun v => ones_below v 32) ws)))%N).
  { induction F as [|v ws Hv F IH]; intros a; [cbn; lia|]. cbn [fold_left map].
    change (list_sum (ones_below v 32 :: map (fun v0 => ones_below v0 32) ws)) with (ones_below v 32 + list_sum (map (fun v0 => ones_below v0 32) ws)).
    rewrite IH, (popcount32_correct v Hv). lia. }
  rewrite G. lia.
Qed.

Lemma sum_pop_elems s : bs_wf s -> sum_pop (b_words s) = N.of_nat (length (elems s)).
Proof.
  intros Hwf. rewrite sum_pop_eq by apply Hwf. unfold elems. rewrite map_length, bitn_count. reflexivity.
Qed.

Lemma elems_small s : bs_wf s -> (N.of_nat (length (elems s)) <= b_up s - b_lo s)%N.
Proof.
  intros Hwf. rewrite (wf_length s Hwf). unfold elems. rewrite map_length.
  assert (length (filter (bitn (b_words s)) (seq 0 (32 * length (b_words s)))) <= 32 * length (b_words s)); [|lia].
  rewrite <- (seq_length (32 * length (b_words s)) 0) at 2. generalize (seq 0 (32 * length (b_words s))). intros l.
  induction l as [|x l IH]; cbn; [lia|]. destruct (bitn _ x); cbn; lia.
Qed.

(** *** the constructor *)
Local Open Scope N_scope.
Lemma bs_new_spec lower upper : lower <= upper -> upper <= 2 ^ 32 ->
  exists s, bs_new lower upper = Val s /\ bs_wf s /\ (forall i, has s i = false) /\ counted s /\
    b_lo s = 32 * (lower / 32) /\ b_up s = 32 * ((upper + 31) / 32) /\ b_lo s <= lower /\ upper <= b_up s.
Proof.
  intros Hle Hm. unfold bs_new, bs_new_with. 
  assert (Eu : round_up upper = 32 * ((upper + 31) / 32)).
  { unfold round_up, wrap. rewrite N.mod_small by lia. lia. }
  assert (El : round_lo lower = 32 * (lower / 32)) by (unfold round_lo; lia).
  rewrite Eu, El.
  assert (H1 : 32 * (lower / 32) <= lower) by (pose proof (div32 lower); lia).
  assert (H2 : upper <= 32 * ((upper + 31) / 32)) by (pose proof (div32 (upper + 31)); pose proof (mod32 (upper + 31)); lia).
  assert (H3 : 32 * ((upper + 31) / 32) <= 2 ^ 32).
  { assert ((upper + 31) / 32 <= 2 ^ 27); [|lia]. apply N.lt_succ_r. apply N.div_lt_upper_bound; lia. }
  destruct (N.ltb_spec (32 * ((upper + 31) / 32)) (32 * (lower / 32))); [lia|].
  set (lo := 32 * (lower / 32)) in *. set (up := 32 * ((upper + 31) / 32)) in *.
  eexists. split; [reflexivity|].
  assert (Hh : forall i, has (mkbs lo up (repeat 0 (N.to_nat ((up - lo) / 32))) 0) i = false).
  { intros i. unfold has. cbn [b_words]. rewrite nth_repeat, N.bits_0, !andb_false_r. reflexivity. }
  assert (Hwf : bs_wf (mkbs lo up (repeat 0 (N.to_nat ((up - lo) / 32))) 0)).
  { unfold bs_wf. cbn [b_lo b_up b_words]. rewrite repeat_length. split; [exists (lower / 32); reflexivity|].
    split; [exists ((upper + 31) / 32); reflexivity|]. repeat (split; [lia|]). apply Forall_forall. intros x Hx. apply repeat_spec in Hx. subst. lia. }
  split; [exact Hwf|]. split; [exact Hh|]. split.
  - unfold counted. cbn [b_ones]. rewrite (count_of _ []); [reflexivity|exact Hwf|constructor|].
    intros i. rewrite Hh. split; [intros []|discriminate].
  - cbn [b_lo b_up]. repeat split; assumption.
Qed.

(** *** insert and erase *)
Lemma bmask_lt i : bmask i < 2 ^ 32.
Proof. unfold bmask. apply N.pow_lt_mono_r; [lia|apply mod32]. Qed.

Lemma bmask_bits i j : N.testbit (bmask i) (j mod 32) = (j mod 32 =? i mod 32).
Proof.
  unfold bmask. destruct (N.eqb_spec (j mod 32) (i mod 32)) as [->|H]; [apply N.pow2_bits_true|apply N.pow2_bits_false; congruence].
Qed.

Lemma testAndSet_spec s i : bs_wf s -> b_lo s <= i -> i < b_up s ->
  exists s', bs_testAndSet s i = Val (s', has s i) /\ bs_wf s' /\ b_lo s' = b_lo s /\ b_up s' = b_up s /\
    (forall j, has s' j = (j =? i) || has s j) /\ (counted s -> counted s').
Proof.
  intros Hwf H1 H2. destruct (wf_read s i Hwf H1 H2) as [v [E [Hv [Hh [Hlen Eb]]]]].
  unfold bs_testAndSet. rewrite isSet_has by exact Hwf. cbn [rbind]. rewrite E. rewrite Eb.
  eexists. split; [reflexivity|].
  assert (Hs : forall j, has (mkbs (b_lo s) (b_up s) (wr (b_words s) ((i - b_lo s) / 32) (N.lor v (bmask i)))
      (wrap 64 (b_ones s + (if has s i then 0 else 1)))) j = (j =? i) || has s j).
  { intros j. rewrite has_wr by assumption.
    destruct ((b_lo s <=? j) && (j <? b_up s)) eqn:Ej; cbn [andb].
    - apply andb_true_iff in Ej. destruct Ej as [J1 J2]. apply N.leb_le in J1. apply N.ltb_lt in J2.
      destruct (wf_read s j Hwf J1 J2) as [vj [Ej [_ [Hj [_ Ebj]]]]].
      destruct (N.eqb_spec ((j - b_lo s) / 32) ((i - b_lo s) / 32)) as [Ed|Ed].
      + rewrite N.lor_spec, bmask_bits. assert (vj = v) by (rewrite Eb in E; rewrite Ebj, Ed in Ej; congruence). subst vj. rewrite <- Hj.
        destruct (N.eqb_spec (j mod 32) (i mod 32)) as [Em|Em].
        * assert (Eq : j = i). { destruct Hwf as [[a Ha] _]. apply (idx_eq (b_lo s) a); auto. }
          subst j. rewrite N.eqb_refl. apply orb_true_r.
        * destruct (N.eqb_spec j i); [congruence|]. apply orb_false_r.
      + destruct (N.eqb_spec j i); [congruence|reflexivity].
    - destruct (N.eqb_spec j i) as [->|]; [|reflexivity]. exfalso. apply N.leb_le in H1. apply N.ltb_lt in H2. now rewrite H1, H2 in Ej. }
  assert (Hwf' : bs_wf (mkbs (b_lo s) (b_up s) (wr (b_words s) ((i - b_lo s) / 32) (N.lor v (bmask i)))
      (wrap 64 (b_ones s + (if has s i then 0 else 1))))).
  { apply wf_wr; [exact Hwf|]. apply lor_lt; [exact Hv|apply bmask_lt]. }
  split; [exact Hwf'|]. split; [reflexivity|]. split; [reflexivity|]. split; [exact Hs|].
  intros Hc. unfold counted in *. 
  pose proof (elems_small s Hwf) as Hsm. assert (Hb : b_up s <= 2 ^ 32) by apply Hwf.
  set (r := mkbs _ _ _ _) in *. change (b_ones r) with (wrap 64 (b_ones s + (if has s i then 0 else 1))). clearbody r. rewrite Hc.
  rewrite wrap_id by (destruct (has s i); lia).
  destruct (has s i) eqn:Ei.
  - rewrite (count_of _ (elems s) Hwf' (elems_NoDup s)); [lia|]. intros j. rewrite Hs, (elems_In s j Hwf).
    destruct (N.eqb_spec j i) as [->|]; [rewrite Ei|]; tauto.
  - rewrite (count_of _ (i :: elems s) Hwf'); [cbn [length]; lia| |].
    + constructor; [|apply elems_NoDup]. rewrite elems_In by exact Hwf. congruence.
    + intros j. cbn [In]. rewrite Hs, (elems_In s j Hwf), orb_true_iff, N.eqb_eq. intuition congruence.
Qed.

Lemma testAndUnset_spec s i : bs_wf s -> b_lo s <= i -> i < b_up s ->
  exists s', bs_testAndUnset s i = Val (s', has s i) /\ bs_wf s' /\ b_lo s' = b_lo s /\ b_up s' = b_up s /\
    (forall j, has s' j = negb (j =? i) && has s j) /\ (counted s -> counted s').
Proof.
  intros Hwf H1 H2. destruct (wf_read s i Hwf H1 H2) as [v [E [Hv [Hh [Hlen Eb]]]]].
  unfold bs_testAndUnset. rewrite isSet_has by exact Hwf. cbn [rbind]. rewrite E. rewrite Eb.
  eexists. split; [reflexivity|].
  assert (Hs : forall j, has (mkbs (b_lo s) (b_up s) (wr (b_words s) ((i - b_lo s) / 32) (N.land v (not32 (bmask i))))
      (wrap 64 (b_ones s + 2 ^ 64 - (if has s i then 1 else 0)))) j = negb (j =? i) && has s j).
  { intros j. rewrite has_wr by assumption.
    destruct ((b_lo s <=? j) && (j <? b_up s)) eqn:Ej; cbn [andb].
    - apply andb_true_iff in Ej. destruct Ej as [J1 J2]. apply N.leb_le in J1. apply N.ltb_lt in J2.
      destruct (wf_read s j Hwf J1 J2) as [vj [Ej [_ [Hj [_ Ebj]]]]].
      destruct (N.eqb_spec ((j - b_lo s) / 32) ((i - b_lo s) / 32)) as [Ed|Ed].
      + rewrite N.land_spec, not32_bits, bmask_bits by apply mod32.
        assert (vj = v) by (rewrite Eb in E; rewrite Ebj, Ed in Ej; congruence). subst vj. rewrite <- Hj.
        destruct (N.eqb_spec (j mod 32) (i mod 32)) as [Em|Em].
        * assert (Eq : j = i). { destruct Hwf as [[a Ha] _]. apply (idx_eq (b_lo s) a); auto. }
          subst j. rewrite N.eqb_refl. apply andb_false_r.
        * destruct (N.eqb_spec j i); [congruence|]. apply andb_true_r.
      + destruct (N.eqb_spec j i); [congruence|reflexivity].
    - destruct (N.eqb_spec j i) as [->|]; [|reflexivity]. exfalso. apply N.leb_le in H1. apply N.ltb_lt in H2. now rewrite H1, H2 in Ej. }
  assert (Hwf' : bs_wf (mkbs (b_lo s) (b_up s) (wr (b_words s) ((i - b_lo s) / 32) (N.land v (not32 (bmask i))))
      (wrap 64 (b_ones s + 2 ^ 64 - (if has s i then 1 else 0))))).
  { apply wf_wr; [exact Hwf|]. now apply land_lt. }
  split; [exact Hwf'|]. split; [reflexivity|]. split; [reflexivity|]. split; [exact Hs|].
  intros Hc. unfold counted in *. 
  pose proof (elems_small s Hwf) as Hsm. assert (Hb : b_up s <= 2 ^ 32) by apply Hwf.
  set (r := mkbs _ _ _ _) in *. change (b_ones r) with (wrap 64 (b_ones s + 2 ^ 64 - (if has s i then 1 else 0))). clearbody r. rewrite Hc.
  destruct (has s i) eqn:Ei.
  - assert (Hin : In i (elems s)) by (now apply elems_In).
    pose proof (elems_NoDup s) as Hnd. destruct (in_split _ _ Hin) as [l1 [l2 El]].
    assert (Hnd' : NoDup (l1 ++ l2)) by (rewrite El in Hnd; now apply NoDup_remove_1 in Hnd).
    assert (Hni : ~ In i (l1 ++ l2)) by (rewrite El in Hnd; now apply NoDup_remove_2 in Hnd).
    rewrite (count_of _ (l1 ++ l2) Hwf' Hnd').
    + rewrite El, !app_length in *. cbn [length] in *. unfold wrap.
      replace (N.of_nat (length l1 + S (length l2)) + 2 ^ 64 - 1) with (N.of_nat (length l1 + length l2) + 1 * 2 ^ 64) by lia.
      rewrite N.mod_add by discriminate. apply N.mod_small. lia.
    + intros j. rewrite Hs, andb_true_iff, <- (elems_In s j Hwf), El, negb_true_iff, N.eqb_neq, !in_app_iff. cbn [In].
      rewrite in_app_iff in Hni. split; [intros H; split; [intros ->; tauto|tauto]|intros [H [H'|[H'|H']]]; [tauto|congruence|tauto]].
  - rewrite (count_of _ (elems s) Hwf' (elems_NoDup s)).
    + unfold wrap. rewrite N.sub_0_r. rewrite N.add_comm. replace (2 ^ 64 + N.of_nat (length (elems s))) with (N.of_nat (length (elems s)) + 1 * 2 ^ 64) by lia.
      rewrite N.mod_add by discriminate. apply N.mod_small. lia.
    + intros j. rewrite Hs, (elems_In s j Hwf), andb_true_iff, negb_true_iff, N.eqb_neq.
      split; [intros H; split; [congruence|exact H]|tauto].
Qed.

Lemma testAndSet_outside s i : bs_wf s -> i < 2 ^ 32 -> ~ (b_lo s <= i < b_up s) -> bs_testAndSet s i = Undef.
Proof.
  intros Hwf Hi Ho. unfold bs_testAndSet. rewrite isSet_has by exact Hwf. cbn [rbind].
  assert (E : rd (b_words s) (bs_block s i) = None); [|now rewrite E].
  unfold rd. destruct (N.ltb_spec (bs_block s i) (N.of_nat (length (b_words s)))) as [H|H]; [|reflexivity]. exfalso. apply Ho.
  pose proof (wf_length s Hwf) as Hl. destruct Hwf as [[a Ha] [[e He] [Hle [Hm _]]]].
  destruct (N.le_gt_cases (b_lo s) i) as [H1|H1].
  - split; [exact H1|]. unfold bs_block, wrap in H. replace (i + 2 ^ 64 - b_lo s) with (i - b_lo s + 1 * 2 ^ 64) in H by lia.
    rewrite N.mod_add, N.mod_small in H by lia. pose proof (div32 (i - b_lo s)). pose proof (mod32 (i - b_lo s)). lia.
  - exfalso. unfold bs_block, wrap in H. rewrite N.mod_small in H by lia.
    pose proof (div32 (i + 2 ^ 64 - b_lo s)). pose proof (mod32 (i + 2 ^ 64 - b_lo s)). lia.
Qed.

(** *** block-wise operations *)
Lemma mapr_val {A B} (f : A -> res B) (g : A -> B) l : (forall x, In x l -> f x = Val (g x)) -> mapr f l = Val (map g l).
Proof.
  induction l as [|x l IH]; intros H; [reflexivity|]. cbn [mapr map]. rewrite (H x) by now left. cbn [rbind].
  rewrite IH by (intros; apply H; now right). reflexivity.
Qed.

(** The word of [s] at an aligned index. *)
Definition wordf (s : bitset) (i : N) : N :=
  if (b_lo s <=? i) && (i <? b_up s) then nth (N.to_nat ((i - b_lo s) / 32)) (b_words s) 0 else 0.

Lemma word_at_val s i : bs_wf s -> word_at s i = Val (wordf s i).
Proof.
  intros Hwf. unfold word_at, wordf. destruct (N.leb_spec (b_lo s) i); cbn [andb]; [|reflexivity].
  destruct (N.ltb_spec i (b_up s)); [|reflexivity].
  destruct (wf_block s i Hwf H H0) as [_ L]. destruct (rd_in _ _ L) as [v Hv]. rewrite Hv. cbn [of_opt]. now rewrite (rd_nth _ _ _ Hv).
Qed.

Lemma wordf_lt s i : bs_wf s -> wordf s i < 2 ^ 32.
Proof.
  intros Hwf. unfold wordf. destruct (_ && _); [|lia]. destruct Hwf as [_ [_ [_ [_ [_ F]]]]]. rewrite Forall_forall in F.
  destruct (nth_in_or_default (N.to_nat ((i - b_lo s) / 32)) (b_words s) 0) as [H|H]; [now apply F|]. rewrite H. lia.
Qed.

Lemma wordf_bit s k : bs_wf s -> N.testbit (wordf s (32 * (k / 32))) (k mod 32) = has s k.
Proof.
  intros [[a Ha] [[e He] _]]. unfold wordf, has. rewrite Ha, He.
  pose proof (div32 k) as D. pose proof (mod32 k) as M.
  destruct (N.leb_spec (32 * a) k); destruct (N.leb_spec (32 * a) (32 * (k / 32))); try lia; cbn [andb]; [|apply N.bits_0].
  destruct (N.ltb_spec k (32 * e)); destruct (N.ltb_spec (32 * (k / 32)) (32 * e)); try lia; cbn [andb]; [|apply N.bits_0].
  do 3 f_equal. replace (32 * (k / 32) - 32 * a) with ((k / 32 - a) * 32) by lia. rewrite N.div_mul by discriminate.
  symmetry. replace (k - 32 * a) with (k mod 32 + (k / 32 - a) * 32) by lia. rewrite N.div_add by discriminate.
  rewrite (N.div_small (k mod 32)) by exact M. lia.
Qed.

(** A set built block by block from a word function. *)
Definition built (lo up ones : N) (W : N -> N) : bitset :=
  mkbs lo up (map (fun k => W (lo + 32 * N.of_nat k)) (seq 0 (N.to_nat ((up - lo) / 32)))) ones.

Lemma built_wf lo up ones W a e : lo = 32 * a -> up = 32 * e -> lo <= up -> up <= 2 ^ 32 -> (forall i, W i < 2 ^ 32) ->
  bs_wf (built lo up ones W).
Proof.
  intros Ha He Hle Hm HW. unfold built, bs_wf. cbn [b_lo b_up b_words]. rewrite map_length, seq_length.
  split; [eauto|]. split; [eauto|]. repeat (split; [lia|]). apply Forall_forall. intros x Hx. apply in_map_iff in Hx.
  destruct Hx as [k [<- _]]. apply HW.
Qed.

Lemma built_has lo up ones W a e k : lo = 32 * a -> up = 32 * e -> lo <= up ->
  has (built lo up ones W) k = (lo <=? k) && (k <? up) && N.testbit (W (32 * (k / 32))) (k mod 32).
Proof.
  intros Ha He Hle. unfold has, built. cbn [b_lo b_up b_words].
  destruct (N.leb_spec lo k) as [H1|H1]; cbn [andb]; [|reflexivity]. destruct (N.ltb_spec k up) as [H2|H2]; cbn [andb]; [|reflexivity].
  pose proof (div32 k) as D. pose proof (mod32 k) as M.
  assert (Ed : (k - lo) / 32 = k / 32 - a).
  { subst lo. replace (k - 32 * a) with (k mod 32 + (k / 32 - a) * 32) by lia. rewrite N.div_add by discriminate.
    rewrite (N.div_small (k mod 32)) by exact M. lia. }
  rewrite Ed. f_equal.
  assert (Hn : (N.to_nat (k / 32 - a) < N.to_nat ((up - lo) / 32))%nat).
  { assert (Eq : (up - lo) / 32 = e - a) by (subst lo up; replace (32 * e - 32 * a) with ((e - a) * 32) by lia; apply N.div_mul; discriminate).
    lia. }
  rewrite (nth_indep _ 0 (W (lo + 32 * N.of_nat 0))) by (rewrite map_length, seq_length; exact Hn).
  rewrite (map_nth (fun k => W (lo + 32 * N.of_nat k))). rewrite seq_nth by exact Hn. f_equal. lia.
Qed.

Lemma minmax_aligned s o : bs_wf s -> bs_wf o ->
  exists a e, N.min (b_lo s) (b_lo o) = 32 * a /\ N.max (b_up s) (b_up o) = 32 * e /\
    N.min (b_lo s) (b_lo o) <= N.max (b_up s) (b_up o) /\ N.max (b_up s) (b_up o) <= 2 ^ 32.
Proof.
  intros [[a Ha] [[e He] [H1 [H2 _]]]] [[a' Ha'] [[e' He'] [H1' [H2' _]]]]. exists (N.min a a'), (N.max e e').
  rewrite Ha, Ha', He, He' in *. repeat split; lia.
Qed.

Lemma counted_pop lo up W : bs_wf (built lo up 0 W) ->
  counted (built lo up (wrap 64 (sum_pop (b_words (built lo up 0 W)))) W).
Proof.
  intros Hwf. unfold counted. rewrite (sum_pop_elems _ Hwf). pose proof (elems_small _ Hwf) as Hs. destruct Hwf as [_ [_ [H1 [H2 _]]]].
  cbn [built b_lo b_up] in *. rewrite wrap_id by lia. reflexivity.
Qed.

Lemma built_wf_ones lo up o o' W : bs_wf (built lo up o W) -> bs_wf (built lo up o' W).
Proof. exact (fun H => H). Qed.

Lemma merge_spec s o : bs_wf s -> bs_wf o ->
  exists r, bs_merge s o = Val r /\ bs_wf r /\ counted r /\ (forall i, has r i = has s i || has o i) /\
    b_lo r = N.min (b_lo s) (b_lo o) /\ b_up r = N.max (b_up s) (b_up o).
Proof.
  intros Hs Ho. destruct (minmax_aligned s o Hs Ho) as [a [e [Ha [He [Hle Hm]]]]].
  unfold bs_merge. rewrite (mapr_val _ (fun k => N.lor (wordf s (N.min (b_lo s) (b_lo o) + 32 * N.of_nat k)) (wordf o (N.min (b_lo s) (b_lo o) + 32 * N.of_nat k)))).
  2: { intros k _. rewrite !word_at_val by assumption. reflexivity. }
  cbn [rmap]. set (lo := N.min (b_lo s) (b_lo o)) in *. set (up := N.max (b_up s) (b_up o)) in *.
  set (W := fun i => N.lor (wordf s i) (wordf o i)).
  assert (Hwf : bs_wf (built lo up 0 W)).
  { apply (built_wf lo up 0 W a e); auto. intros i. apply lor_lt; now apply wordf_lt. }
  exists (built lo up (wrap 64 (sum_pop (b_words (built lo up 0 W)))) W). split; [reflexivity|].
  split; [exact Hwf|]. split; [now apply counted_pop|]. split; [|split; reflexivity].
  intros i. rewrite (built_has lo up _ W a e) by assumption. unfold W. rewrite N.lor_spec, !wordf_bit by assumption.
  destruct (has s i || has o i) eqn:E; [|apply andb_false_r]. rewrite andb_true_r.
  apply orb_true_iff in E. apply andb_true_iff. rewrite N.leb_le, N.ltb_lt.
  destruct E as [E|E]; apply has_bounds in E; subst lo up; lia.
Qed.

Lemma mergeFilter_spec s o f : bs_wf s -> bs_wf o -> bs_wf f ->
  exists r, bs_mergeFilter s o f = Val r /\ bs_wf r /\ counted r /\
    (forall i, has r i = (has s i || has o i) && negb (has f i)) /\
    b_lo r = N.min (b_lo s) (b_lo o) /\ b_up r = N.max (b_up s) (b_up o).
Proof.
  intros Hs Ho Hf. destruct (minmax_aligned s o Hs Ho) as [a [e [Ha [He [Hle Hm]]]]].
  unfold bs_mergeFilter. set (lo := N.min (b_lo s) (b_lo o)) in *. set (up := N.max (b_up s) (b_up o)) in *.
  set (W := fun i => N.land (N.lor (wordf s i) (wordf o i)) (not32 (wordf f i))).
  rewrite (mapr_val _ (fun k => W (lo + 32 * N.of_nat k))).
  2: { intros k _. rewrite !word_at_val by assumption. reflexivity. }
  cbn [rmap].
  assert (Hwf : bs_wf (built lo up 0 W)).
  { apply (built_wf lo up 0 W a e); auto. intros i. apply land_lt, lor_lt; now apply wordf_lt. }
  exists (built lo up (wrap 64 (sum_pop (b_words (built lo up 0 W)))) W). split; [reflexivity|].
  split; [exact Hwf|]. split; [now apply counted_pop|]. split; [|split; reflexivity].
  intros i. rewrite (built_has lo up _ W a e) by assumption. unfold W.
  rewrite N.land_spec, N.lor_spec, not32_bits, !wordf_bit by (assumption || apply mod32).
  destruct (has s i || has o i) eqn:E; [|apply andb_false_r]. cbn [andb].
  assert (B : (lo <=? i) && (i <? up) = true); [|now rewrite B].
  apply orb_true_iff in E. apply andb_true_iff. rewrite N.leb_le, N.ltb_lt.
  destruct E as [E|E]; apply has_bounds in E; subst lo up; lia.
Qed.

Lemma resize_spec s lower upper : bs_wf s -> lower <= 2 ^ 32 -> upper <= 2 ^ 32 ->
  exists r, bs_resize s lower upper = Val r /\ bs_wf r /\ (forall i, has r i = has s i) /\ b_ones r = b_ones s /\
    (counted s -> counted r) /\ b_lo r = N.min (b_lo s) (32 * (lower / 32)) /\ b_up r = N.max (b_up s) (32 * ((upper + 31) / 32)).
Proof.
  intros Hs Hl Hu. pose proof (wf_length s Hs) as Hlen. pose proof Hs as [[a Ha] [[e He] [Hle [Hm [Hwl F]]]]].
  unfold bs_resize.
  assert (Eu : round_up upper = 32 * ((upper + 31) / 32)).
  { unfold round_up, wrap. rewrite N.mod_small by lia. lia. }
  assert (El : round_lo lower = 32 * (lower / 32)) by (unfold round_lo; lia).
  rewrite Eu, El. set (lo := N.min (b_lo s) (32 * (lower / 32))). set (up := N.max (b_up s) (32 * ((upper + 31) / 32))).
  assert (Alo : lo = 32 * N.min a (lower / 32)) by (unfold lo; rewrite Ha, N.mul_min_distr_l; reflexivity).
  assert (Aup : up = 32 * N.max e ((upper + 31) / 32)) by (unfold up; rewrite He, N.mul_max_distr_l; reflexivity).
  assert (Hupm : up <= 2 ^ 32).
  { unfold up. assert ((upper + 31) / 32 <= 2 ^ 27) by (apply N.lt_succ_r; apply N.div_lt_upper_bound; lia). lia. }
  assert (L1 : lo <= b_lo s) by (unfold lo; lia). assert (U1 : b_up s <= up) by (unfold up; lia).
  set (a' := N.min a (lower / 32)) in *. set (e' := N.max e ((upper + 31) / 32)) in *.
  assert (Ba' : a' <= a) by (clear; unfold a'; lia). assert (Be' : e <= e') by (clear; unfold e'; lia).
  assert (Dlo : lo = N.min (b_lo s) (32 * (lower / 32))) by reflexivity. assert (Dup : up = N.max (b_up s) (32 * ((upper + 31) / 32))) by reflexivity.
  clearbody a' e' lo up. clear Eu El.
  assert (Eob : (b_lo s - lo) / 32 = a - a') by (rewrite Ha, Alo; replace (32 * a - 32 * a') with ((a - a') * 32) by lia; apply N.div_mul; discriminate).
  assert (Eoe : (b_up s - lo) / 32 = e - a') by (rewrite He, Alo; replace (32 * e - 32 * a') with ((e - a') * 32) by lia; apply N.div_mul; discriminate).
  rewrite (mapr_val _ (fun k => wordf s (lo + 32 * N.of_nat k))).
  2: { intros k _. rewrite Eob, Eoe. unfold wordf. rewrite Ha, He, Alo.
       clear Dlo Dup Hl Hu Hm Hupm Hwl F Eob Eoe. destruct (N.ltb_spec (N.of_nat k) (a - a')).
       - destruct (N.leb_spec (32 * a) (32 * a' + 32 * N.of_nat k)); [lia|reflexivity].
       - destruct (N.leb_spec (32 * a) (32 * a' + 32 * N.of_nat k)); [|lia]. cbn [andb].
         destruct (N.ltb_spec (N.of_nat k) (e - a')); destruct (N.ltb_spec (32 * a' + 32 * N.of_nat k) (32 * e)); try lia; [|reflexivity].
         replace (32 * a' + 32 * N.of_nat k - 32 * a) with ((N.of_nat k - (a - a')) * 32) by lia. rewrite N.div_mul by discriminate.
         destruct (rd_in (b_words s) (N.of_nat k - (a - a'))) as [v Hv]; [lia|]. rewrite Hv. cbn [of_opt]. now rewrite (rd_nth _ _ _ Hv). }
  cbn [rmap].
  clear Eob Eoe. assert (Hwf : bs_wf (built lo up (b_ones s) (wordf s))).
  { apply (built_wf lo up _ _ a' e'); auto; [clear - Alo Aup L1 U1 Hle; lia|]. intros i. now apply wordf_lt. }
  exists (built lo up (b_ones s) (wordf s)). split; [reflexivity|]. split; [exact Hwf|].
  assert (Hh : forall i, has (built lo up (b_ones s) (wordf s)) i = has s i).
  { intros i. rewrite (built_has lo up _ _ a' e') by (auto; clear - Alo Aup L1 U1 Hle; lia). rewrite wordf_bit by exact Hs.
    destruct (has s i) eqn:E; [|apply andb_false_r]. rewrite andb_true_r. apply has_bounds in E.
    apply andb_true_iff. rewrite N.leb_le, N.ltb_lt. clear - E L1 U1. lia. }
  split; [exact Hh|]. split; [reflexivity|]. split; [|split; first [reflexivity|assumption]].
  intros Hc. unfold counted in *. set (r := built lo up (b_ones s) (wordf s)) in *. change (b_ones r) with (b_ones s). clearbody r.
  rewrite Hc. f_equal. symmetry.
  apply count_of; [exact Hwf|apply elems_NoDup|]. intros i. rewrite Hh. now apply elems_In.
Qed.

(** *** filter *)
Lemma filter_loop_spec lo flo fws : forall n i ws ones a fa c,
  lo = 32 * a -> flo = 32 * fa -> i = 32 * c -> a <= c -> fa <= c ->
  (c - a) + N.of_nat n <= N.of_nat (length ws) -> (c - fa) + N.of_nat n <= N.of_nat (length fws) ->
  exists ws', filter_loop n lo flo i ws fws ones = Val (ws', ones + sum_pop (firstn n (skipn (N.to_nat (c - a)) ws'))) /\
    length ws' = length ws /\
    forall b, nth b ws' 0 = if (c - a <=? N.of_nat b) && (N.of_nat b <? c - a + N.of_nat n)
                            then N.land (nth b ws 0) (not32 (nth (b + N.to_nat a - N.to_nat fa) fws 0)) else nth b ws 0.
Proof.
  induction n as [|n IH]; intros i ws ones a fa c Ha Hfa Hc H1 H2 L1 L2; cbn [filter_loop].
  - exists ws. split; [rewrite firstn_O; cbn; f_equal; f_equal; lia|]. split; [reflexivity|]. intros b.
    replace ((c - a <=? N.of_nat b) && (N.of_nat b <? c - a + N.of_nat 0)) with false by lia. reflexivity.
  - assert (Eb : (i - lo) / 32 = c - a) by (subst; replace (32 * c - 32 * a) with ((c - a) * 32) by lia; apply N.div_mul; discriminate).
    assert (Ef : (i - flo) / 32 = c - fa) by (subst; replace (32 * c - 32 * fa) with ((c - fa) * 32) by lia; apply N.div_mul; discriminate).
    rewrite Eb, Ef. destruct (rd_in ws (c - a)) as [v Hv]; [lia|]. destruct (rd_in fws (c - fa)) as [z Hz]; [lia|]. rewrite Hv, Hz.
    set (v' := N.land v (not32 z)).
    destruct (IH (i + 32) (wr ws (c - a) v') (ones + popcount 32 v') a fa (c + 1)) as [ws' [E [Hl Hn]]]; auto; try lia; try (rewrite wr_length; lia).
    rewrite wr_length in Hl. assert (Lc : (N.to_nat (c - a) < length ws')%nat) by lia.
    assert (Hnv : nth (N.to_nat (c - a)) ws' 0 = v').
    { rewrite Hn. replace ((c + 1 - a <=? N.of_nat (N.to_nat (c - a))) && _) with false by lia.
      unfold wr. apply nth_error_nth. apply nth_error_upd_eq. lia. }
    exists ws'. split; [|split; [exact Hl|]].
    + rewrite E. do 2 f_equal. 
      assert (S : skipn (N.to_nat (c - a)) ws' = v' :: skipn (N.to_nat (c + 1 - a)) ws').
      { replace (N.to_nat (c + 1 - a)) with (S (N.to_nat (c - a))) by lia. rewrite <- Hnv. clear - Lc.
        revert Lc. generalize (N.to_nat (c - a)). intros m. revert ws'. induction m as [|m IHm]; intros [|x l] H; cbn in *; try lia; [reflexivity|].
        apply IHm. lia. }
      rewrite S. cbn [firstn]. unfold sum_pop. cbn [fold_left].
      assert (G : forall l x, fold_left (fun a v => a + popcount 32 v) l x = x + fold_left (fun a v => a + popcount 32 v) l 0).
      { induction l as [|y l IHl]; intros x; cbn [fold_left]; [lia|]. rewrite IHl, (IHl (0 + _)). lia. }
      rewrite (G _ (0 + popcount 32 v')). lia.
    + intros b. rewrite Hn. destruct (Nat.eq_dec b (N.to_nat (c - a))) as [->|Hb].
      * replace ((c + 1 - a <=? N.of_nat (N.to_nat (c - a))) && (N.of_nat (N.to_nat (c - a)) <? c + 1 - a + N.of_nat n)) with false by lia.
        replace ((c - a <=? N.of_nat (N.to_nat (c - a))) && (N.of_nat (N.to_nat (c - a)) <? c - a + N.of_nat (S n))) with true by lia.
        assert (E1 : nth (N.to_nat (c - a)) (wr ws (c - a) v') 0 = v') by (unfold wr; apply nth_error_nth, nth_error_upd_eq; lia).
        rewrite E1. unfold v'. f_equal; [symmetry; now apply rd_nth|]. f_equal. symmetry.
        replace (N.to_nat (c - a) + N.to_nat a - N.to_nat fa)%nat with (N.to_nat (c - fa)) by lia. now apply rd_nth.
      * assert (E1 : nth b (wr ws (c - a) v') 0 = nth b ws 0).
        { unfold wr. destruct (Nat.lt_ge_cases b (length ws)).
          - destruct (nth_error_ex ws b) as [x Hx]; [assumption|]. rewrite (nth_error_nth _ _ _ Hx). apply nth_error_nth.
            rewrite nth_error_upd_neq by lia. exact Hx.
          - rewrite !nth_overflow; rewrite ?upd_length; auto. }
        rewrite E1.
        replace ((c - a <=? N.of_nat b) && (N.of_nat b <? c - a + N.of_nat (S n))) with ((c + 1 - a <=? N.of_nat b) && (N.of_nat b <? c + 1 - a + N.of_nat n)) by lia.
        reflexivity.
Qed.

Lemma sum_pop_0 l : (forall v, In v l -> v = 0) -> sum_pop l = 0.
Proof.
  intros H. unfold sum_pop. induction l as [|v l IH]; [reflexivity|]. cbn [fold_left]. rewrite (H v) by now left.
  change (0 + popcount 32 0) with 0. apply IH. intros; apply H; now right.
Qed.

Lemma blk_in a c d q : a <= c -> c <= q -> q < d ->
  (c - a <=? N.of_nat (N.to_nat (q - a))) && (N.of_nat (N.to_nat (q - a)) <? c - a + (d - c)) = true.
Proof. lia. Qed.
Lemma blk_out a c d q : a <= c -> a <= q -> q < c \/ d <= q ->
  (c - a <=? N.of_nat (N.to_nat (q - a))) && (N.of_nat (N.to_nat (q - a)) <? c - a + (d - c)) = false.
Proof. lia. Qed.

Lemma filter_spec s f : bs_wf s -> bs_wf f ->
  exists r, bs_filter s f = Val r /\ bs_wf r /\ (forall i, has r i = has s i && negb (has f i)) /\
    b_lo r = b_lo s /\ b_up r = b_up s /\
    b_ones r = N.of_nat (length (filter (fun i => (b_lo f <=? i) && (i <? b_up f)) (elems r))) /\
    (b_lo f <= b_lo s -> b_up s <= b_up f -> counted r).
Proof.
  intros Hs Hf. pose proof (wf_length s Hs) as Ls. pose proof (wf_length f Hf) as Lf.
  pose proof Hs as [[a Ha] [[e He] [Hle [Hm [_ Fs]]]]]. pose proof Hf as [[fa Hfa] [[fe Hfe] [Hfle [Hfm _]]]].
  unfold bs_filter. set (c := N.max a fa). set (d := N.min e fe).
  assert (Ea : N.max (b_lo s) (b_lo f) = 32 * c) by (rewrite Ha, Hfa; unfold c; now rewrite N.mul_max_distr_l).
  assert (Ee : N.min (b_up s) (b_up f) = 32 * d) by (rewrite He, Hfe; unfold d; now rewrite N.mul_min_distr_l).
  rewrite Ea, Ee. clear Ea Ee.
  assert (Hc : a <= c /\ fa <= c /\ (c = a \/ c = fa)) by (clear; lia).
  assert (Hd : d <= e /\ d <= fe /\ (d = e \/ d = fe)) by (clear; lia). clearbody c d.
  assert (En : (32 * d - 32 * c + 31) / 32 = d - c).
  { replace (32 * d - 32 * c + 31) with (31 + (d - c) * 32) by lia. rewrite N.div_add by discriminate. reflexivity. }
  rewrite En.
  (* an empty intersection runs no iteration *)
  assert (Hloop : exists ws', filter_loop (N.to_nat (d - c)) (b_lo s) (b_lo f) (32 * c) (b_words s) (b_words f) 0 =
      Val (ws', sum_pop (firstn (N.to_nat (d - c)) (skipn (N.to_nat (c - a)) ws'))) /\
    length ws' = length (b_words s) /\
    forall b, nth b ws' 0 = if (c - a <=? N.of_nat b) && (N.of_nat b <? c - a + (d - c))
                            then N.land (nth b (b_words s) 0) (not32 (nth (b + N.to_nat a - N.to_nat fa) (b_words f) 0)) else nth b (b_words s) 0).
  { destruct (N.le_gt_cases d c) as [Hdc|Hdc].
    - replace (d - c) with 0 by lia. exists (b_words s). split; [reflexivity|]. split; [reflexivity|]. intros b.
      replace ((c - a <=? N.of_nat b) && (N.of_nat b <? c - a + 0)) with false by lia. reflexivity.
    - destruct (filter_loop_spec (b_lo s) (b_lo f) (b_words f) (N.to_nat (d - c)) (32 * c) (b_words s) 0 a fa c) as [ws' [E [Hl Hn]]]; auto; try lia.
      exists ws'. split; [rewrite E; reflexivity|]. split; [exact Hl|]. intros b. rewrite Hn.
      replace (N.of_nat (N.to_nat (d - c))) with (d - c) by lia. reflexivity. }
  destruct Hloop as [ws' [E [Hl Hn]]]. rewrite E. cbn [rmap fst snd].
  set (ones := wrap 64 (sum_pop (firstn (N.to_nat (d - c)) (skipn (N.to_nat (c - a)) ws')))).
  exists (mkbs (b_lo s) (b_up s) ws' ones). split; [reflexivity|].
  assert (F' : Forall (fun v => v < 2 ^ 32) ws').
  { apply Forall_forall. intros x Hx. destruct (In_nth _ _ 0 Hx) as [b [Hb Ex]]. rewrite Hn in Ex. subst x.
    assert (nth b (b_words s) 0 < 2 ^ 32) by (rewrite Forall_forall in Fs; apply Fs, nth_In; lia).
    destruct (_ && _); [now apply land_lt|assumption]. }
  assert (Hwf : bs_wf (mkbs (b_lo s) (b_up s) ws' ones)).
  { unfold bs_wf. cbn [b_lo b_up b_words]. rewrite Hl. split; [eauto|]. split; [eauto|].
    split; [lia|]. split; [lia|]. split; [apply Hs|exact F']. }
  assert (Hh : forall i, has (mkbs (b_lo s) (b_up s) ws' ones) i = has s i && negb (has f i)).
  { intros i. unfold has at 1 2. cbn [b_lo b_up b_words]. destruct (N.leb_spec (b_lo s) i) as [H1|H1]; cbn [andb]; [|reflexivity].
    destruct (N.ltb_spec i (b_up s)) as [H2|H2]; cbn [andb]; [|reflexivity].
    pose proof (div32 i) as D. pose proof (mod32 i) as M.
    assert (Ed : (i - b_lo s) / 32 = i / 32 - a).
    { rewrite Ha. replace (i - 32 * a) with (i mod 32 + (i / 32 - a) * 32) by lia. rewrite N.div_add by discriminate.
      rewrite (N.div_small (i mod 32)) by exact M. lia. }
    rewrite Ed, Hn. assert (a <= i / 32) by lia. assert (i / 32 < e) by lia.
    unfold has. rewrite Hfa, Hfe.
    destruct (N.leb_spec (32 * fa) i) as [F1|F1]; cbn [andb].
    - destruct (N.ltb_spec i (32 * fe)) as [F2|F2]; cbn [andb].
      + rewrite blk_in; [|lia|clear - D M F1 H Hc; lia|clear - D M F2 H0 Hd; lia].
        rewrite N.land_spec, not32_bits by apply mod32. do 4 f_equal.
        replace (i - 32 * fa) with (i mod 32 + (i / 32 - fa) * 32) by (clear - D F1 M; lia). rewrite N.div_add by discriminate.
        rewrite (N.div_small (i mod 32)) by exact M. clear - D M F1 H. lia.
      + rewrite blk_out; [|lia|exact H|right; clear - D M F2 Hd; lia]. cbn [negb]. symmetry. apply andb_true_r.
    - rewrite blk_out; [|lia|exact H|left; clear - D M F1 Hc; lia]. cbn [negb]. symmetry. apply andb_true_r. }
  split; [exact Hwf|]. split; [exact Hh|]. split; [reflexivity|]. split; [reflexivity|].
  assert (Hones : b_ones (mkbs (b_lo s) (b_up s) ws' ones) =
     N.of_nat (length (filter (fun i => (b_lo f <=? i) && (i <? b_up f)) (elems (mkbs (b_lo s) (b_up s) ws' ones))))).
  { transitivity (wrap 64 (sum_pop (firstn (N.to_nat (d - c)) (skipn (N.to_nat (c - a)) ws')))); [reflexivity|].
    (* the counted words form a bit set of their own *)
    destruct (N.le_gt_cases d c) as [Hdc|Hdc].
    - replace (d - c) with 0 by lia. change (N.to_nat 0) with 0%nat. rewrite firstn_O. change (wrap 64 (sum_pop [])) with 0.
      assert (Z : filter (fun i => (b_lo f <=? i) && (i <? b_up f)) (elems (mkbs (b_lo s) (b_up s) ws' ones)) = []); [|rewrite Z; reflexivity].
      destruct (filter _ _) as [|x l] eqn:El; [reflexivity|]. exfalso.
      assert (Hx : In x (x :: l)) by now left. rewrite <- El in Hx. apply filter_In in Hx. destruct Hx as [Hx1 Hx2].
      apply elems_In in Hx1; [|exact Hwf]. apply has_bounds in Hx1. cbn [b_lo b_up] in Hx1. lia.
    - set (sub := mkbs (32 * c) (32 * d) (firstn (N.to_nat (d - c)) (skipn (N.to_nat (c - a)) ws')) 0).
      assert (Lsub : length (b_words sub) = N.to_nat (d - c)).
      { cbn [sub b_words]. rewrite firstn_length, skipn_length, Hl. lia. }
      assert (Wsub : bs_wf sub).
      { unfold bs_wf. cbn [sub b_lo b_up] in *. split; [eauto|]. split; [eauto|]. split; [lia|]. split; [lia|]. split.
        - rewrite Lsub. replace (32 * d - 32 * c) with ((d - c) * 32) by lia. rewrite N.div_mul by discriminate. lia.
        - apply Forall_forall. intros x Hx. cbn [sub b_words] in Hx. rewrite Forall_forall in F'. apply F'.
          rewrite <- (firstn_skipn (N.to_nat (c - a)) ws'). apply in_or_app. right.
          rewrite <- (firstn_skipn (N.to_nat (d - c)) (skipn (N.to_nat (c - a)) ws')). apply in_or_app. now left. }
      change (firstn (N.to_nat (d - c)) (skipn (N.to_nat (c - a)) ws')) with (b_words sub). rewrite (sum_pop_elems sub Wsub).
      pose proof (elems_small sub Wsub) as Sm. cbn [sub b_lo b_up] in Sm. rewrite wrap_id by lia. f_equal.
      apply NoDup_same_length; [apply elems_NoDup|apply NoDup_filter, elems_NoDup|].
      intros i. rewrite filter_In, !elems_In by assumption. rewrite andb_true_iff, N.leb_le, N.ltb_lt.
      assert (Hin : 32 * c <= i -> i < 32 * d -> has sub i = has (mkbs (b_lo s) (b_up s) ws' ones) i).
      { intros I1 I2. unfold has. cbn [sub b_lo b_up b_words].
        assert (Ca : a <= c) by (clear - Hc; lia). assert (De : d <= e) by (clear - Hd; lia).
        pose proof (div32 i) as D. pose proof (mod32 i) as M.
        assert (Q1 : c <= i / 32) by (clear - I1 D M; lia). assert (Q2 : i / 32 < d) by (clear - I2 D M; lia).
        assert (Lw : N.of_nat (length (b_words s)) = e - a) by (clear - Ls Ha He; lia).
        replace ((32 * c <=? i) && (i <? 32 * d)) with true by (clear - I1 I2; lia).
        replace ((b_lo s <=? i) && (i <? b_up s)) with true by (clear - I1 I2 Ha He Ca De; lia).
        cbn [andb]. f_equal.
        assert (D1 : forall q, q <= i / 32 -> (i - 32 * q) / 32 = i / 32 - q).
        { intros q Hq. replace (i - 32 * q) with (i mod 32 + (i / 32 - q) * 32) by (clear - D M Hq; lia). rewrite N.div_add by discriminate.
          rewrite (N.div_small (i mod 32)) by exact M. reflexivity. }
        rewrite Ha, !D1 by (clear - Ca Q1; lia).
        rewrite <- (firstn_skipn (N.to_nat (c - a)) ws') at 2. rewrite app_nth2; rewrite firstn_length, Hl; [|clear - Ca Q1; lia].
        rewrite <- (firstn_skipn (N.to_nat (d - c)) (skipn (N.to_nat (c - a)) ws')) at 2.
        rewrite app_nth1 by (rewrite firstn_length, skipn_length, Hl; clear - Ca De Q1 Q2 Lw; lia). f_equal. clear - Ca De Q1 Q2 Lw; lia. }
      split.
      + intros H. pose proof (has_bounds _ _ H) as [B1 B2]. cbn [sub b_lo b_up] in B1, B2. rewrite Hin in H by assumption.
        split; [exact H|]. lia.
      + intros [H B]. pose proof (has_bounds _ _ H) as [B1 B2]. cbn [b_lo b_up] in B1, B2. rewrite Hin; [exact H| |]; lia. }
  split; [exact Hones|]. intros C1 C2. unfold counted. rewrite Hones. f_equal. f_equal.
  rewrite (filter_ext_in _ (fun _ => true)).
  - clear. induction (elems _); cbn; congruence.
  - intros i Hi. apply elems_In in Hi; [|exact Hwf]. apply has_bounds in Hi. cbn [b_lo b_up] in Hi. lia.
Qed.
