(** Proofs about Bit_Set::batchSet and iteration. *)
From Verif Require Import Outcome ListUtil WordsModel WordsProofs RangeModel RangeProofs BitSetModel BitSetProofs.
Local Open Scope N_scope.

(** *** batchSet *)
Lemma fill_spec : forall n b l, b + N.of_nat n <= N.of_nat (length l) ->
  exists l', fill n b l = Val l' /\ length l' = length l /\
    forall c, rd l' c = if (b <=? c) && (c <? b + N.of_nat n) then Some (2 ^ 32 - 1) else rd l c.
Proof.
  induction n as [|n IH]; intros b l H; cbn [fill].
  - exists l. split; [reflexivity|]. split; [reflexivity|]. intros c. replace ((b <=? c) && (c <? b + N.of_nat 0)) with false by lia. reflexivity.
  - destruct (rd_in l b) as [v Hv]; [lia|]. rewrite Hv. 
    destruct (IH (b + 1) (wr l b (2 ^ 32 - 1))) as [l' [E [Hl Hr]]]; [rewrite wr_length; lia|].
    exists l'. split; [exact E|]. rewrite wr_length in Hl. split; [exact Hl|]. intros c. rewrite Hr, rd_wr by lia.
    destruct (N.eqb_spec c b) as [->|Hc].
    + replace ((b + 1 <=? b) && _) with false by lia. replace ((b <=? b) && (b <? b + N.of_nat (S n))) with true by lia. reflexivity.
    + replace ((b + 1 <=? c) && (c <? b + 1 + N.of_nat n)) with ((b <=? c) && (c <? b + N.of_nat (S n))) by lia. reflexivity.
Qed.

Lemma fill_cases : forall n b l, (exists l', fill n b l = Val l') \/ fill n b l = Undef.
Proof. induction n as [|n IH]; intros b l; cbn [fill]; [eauto|]. destruct (rd l b); auto. Qed.

Lemma batchSet_aligned_undef s from to : to mod 32 = 0 -> bs_batchSet s from to = Undef.
Proof.
  intros H. unfold bs_batchSet. destruct (rd _ _); [|reflexivity].
  match goal with |- rbind (fill ?n ?b ?l) _ = _ => destruct (fill_cases n b l) as [[l' E]|E]; rewrite E end; [|reflexivity].
  cbn [rbind]. rewrite H. reflexivity.
Qed.

Lemma high_bits k j : k < 32 -> j < 32 -> N.testbit (wrap 32 (N.shiftl (2 ^ 32 - 1) k)) j = (k <=? j).
Proof.
  intros Hk Hj. unfold wrap. rewrite N.mod_pow2_bits_low by exact Hj. destruct (N.leb_spec k j) as [H|H].
  - rewrite N.shiftl_spec_high by lia. rewrite ones32_bits. apply N.ltb_lt. lia.
  - now apply N.shiftl_spec_low.
Qed.

Lemma low_bits t j : t < 32 -> t <> 0 -> N.testbit (N.shiftr (2 ^ 32 - 1) (32 - t)) j = (j <? t).
Proof. intros Ht H0. rewrite N.shiftr_spec by lia. rewrite ones32_bits. lia. Qed.

Lemma div32_sub lo a i : lo = 32 * a -> lo <= i -> (i - lo) / 32 = i / 32 - a.
Proof.
  intros -> H. pose proof (div32 i) as D. pose proof (mod32 i) as M.
  replace (i - 32 * a) with (i mod 32 + (i / 32 - a) * 32) by lia. rewrite N.div_add by discriminate.
  rewrite (N.div_small (i mod 32)) by exact M. reflexivity.
Qed.

Lemma rd_lt l b v : rd l b = Some v -> b < N.of_nat (length l).
Proof. unfold rd. destruct (N.ltb_spec b (N.of_nat (length l))); [auto|discriminate]. Qed.

Lemma batchSet_spec s from to : bs_wf s -> b_lo s <= from -> from < b_up s -> from <= to -> to <= b_up s -> to mod 32 <> 0 ->
  exists r, bs_batchSet s from to = Val r /\ bs_wf r /\ b_lo r = b_lo s /\ b_up r = b_up s /\ b_ones r = to - from /\
    forall i, has r i = if (from / 32 <=? i / 32) && (i / 32 <=? (to - 1) / 32) then (from <=? i) && (i <? to) else has s i.
Proof.
  intros Hwf H1 H2 H3 H4 H5. pose proof Hwf as [[a Ha] [[e He] [Hle [Hm [_ F]]]]]. pose proof (wf_length s Hwf) as Hlen.
  assert (Lw : N.of_nat (length (b_words s)) = e - a) by (clear - Hlen Ha He; lia).
  assert (T0 : 0 < to) by (destruct (N.eq_dec to 0) as [->|]; [now elim H5|lia]).
  assert (Ew : wrap 32 (to + 2 ^ 32 - 1) = to - 1).
  { unfold wrap. replace (to + 2 ^ 32 - 1) with (to - 1 + 1 * 2 ^ 32) by lia. rewrite N.mod_add by discriminate. apply N.mod_small. lia. }
  pose proof (div32 to) as Dt. pose proof (mod32 to) as Mt. pose proof (div32 from) as Df. pose proof (mod32 from) as Mf.
  assert (Q : (to - 1) / 32 = to / 32).
  { symmetry. apply (N.div_unique (to - 1) 32 _ (to mod 32 - 1)); lia. }
  assert (Fb : bs_block s from = from / 32 - a).
  { destruct (wf_block s from Hwf H1 H2) as [-> _]. now apply div32_sub. }
  assert (Alo : b_lo s <= to - 1) by lia.
  assert (Tb : bs_block s (wrap 32 (to + 2 ^ 32 - 1)) = to / 32 - a).
  { rewrite Ew. destruct (wf_block s (to - 1) Hwf Alo) as [-> _]; [lia|]. rewrite (div32_sub _ a) by assumption. now rewrite Q. }
  assert (Af : a <= from / 32) by lia. assert (Ft : from / 32 <= to / 32) by lia. assert (Te : to / 32 < e) by lia.
  unfold bs_batchSet. rewrite Fb, Tb.
  destruct (rd_in (b_words s) (from / 32 - a)) as [v0 Hv0]; [lia|]. rewrite Hv0.
  set (first := wrap 32 (N.shiftl (2 ^ 32 - 1) (from mod 32))).
  destruct (fill_spec (N.to_nat (to / 32 - a - (from / 32 - a + 1))) (from / 32 - a + 1) (wr (b_words s) (from / 32 - a) first)) as [l' [E [Hl Hr]]];
    [rewrite wr_length; lia|].
  rewrite wr_length in Hl. rewrite E. cbn [rbind]. apply N.eqb_neq in H5. rewrite H5. apply N.eqb_neq in H5.
  destruct (rd_in l' (to / 32 - a)) as [v Hv]; [lia|]. rewrite Hv.
  set (last := N.land (N.shiftr (2 ^ 32 - 1) (32 - to mod 32)) (if to / 32 - a =? from / 32 - a then v else 2 ^ 32 - 1)).
  assert (Flt : first < 2 ^ 32) by (apply N.mod_lt; discriminate).
  assert (Llt : last < 2 ^ 32).
  { apply land_lt. apply lt_pow2_bits. intros j Hj. rewrite low_bits by assumption. apply N.ltb_ge. lia. }
  assert (Hrd : forall c, rd (wr l' (to / 32 - a) last) c =
     if c =? to / 32 - a then Some last
     else if c =? from / 32 - a then Some first
     else if (from / 32 - a <? c) && (c <? to / 32 - a) then Some (2 ^ 32 - 1) else rd (b_words s) c).
  { intros c. rewrite rd_wr by lia. destruct (N.eqb_spec c (to / 32 - a)) as [|N1]; [reflexivity|]. rewrite Hr, rd_wr by lia.
    destruct (N.eqb_spec c (from / 32 - a)) as [->|N2].
    - replace ((from / 32 - a + 1 <=? from / 32 - a) && _) with false by lia. reflexivity.
    - replace ((from / 32 - a + 1 <=? c) && (c <? from / 32 - a + 1 + N.of_nat (N.to_nat (to / 32 - a - (from / 32 - a + 1)))))
        with ((from / 32 - a <? c) && (c <? to / 32 - a)) by (clear - Af Ft N1 N2; lia). reflexivity. }
  eexists. split; [reflexivity|]. cbn [b_lo b_up b_ones].
  assert (Hwf' : bs_wf (mkbs (b_lo s) (b_up s) (wr l' (to / 32 - a) last) (wrap 32 (to + 2 ^ 32 - from)))).
  { unfold bs_wf. cbn [b_lo b_up b_words]. rewrite wr_length, Hl. split; [eauto|]. split; [eauto|]. split; [exact Hle|]. split; [exact Hm|].
    split; [apply Hwf|]. apply Forall_forall. intros x Hx. apply In_nth_error in Hx. destruct Hx as [k Hk].
    assert (Hk' : rd (wr l' (to / 32 - a) last) (N.of_nat k) = Some x) by (apply rd_some; now rewrite Nat2N.id).
    rewrite Hrd in Hk'. rewrite Forall_forall in F.
    destruct (N.of_nat k =? to / 32 - a); [injection Hk' as <-; exact Llt|].
    destruct (N.of_nat k =? from / 32 - a); [injection Hk' as <-; exact Flt|]. destruct (_ && _); [injection Hk' as <-; reflexivity|].
    apply F. eapply nth_error_In. apply rd_some. exact Hk'. }
  split; [exact Hwf'|]. split; [reflexivity|]. split; [reflexivity|]. split.
  { unfold wrap. replace (to + 2 ^ 32 - from) with (to - from + 1 * 2 ^ 32) by lia. rewrite N.mod_add by discriminate.
    destruct (N.eq_dec (to - from) (2 ^ 32)) as [Eb|]; [exfalso; clear - Eb H4 Hm H5 H3; assert (Et : to = 2 ^ 32) by lia; rewrite Et in H5; now apply H5|].
    apply N.mod_small. lia. }
  intros i. unfold has. cbn [b_lo b_up b_words]. rewrite Q.
  destruct (N.leb_spec (b_lo s) i) as [I1|I1]; cbn [andb].
  2: { pose proof (div32 i). pose proof (mod32 i). replace ((from / 32 <=? i / 32) && (i / 32 <=? to / 32)) with false by lia. reflexivity. }
  destruct (N.ltb_spec i (b_up s)) as [I2|I2]; cbn [andb].
  2: { pose proof (div32 i). pose proof (mod32 i). replace ((from / 32 <=? i / 32) && (i / 32 <=? to / 32)) with false by lia. reflexivity. }
  rewrite (div32_sub _ a i) by assumption. pose proof (div32 i) as Di. pose proof (mod32 i) as Mi.
  assert (Ai : a <= i / 32) by lia. assert (Ei : i / 32 < e) by lia.
  destruct (rd_in (wr l' (to / 32 - a) last) (i / 32 - a)) as [x Hx]; [rewrite wr_length; lia|].
  rewrite (rd_nth _ _ _ Hx). rewrite Hrd in Hx.
  assert (Bf : N.testbit first (i mod 32) = (from mod 32 <=? i mod 32)) by (apply high_bits; assumption).
  destruct (N.eqb_spec (i / 32 - a) (to / 32 - a)) as [E1|E1].
  - injection Hx as <-. replace ((from / 32 <=? i / 32) && (i / 32 <=? to / 32)) with true by (clear - E1 Ai Af Ft; lia).
    unfold last. rewrite N.land_spec, low_bits by assumption.
    destruct (N.eqb_spec (to / 32 - a) (from / 32 - a)) as [E2|E2].
    + assert (v = first).
      { rewrite Hr in Hv. replace ((from / 32 - a + 1 <=? to / 32 - a) && _) with false in Hv by (clear - E2; lia).
        rewrite rd_wr in Hv by lia. rewrite E2, N.eqb_refl in Hv. congruence. }
      subst v. rewrite Bf. clear - E1 E2 Ai Af Ft Dt Df Di Mi Mf Mt. lia.
    + rewrite ones32_bits. clear - E1 E2 Ai Af Ft Dt Df Di Mi Mf Mt. lia.
  - destruct (N.eqb_spec (i / 32 - a) (from / 32 - a)) as [E2|E2].
    + injection Hx as <-. rewrite Bf. replace ((from / 32 <=? i / 32) && (i / 32 <=? to / 32)) with true by (clear - E2 Ai Af Ft; lia).
      clear - E1 E2 Ai Af Ft Dt Df Di Mi Mf Mt. lia.
    + destruct ((from / 32 - a <? i / 32 - a) && (i / 32 - a <? to / 32 - a)) eqn:E3.
      * injection Hx as <-. replace ((from / 32 <=? i / 32) && (i / 32 <=? to / 32)) with true by (clear - E3 Ai Af Ft; lia).
        rewrite ones32_bits. clear - E3 Ai Af Ft Dt Df Di Mi Mf Mt. lia.
      * replace ((from / 32 <=? i / 32) && (i / 32 <=? to / 32)) with false by (clear - E1 E2 E3 Ai Af Ft; lia).
        apply rd_nth in Hx. now rewrite Hx.
Qed.

(** *** iteration *)
Local Open Scope nat_scope.
Lemma bit_rel_bitn ws i : (N.of_nat i < 2 ^ 32)%N -> bit_rel ws i = bitn ws i.
Proof.
  intros H. unfold bit_rel, bitn. rewrite wrap_id by exact H. rewrite Nat2N.id.
  destruct (nth_error ws (i / 32)) as [v|]; [|reflexivity]. unfold bmask. rewrite nonzero_test. f_equal.
  change 32%N with (N.of_nat 32). symmetry. apply Nnat.Nat2N.inj_mod.
Qed.

Lemma bs_end_len s : bs_wf s -> bs_end s = 32 * length (b_words s) /\ (N.of_nat (bs_end s) <= 2 ^ 32)%N.
Proof.
  intros Hwf. pose proof (wf_length s Hwf). unfold bs_end. destruct Hwf as [_ [_ [_ [H1 _]]]]. lia.
Qed.

Lemma step_spec ws i : i < 32 * length ws -> bitn ws i = false ->
  1 <= it_step ws i /\ i + it_step ws i <= 32 * length ws /\ forall j, i <= j < i + it_step ws i -> bitn ws j = false.
Proof.
  intros Hi Hb. unfold it_step. destruct (Nat.eqb_spec (i mod 32) 0) as [Em|Em].
  - assert (Hd : i / 32 < length ws) by (apply Nat.div_lt_upper_bound; lia).
    destruct (nth_error_ex _ _ Hd) as [v Hv]. rewrite Hv. pose proof (Nat.div_mod i 32 ltac:(lia)) as D.
    destruct (N.eqb_spec v 0) as [->|].
    + split; [lia|]. split; [lia|]. intros j Hj. unfold bitn.
      replace (j / 32) with (i / 32) by (apply (Nat.div_unique j 32 _ (j - i)); lia). rewrite Hv. apply N.bits_0.
    + split; [lia|]. split; [lia|]. intros j Hj. replace j with i by lia. exact Hb.
  - split; [lia|]. split; [lia|]. intros j Hj. replace j with i by lia. exact Hb.
Qed.

Lemma adv_loop_spec s : bs_wf s -> forall d i, i <= bs_end s -> bs_end s - i <= d ->
  let r := adv_loop (b_words s) (bs_end s) d i in
  i <= r <= bs_end s /\ (forall j, i <= j < r -> bitn (b_words s) j = false) /\ (r < bs_end s -> bitn (b_words s) r = true).
Proof.
  intros Hwf. destruct (bs_end_len s Hwf) as [El Hm].
  induction d as [|d IH]; intros i Hi Hd; cbn [adv_loop].
  - split; [lia|]. split; intros; lia.
  - destruct (Nat.ltb_spec i (bs_end s)) as [H|H]; cbn [andb].
    + rewrite bit_rel_bitn by lia. destruct (bitn (b_words s) i) eqn:Eb; cbn [negb].
      * split; [lia|]. split; [intros; lia|]. auto.
      * destruct (step_spec (b_words s) i ltac:(lia) Eb) as [S1 [S2 S3]].
        destruct (IH (i + it_step (b_words s) i)) as [R1 [R2 R3]]; [lia|lia|].
        split; [lia|]. split; [|exact R3]. intros j Hj. destruct (Nat.lt_ge_cases j (i + it_step (b_words s) i)); [apply S3; lia|apply R2; lia].
    + split; [lia|]. split; intros; lia.
Qed.

Lemma bs_skips s : bs_wf s -> skips (bitn (b_words s)) (bs_end s) (bs_skip s).
Proof. intros Hwf i Hi. unfold bs_skip. apply (adv_loop_spec s Hwf); lia. Qed.

Lemma bs_next_skip s i : bs_wf s -> i < bs_end s -> bitn (b_words s) i = true -> bs_next s i = bs_skip s (S i).
Proof.
  intros Hwf Hi Hb. unfold bs_next, bs_skip.
  assert (E : it_step (b_words s) i = 1).
  { unfold it_step, bitn in *. destruct (Nat.eqb _ 0); [|reflexivity]. destruct (nth_error _ _) as [v|]; [|reflexivity].
    destruct (N.eqb_spec v 0) as [->|]; [|reflexivity]. rewrite N.bits_0 in Hb. discriminate. }
  rewrite E, Nat.add_1_r. reflexivity.
Qed.

Lemma bs_iterate_spec s fuel : bs_wf s -> bs_end s < fuel -> bs_iterate fuel s = Val (elems s).
Proof.
  intros Hwf Hf. unfold bs_iterate. rewrite (iterate_all (bitn (b_words s)) (bs_end s) (bs_skip s) (bs_next s)); auto.
  - cbn [rmap]. unfold elems, bs_deref. destruct (bs_end_len s Hwf) as [<- _]. unfold occupied. rewrite Nat.sub_0_r. reflexivity.
  - now apply bs_skips.
  - intros. now apply bs_next_skip.
Qed.

Lemma bs_parallel_spec s fuel grain t : bs_wf s -> bs_end s < fuel -> bs_parallel fuel s grain t = Val (elems s).
Proof.
  intros Hwf Hf. unfold bs_parallel. rewrite (split_all (bitn (b_words s)) (bs_end s) (bs_skip s) (bs_next s)); auto.
  - cbn [rmap]. unfold elems, bs_deref. destruct (bs_end_len s Hwf) as [<- _]. unfold occupied. rewrite Nat.sub_0_r. reflexivity.
  - now apply bs_skips.
  - intros. now apply bs_next_skip.
Qed.

(** The element list is strictly increasing. *)
From Coq Require Import Sorted.
Lemma elems_sorted s : StronglySorted N.lt (elems s).
Proof.
  unfold elems. generalize (32 * length (b_words s)). intros n.
  assert (G : forall m a, StronglySorted lt (filter (bitn (b_words s)) (seq a m))).
  { induction m as [|m IH]; intros a; cbn [seq filter]; [constructor|]. destruct (bitn _ a); [|apply IH]. constructor; [apply IH|].
    apply Forall_forall. intros x Hx. apply filter_In in Hx. destruct Hx as [Hx _]. apply in_seq in Hx. lia. }
  specialize (G n 0). induction G as [|x l G IH F]; cbn [map]; constructor; [exact IH|].
  apply Forall_forall. intros y Hy. apply in_map_iff in Hy. destruct Hy as [z [<- Hz]]. rewrite Forall_forall in F. specialize (F z Hz). lia.
Qed.
