From Verif Require Import Outcome ListUtil WordsModel RangeModel RangeProofs BlockModel BlockProofs.
From Coq Require Import Permutation.
Local Open Scope N_scope.

Section A.
Context {A : Type}.
Notation blk := (block A).

(** Positions: the cells of all blocks numbered consecutively; the last position is end(). *)
Definition shift (it : iter) : iter := mkit (S (i_block it)) (i_idx it).
Definition bsize (b : blk) : nat := N.to_nat (b_max b - b_min b).
Definition last_block (t : list blk) : bool := match t with [] => true | _ => false end.
Fixpoint locate (l : list blk) (p : nat) : iter :=
  match l with
  | [] => mkit 0 0
  | b :: t => if Nat.ltb p (bsize b) || last_block t then mkit 0 (b_min b + N.of_nat p) else shift (locate t (p - bsize b))
  end.
Lemma locate_cons b t p : locate (b :: t) p =
  if Nat.ltb p (bsize b) || last_block t then mkit 0 (b_min b + N.of_nat p) else shift (locate t (p - bsize b)).
Proof. reflexivity. Qed.
Definition total (l : list blk) : nat := list_sum (map bsize l).

Lemma total_cons b l : total (b :: l) = (bsize b + total l)%nat.
Proof. reflexivity. Qed.

Lemma bok_size b : @bok A b -> (0 < bsize b)%nat /\ b_max b = b_min b + N.of_nat (bsize b) /\ b_max b < 2 ^ 64.
Proof. intros [H1 [H2 H3]]. unfold bsize. lia. Qed.

Lemma locate_0 b (l : list blk) : bok b -> locate (b :: l) 0 = mkit 0 (b_min b).
Proof.
  intros H. apply bok_size in H. cbn [locate]. destruct (Nat.ltb_spec 0 (bsize b)); [|lia]. cbn [orb]. f_equal. lia.
Qed.

Lemma locate_end : forall b (l : list blk), chain (b :: l) ->
  rmap (fun u => mkit (length (b :: l) - 1) u) (ba_upper (b :: l)) = Val (locate (b :: l) (total (b :: l))).
Proof.
  intros b l. revert b. induction l as [|c l IH]; intros b H.
  - cbn [locate last_block]. rewrite orb_true_r. unfold ba_upper. cbn [length Nat.sub nth_error rmap]. do 2 f_equal.
    destruct H as [H _]. apply bok_size in H. unfold total. cbn [map list_sum fold_right]. lia.
  - rewrite (locate_cons b (c :: l)). cbn [last_block]. destruct H as [H1 [H2 H3]].
    rewrite total_cons. pose proof (bok_size c (proj1 H3)). pose proof (total_cons c l).
    destruct (Nat.ltb_spec (bsize b + total (c :: l)) (bsize b)); [lia|]. cbn [orb].
    replace (bsize b + total (c :: l) - bsize b)%nat with (total (c :: l)) by lia.
    specialize (IH c H3). unfold ba_upper in *. cbn [length] in *.
    replace (S (S (length l)) - 1)%nat with (S (S (length l) - 1)) by lia. cbn [nth_error].
    destruct (nth_error (c :: l) (S (length l) - 1)) as [d|]; cbn [rmap] in *; [|discriminate].
    assert (IH' : mkit (S (length l) - 1) (b_max d) = locate (c :: l) (total (c :: l))) by congruence.
    rewrite <- IH'. reflexivity.
Qed.

Lemma locate_valid : forall (l : list blk) p, chain l -> (p < total l)%nat ->
  exists b, nth_error l (i_block (locate l p)) = Some b /\ b_min b <= i_idx (locate l p) < b_max b.
Proof.
  induction l as [|b l IH]; intros p H Hp; [unfold total in Hp; cbn in Hp; lia|].
  cbn [locate]. pose proof (bok_size b (proj1 H)) as Hb. rewrite total_cons in Hp.
  destruct (Nat.ltb_spec p (bsize b)) as [L|L]; cbn [orb].
  - exists b. split; [reflexivity|]. cbn [i_idx]. lia.
  - destruct l as [|c l]; [unfold total in Hp; cbn in Hp; lia|]. cbn [last_block shift i_block i_idx nth_error]. apply IH; [apply H|lia].
Qed.

Lemma inc_shift b (l : list blk) it : l <> [] -> it_inc (b :: l) (shift it) = rmap shift (it_inc l it).
Proof.
  intros Hl. unfold it_inc, shift. cbn [i_block i_idx].
  change (nth_error (b :: l) (S (i_block it))) with (nth_error l (i_block it)).
  change (nth_error (b :: l) (S (S (i_block it)))) with (nth_error l (S (i_block it))).
  destruct (nth_error l (i_block it)) as [c|]; [|reflexivity].
  cbv zeta. replace (Nat.ltb (S (i_block it)) (length (b :: l) - 1)) with (Nat.ltb (i_block it) (length l - 1)).
  - destruct (_ && _); [|reflexivity]. destruct (nth_error l (S (i_block it))) as [d|]; reflexivity.
  - destruct l; [congruence|]. cbn [length]. lia.
Qed.

Lemma locate_inc : forall (l : list blk) p, chain l -> (p < total l)%nat -> it_inc l (locate l p) = Val (locate l (S p)).
Proof.
  induction l as [|b l IH]; intros p H Hp; [unfold total in Hp; cbn in Hp; lia|].
  pose proof (bok_size b (proj1 H)) as Hb. rewrite total_cons in Hp. destruct l as [|c l].
  - cbn [locate last_block]. rewrite !orb_true_r. unfold it_inc. cbn [i_block i_idx nth_error length Nat.sub]. cbv zeta.
    rewrite andb_false_r. unfold total in Hp. cbn in Hp. rewrite wrap_small by lia. do 2 f_equal. lia.
  - rewrite !(locate_cons b (c :: l)). cbn [last_block]. rewrite !orb_false_r.
    destruct (Nat.ltb_spec p (bsize b)) as [L|L].
    + unfold it_inc. cbn [i_block i_idx nth_error]. cbv zeta. rewrite wrap_small by lia.
      cbn [length]. replace (Nat.ltb 0 (S (S (length l)) - 1)) with true by lia. rewrite andb_true_r.
      destruct (N.eqb_spec (b_max b) (b_min b + N.of_nat p + 1)) as [E|E].
      * destruct (Nat.ltb_spec (S p) (bsize b)); [lia|]. replace (S p - bsize b)%nat with 0%nat by lia.
        rewrite (locate_0 c l) by apply H. reflexivity.
      * destruct (Nat.ltb_spec (S p) (bsize b)); [|lia]. do 2 f_equal. lia.
    + destruct (Nat.ltb_spec (S p) (bsize b)); [lia|]. rewrite inc_shift by discriminate.
      rewrite IH by (try apply H; lia). cbn [rmap]. do 3 f_equal. lia.
Qed.

Lemma locate_S_not_min b (l : list blk) p : bok b -> i_block (locate (b :: l) (S p)) = 0%nat -> i_idx (locate (b :: l) (S p)) <> b_min b.
Proof.
  intros H. cbn [locate]. destruct (_ || _); cbn [i_block i_idx shift]; intros E; [lia|discriminate].
Qed.

Lemma locate_dec : forall (l : list blk) p, chain l -> (p < total l)%nat -> it_dec l (locate l (S p)) = Val (locate l p).
Proof.
  induction l as [|b l IH]; intros p H Hp; [unfold total in Hp; cbn in Hp; lia|].
  pose proof (bok_size b (proj1 H)) as Hb. rewrite total_cons in Hp. destruct l as [|c l].
  - cbn [locate last_block]. rewrite !orb_true_r. unfold it_dec. cbn [i_block i_idx nth_error].
    replace (Nat.ltb 0 0) with false by reflexivity. rewrite andb_false_r. unfold total in Hp. cbn in Hp.
    rewrite wrap_sub by lia. do 2 f_equal. lia.
  - rewrite !(locate_cons b (c :: l)). cbn [last_block]. rewrite !orb_false_r.
    destruct (Nat.ltb_spec (S p) (bsize b)) as [L|L]; destruct (Nat.ltb_spec p (bsize b)) as [L'|L']; try lia.
    + unfold it_dec. cbn [i_block i_idx nth_error]. replace (Nat.ltb 0 0) with false by reflexivity. rewrite andb_false_r.
      rewrite wrap_sub by lia. do 2 f_equal. lia.
    + replace (S p - bsize b)%nat with 0%nat by lia. rewrite (locate_0 c l) by apply H. unfold shift, it_dec.
      cbn [i_block i_idx nth_error]. rewrite N.eqb_refl. cbn [andb Nat.ltb Nat.leb Nat.sub nth_error]. rewrite wrap_sub by lia.
      do 2 f_equal. lia.
    + replace (S p - bsize b)%nat with (S (p - bsize b)) by lia. specialize (IH (p - bsize b)%nat (proj2 (proj2 H)) ltac:(lia)).
      pose proof (locate_S_not_min c l (p - bsize b) (proj1 (proj2 (proj2 H)))) as Hm.
      revert IH Hm. generalize (locate (c :: l) (S (p - bsize b))) (locate (c :: l) (p - bsize b)). intros x y IH Hm.
      unfold it_dec, shift in *. cbn [i_block i_idx nth_error] in *. destruct (nth_error (c :: l) (i_block x)) as [d|] eqn:Ed; [|discriminate].
      replace (Nat.ltb 0 (S (i_block x))) with true by reflexivity. rewrite andb_true_r. destruct (i_block x) as [|k] eqn:Ek.
      * cbn [nth_error] in Ed. injection Ed as <-. replace (Nat.ltb 0 0) with false in IH by reflexivity. rewrite andb_false_r in IH.
        injection IH as <-. cbn [i_block i_idx]. destruct (N.eqb_spec (b_min c) (i_idx x)) as [E|E]; [|reflexivity].
        exfalso. apply Hm; [reflexivity|congruence].
      * replace (Nat.ltb 0 (S k)) with true in IH by reflexivity. rewrite andb_true_r in IH. destruct (b_min d =? i_idx x).
        -- replace (S (S k) - 1)%nat with (S k) by lia. replace (S k - 1)%nat with k in IH by lia.
           cbn [nth_error] in *. destruct (nth_error (c :: l) k) as [e|]; [|discriminate]. injection IH as <-. reflexivity.
        -- injection IH as <-. reflexivity.
Qed.

Lemma locate_step : forall (l : list blk) p, chain l -> (p < total l)%nat ->
  i_idx (locate l p) < i_idx (locate l (S p)) /\ (i_block (locate l p) <= i_block (locate l (S p)))%nat.
Proof.
  induction l as [|b l IH]; intros p H Hp; [unfold total in Hp; cbn in Hp; lia|].
  pose proof (bok_size b (proj1 H)) as Hb. rewrite total_cons in Hp. destruct l as [|c l].
  - cbn [locate last_block]. rewrite !orb_true_r. cbn [i_idx i_block]. lia.
  - rewrite !(locate_cons b (c :: l)). cbn [last_block]. rewrite !orb_false_r.
    destruct (Nat.ltb_spec (S p) (bsize b)) as [L|L]; destruct (Nat.ltb_spec p (bsize b)) as [L'|L']; try lia.
    + cbn [i_idx i_block]. lia.
    + replace (S p - bsize b)%nat with 0%nat by lia. rewrite (locate_0 c l) by apply H. cbn [shift i_idx i_block].
      destruct H as [_ [H _]]. lia.
    + replace (S p - bsize b)%nat with (S (p - bsize b)) by lia. cbn [shift i_idx i_block].
      destruct (IH (p - bsize b)%nat (proj2 (proj2 H)) ltac:(lia)) as [I1 I2]. lia.
Qed.

Section L.
Variable l : list blk.
Hypothesis Hw : wf l.
Let n := total l.

Lemma Hch : chain l. Proof. apply Hw. Qed.

Lemma locate_mono : forall d p, (p + S d <= n)%nat -> i_idx (locate l p) < i_idx (locate l (p + S d)) /\ (i_block (locate l p) <= i_block (locate l (p + S d)))%nat.
Proof.
  induction d as [|d IH]; intros p H.
  - replace (p + 1)%nat with (S p) by lia. apply locate_step; [apply Hch|unfold n in H; lia].
  - destruct (IH p ltac:(lia)) as [I1 I2]. destruct (locate_step l (p + S d) Hch) as [I3 I4]; [unfold n in H; lia|].
    replace (p + S (S d))%nat with (S (p + S d)) by lia. lia.
Qed.

Lemma idx_lt p q : (p <= n)%nat -> (q <= n)%nat -> (i_idx (locate l p) <? i_idx (locate l q)) = Nat.ltb p q.
Proof.
  intros Hp Hq. destruct (Nat.ltb_spec p q) as [H|H].
  - destruct (locate_mono (q - p - 1) p) as [I1 I2]; [lia|]. replace (p + S (q - p - 1))%nat with q in I1 by lia. lia.
  - destruct (Nat.eq_dec p q) as [->|Hne]; [lia|]. destruct (locate_mono (p - q - 1) q) as [I1 I2]; [lia|].
    replace (q + S (p - q - 1))%nat with p in I1 by lia. lia.
Qed.

Lemma idx_lt_p p q : (p <= n)%nat -> (q <= n)%nat -> (p < q)%nat <-> i_idx (locate l p) < i_idx (locate l q).
Proof. intros Hp Hq. pose proof (idx_lt p q Hp Hq). lia. Qed.

Lemma it_ltb_loc p q : (p <= n)%nat -> (q <= n)%nat -> it_ltb (locate l p) (locate l q) = Nat.ltb p q.
Proof.
  intros Hp Hq. unfold it_ltb. destruct (Nat.ltb_spec p q) as [H|H].
  - destruct (locate_mono (q - p - 1) p) as [I1 I2]; [lia|]. replace (p + S (q - p - 1))%nat with q in * by lia. lia.
  - destruct (Nat.eq_dec p q) as [->|Hne]; [lia|]. destruct (locate_mono (p - q - 1) q) as [I1 I2]; [lia|].
    replace (q + S (p - q - 1))%nat with p in * by lia. lia.
Qed.

Lemma it_eqb_loc p q : (p <= n)%nat -> (q <= n)%nat -> it_eqb (locate l p) (locate l q) = Nat.eqb p q.
Proof.
  intros Hp Hq. unfold it_eqb. destruct (Nat.eqb_spec p q) as [->|Hne]; [rewrite Nat.eqb_refl; lia|].
  pose proof (idx_lt_p p q Hp Hq). pose proof (idx_lt_p q p Hq Hp). lia.
Qed.

Lemma upper_loc : ba_upper l = Val (i_idx (locate l n)) /\ rmap (fun u => mkit (length l - 1) u) (ba_upper l) = Val (locate l n).
Proof.
  unfold n. pose proof Hw as [H0 [_ Hc]]. revert H0 Hc. clear. destruct l as [|b t]; [congruence|]. intros _ Hc.
  pose proof (locate_end b t Hc) as H. split; [|exact H].
  revert H. generalize (locate (b :: t) (total (b :: t))). intros x H.
  destruct (ba_upper (b :: t)); cbn [rmap] in H; try discriminate. injection H as <-. reflexivity.
Qed.

Lemma lower_loc : ba_lower l = Val (i_idx (locate l 0)) /\ locate l 0 = mkit 0 (i_idx (locate l 0)).
Proof.
  pose proof Hw as [H0 [_ Hc]]. revert H0 Hc. clear. destruct l as [|b t]; [congruence|]. intros _ Hc.
  rewrite (locate_0 b t) by apply Hc. split; reflexivity.
Qed.

Lemma n_pos : (0 < n)%nat.
Proof.
  unfold n. pose proof Hw as [H0 [_ Hc]]. revert H0 Hc. clear. destruct l as [|b t]; [congruence|]. intros _ Hc.
  rewrite total_cons. pose proof (bok_size b (proj1 Hc)). lia.
Qed.

Lemma idx_lt64 p : (p <= n)%nat -> i_idx (locate l p) < 2 ^ 64.
Proof.
  intros Hp. assert (i_idx (locate l n) < 2 ^ 64).
  { destruct upper_loc as [H _]. pose proof Hw as [H0 [_ Hc]]. revert H0 Hc H. generalize (i_idx (locate l n)). clear.
    destruct l as [|b t]; [congruence|]. intros x _ Hc H. destruct (sizes_bound t b Hc) as [u [U1 [U2 _]]].
    rewrite U1 in H. injection H as <-. exact U2. }
  destruct (Nat.eq_dec p n) as [->|]; [assumption|]. pose proof (proj1 (idx_lt_p p n Hp (le_n n)) ltac:(lia)). lia.
Qed.

Lemma deref_loc p : (p < n)%nat -> exists a, it_deref l (locate l p) = Val a /\ cell l (i_idx (locate l p)) a.
Proof.
  intros Hp. destruct (locate_valid l p Hch Hp) as [b [E Hb]]. unfold it_deref. rewrite E, blk_at_in by lia.
  destruct (chain_nth l _ b Hch E) as [_ [_ H3]].
  destruct (nth_error_ex (b_data b) (N.to_nat (i_idx (locate l p) - b_min b))) as [a Ea]; [lia|]. rewrite Ea.
  exists a. split; [reflexivity|]. exists b. split; [eapply nth_error_In; eauto|]. auto.
Qed.
End L.

(** _setIdx: the first position at or after an id. *)
Lemma set_idx_loc : forall (l : list blk) idx k b, chain l -> first_beyond l idx k -> nth_error l k = Some b ->
  exists p, (p < total l)%nat /\ mkit k (N.max idx (b_min b)) = locate l p /\ idx <= i_idx (locate l p) /\
    (forall q, (q < p)%nat -> i_idx (locate l q) < idx).
Proof.
  induction l as [|c l IH]; intros idx k b Hc F E; [destruct k; discriminate|].
  pose proof (bok_size c (proj1 Hc)) as Hb. destruct k as [|k].
  - cbn [nth_error] in E. injection E as <-. destruct F as [_ [F2 _]]. specialize (F2 0%nat c (le_n 0) eq_refl).
    exists (N.to_nat (N.max idx (b_min c) - b_min c)). rewrite total_cons. split; [lia|]. cbn [locate].
    destruct (Nat.ltb_spec (N.to_nat (N.max idx (b_min c) - b_min c)) (bsize c)); [|lia]. cbn [orb i_idx].
    split; [f_equal; lia|]. split; [lia|]. intros q Hq. destruct (Nat.ltb_spec q (bsize c)); [|lia]. cbn [orb i_idx]. lia.
  - destruct F as [F1 [F2 F3]]. cbn [nth_error] in E. destruct (IH idx k b) as [p [P1 [P2 [P3 P4]]]]; [apply Hc| |exact E|].
    { split; [|split].
      - intros j d Hj Ed. apply (F1 (S j)); [lia|exact Ed].
      - intros j d Hj Ed. apply (F2 (S j)); [lia|exact Ed].
      - cbn [length] in F3. lia. }
    exists (bsize c + p)%nat. rewrite total_cons. split; [lia|]. destruct l as [|d l]; [destruct k; discriminate|]. rewrite !(locate_cons c (d :: l)).
    destruct (Nat.ltb_spec (bsize c + p) (bsize c)); [lia|]. cbn [last_block orb].
    replace (bsize c + p - bsize c)%nat with p by lia. rewrite <- P2. split; [reflexivity|].
    split; [rewrite P2; exact P3|]. intros q Hq. rewrite (locate_cons c (d :: l)). cbn [last_block]. specialize (F1 0%nat c ltac:(lia) eq_refl).
    destruct (Nat.ltb_spec q (bsize c)); cbn [orb i_idx shift]; [lia|]. apply P4. lia.
Qed.

(** Every cell is at some position. *)
Lemma cell_loc l i a : wf l -> cell l i a -> exists p, (p < total l)%nat /\ i_idx (locate l p) = i.
Proof.
  intros Hw [b [Hb [Hi _]]]. apply In_nth_error in Hb. destruct Hb as [k E].
  destruct (set_idx_loc l i k b) as [p [P1 [P2 _]]]; [apply Hw| |exact E|].
  - eapply first_beyond_contains; [apply Hw|exact E|]. now apply contains_iff.
  - exists p. split; [exact P1|]. rewrite <- P2. cbn [i_idx]. lia.
Qed.

Section F.
Variable flt : option (A -> bool).
Variable l : list blk.
Hypothesis Hw : wf l.
Let n := total l.

Definition live (p : nat) : bool :=
  match flt with
  | None => true
  | Some v => match it_deref l (locate l p) with Val a => v a | _ => true end
  end.
Definition emp (p : nat) : bool := negb (live p).
Definition sk := skip n emp.

Lemma sk_skips : skips live n sk.
Proof.
  intros i Hi. destruct (skip_skips n emp i Hi) as [H1 [H2 H3]]. split; [exact H1|]. split.
  - intros j Hj. specialize (H2 j Hj). cbv beta in H2. unfold emp in H2. now rewrite negb_involutive in H2.
  - intros Hs. specialize (H3 Hs). cbv beta in H3. unfold emp in H3. now rewrite negb_involutive in H3.
Qed.

Lemma adv_spec : forall fuel p, (p <= n)%nat -> (n - p < fuel)%nat -> adv_loop flt fuel l (locate l p) = Val (locate l (sk p)).
Proof.
  destruct (upper_loc l Hw) as [Hu _]. unfold sk, skip. intros fuel p. remember (n - p)%nat as d eqn:Ed. revert fuel p Ed.
  induction d as [|d IH]; intros fuel p Ed Hp Hf; (destruct fuel as [|fuel]; [lia|]); cbn [adv_loop skip_loop].
  - destruct flt as [v|]; [|reflexivity]. rewrite Hu. cbn [rbind]. rewrite idx_lt by (auto; unfold n in *; lia).
    destruct (Nat.ltb_spec p (total l)); [unfold n in *; lia|reflexivity].
  - unfold emp, live at 1. destruct flt as [v|] eqn:Ef; [|reflexivity].
    rewrite Hu. cbn [rbind]. rewrite idx_lt by (auto; unfold n in *; lia). destruct (Nat.ltb_spec p (total l)); [|unfold n in *; lia].
    destruct (deref_loc l Hw p) as [a [Ea _]]; [assumption|]. rewrite Ea. cbn [rbind]. destruct (v a); cbn [negb]; [reflexivity|].
    rewrite locate_inc by (auto; apply Hw). cbn [rbind]. apply IH; [lia|unfold n in *; lia|lia].
Qed.

Lemma next_spec fuel p : (p < n)%nat -> (n - S p < fuel)%nat -> it_next flt fuel l (locate l p) = Val (locate l (sk (S p))).
Proof.
  intros H1 H2. unfold it_next. rewrite locate_inc by (auto; apply Hw). cbn [rbind]. apply adv_spec; [unfold n in *; lia|exact H2].
Qed.

Lemma dec_loop_spec : forall p fuel, (p < n)%nat -> (p < fuel)%nat ->
  exists q, dec_loop flt fuel l (locate l p) = Val (locate l q) /\ (q <= p)%nat /\ (forall j, (q < j <= p)%nat -> live j = false) /\
    (q = 0%nat \/ live q = true).
Proof.
  destruct (lower_loc l Hw) as [Hlo _].
  induction p as [|p IH]; intros fuel Hp Hf; (destruct fuel as [|fuel]; [lia|]); cbn [dec_loop].
  - exists 0%nat. destruct flt as [v|].
    + rewrite Hlo. cbn [rbind]. rewrite N.ltb_irrefl. repeat split; [lia|intros; lia|now left].
    + repeat split; [lia|intros; lia|now left].
  - destruct flt as [v|] eqn:Ef.
    + rewrite Hlo. cbn [rbind]. rewrite idx_lt by (auto; unfold n in *; lia). cbn [Nat.ltb Nat.leb].
      destruct (deref_loc l Hw (S p)) as [a [Ea _]]; [assumption|]. rewrite Ea. cbn [rbind]. destruct (v a) eqn:Ev.
      * exists (S p). split; [reflexivity|]. split; [lia|]. split; [intros; lia|]. right. unfold live. rewrite Ef, Ea. exact Ev.
      * rewrite locate_dec by (try apply Hw; unfold n in *; lia). cbn [rbind].
        destruct (IH fuel) as [q [Q1 [Q2 [Q3 Q4]]]]; [lia|lia|]. exists q. split; [exact Q1|]. split; [lia|]. split; [|exact Q4].
        intros j Hj. destruct (Nat.eq_dec j (S p)) as [->|]; [unfold live; rewrite Ef, Ea; exact Ev|]. apply Q3. lia.
    + exists (S p). split; [reflexivity|]. split; [lia|]. split; [intros; lia|]. right. unfold live. now rewrite Ef.
Qed.

Lemma prev_spec p fuel : (0 < p <= n)%nat -> (p <= fuel)%nat ->
  exists q, it_prev flt fuel l (locate l p) = Val (locate l q) /\ (q < p)%nat /\ (forall j, (q < j < p)%nat -> live j = false) /\
    (q = 0%nat \/ live q = true).
Proof.
  intros Hp Hf. destruct p as [|p]; [lia|]. unfold it_prev. rewrite locate_dec by (try apply Hw; unfold n in *; lia). cbn [rbind].
  destruct (dec_loop_spec p fuel) as [q [Q1 [Q2 [Q3 Q4]]]]; [lia|lia|]. exists q. split; [exact Q1|]. split; [lia|]. split; [|exact Q4].
  intros j Hj. apply Q3. lia.
Qed.

Notation stop := (stop live n).

Lemma half_spec fuel b e : (n < fuel)%nat -> (b < e)%nat -> (e <= n)%nat -> stop b -> stop e ->
  exists m, it_half flt fuel l (locate l b) (locate l e) = Val (Some (locate l m)) /\ (b <= m < e)%nat /\ stop m.
Proof.
  intros Hf Hbe He Sb Se. unfold it_half. cbv zeta.
  pose proof (proj1 (idx_lt_p l Hw b e ltac:(unfold n in *; lia) ltac:(unfold n in *; lia)) Hbe) as Hlt.
  pose proof (idx_lt64 l Hw e He) as H64.
  unfold it_minus. rewrite wrap_sub by lia.
  set (ib := i_idx (locate l b)) in *. set (ie := i_idx (locate l e)) in *.
  assert (Hd : (ie - ib) / 2 < ie - ib) by (apply N.div_lt; lia).
  rewrite wrap_small by lia. set (idx := ib + (ie - ib) / 2) in *. assert (Hidx : ib <= idx < ie) by lia. clearbody idx.
  destruct (find_block_spec l idx true Hw) as [k [F ->]].
  destruct (upper_loc l Hw) as [Hu _].
  assert (Hup : ie <= i_idx (locate l n)).
  { destruct (Nat.eq_dec e n) as [->|Hne]; [unfold ie; lia|].
    pose proof (proj1 (idx_lt_p l Hw e n He (le_n _)) ltac:(lia)). unfold ie. lia. }
  assert (Hk : (k < length l)%nat).
  { destruct (Nat.eq_dec k (length l)) as [->|]; [exfalso|destruct F as [_ [_ F]]; lia].
    unfold ba_upper in Hu. destruct (nth_error l (length l - 1)) as [d|] eqn:Ed; [|discriminate]. injection Hu as Hu.
    assert (b_max d <= idx). { destruct F as [F _]. apply (F (length l - 1)%nat); [|exact Ed].
      pose proof Hw as [Hn _]. destruct l; [congruence|]. cbn [length]. lia. }
    fold n in Hu. lia. }
  destruct (Nat.eqb_spec k (length l)); [lia|]. cbn [andb rbind]. destruct (nth_error_ex l k Hk) as [bk Ek]. rewrite Ek.
  destruct (set_idx_loc l idx k bk (proj2 (proj2 Hw)) F Ek) as [p [P1 [-> [P3 P4]]]]. fold n in P1.
  assert (Hpb : (b <= p)%nat).
  { destruct (Nat.le_gt_cases b p) as [|Hgt]; [assumption|].
    pose proof (proj1 (idx_lt_p l Hw p b ltac:(unfold n in *; lia) ltac:(unfold n in *; lia)) Hgt). fold ib in H. lia. }
  assert (Hpe : (p <= e)%nat).
  { destruct (Nat.le_gt_cases p e) as [|Hgt]; [assumption|]. specialize (P4 e Hgt). fold ie in P4. lia. }
  rewrite adv_spec by (try lia; unfold n in *; lia). cbn [rbind].
  assert (Hs : (sk p <= e)%nat) by (apply (sk_stop_le live n sk (fun i => sk (S i)) sk_skips (fun _ _ _ => eq_refl)); assumption).
  destruct (sk_skips p ltac:(lia)) as [S1 [S2 S3]].
  rewrite it_eqb_loc by (auto; unfold n in *; lia). destruct (Nat.eqb_spec (sk p) e) as [Ee|Ene].
  - rewrite Ee. destruct (prev_spec e fuel) as [q [Q1 [Q2 [Q3 Q4]]]]; [lia|lia|]. rewrite Q1. cbn [rmap].
    assert (Hb : live b = true) by (destruct Sb as [->|[_ ?]]; [lia|assumption]).
    assert (Hbq : (b <= q)%nat). { destruct (Nat.le_gt_cases b q) as [|Hgt]; [assumption|]. rewrite Q3 in Hb by lia. discriminate. }
    rewrite it_ltb_loc by (auto; unfold n in *; lia). destruct (Nat.ltb_spec q b); [lia|].
    exists q. split; [reflexivity|]. split; [lia|]. right. split; [lia|]. destruct Q4 as [->|]; [|assumption].
    replace b with 0%nat in Hb by lia. exact Hb.
  - exists (sk p). split; [reflexivity|]. split; [lia|]. right. split; [lia|]. apply S3. lia.
Qed.

Lemma br_mid_spec fuel b e g : (n < fuel)%nat -> (b <= e)%nat -> (e <= n)%nat -> stop b -> stop e ->
  exists m, br_mid flt fuel l (locate l b) (locate l e) g = Val (Some (mkbr (locate l b) (locate l e) (locate l m) g)) /\
    (b <= m <= e)%nat /\ stop m.
Proof.
  intros Hf Hbe He Sb Se. unfold br_mid. rewrite it_eqb_loc by (auto; unfold n in *; lia). destruct (Nat.eqb_spec b e) as [->|Hne].
  - exists e. split; [reflexivity|]. split; [lia|exact Se].
  - destruct (half_spec fuel b e Hf ltac:(lia) He Sb Se) as [m [-> [Hm Sm]]]. exists m. split; [reflexivity|]. split; [lia|exact Sm].
Qed.

Lemma br_visit_spec : forall d b e fuel, (e - b <= d)%nat -> (b <= e)%nat -> (e <= n)%nat -> stop b -> stop e -> (n - b < fuel)%nat ->
  br_visit flt fuel l (locate l b) (locate l e) = Val (map (locate l) (occupied live b e)).
Proof.
  induction d as [|d IH]; intros b e fuel Hd Hbe He Sb Se Hf; (destruct fuel as [|fuel]; [lia|]); cbn [br_visit];
    rewrite it_eqb_loc by (auto; unfold n in *; lia).
  - replace b with e by lia. rewrite Nat.eqb_refl, occupied_nil by lia. reflexivity.
  - destruct (Nat.eqb_spec b e) as [->|Hne]; [now rewrite occupied_nil by lia|].
    destruct (deref_loc l Hw b) as [a [-> _]]; [unfold n in *; lia|]. cbn [rbind].
    rewrite next_spec by lia. cbn [rbind].
    assert (Hs : (sk (S b) <= e)%nat) by (apply (sk_stop_le live n sk (fun i => sk (S i)) sk_skips (fun _ _ _ => eq_refl)); [lia|assumption]).
    destruct (sk_skips (S b) ltac:(lia)) as [S1 _].
    rewrite IH; [|lia|lia|exact He|apply (sk_stop live n sk (fun i => sk (S i)) sk_skips (fun _ _ _ => eq_refl)); lia|exact Se|lia]. cbn [rmap].
    assert (Hb : live b = true) by (destruct Sb as [->|[_ ?]]; [lia|assumption]).
    rewrite (occupied_step live b e) by lia. rewrite Hb. cbn [map].
    rewrite (occupied_sk live n sk (fun i => sk (S i)) sk_skips (fun _ _ _ => eq_refl) (S b) e) by lia. reflexivity.
Qed.

Lemma br_run_spec : forall t fuel b e m g, (n < fuel)%nat -> (b <= m <= e)%nat -> (e <= n)%nat -> stop b -> stop e -> stop m ->
  br_run flt fuel l t (mkbr (locate l b) (locate l e) (locate l m) g) = Val (Some (map (locate l) (occupied live b e))).
Proof.
  induction t as [|f IHf k IHk]; intros fuel b e m g Hf Hm He Sb Se Sm.
  - cbn [br_run g_begin g_end]. rewrite (br_visit_spec n) by (auto; lia). reflexivity.
  - cbn [br_run]. destruct (br_divisible _).
    + cbn [g_begin g_end g_mid g_grain].
      destruct (br_mid_spec fuel b m g Hf) as [m1 [-> [M1 N1]]]; auto; try lia. cbn [rbind].
      destruct (br_mid_spec fuel m e g Hf) as [m2 [-> [M2 N2]]]; auto; try lia. cbn [rbind].
      rewrite IHf by (auto; lia). cbn [rbind]. rewrite IHk by (auto; lia). cbn [rmap]. do 2 f_equal.
      rewrite <- map_app. f_equal. symmetry. apply occupied_app; lia.
    + cbn [g_begin g_end]. rewrite (br_visit_spec n) by (auto; lia). reflexivity.
Qed.

Lemma begin_spec fuel : (n < fuel)%nat -> ba_begin flt fuel l = Val (locate l (sk 0%nat)).
Proof.
  intros Hf. unfold ba_begin. destruct (lower_loc l Hw) as [-> E]. cbn [rbind]. rewrite <- E. apply adv_spec; lia.
Qed.
Lemma end_spec : ba_end l = Val (locate l n).
Proof. unfold ba_end. apply (upper_loc l Hw). Qed.

Definition live_ids : list N := map (fun p => i_idx (locate l p)) (occupied live 0 n).

Lemma iterate_spec fuel : (n < fuel)%nat -> ba_iterate flt fuel l = Val live_ids.
Proof.
  intros Hf. unfold ba_iterate. rewrite begin_spec, end_spec by exact Hf. cbn [rbind].
  destruct (sk_skips 0%nat ltac:(lia)) as [S1 _]. rewrite (br_visit_spec n); try lia.
  - cbn [rmap]. unfold live_ids. rewrite map_map. f_equal. f_equal. symmetry. apply (occupied_sk live n sk (fun i => sk (S i)) sk_skips (fun _ _ _ => eq_refl)); lia.
  - apply (sk_stop live n sk (fun i => sk (S i)) sk_skips (fun _ _ _ => eq_refl)). lia.
  - now left.
Qed.

Lemma parallel_spec fuel grain t : (n < fuel)%nat -> ba_parallel flt fuel l grain t = Val (Some live_ids).
Proof.
  intros Hf. unfold ba_parallel. rewrite begin_spec, end_spec by exact Hf. cbn [rbind].
  destruct (sk_skips 0%nat ltac:(lia)) as [S1 _].
  assert (S0 : stop (sk 0%nat)) by (apply (sk_stop live n sk (fun i => sk (S i)) sk_skips (fun _ _ _ => eq_refl)); lia). assert (Sn : stop n) by now left.
  destruct (br_mid_spec fuel (sk 0%nat) n grain Hf) as [m [-> [M1 M2]]]; auto; try lia. cbn [rbind].
  rewrite br_run_spec by (auto; lia). cbn [rmap option_map]. unfold live_ids. rewrite map_map. do 3 f_equal.
  symmetry. apply (occupied_sk live n sk (fun i => sk (S i)) sk_skips (fun _ _ _ => eq_refl)); lia.
Qed.

Definition lives (i : N) : Prop := exists a, cell l i a /\ match flt with None => True | Some v => v a = true end.

Lemma live_lives p : (p < n)%nat -> live p = true <-> lives (i_idx (locate l p)).
Proof.
  intros Hp. destruct (deref_loc l Hw p Hp) as [a [Ea Hc]]. unfold live, lives. split.
  - intros H. exists a. split; [exact Hc|]. destruct flt; [|exact I]. now rewrite Ea in H.
  - intros [a' [Hc' H]]. rewrite (cell_fun l _ a' a Hw Hc' Hc) in H. destruct flt; [|reflexivity]. now rewrite Ea.
Qed.

Lemma live_ids_In i : In i live_ids <-> lives i.
Proof.
  unfold live_ids. rewrite in_map_iff. split.
  - intros [p [<- Hp]]. apply In_occupied in Hp. destruct Hp as [Hp Hl]. apply live_lives; [lia|exact Hl].
  - intros [a [Hc Hv]]. destruct (cell_loc l i a Hw Hc) as [p [Hp E]]. exists p. split; [exact E|]. apply In_occupied. split; [unfold n; lia|].
    apply live_lives; [exact Hp|]. rewrite E. exists a. auto.
Qed.

Lemma live_ids_sorted : forall i j x y, (i < j)%nat -> nth_error live_ids i = Some x -> nth_error live_ids j = Some y -> x < y.
Proof.
  unfold live_ids. assert (H : forall d s, (s + d <= n)%nat -> forall i j x y, (i < j)%nat ->
    nth_error (map (fun p => i_idx (locate l p)) (filter live (seq s d))) i = Some x ->
    nth_error (map (fun p => i_idx (locate l p)) (filter live (seq s d))) j = Some y -> x < y).
  { induction d as [|d IH]; intros s Hs i j x y Hij Ei Ej; [destruct i; discriminate|]. cbn [seq filter] in Ei, Ej.
    destruct (live s).
    - cbn [map] in Ei, Ej. destruct j as [|j]; [lia|]. destruct i as [|i]; cbn [nth_error] in Ei, Ej.
      + injection Ei as <-. apply nth_error_In, in_map_iff in Ej. destruct Ej as [p [<- Hp]]. apply filter_In in Hp. destruct Hp as [Hp _].
        apply in_seq in Hp. apply idx_lt_p; auto; unfold n in *; lia.
      + apply (IH (S s) ltac:(lia) i j); auto. lia.
    - apply (IH (S s) ltac:(lia) i j); auto. }
  intros i j x y. unfold occupied. apply H. lia.
Qed.

(** operator-- from any position but begin(): the previous live cell. *)
Lemma prev_live p fuel : (0 < p <= n)%nat -> (p <= fuel)%nat -> (exists q, (q < p)%nat /\ live q = true) ->
  exists q, it_prev flt fuel l (locate l p) = Val (locate l q) /\ (q < p)%nat /\ live q = true /\ forall j, (q < j < p)%nat -> live j = false.
Proof.
  intros Hp Hf [r [Hr Lr]]. destruct (prev_spec p fuel Hp Hf) as [q [Q1 [Q2 [Q3 Q4]]]]. exists q. repeat split; auto.
  destruct Q4 as [->|]; [|assumption]. destruct (Nat.eq_dec r 0) as [->|]; [exact Lr|]. rewrite Q3 in Lr by lia. discriminate.
Qed.
End F.
End A.
