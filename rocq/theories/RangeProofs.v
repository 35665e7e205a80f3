From Verif Require Import Outcome ListUtil RangeModel.

(** Specification: the occupied indices between [i] and [j]. *)
Definition occupied (occ : nat -> bool) (i j : nat) : list nat := filter occ (seq i (j - i)).

Lemma occupied_nil occ i j : j <= i -> occupied occ i j = [].
Proof. intros H. unfold occupied. replace (j - i) with 0 by lia. reflexivity. Qed.

Lemma occupied_step occ i j : i < j ->
  occupied occ i j = if occ i then i :: occupied occ (S i) j else occupied occ (S i) j.
Proof.
  intros H. unfold occupied. replace (j - i) with (S (j - S i)) by lia. cbn [seq filter]. reflexivity.
Qed.

Lemma occupied_app occ i k j : i <= k -> k <= j -> occupied occ i j = occupied occ i k ++ occupied occ k j.
Proof.
  intros H1 H2. unfold occupied. rewrite <- filter_app. f_equal.
  replace (j - i) with ((k - i) + (j - k)) by lia. rewrite seq_app. do 2 f_equal. lia.
Qed.

Lemma In_occupied occ i j x : In x (occupied occ i j) <-> i <= x < j /\ occ x = true.
Proof.
  unfold occupied. rewrite filter_In, in_seq. split; intros [? ?]; (split; [lia|assumption]).
Qed.

Lemma NoDup_occupied occ i j : NoDup (occupied occ i j).
Proof. apply NoDup_filter, seq_NoDup. Qed.

(** What the iterator must do: find the first occupied index, or the end. *)
Definition skips (occ : nat -> bool) (n : nat) (sk : nat -> nat) : Prop :=
  forall i, i <= n -> i <= sk i <= n /\ (forall j, i <= j < sk i -> occ j = false) /\
            (sk i < n -> occ (sk i) = true).

Lemma skip_skips n emp : skips (fun i => negb (emp i)) n (skip n emp).
Proof.
  intros i Hi. unfold skip. remember (n - i) as d eqn:Ed. revert i Hi Ed.
  induction d as [|d IH]; intros i Hi Ed; cbn [skip_loop].
  - split; [lia|]. split; intros; lia.
  - destruct (emp i) eqn:E.
    + destruct (IH (S i)) as [H1 [H2 H3]]; try lia. split; [lia|]. split; [|exact H3].
      intros j Hj. destruct (Nat.eq_dec j i) as [->|]; [now rewrite E|]. apply H2. lia.
    + split; [lia|]. split; [intros; lia|]. intros _. now rewrite E.
Qed.

Section R.
Variable occ : nat -> bool.
Variable n : nat.
Variable sk nx : nat -> nat.
Hypothesis Hsk : skips occ n sk.
Hypothesis Hnx : forall i, i < n -> occ i = true -> nx i = sk (S i).

Lemma occupied_sk i j : i <= n -> i <= j -> sk i <= j -> occupied occ i j = occupied occ (sk i) j.
Proof.
  intros Hi Hj Hs. destruct (Hsk i Hi) as [H1 [H2 _]].
  rewrite (occupied_app occ i (sk i) j) by lia.
  replace (occupied occ i (sk i)) with (@nil nat); [reflexivity|].
  symmetry. unfold occupied. rewrite <- (filter_ext_in (fun _ => false)).
  - induction (seq i (sk i - i)); auto.
  - intros x Hx. apply in_seq in Hx. symmetry. apply H2. lia.
Qed.

(** A valid end point of a sub-range. *)
Definition stop (e : nat) : Prop := e = n \/ (e < n /\ occ e = true).

Lemma sk_stop_le i e : i <= e -> stop e -> sk i <= e.
Proof.
  intros Hi He. assert (Hn : i <= n) by (destruct He; lia).
  destruct (Hsk i Hn) as [H1 [H2 H3]]. destruct He as [->|[He Ho]]; [lia|].
  destruct (Nat.le_gt_cases (sk i) e) as [|Hgt]; [assumption|].
  rewrite (H2 e) in Ho by lia. discriminate.
Qed.

Lemma sk_stop i : i <= n -> stop (sk i).
Proof.
  intros Hi. destruct (Hsk i Hi) as [H1 [_ H3]]. destruct (Nat.eq_dec (sk i) n); [left; auto|right].
  split; [lia|]. apply H3. lia.
Qed.

Lemma visit_spec : forall d it e fuel, e - it <= d -> it <= e -> stop it -> stop e -> d < fuel ->
  visit nx n fuel it e = Val (occupied occ it e).
Proof.
  induction d as [|d IH]; intros it e fuel Hd Hle Hit He Hf; (destruct fuel as [|fuel]; [lia|]); cbn [visit].
  - replace it with e by lia. rewrite Nat.eqb_refl, occupied_nil by lia. reflexivity.
  - destruct (Nat.eqb_spec it e) as [->|Hne]; [now rewrite occupied_nil by lia|].
    assert (Hlt : it < n) by (destruct He; lia). destruct (Nat.ltb_spec it n); [|lia].
    destruct Hit as [->|[_ Ho]]; [lia|]. rewrite Hnx by assumption.
    assert (Hs : sk (S it) <= e) by (apply sk_stop_le; [lia|exact He]).
    destruct (Hsk (S it) ltac:(lia)) as [H1 _].
    rewrite IH; [|lia|lia|apply sk_stop; lia|exact He|lia].
    cbn [rmap]. rewrite (occupied_step occ it e) by lia. rewrite Ho.
    rewrite (occupied_sk (S it) e) by lia. reflexivity.
Qed.

(** Ranges reached by splitting. *)
Definition range_ok (r : range) : Prop :=
  r_begin r <= r_end r /\ stop (r_begin r) /\ stop (r_end r) /\ stop (r_mid r).

Lemma set_midpoint_ok r : r_begin r <= r_end r -> stop (r_begin r) -> stop (r_end r) -> range_ok (set_midpoint sk r).
Proof.
  intros H1 H2 H3. unfold set_midpoint, range_ok. cbn [r_begin r_end r_mid]. repeat split; auto.
  destruct (Nat.eqb_spec (r_begin r) (r_end r)); [exact H3|]. apply sk_stop.
  assert ((r_end r - r_begin r) / 2 <= r_end r - r_begin r) by (apply Nat.div_le_upper_bound; lia).
  destruct H3; lia.
Qed.

Lemma leaves_spec : forall t r, range_ok r ->
  Forall (fun l => r_begin l <= r_end l /\ stop (r_begin l) /\ stop (r_end l)) (leaves sk t r) /\
  concat (map (fun l => occupied occ (r_begin l) (r_end l)) (leaves sk t r)) = occupied occ (r_begin r) (r_end r).
Proof.
  induction t as [|f IHf b IHb]; intros r Hr.
  - cbn [leaves map concat]. rewrite app_nil_r. split; [|reflexivity]. constructor; [|constructor]. unfold range_ok in Hr. tauto.
  - cbn [leaves]. destruct (is_divisible r) eqn:Ed.
    + unfold is_divisible in Ed. apply andb_true_iff in Ed. destruct Ed as [Ed _].
      apply andb_true_iff in Ed. destruct Ed as [E1 E2]. apply Nat.ltb_lt in E1, E2.
      destruct Hr as [R1 [R2 [R3 R4]]].
      destruct (IHf (split_new sk r)) as [F1 F2].
      { apply set_midpoint_ok; cbn [r_begin r_end]; auto; lia. }
      destruct (IHb (split_old sk r)) as [B1 B2].
      { apply set_midpoint_ok; cbn [r_begin r_end]; auto; lia. }
      split; [apply Forall_app; auto|].
      rewrite map_app, concat_app, F2, B2. cbn [split_new split_old set_midpoint r_begin r_end].
      symmetry. apply occupied_app; lia.
    + cbn [leaves map concat]. rewrite app_nil_r. split; [|reflexivity]. constructor; [|constructor]. unfold range_ok in Hr. tauto.
Qed.

Lemma visit_all_spec : forall l fuel,
  Forall (fun l => r_begin l <= r_end l /\ stop (r_begin l) /\ stop (r_end l)) l -> n < fuel ->
  visit_all nx n fuel l = Val (concat (map (fun l => occupied occ (r_begin l) (r_end l)) l)).
Proof.
  induction l as [|r l IH]; intros fuel H Hf; [reflexivity|].
  inversion H as [|? ? [H1 [H2 H3]] Hl]; subst. cbn [visit_all map concat].
  rewrite (visit_spec n) by (auto; try lia; destruct H3; lia). cbn [rbind]. rewrite IH by assumption. reflexivity.
Qed.

Lemma range_new_ok grain : range_ok (range_new sk (sk 0) n grain).
Proof.
  destruct (Hsk 0 ltac:(lia)) as [H1 _].
  apply set_midpoint_ok; cbn [r_begin r_end]; [lia|apply sk_stop; lia|now left].
Qed.

(** Iterating from begin() to end() visits each occupied index once, in order. *)
Lemma iterate_all fuel : n < fuel -> visit nx n fuel (sk 0) n = Val (occupied occ 0 n).
Proof.
  intros Hf. destruct (Hsk 0 ltac:(lia)) as [H1 _]. rewrite (visit_spec n); try lia.
  - f_equal. symmetry. apply occupied_sk; lia.
  - apply sk_stop. lia.
  - now left.
Qed.

(** Any tree of splits visits exactly the same. *)
Lemma split_all t grain fuel : n < fuel ->
  visit_all nx n fuel (leaves sk t (range_new sk (sk 0) n grain)) = Val (occupied occ 0 n).
Proof.
  intros Hf. destruct (Hsk 0 ltac:(lia)) as [H1 _].
  destruct (leaves_spec t _ (range_new_ok grain)) as [F E].
  rewrite visit_all_spec by assumption. rewrite E. f_equal.
  cbn [range_new set_midpoint r_begin r_end]. symmetry. apply occupied_sk; lia.
Qed.
End R.

(** operator-- goes to the previous occupied cell, and is undefined without one. *)
Lemma dec_spec emp i :
  match dec emp i with
  | Val j => j < i /\ emp j = false /\ forall k, j < k < i -> emp k = true
  | Undef => forall k, k < i -> emp k = true
  | NoFuel => False
  end.
Proof.
  induction i as [|i IH]; cbn [dec]; [intros; lia|]. destruct (emp i) eqn:E.
  - destruct (dec emp i) as [j| |]; [|exact IH|].
    + destruct IH as [H1 [H2 H3]]. split; [lia|]. split; [exact H2|].
      intros k Hk. destruct (Nat.eq_dec k i) as [->|]; [exact E|]. apply H3. lia.
    + intros k Hk. destruct (Nat.eq_dec k i) as [->|]; [exact E|]. apply IH. lia.
  - split; [lia|]. split; [exact E|]. intros; lia.
Qed.
