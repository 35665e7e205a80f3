(** Probing an array that other threads fill concurrently: free cells may become
    occupied, occupied cells never change. *)
From Verif Require Import Outcome ListUtil WordsModel WordsProofs LPSetModel ProbeTheory Conc.
Local Open Scope nat_scope.

(** The first [j] cells of the probe sequence hold other keys. *)
Definition walked (arr : list N) (key : N) (h j : nat) : Prop :=
  forall i, i < j -> exists c, nth_error arr (slot (length arr) h i) = Some c /\ c <> 0%N /\ c <> key.

Lemma walked_0 arr key h : walked arr key h 0. Proof. intros i Hi. lia. Qed.

Lemma walked_S arr key h j c : walked arr key h j -> nth_error arr (slot (length arr) h j) = Some c -> c <> 0%N -> c <> key -> walked arr key h (S j).
Proof. intros H Hc H0 Hk i Hi. destruct (Nat.eq_dec i j) as [->|]; [exists c; auto|]. apply H. lia. Qed.

Lemma walked_upd arr key h j p x : walked arr key h j -> nth_error arr p = Some 0%N -> walked (upd arr p x) key h j.
Proof.
  intros H Hp i Hi. rewrite upd_length. destruct (H i Hi) as [c [Hc [H0 Hk]]]. exists c. split; [|auto].
  rewrite nth_error_upd_neq; [exact Hc|]. intros ->. congruence.
Qed.

Lemma walked_lt arr key h j : length arr <> 0 -> walked arr key h j -> nth_error arr (slot (length arr) h j) = Some 0%N -> j < length arr.
Proof.
  intros Hn H H0. destruct (Nat.lt_ge_cases j (length arr)) as [|Hge]; [assumption|exfalso].
  destruct (H (j mod length arr)) as [c [Hc [Hz _]]]; [pose proof (Nat.mod_upper_bound j (length arr) Hn); lia|].
  rewrite slot_mod in Hc by exact Hn. congruence.
Qed.

Lemma walked_first arr key h j : walked arr key h j -> nth_error arr (slot (length arr) h j) = Some 0%N -> first_hit arr key h j.
Proof.
  intros H H0. split; [exists 0%N; auto|]. intros i Hi [c' [Hc' Hor]]. destruct (H i Hi) as [c [Hc [Hz Hk]]].
  rewrite Hc in Hc'. injection Hc' as <-. tauto.
Qed.

Lemma walked_absent home arr key j : chained home arr -> key <> 0%N -> walked arr key (home key) j ->
  nth_error arr (slot (length arr) (home key) j) = Some 0%N -> ~ In key arr.
Proof.
  intros HC Hk Hw H0 Hin. pose proof (first_hit_present home arr key j HC Hk Hin (walked_first _ _ _ _ Hw H0)). congruence.
Qed.

(** A thread that has walked over all cells found them all occupied by other keys. *)
Lemma walked_all arr key h : length arr <> 0 -> h < length arr -> walked arr key h (length arr) ->
  (forall c, In c arr -> c <> 0%N) /\ ~ In key arr.
Proof.
  intros Hn Hh H. assert (G : forall c, In c arr -> c <> 0%N /\ c <> key).
  { intros c Hin. apply In_nth_error in Hin. destruct Hin as [p Hp].
    destruct (slot_surj (length arr) h p) as [j [Hj Hs]]; [eapply nth_error_lt; eassumption|exact Hh|].
    destruct (H j Hj) as [c' [Hc' G]]. rewrite Hs, Hp in Hc'. injection Hc' as <-. exact G. }
  split; [intros c Hc; apply G, Hc|]. intros Hin. destruct (G key Hin). congruence.
Qed.

(** Walking over [m] cells shows [m] distinct keys. *)
Lemma walked_keys arr key h m : uniq arr -> m <= length arr -> walked arr key h m ->
  exists l, NoDup l /\ length l = m /\ forall c, In c l -> In c arr /\ c <> 0%N.
Proof.
  intros HU. induction m as [|m IH]; intros Hm H; [exists []; repeat split; [constructor|destruct H0|destruct H0]|].
  assert (Hw' : walked arr key h m) by (intros i Hi; apply H; lia).
  assert (G : exists l, NoDup l /\ length l = m /\ forall c, In c l -> exists i, i < m /\ nth_error arr (slot (length arr) h i) = Some c).
  { clear IH. assert (Hm' : m <= length arr) by lia. clear H Hm. induction m as [|m IH].
    - exists []. repeat split; [constructor|intros c []].
    - destruct IH as [l [Hn [Hl Hin]]]; [intros i Hi; apply Hw'; lia|lia|]. destruct (Hw' m ltac:(lia)) as [c [Hc [Hz _]]].
      exists (c :: l). split; [|split; [cbn [length]; lia|]].
      + constructor; [|exact Hn]. intros Hin'. destruct (Hin c Hin') as [i [Hi Hi']].
        assert (E : slot (length arr) h i = slot (length arr) h m) by (eapply HU; eassumption). apply slot_inj in E; lia.
      + intros d [<-|Hd]; [exists m; split; [lia|exact Hc]|]. destruct (Hin d Hd) as [i [Hi Hi']]. exists i. split; [lia|exact Hi']. }
  destruct G as [l [Hn [Hl Hin]]]. destruct (H m ltac:(lia)) as [c [Hc [Hz _]]].
  exists (c :: l). split; [|split; [cbn [length]; lia|]].
  - constructor; [|exact Hn]. intros Hin'. destruct (Hin c Hin') as [i [Hi Hi']].
    assert (E : slot (length arr) h i = slot (length arr) h m) by (eapply HU; eassumption). apply slot_inj in E; lia.
  - intros d [<-|Hd]; [split; [eapply nth_error_In; exact Hc|exact Hz]|]. destruct (Hin d Hd) as [i [Hi Hi']].
    split; [eapply nth_error_In; exact Hi'|]. destruct (H i ltac:(lia)) as [c' [Hc' [Hz' _]]]. congruence.
Qed.

Lemma In_upd_free arr p k x : nth_error arr p = Some 0%N -> k <> 0%N -> (In x (upd arr p k) /\ x <> 0%N) <-> (x = k \/ In x arr /\ x <> 0%N).
Proof.
  intros Hp Hk. pose proof (nth_error_lt _ _ _ Hp) as Hlt. split.
  - intros [Hin Hx]. apply In_nth_error in Hin. destruct Hin as [q Hq]. rewrite nth_error_upd in Hq.
    destruct (Nat.eqb p q); [destruct (Nat.ltb p (length arr)); [injection Hq as <-; now left|discriminate]|].
    right. split; [eapply nth_error_In; exact Hq|exact Hx].
  - intros [->|[Hin Hx]].
    + split; [|exact Hk]. eapply nth_error_In. apply nth_error_upd_eq. exact Hlt.
    + split; [|exact Hx]. apply In_nth_error in Hin. destruct Hin as [q Hq]. eapply (nth_error_In _ q). rewrite nth_error_upd_neq; [exact Hq|]. intros ->. congruence.
Qed.

Lemma keys_upd_free arr p k : nth_error arr p = Some 0%N -> k <> 0%N -> length (keys_of (upd arr p k)) = S (length (keys_of arr)).
Proof.
  unfold keys_of. intros Hp Hk. apply nz_spec in Hk. revert arr Hp.
  induction p as [|p IH]; intros [|a arr] Hp; cbn [nth_error] in Hp; try discriminate.
  - injection Hp as ->. cbn [upd filter]. rewrite Hk. reflexivity.
  - cbn [upd filter]. destruct (nz a); cbn [length]; now rewrite IH.
Qed.
