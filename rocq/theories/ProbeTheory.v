(** Linear probing: theory of arrays of keys in which every stored key can be
    reached from its home cell without crossing a free cell. *)
From Verif Require Import Outcome ListUtil WordsModel WordsProofs LPSetModel.
Local Open Scope nat_scope.

(** The [j]-th cell probed from home cell [h] in a table of [n] cells. *)
Definition slot (n h j : nat) : nat := (h + j) mod n.

Definition hit (arr : list N) (key : N) (h j : nat) : Prop :=
  exists c, nth_error arr (slot (length arr) h j) = Some c /\ (c = key \/ c = 0%N).

Definition first_hit (arr : list N) (key : N) (h j : nat) : Prop :=
  hit arr key h j /\ forall i, i < j -> ~ hit arr key h i.

(** Every stored key is reachable from its home through occupied cells. *)
Definition chained (home : N -> nat) (arr : list N) : Prop :=
  forall p k, nth_error arr p = Some k -> k <> 0%N ->
    exists j, j < length arr /\ p = slot (length arr) (home k) j /\
      forall i, i < j -> exists k', nth_error arr (slot (length arr) (home k) i) = Some k' /\ k' <> 0%N.

(** No key is stored twice. *)
Definition uniq (arr : list N) : Prop :=
  forall p q k, nth_error arr p = Some k -> nth_error arr q = Some k -> k <> 0%N -> p = q.

Lemma slot_lt n h j : n <> 0 -> slot n h j < n.
Proof. intros H. apply Nat.mod_upper_bound, H. Qed.

Lemma slot_inj n h i j : i < n -> j < n -> slot n h i = slot n h j -> i = j.
Proof.
  unfold slot. intros Hi Hj E.
  assert (n <> 0) by lia.
  pose proof (Nat.div_mod (h + i) n ltac:(lia)) as E1.
  pose proof (Nat.div_mod (h + j) n ltac:(lia)) as E2.
  rewrite E in E1. set (a := (h + i) / n) in *. set (b := (h + j) / n) in *. clearbody a b.
  destruct (Nat.lt_trichotomy a b) as [H1|[H1|H1]].
  - assert (n * a + n <= n * b) by nia. lia.
  - subst. lia.
  - assert (n * b + n <= n * a) by nia. lia.
Qed.

Lemma slot_surj n h p : p < n -> h < n -> exists j, j < n /\ slot n h j = p.
Proof.
  intros Hp Hh. unfold slot. destruct (Nat.le_gt_cases h p) as [H|H].
  - exists (p - h). split; [lia|]. replace (h + (p - h)) with p by lia. now apply Nat.mod_small.
  - exists (n - h + p). split; [lia|]. replace (h + (n - h + p)) with (p + 1 * n) by lia.
    rewrite Nat.mod_add by lia. now apply Nat.mod_small.
Qed.

Lemma slot_mod n h j : n <> 0 -> slot n h (j mod n) = slot n h j.
Proof. intros H. unfold slot. now rewrite Nat.add_mod_idemp_r. Qed.

Lemma hit_dec arr key h j : length arr <> 0 -> {hit arr key h j} + {~ hit arr key h j}.
Proof.
  intros Hn. destruct (nth_error arr (slot (length arr) h j)) as [c|] eqn:E.
  - destruct (N.eq_dec c key) as [->|H1]; [left; exists key; auto|].
    destruct (N.eq_dec c 0) as [->|H2]; [left; exists 0%N; auto|].
    right. intros [c' [E' H]]. rewrite E in E'. injection E' as <-. tauto.
  - right. intros [c' [E' H]]. congruence.
Qed.

Lemma first_hit_ex arr key h j :
  length arr <> 0 -> hit arr key h j -> exists j', first_hit arr key h j' /\ j' <= j /\ j' < length arr.
Proof.
  intros Hn H.
  assert (Hex : exists j0, hit arr key h j0 /\ j0 <= j /\ j0 < length arr).
  { destruct (Nat.lt_ge_cases j (length arr)) as [Hl|Hl].
    - exists j. auto.
    - exists (j mod length arr). pose proof (Nat.mod_upper_bound j _ Hn). split; [|lia].
      destruct H as [c Hc]. exists c. now rewrite slot_mod. }
  clear H. destruct Hex as [j0 [H [Hj Hl]]]. 
  assert (G : forall m, m <= j0 -> (exists j', first_hit arr key h j' /\ j' < m) \/ (forall i, i < m -> ~ hit arr key h i)).
  { induction m as [|m IH]; intros Hm; [right; intros; lia|].
    destruct IH as [[j' [Hf Hlt]]|Hnone]; [lia|left; exists j'; split; [exact Hf|lia]|].
    destruct (hit_dec arr key h m Hn) as [Hh|Hh].
    - left. exists m. split; [|lia]. split; assumption.
    - right. intros i Hi. destruct (Nat.eq_dec i m) as [->|]; [assumption|]. apply Hnone. lia. }
  destruct (G j0 ltac:(lia)) as [[j' [Hf Hlt]]|Hnone].
  - exists j'. split; [exact Hf|lia].
  - exists j0. split; [split; assumption|lia].
Qed.

Lemma free_hit arr key h p : h < length arr -> nth_error arr p = Some 0%N -> exists j, hit arr key h j.
Proof.
  intros Hh Hp. destruct (slot_surj (length arr) h p) as [j [Hj Hs]]; [eapply nth_error_lt; eassumption|exact Hh|].
  exists j, 0%N. rewrite Hs. auto.
Qed.

Lemma key_hit arr key h p : h < length arr -> nth_error arr p = Some key -> exists j, hit arr key h j.
Proof.
  intros Hh Hp. destruct (slot_surj (length arr) h p) as [j [Hj Hs]]; [eapply nth_error_lt; eassumption|exact Hh|].
  exists j, key. rewrite Hs. auto.
Qed.

Lemma first_hit_present home arr key j :
  chained home arr -> key <> 0%N -> In key arr -> first_hit arr key (home key) j ->
  nth_error arr (slot (length arr) (home key) j) = Some key.
Proof.
  intros HC Hk Hin [[c [Hc Hor]] Hmin]. destruct Hor as [->| ->]; [exact Hc|exfalso].
  apply In_nth_error in Hin. destruct Hin as [p Hp].
  destruct (HC p key Hp Hk) as [j0 [Hj0 [-> Hocc]]].
  destruct (Nat.lt_trichotomy j j0) as [H|[->|H]].
  - destruct (Hocc j H) as [k' [E Hnz]]. rewrite Hc in E. congruence.
  - rewrite Hc in Hp. congruence.
  - apply (Hmin j0 H). exists key. auto.
Qed.

Lemma first_hit_absent arr key h j :
  ~ In key arr -> first_hit arr key h j -> nth_error arr (slot (length arr) h j) = Some 0%N.
Proof.
  intros Hn [[c [Hc [->| ->]]] _]; [|exact Hc]. exfalso. apply Hn. eapply nth_error_In; eassumption.
Qed.

Lemma chained_insert home arr key j :
  chained home arr -> key <> 0%N -> j < length arr ->
  first_hit arr key (home key) j ->
  nth_error arr (slot (length arr) (home key) j) = Some 0%N ->
  chained home (upd arr (slot (length arr) (home key) j) key).
Proof.
  intros HC Hk Hj [_ Hmin] Hfree p k Hp Hkz. rewrite upd_length.
  set (q := slot (length arr) (home key) j) in *.
  assert (Hq : q < length arr) by (eapply nth_error_lt; eassumption).
  assert (Hocc : forall x c, nth_error arr x = Some c -> c <> 0%N ->
             exists c', nth_error (upd arr q key) x = Some c' /\ c' <> 0%N).
  { intros x c Hx Hc. rewrite nth_error_upd. destruct (Nat.eqb_spec q x) as [<-|Hqx].
    - exists key. destruct (Nat.ltb_spec q (length arr)); [auto|lia].
    - exists c. auto. }
  rewrite nth_error_upd in Hp. destruct (Nat.eqb_spec q p) as [E|Hqp].
  - destruct (Nat.ltb_spec q (length arr)); [|discriminate]. injection Hp as <-.
    exists j. split; [exact Hj|]. split; [symmetry; exact E|].
    intros i Hi. destruct (nth_error_ex arr (slot (length arr) (home key) i)) as [c Hc].
    { apply slot_lt. lia. }
    apply (Hocc _ c Hc). intros ->. apply (Hmin i Hi). exists 0%N. auto.
  - destruct (HC p k Hp Hkz) as [j0 [Hj0 [E Hch]]]. exists j0. split; [exact Hj0|]. split; [exact E|].
    intros i Hi. destruct (Hch i Hi) as [c [Hc Hcz]]. eapply Hocc; eassumption.
Qed.

Lemma uniq_insert arr p key :
  uniq arr -> ~ In key arr -> nth_error arr p = Some 0%N -> uniq (upd arr p key).
Proof.
  intros HU Hn Hp x y k. rewrite !nth_error_upd.
  destruct (Nat.eqb_spec p x) as [<-|Hpx]; destruct (Nat.eqb_spec p y) as [<-|Hpy]; [reflexivity| | |apply HU].
  - destruct (Nat.ltb_spec p (length arr)) as [Hl|Hl]; [|discriminate].
    intros E1 E2 _. injection E1 as <-. exfalso. apply Hn. eapply nth_error_In; eassumption.
  - destruct (Nat.ltb_spec p (length arr)) as [Hl|Hl]; [|discriminate].
    intros E1 E2 _. injection E2 as <-. exfalso. apply Hn. eapply nth_error_In; eassumption.
Qed.

Lemma uniq_NoDup arr : uniq arr -> NoDup (keys_of arr).
Proof.
  unfold keys_of. induction arr as [|h t IH]; intros HU; simpl; [constructor|].
  assert (HUt : uniq t).
  { intros p q k Hp Hq Hk. assert (S p = S q) by (apply (HU (S p) (S q) k); auto). lia. }
  destruct (nz h) eqn:E; [|apply IH, HUt].
  constructor; [|apply IH, HUt]. intros Hin. apply filter_In in Hin. destruct Hin as [Hin _].
  apply In_nth_error in Hin. destruct Hin as [q Hq]. apply nz_spec in E.
  assert (0 = S q) by (apply (HU 0 (S q) h); auto). discriminate.
Qed.

Lemma chained_repeat0 home n : chained home (repeat 0%N n).
Proof. intros p k Hp Hk. apply nth_error_repeat_inv in Hp. congruence. Qed.

Lemma uniq_repeat0 n : uniq (repeat 0%N n).
Proof. intros p q k Hp _ Hk. apply nth_error_repeat_inv in Hp. congruence. Qed.

Lemma chained_ext home home' arr :
  (forall k, home k = home' k) -> chained home arr -> chained home' arr.
Proof.
  intros E HC p k Hp Hk. destruct (HC p k Hp Hk) as [j Hj]. exists j. rewrite <- E. exact Hj.
Qed.

(** ** The machine-word probe loop walks through the slots. *)

Section W.
Variable w : N.
Hypothesis Hw : (w <= 64)%N.

(** The home cell of a key. *)
Definition home (a : N) (n : nat) (key : N) : nat := N.to_nat (hash w a key mod N.of_nat n)%N.

(** The capacities a table can have: powers of two that fit the key type. *)
Definition pow2cap (n : nat) : Prop := exists k, N.of_nat n = (2 ^ k)%N /\ (k <= w)%N.

Lemma pow2cap_pos n : pow2cap n -> n <> 0.
Proof. intros [k [E _]]. pose proof (pow2_pos k). lia. Qed.

Lemma home_lt a n key : n <> 0 -> home a n key < n.
Proof.
  intros H. unfold home. pose proof (N.mod_lt (hash w a key) (N.of_nat n) ltac:(lia)). lia.
Qed.

Lemma mask_mod n idx : pow2cap n -> mask w n idx = (idx mod N.of_nat n)%N.
Proof.
  intros [k [E Hk]]. unfold mask. rewrite E.
  assert (H64 : (2 ^ k <= 2 ^ 64)%N) by (apply N.pow_le_mono_r; lia).
  pose proof (pow2_pos k) as Pk.
  assert (Em : wrap 64 (2 ^ k + 2 ^ 64 - 1) = N.ones k).
  { rewrite wrap_pred by lia. rewrite N.ones_equiv. lia. }
  rewrite Em, N.land_ones. apply wrap_id.
  eapply N.lt_le_trans; [apply N.mod_lt; lia|]. apply N.pow_le_mono_r; lia.
Qed.

Lemma pow2_divide k : (k <= w)%N -> (2 ^ w = 2 ^ k * 2 ^ (w - k))%N.
Proof. intros H. rewrite <- N.pow_add_r. f_equal. lia. Qed.

Lemma mask_step n h j :
  pow2cap n ->
  mask w n (wrap w (N.of_nat (slot n h j) + 1)) = N.of_nat (slot n h (S j)).
Proof.
  intros Hn. pose proof (pow2cap_pos n Hn) as Hn0. rewrite mask_mod by assumption.
  destruct Hn as [k [E Hk]]. unfold wrap. rewrite E, (pow2_divide k Hk).
  pose proof (pow2_pos k). pose proof (pow2_pos (w - k)).
  rewrite N.mod_mul_r by lia. 
  rewrite (N.mul_comm (2 ^ k)%N), N.mod_add, N.mod_mod by lia.
  rewrite <- E. unfold slot. replace (h + S j) with (h + j + 1) by lia.
  rewrite <- (Nat.add_mod_idemp_l (h + j)) by assumption.
  generalize ((h + j) mod n). intros m.
  rewrite Nat2N.inj_mod, Nat2N.inj_add. reflexivity.
Qed.

Lemma probe_from arr key h :
  pow2cap (length arr) ->
  forall d j j' idx, first_hit arr key h j' -> j' = j + d ->
  mask w (length arr) idx = N.of_nat (slot (length arr) h j) ->
  forall fuel, d < fuel ->
  exists c, nth_error arr (slot (length arr) h j') = Some c /\
    probe w fuel arr key idx = Val (slot (length arr) h j', N.eqb c key).
Proof.
  intros Hn. pose proof (pow2cap_pos _ Hn) as Hn0.
  induction d as [|d IH]; intros j j' idx Hf Hd Hm fuel Hfuel; (destruct fuel as [|fuel]; [lia|]); cbn [probe].
  - replace j' with j in * by lia. rewrite Hm, Nat2N.id.
    destruct Hf as [[c [Hc Hor]] _]. exists c. rewrite Hc. split; [reflexivity|].
    destruct (N.eqb_spec c key); [reflexivity|]. destruct Hor as [->| ->]; [congruence|]. reflexivity.
  - rewrite Hm, Nat2N.id.
    destruct (nth_error_ex arr (slot (length arr) h j)) as [c Hc]; [now apply slot_lt|].
    rewrite Hc. assert (Hnh : ~ hit arr key h j) by (apply Hf; lia).
    destruct (N.eqb_spec c key) as [->|H1]; [exfalso; apply Hnh; exists key; auto|].
    destruct (N.eqb_spec c 0) as [->|H2]; [exfalso; apply Hnh; exists 0%N; auto|].
    apply (IH (S j) j'); [exact Hf|lia|now apply mask_step|lia].
Qed.

Lemma mask_home a n key : pow2cap n ->
  mask w n (hash w a key) = N.of_nat (slot n (home a n key) 0).
Proof.
  intros Hn. rewrite mask_mod by assumption. unfold slot. rewrite Nat.add_0_r.
  rewrite Nat.mod_small by (apply home_lt, pow2cap_pos, Hn). unfold home. now rewrite N2Nat.id.
Qed.

Lemma probe_first_hit a arr key j :
  pow2cap (length arr) -> first_hit arr key (home a (length arr) key) j ->
  forall fuel, j < fuel ->
  exists c, nth_error arr (slot (length arr) (home a (length arr) key) j) = Some c /\
    probe w fuel arr key (hash w a key) = Val (slot (length arr) (home a (length arr) key) j, N.eqb c key).
Proof.
  intros Hn Hf fuel Hfuel. eapply (probe_from arr key _ Hn j 0 j); eauto. now apply mask_home.
Qed.

Lemma probe_no_hit_from arr key h :
  pow2cap (length arr) -> (forall j, ~ hit arr key h j) ->
  forall fuel j idx, mask w (length arr) idx = N.of_nat (slot (length arr) h j) ->
  probe w fuel arr key idx = NoFuel.
Proof.
  intros Hn Hno. pose proof (pow2cap_pos _ Hn) as Hn0.
  induction fuel as [|fuel IH]; intros j idx Hm; [reflexivity|]. cbn [probe].
  rewrite Hm, Nat2N.id.
  destruct (nth_error_ex arr (slot (length arr) h j)) as [c Hc]; [now apply slot_lt|].
  rewrite Hc. specialize (Hno j) as Hnh.
  destruct (N.eqb_spec c key) as [->|H1]; [exfalso; apply Hnh; exists key; auto|].
  destruct (N.eqb_spec c 0) as [->|H2]; [exfalso; apply Hnh; exists 0%N; auto|].
  apply (IH (S j)). now apply mask_step.
Qed.

(** A full table that does not hold the key: the loop never ends. *)
Lemma probe_full_diverges a arr key :
  pow2cap (length arr) -> ~ In key arr -> ~ In 0%N arr ->
  diverges (fun fuel => probe w fuel arr key (hash w a key)).
Proof.
  intros Hn Hk H0 fuel. eapply (probe_no_hit_from arr key (home a (length arr) key) Hn).
  - intros j [c [Hc [->| ->]]]; apply nth_error_In in Hc; tauto.
  - now apply mask_home.
Qed.

(** With a free cell (or the key present) the loop ends, at the key if it is stored. *)
Lemma probe_spec a arr key :
  pow2cap (length arr) -> chained (home a (length arr)) arr -> key <> 0%N ->
  (In key arr \/ In 0%N arr) ->
  exists j, j < length arr /\ first_hit arr key (home a (length arr) key) j /\
    let p := slot (length arr) (home a (length arr) key) j in
    (In key arr -> nth_error arr p = Some key /\
        forall fuel, length arr <= fuel -> probe w fuel arr key (hash w a key) = Val (p, true)) /\
    (~ In key arr -> nth_error arr p = Some 0%N /\
        forall fuel, length arr <= fuel -> probe w fuel arr key (hash w a key) = Val (p, false)).
Proof.
  intros Hn HC Hk Hor. pose proof (pow2cap_pos _ Hn) as Hn0.
  pose proof (home_lt a (length arr) key Hn0) as Hh.
  assert (exists j, hit arr key (home a (length arr) key) j) as [j0 Hj0].
  { destruct Hor as [H|H]; apply In_nth_error in H; destruct H as [p Hp]; [eapply key_hit|eapply free_hit]; eassumption. }
  destruct (first_hit_ex _ _ _ _ Hn0 Hj0) as [j [Hf [_ Hj]]].
  exists j. split; [exact Hj|]. split; [exact Hf|]. cbv zeta. split.
  - intros Hin. pose proof (first_hit_present _ _ _ _ HC Hk Hin Hf) as Hp. split; [exact Hp|].
    intros fuel Hfuel. destruct (probe_first_hit a arr key j Hn Hf fuel) as [c [Hc ->]]; [lia|].
    rewrite Hp in Hc. injection Hc as <-. now rewrite N.eqb_refl.
  - intros Hnin. pose proof (first_hit_absent _ _ _ _ Hnin Hf) as Hp. split; [exact Hp|].
    intros fuel Hfuel. destruct (probe_first_hit a arr key j Hn Hf fuel) as [c [Hc ->]]; [lia|].
    rewrite Hp in Hc. injection Hc as <-. destruct (N.eqb_spec 0 key); [congruence|reflexivity].
Qed.
End W.
