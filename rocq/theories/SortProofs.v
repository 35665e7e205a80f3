From Verif Require Import Outcome ListUtil SortModel.
From Coq Require Import Permutation Sorted.

Section S.
Context {T D : Type}.
Variable lt : T -> T -> bool.
Notation P := (list (T * D)).

Lemma nth_map {X Y} (f : X -> Y) (l : list X) i : nth_error (map f l) i = option_map f (nth_error l i).
Proof. revert i; induction l as [|a l IH]; intros [|i]; cbn; auto. Qed.

Lemma upd_app {X} : forall (l1 l2 : list X) a b, upd (l1 ++ a :: l2) (length l1) b = l1 ++ b :: l2.
Proof. induction l1 as [|c l1 IH]; intros l2 a b; cbn [app length upd]; [reflexivity|]. now rewrite IH. Qed.

Lemma upd_map {X Y} (f : X -> Y) : forall l i a, upd (map f l) i (f a) = map f (upd l i a).
Proof. induction l as [|b l IH]; intros [|i] a; cbn [map upd]; auto. now rewrite IH. Qed.

(** The inner loop: the elements greater than the value at the end of the prefix move up by one. *)
Lemma shift_loop_spec : forall (Q : P) v x0 (R : P),
  exists P1 P2 x1, Q = P1 ++ P2 /\
    shift_loop lt (length Q) (map fst (Q ++ x0 :: R)) (map snd (Q ++ x0 :: R)) v =
      Val (length P1, map fst (P1 ++ x1 :: P2 ++ R), map snd (P1 ++ x1 :: P2 ++ R)) /\
    Forall (fun q => lt v (fst q) = true) P2 /\ (P1 = [] \/ exists P0 q, P1 = P0 ++ [q] /\ lt v (fst q) = false).
Proof.
  induction Q as [|q Q IH] using rev_ind; intros v x0 R.
  - exists [], [], x0. repeat split; auto.
  - rewrite app_length. cbn [length]. rewrite Nat.add_1_r. cbn [shift_loop]. rewrite <- app_assoc. cbn [app]. rewrite !nth_map.
    rewrite nth_error_app2, Nat.sub_diag by lia. cbn [nth_error option_map]. destruct (lt v (fst q)) eqn:E.
    + rewrite !map_length, !app_length. cbn [length].
      replace (Nat.ltb (S (length Q)) (length Q + S (S (length R)))) with true by lia. cbn [andb].
      rewrite !upd_map. replace (upd (Q ++ q :: x0 :: R) (S (length Q)) q) with (Q ++ q :: q :: R).
      * destruct (IH v q (q :: R)) as [P1 [P2 [x1 [E1 [E2 [E3 E4]]]]]]. exists P1, (P2 ++ [q]), x1. split; [rewrite E1, <- app_assoc; reflexivity|].
        split; [rewrite E2, <- app_assoc; reflexivity|]. split; [|exact E4]. apply Forall_app. split; [exact E3|]. constructor; [exact E|constructor].
      * clear. induction Q as [|a Q IH]; cbn [app length upd]; [reflexivity|]. now rewrite IH.
    + exists (Q ++ [q]), [], x0. split; [now rewrite app_nil_r|]. split.
      * rewrite app_length. cbn [length]. rewrite Nat.add_1_r, <- app_assoc. reflexivity.
      * split; [constructor|]. right. exists Q, q. auto.
Qed.

Definition short (l : P) : Prop := (N.of_nat (length l) <= 32768)%N.

Lemma sort_step_spec (Q : P) v (R : P) : (N.of_nat (length Q) <= 32767)%N ->
  exists P1 P2, Q = P1 ++ P2 /\
    sort_step lt (length Q) (map fst (Q ++ v :: R)) (map snd (Q ++ v :: R)) = Val (map fst (P1 ++ v :: P2 ++ R), map snd (P1 ++ v :: P2 ++ R)) /\
    Forall (fun q => lt (fst v) (fst q) = true) P2 /\ (P1 = [] \/ exists P0 q, P1 = P0 ++ [q] /\ lt (fst v) (fst q) = false).
Proof.
  intros HQ. unfold sort_step. rewrite !nth_map, nth_error_app2, Nat.sub_diag by lia. cbn [nth_error option_map].
  destruct (N.ltb_spec 32767 (N.of_nat (length Q))); [lia|].
  destruct (shift_loop_spec Q (fst v) v R) as [P1 [P2 [x1 [E1 [-> [E3 E4]]]]]]. exists P1, P2. split; [exact E1|]. split; [|auto].
  cbn [rbind]. rewrite !map_length, !app_length. cbn [length].
  replace (Nat.ltb (length P1) (length P1 + S (length (P2 ++ R)))) with true by lia. cbn [andb].
  rewrite !upd_map, upd_app. reflexivity.
Qed.

(** A strict weak order. *)
Hypothesis asym : forall a b, lt a b = true -> lt b a = false.
Hypothesis ntrans : forall a b c, lt a b = false -> lt b c = false -> lt a c = false.

Definition le (p q : T * D) : Prop := lt (fst q) (fst p) = false.
Definition same (k : T) (p : T * D) : bool := negb (lt k (fst p)) && negb (lt (fst p) k).

Lemma le_trans a b c : le a b -> le b c -> le a c.
Proof. unfold le. intros H1 H2. eapply ntrans; eauto. Qed.

Lemma sorted_app_inv (l1 l2 : P) : StronglySorted le (l1 ++ l2) -> StronglySorted le l1 /\ StronglySorted le l2 /\ forall a b, In a l1 -> In b l2 -> le a b.
Proof.
  induction l1 as [|x l1 IH]; cbn [app]; intros H.
  - split; [constructor|]. split; [exact H|]. intros a b [].
  - inversion H as [|? ? H1 H2]; subst. destruct (IH H1) as [I1 [I2 I3]]. apply Forall_app in H2. destruct H2 as [H2 H3]. split; [constructor; assumption|].
    split; [exact I2|]. rewrite Forall_forall in H3. intros a b [<-|Ha] Hb; auto.
Qed.
Lemma sorted_app (l1 l2 : P) : StronglySorted le l1 -> StronglySorted le l2 -> (forall a b, In a l1 -> In b l2 -> le a b) -> StronglySorted le (l1 ++ l2).
Proof.
  induction l1 as [|x l1 IH]; cbn [app]; intros H1 H2 H3; [exact H2|]. inversion H1; subst. constructor.
  - apply IH; auto. intros a b Ha. apply H3. now right.
  - apply Forall_app. split; [assumption|]. rewrite Forall_forall. intros b Hb. apply H3; [now left|exact Hb].
Qed.

Lemma insert_sorted P1 P2 v : StronglySorted le (P1 ++ P2) -> Forall (fun q => lt (fst v) (fst q) = true) P2 ->
  (P1 = [] \/ exists P0 q, P1 = P0 ++ [q] /\ lt (fst v) (fst q) = false) -> StronglySorted le (P1 ++ v :: P2).
Proof.
  intros Hs H2 H1. destruct (sorted_app_inv _ _ Hs) as [S1 [S2 S3]]. apply sorted_app; [exact S1| |].
  - constructor; [exact S2|]. eapply Forall_impl; [|exact H2]. intros q Hq. apply asym, Hq.
  - intros a b Ha [<-|Hb]; [|auto]. destruct H1 as [->|[P0 [q [-> Hq]]]]; [contradiction|].
    apply in_app_or in Ha. destruct Ha as [Ha|[<-|[]]]; [|exact Hq]. apply (le_trans a q v); [|exact Hq].
    destruct (sorted_app_inv _ _ S1) as [_ [_ H]]. apply H; [exact Ha|now left].
Qed.

Lemma filter_none (f : T * D -> bool) (l : P) : (forall a, In a l -> f a = false) -> filter f l = [].
Proof.
  induction l as [|a l IH]; intros H; [reflexivity|]. cbn [filter]. rewrite (H a) by now left. apply IH. intros b Hb. apply H. now right.
Qed.

Lemma insert_stable P1 P2 v k : Forall (fun q => lt (fst v) (fst q) = true) P2 ->
  filter (same k) (P1 ++ v :: P2) = filter (same k) ((P1 ++ P2) ++ [v]).
Proof.
  intros H. rewrite !filter_app. cbn [filter]. destruct (same k v) eqn:E; [|now rewrite app_nil_r].
  rewrite (filter_none (same k) P2); [now rewrite app_nil_r|]. rewrite Forall_forall in H. intros q Hq. specialize (H q Hq).
  unfold same in *. apply andb_true_iff in E. destruct E as [E1 E2]. apply negb_true_iff in E1, E2.
  destruct (lt k (fst q)) eqn:Ek; [reflexivity|]. cbn [negb andb]. exfalso.
  assert (lt (fst v) (fst q) = false) by (apply (ntrans _ k); assumption). congruence.
Qed.

Lemma sort_loop_spec : forall (R Q Q0 : P), StronglySorted le Q -> Permutation Q Q0 -> (forall k, filter (same k) Q = filter (same k) Q0) ->
  short (Q ++ R) ->
  exists L, sort_loop lt (length R) (length Q) (map fst (Q ++ R)) (map snd (Q ++ R)) = Val (map fst L, map snd L) /\
    StronglySorted le L /\ Permutation L (Q0 ++ R) /\ forall k, filter (same k) L = filter (same k) (Q0 ++ R).
Proof.
  induction R as [|v R IH]; intros Q Q0 Hs Hp Hf Hl; cbn [length sort_loop].
  - exists Q. rewrite !app_nil_r. auto.
  - unfold short in Hl. rewrite app_length in Hl. cbn [length] in Hl.
    destruct (sort_step_spec Q v R) as [P1 [P2 [E1 [E2 [E3 E4]]]]]; [lia|]. rewrite E2. cbn [rbind].
    replace (P1 ++ v :: P2 ++ R) with ((P1 ++ v :: P2) ++ R) by (rewrite <- app_assoc; reflexivity).
    assert (HL : length (P1 ++ v :: P2) = S (length Q)) by (rewrite E1, !app_length; cbn [length]; lia).
    destruct (IH (P1 ++ v :: P2) (Q0 ++ [v])) as [L [L1 [L2 [L3 L4]]]].
    + apply insert_sorted; auto. now rewrite <- E1.
    + apply (perm_trans (l' := Q ++ [v])); [|apply Permutation_app_tail, Hp]. rewrite E1.
      rewrite <- app_assoc. apply Permutation_app_head. apply Permutation_cons_append.
    + intros k. rewrite insert_stable by exact E3. rewrite <- E1, !filter_app, Hf. reflexivity.
    + unfold short. rewrite app_length, HL. lia.
    + exists L. rewrite HL in L1. split; [exact L1|]. split; [exact L2|].
      rewrite <- app_assoc in L3. split; [exact L3|]. intros k. rewrite L4, <- app_assoc. reflexivity.
Qed.

Lemma sort_spec (l : P) : short l ->
  exists L, sort_with_data lt (map fst l) (map snd l) = Val (map fst L, map snd L) /\
    StronglySorted le L /\ Permutation L l /\ forall k, filter (same k) L = filter (same k) l.
Proof.
  intros Hl. unfold sort_with_data. rewrite map_length. destruct l as [|v R].
  - exists []. cbn. repeat split; constructor.
  - cbn [length]. rewrite Nat.sub_succ, Nat.sub_0_r. apply (sort_loop_spec R [v] [v]); auto. repeat constructor.
Qed.
End S.

(** Beyond 32768 elements the index overflows. *)
Lemma shift_loop_ok {T D} (lt : T -> T -> bool) : forall hole arr (dat : list D) v, hole < length arr -> hole < length dat ->
  exists h a d, shift_loop lt hole arr dat v = Val (h, a, d) /\ h <= hole /\ length a = length arr /\ length d = length dat.
Proof.
  induction hole as [|h IH]; intros arr dat v H1 H2; cbn [shift_loop]; [exists 0, arr, dat; auto|].
  destruct (nth_error_ex arr h) as [x ->]; [lia|]. destruct (nth_error_ex dat h) as [y ->]; [lia|]. destruct (lt v x).
  - replace (_ && _) with true by lia. destruct (IH (upd arr (S h) x) (upd dat (S h) y) v) as [h' [a [d [E [L1 [L2 L3]]]]]]; [rewrite upd_length; lia..|].
    exists h', a, d. rewrite !upd_length in *. repeat split; auto.
  - exists (S h), arr, dat. auto.
Qed.

Lemma sort_step_ok {T D} (lt : T -> T -> bool) i (arr : list T) (dat : list D) : (N.of_nat i <= 32767)%N -> i < length arr -> i < length dat ->
  exists a d, sort_step lt i arr dat = Val (a, d) /\ length a = length arr /\ length d = length dat.
Proof.
  intros Hi H1 H2. unfold sort_step. destruct (nth_error_ex arr i) as [x ->]; [lia|]. destruct (nth_error_ex dat i) as [y ->]; [lia|].
  destruct (N.ltb_spec 32767 (N.of_nat i)); [lia|]. destruct (shift_loop_ok lt i arr dat x H1 H2) as [h [a [d [-> [L1 [L2 L3]]]]]]. cbn [rbind].
  replace (_ && _) with true by lia. do 2 eexists. split; [reflexivity|]. rewrite !upd_length. auto.
Qed.

Lemma sort_loop_large {T D} (lt : T -> T -> bool) : forall p i (arr : list T) (dat : list D), length dat = length arr ->
  (N.of_nat i <= 32768 < N.of_nat (i + p))%N -> i + p <= length arr -> sort_loop lt p i arr dat = Undef.
Proof.
  induction p as [|p IH]; intros i arr dat Hd Hi Hl; [lia|]. cbn [sort_loop]. destruct (N.eq_dec (N.of_nat i) 32768) as [Ei|Hne].
  - unfold sort_step. destruct (nth_error_ex arr i) as [x ->]; [lia|]. destruct (nth_error_ex dat i) as [y ->]; [lia|].
    destruct (N.ltb_spec 32767 (N.of_nat i)); [reflexivity|lia].
  - destruct (sort_step_ok lt i arr dat) as [a [d [-> [L1 L2]]]]; try lia. cbn [rbind]. apply IH; lia.
Qed.

Lemma sort_large {T D} (lt : T -> T -> bool) (arr : list T) (dat : list D) : length dat = length arr -> (32768 < N.of_nat (length arr))%N ->
  sort_with_data lt arr dat = Undef.
Proof. intros H1 H2. unfold sort_with_data. apply sort_loop_large; lia. Qed.

Lemma keys_spec {T} (lt : T -> T -> bool) : (forall a b, lt a b = true -> lt b a = false) ->
  (forall a b c, lt a b = false -> lt b c = false -> lt a c = false) ->
  forall l, (N.of_nat (length l) <= 32768)%N -> exists l', sort_keys lt l = Val l' /\ StronglySorted (fun a b => lt b a = false) l' /\ Permutation l' l.
Proof.
  intros H1 H2 l Hl. unfold sort_keys.
  assert (E1 : l = map fst (map (fun x => (x, tt)) l)) by (rewrite map_map; cbn; symmetry; apply map_id).
  assert (E2 : repeat tt (length l) = map snd (map (fun x => (x, tt)) l)) by (rewrite map_map; cbn; clear; induction l; cbn; congruence).
  destruct (sort_spec lt H1 H2 (map (fun x => (x, tt)) l)) as [L [L1 [L2 [L3 _]]]]; [unfold short; now rewrite map_length|].
  exists (map fst L). rewrite E2. rewrite E1 at 1. rewrite L1. split; [reflexivity|]. split.
  - clear - L2. induction L2 as [|a L HL IH Ha]; cbn [map]; constructor; [exact IH|]. rewrite Forall_forall in *. intros b Hb.
    apply in_map_iff in Hb. destruct Hb as [q [<- Hq]]. exact (Ha q Hq).
  - rewrite E1 at 1. apply Permutation_map, L3.
Qed.
