(** Proofs about the sequential linear-probing set. *)
From Verif Require Import Outcome ListUtil WordsModel WordsProofs LPSetModel ProbeTheory.
Local Open Scope nat_scope.

Section W.
Variable w : N.
Hypothesis Hw : (w <= 64)%N.

(** Representation invariant of a table. *)
Definition set_wf (s : lpset) : Prop :=
  pow2cap w (length (s_arr s)) /\
  chained (home w (s_mult s) (length (s_arr s))) (s_arr s) /\
  uniq (s_arr s) /\
  s_items s = length (keys_of (s_arr s)).

Definition elem (s : lpset) (k : N) : Prop := In k (keys_of (s_arr s)).
Definition cap (s : lpset) : nat := length (s_arr s).

Lemma elem_In s k : elem s k <-> In k (s_arr s) /\ k <> 0%N.
Proof. apply in_keys_of. Qed.

Lemma elem_dec s k : {elem s k} + {~ elem s k}.
Proof. apply in_dec, N.eq_dec. Qed.

Lemma wf_cap_pos s : set_wf s -> cap s <> 0.
Proof. intros [H _]. exact (pow2cap_pos w Hw _ H). Qed.

Lemma wf_items_le s : set_wf s -> s_items s <= cap s.
Proof. intros [_ [_ [_ ->]]]. apply keys_of_length. Qed.

Lemma wf_NoDup s : set_wf s -> NoDup (keys_of (s_arr s)).
Proof. intros [_ [_ [H _]]]. now apply uniq_NoDup. Qed.

Lemma free_In s : set_wf s -> s_items s < cap s -> In 0%N (s_arr s).
Proof.
  intros [_ [_ [_ E]]] H. destruct (keys_of_free (s_arr s)) as [i Hi]; [unfold cap in H; lia|].
  eapply nth_error_In; eassumption.
Qed.

Lemma items_same s s' : set_wf s -> set_wf s' -> (forall k, elem s k <-> elem s' k) -> s_items s = s_items s'.
Proof.
  intros H H' E. pose proof (wf_NoDup s H). pose proof (wf_NoDup s' H').
  destruct H as [_ [_ [_ ->]]], H' as [_ [_ [_ ->]]]. now apply NoDup_same_length.
Qed.

(** *** contains *)
Lemma contains_in s k fuel :
  set_wf s -> elem s k -> cap s <= fuel -> set_contains w fuel s k = Val true.
Proof.
  intros [Hp [Hc [Hu Hi]]] Hk Hf. apply elem_In in Hk. destruct Hk as [Hk Hz].
  destruct (probe_spec w Hw (s_mult s) (s_arr s) k Hp Hc Hz (or_introl Hk)) as [j [_ [_ [P _]]]].
  destruct (P Hk) as [_ P']. unfold set_contains. rewrite P' by exact Hf. reflexivity.
Qed.

Lemma contains_out s k fuel :
  set_wf s -> k <> 0%N -> ~ elem s k -> s_items s < cap s -> cap s <= fuel ->
  set_contains w fuel s k = Val false.
Proof.
  intros Hwf Hz Hk Hfree Hf. pose proof (free_In s Hwf Hfree) as H0.
  destruct Hwf as [Hp [Hc [Hu Hi]]].
  assert (Hk' : ~ In k (s_arr s)) by (intros H; apply Hk, elem_In; auto).
  destruct (probe_spec w Hw (s_mult s) (s_arr s) k Hp Hc Hz (or_intror H0)) as [j [_ [_ [_ P]]]].
  destruct (P Hk') as [_ P']. unfold set_contains. rewrite P' by exact Hf. reflexivity.
Qed.

Lemma contains_dec s k fuel :
  set_wf s -> k <> 0%N -> s_items s < cap s -> cap s <= fuel ->
  set_contains w fuel s k = Val (if elem_dec s k then true else false).
Proof.
  intros. destruct (elem_dec s k); [now apply contains_in|now apply contains_out].
Qed.

Lemma contains_full_diverges s k :
  set_wf s -> k <> 0%N -> ~ elem s k -> s_items s = cap s -> diverges (fun f => set_contains w f s k).
Proof.
  intros [Hp [Hc [Hu Hi]]] Hz Hk Hfull f. unfold set_contains.
  rewrite (probe_full_diverges w Hw (s_mult s) (s_arr s) k Hp); [reflexivity| |].
  - intros H. apply Hk, elem_In. auto.
  - intros H. assert (F : length (keys_of (s_arr s)) = length (s_arr s)) by (unfold cap in Hfull; lia).
    apply (proj1 (keys_of_full _) F 0%N H). reflexivity.
Qed.

(** *** insert without growing *)
Lemma insert_raw_in s k fuel :
  set_wf s -> elem s k -> cap s <= fuel -> insert_raw w fuel s k = Val (s, false).
Proof.
  intros [Hp [Hc [Hu Hi]]] Hk Hf. apply elem_In in Hk. destruct Hk as [Hk Hz].
  destruct (probe_spec w Hw (s_mult s) (s_arr s) k Hp Hc Hz (or_introl Hk)) as [j [_ [_ [P _]]]].
  destruct (P Hk) as [_ P']. unfold insert_raw. rewrite P' by exact Hf. reflexivity.
Qed.

Lemma insert_raw_out s k :
  set_wf s -> k <> 0%N -> ~ elem s k -> s_items s < cap s ->
  exists s', (forall fuel, cap s <= fuel -> insert_raw w fuel s k = Val (s', true)) /\
    set_wf s' /\ (forall x, elem s' x <-> x = k \/ elem s x) /\
    cap s' = cap s /\ s_mult s' = s_mult s /\ s_items s' = S (s_items s).
Proof.
  intros Hwf Hz Hk Hfree. pose proof (free_In s Hwf Hfree) as H0.
  destruct Hwf as [Hp [Hc [Hu Hi]]].
  assert (Hk' : ~ In k (s_arr s)) by (intros H; apply Hk, elem_In; auto).
  destruct (probe_spec w Hw (s_mult s) (s_arr s) k Hp Hc Hz (or_intror H0)) as [j [Hj [Hf [_ P]]]].
  destruct (P Hk') as [P0 P']. clear P.
  set (p := slot (length (s_arr s)) (home w (s_mult s) (length (s_arr s)) k) j) in *.
  exists (mkset (upd (s_arr s) p k) (S (s_items s)) (s_mult s)).
  pose proof (keys_of_upd (s_arr s) p k P0 Hz) as Hperm.
  split; [|split; [|split; [|split; [|split]]]].
  - intros fuel Hfuel. unfold insert_raw. rewrite P' by exact Hfuel. reflexivity.
  - unfold set_wf. cbn [s_arr s_items s_mult]. rewrite upd_length. repeat split.
    + exact Hp.
    + apply chained_insert; assumption.
    + now apply uniq_insert.
    + rewrite (Permutation_length Hperm). simpl. now rewrite Hi.
  - intros x. unfold elem. cbn [s_arr]. split.
    + intros H. apply (Permutation_in _ Hperm) in H. destruct H; auto.
    + intros H. apply (Permutation_in _ (Permutation_sym Hperm)). destruct H; [left|right]; auto.
  - unfold cap. cbn [s_arr]. apply upd_length.
  - reflexivity.
  - reflexivity.
Qed.

(** Both cases at once: the result contains k, reports whether k was new. *)
Lemma insert_raw_spec s k :
  set_wf s -> k <> 0%N -> elem s k \/ s_items s < cap s ->
  exists s', (forall fuel, cap s <= fuel -> insert_raw w fuel s k = Val (s', if elem_dec s k then false else true)) /\
    set_wf s' /\ (forall x, elem s' x <-> x = k \/ elem s x) /\
    cap s' = cap s /\ s_mult s' = s_mult s /\
    s_items s' = s_items s + (if elem_dec s k then 0 else 1).
Proof.
  intros Hwf Hz Hor. destruct (elem_dec s k) as [Hk|Hk].
  - exists s. repeat split; auto; try (apply Hwf); try tauto.
    + intros fuel Hf. now apply insert_raw_in.
    + intros [->|H]; auto.
  - destruct Hor as [H|Hfree]; [tauto|].
    destruct (insert_raw_out s k Hwf Hz Hk Hfree) as [s' H]. exists s'. intuition lia.
Qed.

Lemma insert_raw_full_diverges s k :
  set_wf s -> k <> 0%N -> ~ elem s k -> s_items s = cap s -> diverges (fun f => insert_raw w f s k).
Proof.
  intros [Hp [Hc [Hu Hi]]] Hz Hk Hfull f. unfold insert_raw.
  rewrite (probe_full_diverges w Hw (s_mult s) (s_arr s) k Hp); [reflexivity| |].
  - intros H. apply Hk, elem_In. auto.
  - intros H. assert (F : length (keys_of (s_arr s)) = length (s_arr s)) by (unfold cap in Hfull; lia).
    apply (proj1 (keys_of_full _) F 0%N H). reflexivity.
Qed.

(** *** fresh tables *)
Definition empty_set (n : nat) (a : N) : lpset := mkset (repeat 0%N n) 0 a.

Lemma empty_wf n a : pow2cap w n -> set_wf (empty_set n a).
Proof.
  intros H. unfold set_wf, empty_set. cbn [s_arr s_items s_mult]. rewrite repeat_length. repeat split.
  - exact H.
  - apply chained_repeat0.
  - apply uniq_repeat0.
  - now rewrite keys_of_repeat0.
Qed.

Lemma empty_elem n a k : ~ elem (empty_set n a) k.
Proof. unfold elem, empty_set. cbn [s_arr]. rewrite keys_of_repeat0. auto. Qed.

Lemma cap_empty n a : cap (empty_set n a) = n.
Proof. apply repeat_length. Qed.

(** *** the loop that re-inserts the non-zero cells of an array that pass a test *)
Definition sel (keep : N -> bool) (l : list N) : list N := filter keep (keys_of l).

Lemma sel_cons keep k l :
  sel keep (k :: l) = if N.eqb k 0 then sel keep l else if keep k then k :: sel keep l else sel keep l.
Proof.
  unfold sel, keys_of. cbn [filter]. unfold nz at 1. destruct (N.eqb k 0); cbn [negb]; [reflexivity|].
  cbn [filter]. reflexivity.
Qed.

Lemma sel_true l : sel (fun _ => true) l = keys_of l.
Proof.
  unfold sel. induction (keys_of l) as [|h t IH]; [reflexivity|]. cbn [filter]. now rewrite IH.
Qed.

Lemma sel_length keep l : length (sel keep l) <= length (keys_of l).
Proof. unfold sel. induction (keys_of l) as [|h t IH]; cbn; [lia|]. destruct (keep h); cbn; lia. Qed.

Lemma In_sel keep l k : In k (sel keep l) <-> In k (keys_of l) /\ keep k = true.
Proof. apply filter_In. Qed.

(* [step] is the loop body; it inserts exactly the keys selected by [keep] *)
Lemma fold_raw_spec (keep : N -> bool) (step : nat -> lpset -> N -> res lpset) (lim : nat) l :
  (forall fuel t, lim <= fuel -> step fuel t 0%N = Val t) ->
  (forall fuel t k, lim <= fuel -> k <> 0%N -> In k l ->
     step fuel t k = if keep k then rmap fst (insert_raw w fuel t k) else Val t) ->
  forall t, set_wf t -> s_items t + length (sel keep l) <= cap t ->
  exists t', (forall fuel, lim <= fuel -> cap t <= fuel -> fold_res (step fuel) l t = Val t') /\
    set_wf t' /\ (forall x, elem t' x <-> elem t x \/ In x (sel keep l)) /\
    cap t' = cap t /\ s_mult t' = s_mult t.
Proof.
  intros H0. induction l as [|k l IH]; intros Hs t Hwf Hcap.
  - exists t. cbn [fold_res]. repeat split; auto; try apply Hwf; cbn; tauto.
  - rewrite sel_cons in Hcap |- *. destruct (N.eqb_spec k 0) as [->|Hz].
    + destruct (IH ltac:(intros; apply Hs; simpl; auto) t Hwf Hcap) as [t' [E [W' [X' [C' M']]]]].
      exists t'. repeat split; try apply W'; try apply X'; auto.
      intros fuel H1 H2. cbn [fold_res]. rewrite H0 by assumption. cbn [rbind]. now apply E.
    + destruct (keep k) eqn:Ek.
      * assert (Hor : elem t k \/ s_items t < cap t) by (cbn [length] in Hcap; right; lia).
        destruct (insert_raw_spec t k Hwf Hz Hor) as [t1 [E1 [W1 [X1 [C1 [M1 I1]]]]]].
        destruct (IH ltac:(intros; apply Hs; simpl; auto) t1 W1) as [t' [E [W' [X' [C' M']]]]].
        { cbn [length] in Hcap. rewrite C1. destruct (elem_dec t k); lia. }
        exists t'. split; [|split; [exact W'|split; [|split; congruence]]].
        -- intros fuel H1 H2. cbn [fold_res]. rewrite Hs by (simpl; auto). rewrite Ek, E1 by assumption.
           cbn [rmap rbind fst]. apply E; [assumption|]. rewrite C1. assumption.
        -- intros x. rewrite X', X1. simpl. intuition congruence.
      * destruct (IH ltac:(intros; apply Hs; simpl; auto) t Hwf Hcap) as [t' [E [W' [X' [C' M']]]]].
        exists t'. repeat split; try apply W'; try apply X'; auto.
        intros fuel H1 H2. cbn [fold_res]. rewrite Hs by (simpl; auto). rewrite Ek. cbn [rbind]. now apply E.
Qed.

(** *** rehash *)
Lemma rehash_spec s newSize n :
  set_wf s -> nextPow2 64 newSize = N.of_nat n -> pow2cap w n -> s_items s <= n ->
  exists s', (forall fuel, n <= fuel -> rehash w fuel s newSize = Val s') /\
    set_wf s' /\ (forall x, elem s' x <-> elem s x) /\ cap s' = n /\ s_mult s' = s_mult s.
Proof.
  intros Hwf En Hn Hit.
  destruct (fold_raw_spec (fun _ => true)
     (fun fuel t k => if N.eqb k 0 then Val t else rmap fst (insert_raw w fuel t k)) 0 (s_arr s))
     with (t := empty_set n (s_mult s)) as [t' [E [W' [X' [C' M']]]]].
  - intros. reflexivity.
  - intros fuel t k _ Hk _. apply N.eqb_neq in Hk. now rewrite Hk.
  - now apply empty_wf.
  - rewrite cap_empty, sel_true. destruct Hwf as [_ [_ [_ <-]]]. cbn. exact Hit.
  - exists t'. rewrite cap_empty in *. split; [|split; [exact W'|split; [|split; [exact C'|exact M']]]].
    + intros fuel Hf. unfold rehash, alloc. rewrite En, Nat2N.id. apply (E fuel); lia.
    + intros x. rewrite X', sel_true. pose proof (empty_elem n (s_mult s) x). unfold elem in *. tauto.
Qed.

Lemma rehash_filter_spec s newSize n flt cmp :
  set_wf s -> set_wf flt -> s_items flt < cap flt \/ (forall k, elem s k -> elem flt k) ->
  nextPow2 64 newSize = N.of_nat n -> pow2cap w n -> s_items s <= n ->
  exists s', (forall fuel, n <= fuel -> cap flt <= fuel -> rehash_filter w fuel s newSize flt cmp = Val s') /\
    set_wf s' /\
    (forall x, elem s' x <-> elem s x /\ (if cmp then elem flt x else ~ elem flt x)) /\
    cap s' = n /\ s_mult s' = s_mult s.
Proof.
  intros Hwf Hflt Hffree En Hn Hit.
  set (keep := fun k => Bool.eqb (if elem_dec flt k then true else false) cmp).
  destruct (fold_raw_spec keep
     (fun fuel t k => if N.eqb k 0 then Val t else
         rbind (set_contains w fuel flt k)
           (fun b => if Bool.eqb b cmp then rmap fst (insert_raw w fuel t k) else Val t)) (cap flt) (s_arr s))
     with (t := empty_set n (s_mult s)) as [t' [E [W' [X' [C' M']]]]].
  - intros. reflexivity.
  - intros fuel t k Hf Hk Hin. pose proof Hk as Hk2. apply N.eqb_neq in Hk2. rewrite Hk2.
    unfold keep. destruct (elem_dec flt k) as [He|He].
    + rewrite contains_in by assumption. reflexivity.
    + destruct Hffree as [Hfr|Hall].
      * rewrite contains_out by assumption. reflexivity.
      * exfalso. apply He, Hall, elem_In. auto.
  - now apply empty_wf.
  - rewrite cap_empty. pose proof (sel_length keep (s_arr s)). destruct Hwf as [_ [_ [_ E]]]. cbn. lia.
  - exists t'. rewrite cap_empty in *. split; [|split; [exact W'|split; [|split; [exact C'|exact M']]]].
    + intros fuel H1 H2. unfold rehash_filter, alloc. rewrite En, Nat2N.id. apply (E fuel); lia.
    + intros x. rewrite X', In_sel. pose proof (empty_elem n (s_mult s) x) as Hno. change (In x (keys_of (s_arr s))) with (elem s x). unfold keep.
      destruct (elem_dec flt x), cmp; cbn [Bool.eqb]; intuition congruence.
Qed.

(** *** insert with growing *)
Definition grows (g : bool) (s : lpset) : bool := g && Nat.leb (cap s) (2 * s_items s).

Lemma double_pow2cap n : pow2cap w n -> (N.of_nat (2 * n) <= 2 ^ w)%N -> pow2cap w (2 * n).
Proof.
  intros [k [E Hk]] H. exists (N.succ k). rewrite N.pow_succ_r by lia. split; [lia|].
  replace (N.of_nat (2 * n)) with (2 ^ N.succ k)%N in H by (rewrite N.pow_succ_r; lia).
  apply N.pow_le_mono_r_iff in H; lia.
Qed.

Lemma nextPow2_cap n : pow2cap w n -> (N.of_nat n <= 2 ^ 63)%N -> nextPow2 64 (N.of_nat n) = N.of_nat n.
Proof.
  intros [k [E Hk]] H. rewrite E in *. apply nextPow2_idem; [lia|].
  apply N.pow_le_mono_r_iff in H; lia.
Qed.

(** What an insertion must satisfy: the doubled capacity is representable. *)
Definition can_double (s : lpset) : Prop :=
  (N.of_nat (2 * cap s) <= 2 ^ w)%N /\ (N.of_nat (2 * cap s) <= 2 ^ 63)%N.

Lemma grow_spec s : set_wf s -> can_double s ->
  exists s', (forall fuel, 2 * cap s <= fuel -> rehash w fuel s (wrap 64 (2 * N.of_nat (cap s))) = Val s') /\
    set_wf s' /\ (forall x, elem s' x <-> elem s x) /\ cap s' = 2 * cap s /\ s_mult s' = s_mult s.
Proof.
  intros Hwf [D1 D2]. apply rehash_spec; auto.
  - rewrite wrap_id.
    + replace (2 * N.of_nat (cap s))%N with (N.of_nat (2 * cap s)) by lia.
      apply nextPow2_cap; [|exact D2]. apply double_pow2cap; [apply Hwf|exact D1].
    + replace (2 * N.of_nat (cap s))%N with (N.of_nat (2 * cap s)) by lia.
      eapply N.le_lt_trans; [exact D2|]. reflexivity.
  - apply double_pow2cap; [apply Hwf|exact D1].
  - pose proof (wf_items_le s Hwf). lia.
Qed.

Lemma insert_spec g s k :
  set_wf s -> k <> 0%N -> (if grows g s then can_double s else elem s k \/ s_items s < cap s) ->
  exists s', (forall fuel, 2 * cap s <= fuel -> set_insert w g fuel s k = Val (s', if elem_dec s k then false else true)) /\
    set_wf s' /\ (forall x, elem s' x <-> x = k \/ elem s x) /\
    cap s' = (if grows g s then 2 * cap s else cap s) /\ s_mult s' = s_mult s /\
    s_items s' = s_items s + (if elem_dec s k then 0 else 1).
Proof.
  intros Hwf Hz Hpre. pose proof (wf_cap_pos s Hwf) as Hc0.
  assert (Eg : g && negb (Nat.eqb (cap s) 0) && Nat.leb (cap s) (2 * s_items s) = grows g s).
  { unfold grows. destruct (Nat.eqb_spec (cap s) 0); [lia|]. cbn [negb]. now rewrite andb_true_r. }
  unfold set_insert. fold (cap s). rewrite Eg. destruct (grows g s) eqn:Egr.
  - destruct (grow_spec s Hwf Hpre) as [s1 [E1 [W1 [X1 [C1 M1]]]]].
    pose proof (items_same s s1 Hwf W1 ltac:(intros; symmetry; apply X1)) as I1.
    pose proof (wf_items_le s Hwf) as Hle.
    destruct (insert_raw_spec s1 k W1 Hz) as [s2 [E2 [W2 [X2 [C2 [M2 I2]]]]]]; [right; lia|].
    exists s2. split; [|split; [exact W2|split; [|split; [lia|split; [congruence|]]]]].
    + intros fuel Hf. rewrite E1 by exact Hf. cbn [rbind]. rewrite E2 by lia.
      destruct (elem_dec s1 k) as [H|H], (elem_dec s k) as [H'|H']; try reflexivity; exfalso; [apply H', X1, H|apply H, X1, H'].
    + intros x. rewrite X2, X1. tauto.
    + rewrite I2, I1. destruct (elem_dec s1 k) as [H|H], (elem_dec s k) as [H'|H']; try reflexivity; exfalso; [apply H', X1, H|apply H, X1, H'].
  - destruct (insert_raw_spec s k Hwf Hz Hpre) as [s2 [E2 H2]].
    exists s2. split; [|exact H2]. intros fuel Hf. apply E2. lia.
Qed.
End W.
