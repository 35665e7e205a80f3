(** List facts used by all array models. *)
From Verif Require Import Outcome.
From Coq Require Export Permutation.

(** Array store: replaces position [i]; out of range leaves the list unchanged
    (models never call it out of range: they test with [nth_error] first). *)
Fixpoint upd {A} (l : list A) (i : nat) (x : A) : list A :=
  match l, i with
  | [], _ => []
  | _ :: t, O => x :: t
  | h :: t, S j => h :: upd t j x
  end.

Lemma upd_length {A} (l : list A) i x : length (upd l i x) = length l.
Proof. revert i; induction l as [|h t IH]; intros [|i]; simpl; auto. Qed.

Lemma nth_error_upd_eq {A} (l : list A) i x :
  i < length l -> nth_error (upd l i x) i = Some x.
Proof. revert i; induction l as [|h t IH]; intros [|i] H; simpl in *; try lia; auto. apply IH; lia. Qed.

Lemma nth_error_upd_neq {A} (l : list A) i j x :
  i <> j -> nth_error (upd l i x) j = nth_error l j.
Proof.
  revert i j; induction l as [|h t IH]; intros [|i] [|j] H; simpl; try congruence; auto.
Qed.

Lemma nth_error_upd {A} (l : list A) i j x :
  nth_error (upd l i x) j =
  if Nat.eqb i j then (if Nat.ltb i (length l) then Some x else None) else nth_error l j.
Proof.
  destruct (Nat.eqb_spec i j) as [<-|Hn].
  - destruct (Nat.ltb_spec i (length l)) as [H|H].
    + now apply nth_error_upd_eq.
    + apply nth_error_None. rewrite upd_length. lia.
  - now apply nth_error_upd_neq.
Qed.

Lemma nth_error_lt {A} (l : list A) i x : nth_error l i = Some x -> i < length l.
Proof. intros H. apply nth_error_Some. congruence. Qed.

Lemma nth_error_ex {A} (l : list A) i : i < length l -> exists x, nth_error l i = Some x.
Proof. intros H. destruct (nth_error l i) eqn:E; eauto. apply nth_error_None in E. lia. Qed.

(** Non-zero cells of an array of keys. *)
Definition nz (x : N) : bool := negb (N.eqb x 0).
Definition keys_of (l : list N) : list N := filter nz l.

Lemma nz_spec x : nz x = true <-> x <> 0%N.
Proof. unfold nz. destruct (N.eqb_spec x 0); simpl; split; congruence. Qed.

Lemma in_keys_of l k : In k (keys_of l) <-> In k l /\ k <> 0%N.
Proof. unfold keys_of. rewrite filter_In, nz_spec. tauto. Qed.

Lemma keys_of_length l : length (keys_of l) <= length l.
Proof. unfold keys_of. induction l as [|h t IH]; simpl; auto. destruct (nz h); simpl; lia. Qed.

Lemma keys_of_upd l i k :
  nth_error l i = Some 0%N -> k <> 0%N -> Permutation (keys_of (upd l i k)) (k :: keys_of l).
Proof.
  intros H Hk. apply nz_spec in Hk. revert i H; induction l as [|h t IH]; intros [|i] H; simpl in H; try discriminate.
  - injection H as ->. unfold keys_of. cbn [upd filter]. rewrite Hk. change (nz 0) with false. reflexivity.
  - unfold keys_of in *. cbn [upd filter]. destruct (nz h).
    + rewrite (IH i H). apply perm_swap.
    + apply IH, H.
Qed.

Lemma keys_of_full l : length (keys_of l) = length l <-> (forall k, In k l -> k <> 0%N).
Proof.
  unfold keys_of. induction l as [|h t IH]; simpl.
  - split; [intros _ k []|reflexivity].
  - pose proof (keys_of_length t) as L. unfold keys_of in L.
    destruct (nz h) eqn:E; simpl; split.
    + intros H k [<-|Hk]; [now apply nz_spec|]. apply IH; [lia|assumption].
    + intros H. f_equal. apply IH. intros k Hk. apply H. auto.
    + intros H. lia.
    + intros H. assert (h <> 0%N) by (apply H; auto). apply nz_spec in H0. congruence.
Qed.

Lemma keys_of_free l : length (keys_of l) < length l -> exists i, nth_error l i = Some 0%N.
Proof.
  induction l as [|h t IH]; simpl; [lia|]. unfold keys_of in *. cbn [filter].
  destruct (nz h) eqn:E; simpl.
  - intros H. destruct IH as [i Hi]; [lia|]. exists (S i). exact Hi.
  - intros _. exists 0. simpl. f_equal. destruct (N.eqb_spec h 0); auto.
    exfalso. unfold nz in E. destruct (N.eqb_spec h 0); simpl in E; congruence.
Qed.

Lemma keys_of_repeat0 n : keys_of (repeat 0%N n) = [].
Proof. induction n; simpl; auto. Qed.

Lemma keys_of_app l1 l2 : keys_of (l1 ++ l2) = keys_of l1 ++ keys_of l2.
Proof. apply filter_app. Qed.

Lemma keys_of_idem l : (forall k, In k l -> k <> 0%N) -> keys_of l = l.
Proof.
  induction l as [|h t IH]; simpl; auto. intros H. assert (Hh : nz h = true) by (apply nz_spec; auto).
  rewrite Hh. f_equal. apply IH. auto.
Qed.

Lemma nth_error_repeat {A} (x : A) n i : i < n -> nth_error (repeat x n) i = Some x.
Proof. revert i; induction n; intros [|i] H; simpl; try lia; auto. apply IHn. lia. Qed.

Lemma nth_error_repeat_inv {A} (x y : A) n i : nth_error (repeat x n) i = Some y -> y = x.
Proof. intros H. apply nth_error_In, repeat_spec in H. exact H. Qed.

(** Number of distinct elements of a list of keys. *)
Definition distinct (l : list N) : nat := length (nodup N.eq_dec l).

Lemma NoDup_same_length {A} (l1 l2 : list A) :
  NoDup l1 -> NoDup l2 -> (forall x, In x l1 <-> In x l2) -> length l1 = length l2.
Proof.
  intros H1 H2 H. apply Nat.le_antisymm; apply NoDup_incl_length; auto; intros x Hx; apply H; exact Hx.
Qed.

Lemma distinct_same l1 l2 : (forall x, In x l1 <-> In x l2) -> distinct l1 = distinct l2.
Proof.
  intros H. apply NoDup_same_length; try apply NoDup_nodup. intros x. rewrite !nodup_In. apply H.
Qed.

Lemma distinct_NoDup l : NoDup l -> distinct l = length l.
Proof. intros H. unfold distinct. now rewrite nodup_fixed_point. Qed.

Lemma fold_left_inv {A B} (f : A -> B -> A) (P : A -> Prop) l a :
  P a -> (forall a b, In b l -> P a -> P (f a b)) -> P (fold_left f l a).
Proof.
  revert a. induction l as [|b l IH]; intros a Ha Hf; simpl; auto.
  apply IH; [apply Hf; simpl; auto|]. intros a' b' Hb'. apply Hf. simpl; auto.
Qed.
