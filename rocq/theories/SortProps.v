(** C26: the insertion sort of include/utils/StaticSort.h. *)
From Verif Require Import Outcome ListUtil SortModel SortProofs.
From Coq Require Import Permutation Sorted.

(** A strict weak order, as operator< has to be. *)
Definition weak_order {T} (lt : T -> T -> bool) : Prop :=
  (forall a b, lt a b = true -> lt b a = false) /\ (forall a b c, lt a b = false -> lt b c = false -> lt a c = false).
(** The pairs whose key is equivalent to [k], in order. *)
Definition of_key {T D} (lt : T -> T -> bool) (k : T) (l : list (T * D)) : list (T * D) :=
  filter (fun p => negb (lt k (fst p)) && negb (lt (fst p) k)) l.

(** Keys and data are the two projections of a list of pairs before and after; keys end up in
    order; data stay with their keys; pairs with equivalent keys keep their order. *)
Theorem C26_sort_with_data : forall (T D : Type) (lt : T -> T -> bool) (l : list (T * D)), weak_order lt ->
  (N.of_nat (length l) <= 32768)%N ->
  exists l', sort_with_data lt (map fst l) (map snd l) = Val (map fst l', map snd l') /\
    StronglySorted (fun p q => lt (fst q) (fst p) = false) l' /\ Permutation l' l /\ forall k, of_key lt k l' = of_key lt k l.
Proof. intros T D lt l [H1 H2] Hl. exact (sort_spec lt H1 H2 l Hl). Qed.
Print Assumptions C26_sort_with_data.
Lemma ltb_weak : weak_order N.ltb.
Proof. split; intros; lia. Qed.
Example C26_ex : sort_with_data N.ltb [7; 3; 9; 3; 1]%N [70; 30; 90; 31; 10]%N = Val ([1; 3; 3; 7; 9], [10; 30; 31; 70; 90])%N.
Proof. vm_compute. reflexivity. Qed.

Theorem C26_sort : forall (T : Type) (lt : T -> T -> bool) (l : list T), weak_order lt -> (N.of_nat (length l) <= 32768)%N ->
  exists l', sort_keys lt l = Val l' /\ StronglySorted (fun a b => lt b a = false) l' /\ Permutation l' l.
Proof. intros T lt l [H1 H2]. exact (keys_spec lt H1 H2 l). Qed.
Print Assumptions C26_sort.
Example C26_sort_ex : sort_keys N.ltb [4; 4; 2; 8; 0]%N = Val [0; 2; 4; 4; 8]%N.
Proof. vm_compute. reflexivity. Qed.

(** The static_assert admits arrays up to 65534 elements, but the signed short index overflows
    already with more than 32768. *)
Theorem C26_large_refuted : forall (T D : Type) (lt : T -> T -> bool) (arr : list T) (dat : list D),
  length dat = length arr -> (32768 < N.of_nat (length arr))%N -> sort_with_data lt arr dat = Undef.
Proof. exact (@sort_large). Qed.
Print Assumptions C26_large_refuted.
Example C26_large_ex : sort_with_data N.ltb (repeat 1%N (N.to_nat 32769)) (repeat tt (N.to_nat 32769)) = Undef.
Proof. apply C26_large_refuted; rewrite !repeat_length; lia. Qed.
