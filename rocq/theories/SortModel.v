(** include/utils/StaticSort.h.  [lt] is operator< of the key type. *)
From Verif Require Import Outcome ListUtil.

Section S.
Context {T D : Type}.
Variable lt : T -> T -> bool.

(** StaticSort.h:30-33: the inner loop; the arrays are read at [hole - 1] and written at [hole]. *)
Fixpoint shift_loop (hole : nat) (arr : list T) (dat : list D) (value : T) : res (nat * list T * list D) :=
  match hole with
  | O => Val (O, arr, dat)
  | S h =>
      match nth_error arr h, nth_error dat h with
      | Some x, Some y =>
          if lt value x
          then if Nat.ltb hole (length arr) && Nat.ltb hole (length dat)
               then shift_loop h (upd arr hole x) (upd dat hole y) value
               else Undef
          else Val (hole, arr, dat)
      | _, _ => Undef
      end
  end.

(** StaticSort.h:26-36: one pass of the outer loop.  [short hole = i] (28) becomes negative for i > 32767: the
    inner loop ends at once and [arr[hole]] is out of bounds. *)
Definition sort_step (i : nat) (arr : list T) (dat : list D) : res (list T * list D) :=
  match nth_error arr i, nth_error dat i with
  | Some value, Some data =>
      if (32767 <? N.of_nat i)%N then Undef
      else rbind (shift_loop i arr dat value) (fun '(hole, arr', dat') =>
        if Nat.ltb hole (length arr') && Nat.ltb hole (length dat')
        then Val (upd arr' hole value, upd dat' hole data)
        else Undef)
  | _, _ => Undef
  end.

(** StaticSort.h:25: [for (i = 1; i < N; ++i)]; the static_assert (23) keeps i from wrapping around. *)
Fixpoint sort_loop (passes i : nat) (arr : list T) (dat : list D) : res (list T * list D) :=
  match passes with
  | O => Val (arr, dat)
  | S p => rbind (sort_step i arr dat) (fun '(arr', dat') => sort_loop p (S i) arr' dat')
  end.

(** static_insertion_sort_with_data, StaticSort.h:21-38, on arrays of the same length. *)
Definition sort_with_data (arr : list T) (dat : list D) : res (list T * list D) := sort_loop (length arr - 1) 1 arr dat.
End S.

(** static_insertion_sort, StaticSort.h:5-19: the same function without the second array (unit data). *)
Definition sort_keys {T} (lt : T -> T -> bool) (arr : list T) : res (list T) :=
  rmap fst (sort_with_data lt arr (repeat tt (length arr))).
