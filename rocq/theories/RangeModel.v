(** Iterators over hash tables and TBB ranges, include/datastructures/LP_Set.hxx:64-246.

    An iterator is the cell index [m_idx].  [n] is [m_container.capacity()],
    [emp i] is [m_container.empty(i)]. *)
From Verif Require Import Outcome ListUtil.

(** LP_Set.hxx:162-164 [while (m_idx < capacity() && empty(m_idx)) ++m_idx]; [d] bounds the
    remaining cells, [n - i] of them. *)
Fixpoint skip_loop (emp : nat -> bool) (d i : nat) : nat :=
  match d with
  | O => i
  | S d' => if emp i then skip_loop emp d' (S i) else i
  end.
Definition skip (n : nat) (emp : nat -> bool) (i : nat) : nat := skip_loop emp (n - i) i.

(** LP_Set.hxx:166 [while (++m_idx, ...)]: operator++. *)
Definition next (n : nat) (emp : nat -> bool) (i : nat) : nat := skip n emp (S i).

(** LP_Set.hxx:170-177 with [testFirst = false]: operator--.  [m_idx >= 0] is always
    true for an unsigned index, so decrementing 0 wraps to 2^64-1 and reads
    far outside the array. *)
Fixpoint dec (emp : nat -> bool) (i : nat) : res nat :=
  match i with
  | O => Undef
  | S i' => if emp i' then dec emp i' else Val i'
  end.

(** The range functions only use the iterator through its index, so they are
    stated for any [skip]/[next] pair: the bit set has its own iterator. *)
Section R.
Variable sk nx : nat -> nat.   (* _advance(true), operator++ *)
Variable n : nat.              (* capacity: dereferencing outside is undefined *)

(** [for (it = begin; it != end; ++it) use it], e.g. LP_Set.hxx:682,
    Partitioner.h:158; the result lists the dereferenced indices. *)
Fixpoint visit (fuel : nat) (it e : nat) : res (list nat) :=
  match fuel with
  | O => NoFuel
  | S f => if Nat.eqb it e then Val []
           else if Nat.ltb it n then rmap (cons it) (visit f (nx it) e)
           else Undef
  end.

(** LP_Set.hxx:184-191. *)
Record range := mkrange { r_begin : nat; r_end : nat; r_mid : nat; r_grain : nat }.

(** LP_Set.hxx:238-244 with half, 147-149. *)
Definition set_midpoint (r : range) : range :=
  mkrange (r_begin r) (r_end r)
    (if Nat.eqb (r_begin r) (r_end r) then r_end r
     else sk (r_begin r + (r_end r - r_begin r) / 2))
    (r_grain r).

(** LP_Set.hxx:217-224; [b], [e] are the container's begin() and end(). *)
Definition range_new (b e grain : nat) : range := set_midpoint (mkrange b e b grain).

(** LP_Set.hxx:198-200. *)
Definition is_divisible (r : range) : bool :=
  Nat.ltb (r_begin r) (r_mid r) && Nat.ltb (r_mid r) (r_end r) && Nat.leb (r_grain r) (r_end r - r_begin r).

(** LP_Set.hxx:203-214: the new range gets the front half, the old one keeps the back half. *)
Definition split_new (r : range) : range := set_midpoint (mkrange (r_begin r) (r_mid r) (r_begin r) (r_grain r)).
Definition split_old (r : range) : range := set_midpoint (mkrange (r_mid r) (r_end r) (r_mid r) (r_grain r)).

(** A schedule of splits: at a node the scheduler splits the range if it is
    divisible (the TBB Range contract), at a leaf it runs the body. *)
Inductive splits := Run | Split (front back : splits).
Fixpoint leaves (t : splits) (r : range) : list range :=
  match t with
  | Run => [r]
  | Split f b => if is_divisible r then leaves f (split_new r) ++ leaves b (split_old r) else [r]
  end.

(** The body of a parallel loop run on each leaf. *)
Fixpoint visit_all (fuel : nat) (l : list range) : res (list nat) :=
  match l with
  | [] => Val []
  | r :: t => rbind (visit fuel (r_begin r) (r_end r)) (fun a => rmap (app a) (visit_all fuel t))
  end.
End R.
