(** VectorAdapter2 (include/datastructures/VectorAdapter2.hxx) with dPoints (include/Geometry.h:236-343) on top,
    and makePointIds (include/utils/MakeIds.h).  The id functions of dPoint are in SimplexModel. *)
From Verif Require Import Outcome ListUtil WordsModel LPSetModel SimplexModel.
Local Open Scope N_scope.

Section P.
Context {A : Type}.
(** VectorAdapter2.hxx:11, 171-173: the vector (with the reserved entry 0), the offset, the infinite points. *)
Record points := mkpts { p_vec : list A; p_off : N; p_infs : list A }.
Variable D : N.

(** VectorAdapter2.hxx:90-96. *)
Definition finite_size (p : points) : N := N.of_nat (length (p_vec p)).
Definition p_size (p : points) : N := wrap 64 (finite_size p + p_ninf D).
(** _finIdx, VectorAdapter2.hxx:142-145. *)
Definition fin_idx (p : points) (i : N) : N := wrap 64 (i + 2 ^ 64 - p_off p).

(** VectorAdapter2::contains, VectorAdapter2.hxx:22-28, and dPoints::contains, Geometry.h:309-317. *)
Definition va_contains (p : points) (i : N) : bool :=
  if p_finite D i then (p_off p <=? i) && (fin_idx p i <? finite_size p) else p_infidx D i <? p_ninf D.
Definition p_contains (p : points) (i : N) : bool :=
  if p_finite D i then (p_off p <? i) && (fin_idx p i <? finite_size p) else p_infidx D i <? p_ninf D.

(** operator[], VectorAdapter2.hxx:30-54 (release build; outside the vector undefined, at() of 56-80 throws there). *)
Definition p_get (p : points) (i : N) : res A :=
  match (if p_finite D i then nth_error (p_vec p) (N.to_nat (fin_idx p i))
         else nth_error (p_infs p) (N.to_nat (p_infidx D i))) with
  | Some a => Val a
  | None => Undef
  end.

(** dPoints::range(), Geometry.h:319-322: the ids of the blocked_range. *)
Definition p_range (p : points) : list N :=
  map (fun i => N.of_nat i + (p_off p + 1)) (seq 0 (N.to_nat (p_off p + finite_size p) - N.to_nat (p_off p + 1))).

(** dPoints::operator==, Geometry.h:324-338; [ids] is what iterating the container gives, [size] its size(). *)
Definition p_eq (p : points) (ids : list N) : bool :=
  if negb (wrap 64 (p_size p + 2 ^ 64 - 1) =? N.of_nat (length ids)) then false else forallb (p_contains p) ids.

(** makePointIds, MakeIds.h:5-15: the keys inserted, in order. *)
Definition id_keys (p : points) : list N :=
  map (fun i => wrap 64 (p_off p + N.of_nat i)) (seq 1 (length (p_vec p) - 1)) ++
  map (fun j => wrap 64 (p_inf D + N.of_nat j)) (seq 0 (N.to_nat (p_ninf D))).
(** Point_Ids is LP_Set<tIdType, true> (Geometry.h:50); [a] is the hash multiplier drawn. *)
Definition make_ids (fuel : nat) (a : N) (p : points) : res lpset :=
  rmap fst (set_run 64 true fuel (set_new (p_size p) a) (map OpInsert (id_keys p))).
End P.
Arguments points : clear implicits.
