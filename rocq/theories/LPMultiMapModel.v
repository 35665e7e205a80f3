(** Model of the sequential linear-probing multimap, include/datastructures/LP_MultiMap.hxx:90-344.

    The table has the fields of LP_Map (lines 336-340), so the record [lpmap] is reused;
    [w] is the width of K and [std::size_t] has 64 bits. *)
From Verif Require Import Outcome ListUtil WordsModel RangeModel LPSetModel LPMapModel.
Local Open Scope N_scope.

Section W.
Variable w : N.

(** LP_MultiMap.hxx:100-108; as in LP_Map there is no [max(1,size)]. *)
Definition mm_new (size a : N) : lpmap := map_alloc (nextPow2 64 size) a.

(** LP_MultiMap.hxx:137-146: probing for a free cell. *)
Fixpoint probe_free (fuel : nat) (arr : list N) (idx : N) : res nat :=
  match fuel with
  | O => NoFuel
  | S f =>
      let i := mask w (length arr) idx in
      match nth_error arr (N.to_nat i) with
      | None => Undef
      | Some c => if negb (c =? 0) then probe_free f arr (wrap w (i + 1)) else Val (N.to_nat i)
      end
  end.

(** LP_MultiMap.hxx:137-152. *)
Definition mm_insert_raw (fuel : nat) (m : lpmap) (key v : N) : res lpmap :=
  rmap (fun i => mkmap (upd (m_keys m) i key) (upd (m_vals m) i (Some v)) (S (m_items m)) (m_mult m))
       (probe_free fuel (m_keys m) (hash w (m_mult m) key)).

(** One pass of the copying loops, LP_MultiMap.hxx:239-242, 252-255, 272-275, 284-287. *)
Definition mm_copy_cell (ins : lpmap -> N -> N -> res lpmap) (keep : N -> res bool)
                        (t : lpmap) (c : N * option N) : res lpmap :=
  let (k, ov) := c in
  if k =? 0 then Val t
  else rbind (keep k) (fun b =>
       if b then match ov with None => Undef | Some v => ins t k v end else Val t).

(** LP_MultiMap.hxx:226-246; [m_rehashing] keeps the inner insert from growing. *)
Definition mm_rehash (fuel : nat) (m : lpmap) (newSize : N) : res lpmap :=
  fold_res (mm_copy_cell (mm_insert_raw fuel) (fun _ => Val true)) (combine (m_keys m) (m_vals m))
           (map_alloc (nextPow2 64 newSize) (m_mult m)).

(** LP_MultiMap.hxx:130-153.  [m_items / m_arraySize >= 0.5] divides integers: it is true
    exactly when the table is full; size 0 divides by zero.  insert always returns true. *)
Definition mm_insert (fuel : nat) (m : lpmap) (key v : N) : res lpmap :=
  let sz := length (m_keys m) in
  if Nat.eqb sz 0 then Undef
  else if Nat.leb 1 (m_items m / sz)
  then rbind (mm_rehash fuel m (wrap 64 (2 * N.of_nat sz))) (fun m' => mm_insert_raw fuel m' key v)
  else mm_insert_raw fuel m key v.

(** LP_MultiMap.hxx:165-189: the loop of get; [first], [last] are [firstIdx], [lastIdx] and
    the result holds the indices of the two iterators. *)
Fixpoint mm_get_loop (fuel : nat) (keys : list N) (key first last idx : N) : res (N * N) :=
  match fuel with
  | O => NoFuel
  | S f =>
      let sz := length keys in
      let i := mask w sz idx in
      match nth_error keys (N.to_nat i) with
      | None => Undef
      | Some c =>
          if (c =? 0) && (i =? first) then Val (N.of_nat sz, N.of_nat sz)
          else
            let first' := if negb (c =? key) && (i =? first) then mask 64 sz (wrap 64 (first + 1)) else first in
            let last' := mask 64 sz (wrap 64 (last + 1)) in
            if c =? 0 then Val (first', last')
            else mm_get_loop f keys key first' last' (wrap w (i + 1))
      end
  end.

(** LP_MultiMap.hxx:159-165. *)
Definition mm_get (fuel : nat) (m : lpmap) (key : N) : res (N * N) :=
  let first := mask 64 (length (m_keys m)) (hash w (m_mult m) key) in
  mm_get_loop fuel (m_keys m) key first first (wrap w first).

(** LP_MultiMap.hxx:24-29: operator++ of the filtered iterator. *)
Fixpoint mm_next (fuel : nat) (keys : list N) (key bound idx : N) : res N :=
  match fuel with
  | O => NoFuel
  | S f =>
      let i := mask 64 (length keys) (wrap 64 (idx + 1)) in
      if i =? bound then Val i
      else match nth_error keys (N.to_nat i) with
           | None => Undef
           | Some c => if (c =? 0) || negb (c =? key) then mm_next f keys key bound i else Val i
           end
  end.

(** [for (it = r.first; it != r.second; ++it) use *it], as in DCTriangulator.cpp:320-321;
    dereferencing reads the cell (line 71). *)
Fixpoint mm_collect (fuel : nat) (m : lpmap) (key bound idx : N) : res (list (N * N)) :=
  match fuel with
  | O => NoFuel
  | S f =>
      if idx =? bound then Val []
      else match nth_error (m_keys m) (N.to_nat idx), nth_error (m_vals m) (N.to_nat idx) with
           | Some k, Some (Some v) =>
               rbind (mm_next fuel (m_keys m) key bound idx) (fun i => rmap (cons (k, v)) (mm_collect f m key bound i))
           | _, _ => Undef
           end
  end.
Definition mm_get_values (fuel : nat) (m : lpmap) (key : N) : res (list (N * N)) :=
  rbind (mm_get fuel m key) (fun r => mm_collect fuel m key (snd r) (fst r)).

(** LP_MultiMap.hxx:193-204: the probe loop of the set. *)
Definition mm_contains (fuel : nat) (m : lpmap) (key : N) : res bool :=
  rmap snd (probe w fuel (m_keys m) key (hash w (m_mult m) key)).

(** LP_MultiMap.hxx:248-256. *)
Definition mm_merge (fuel : nat) (m other : lpmap) : res lpmap :=
  rbind (mm_rehash fuel m (wrap 64 (N.of_nat (length (m_keys m)) + N.of_nat (length (m_keys other)))))
    (fun m' => fold_res (mm_copy_cell (mm_insert fuel) (fun _ => Val true)) (combine (m_keys other) (m_vals other)) m').

(** LP_MultiMap.hxx:258-278, 280-288; the filter is an LP_Set. *)
Definition mm_rehash_filter (fuel : nat) (m : lpmap) (newSize : N) (flt : lpset) : res lpmap :=
  fold_res (mm_copy_cell (mm_insert_raw fuel) (fun k => rmap negb (set_contains w fuel flt k)))
           (combine (m_keys m) (m_vals m)) (map_alloc (nextPow2 64 newSize) (m_mult m)).
Definition mm_merge_filter (fuel : nat) (m other : lpmap) (flt : lpset) : res lpmap :=
  rbind (mm_rehash_filter fuel m (wrap 64 (N.of_nat (length (m_keys m)) + N.of_nat (length (m_keys other)))) flt)
    (fun m' => fold_res (mm_copy_cell (mm_insert fuel) (fun k => rmap negb (set_contains w fuel flt k)))
                        (combine (m_keys other) (m_vals other)) m').

(** A sequence of calls insert(k, v). *)
Definition mm_run (fuel : nat) (m : lpmap) (W : list (N * N)) : res lpmap :=
  fold_res (fun t p => mm_insert fuel t (fst p) (snd p)) W m.
End W.
(** Iteration (LP_MultiMap.hxx:211-224, 290-300) and serialization (308-333) are those of
    LP_Map: [map_parallel], [map_save], [map_load]. *)
