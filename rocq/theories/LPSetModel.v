(** Model of the sequential linear-probing hash set, include/datastructures/LP_Set.hxx.

    A table is the array of cells ([m_array], 0 = free), the item counter
    [m_items] and the odd hash multiplier [m_hasher.a].  [m_arraySize] is the
    length of the array: every assignment to it in the source is directly
    followed by an allocation of that many zeroed cells (lines 265-266,
    370-375, 403-408, 483-486).  [w] is the number of bits of the key type K
    (64 for ids, 32 for hashes); [std::size_t] has 64 bits. *)
From Verif Require Import Outcome ListUtil WordsModel RangeModel.
Local Open Scope N_scope.

Record lpset := mkset { s_arr : list N; s_items : nat; s_mult : N }.

(** Loops over an array whose body may fail to finish. *)
Fixpoint fold_res {A B} (f : A -> B -> res A) (l : list B) (a : A) : res A :=
  match l with
  | [] => Val a
  | b :: t => rbind (f a b) (fun a' => fold_res f t a')
  end.

Section W.
Variable w : N.

(** LP_Set.hxx:34-36 [return (a * x)] in the key type. *)
Definition hash (a key : N) : N := wrap w (a * key).

(** LP_Set.hxx:312 [idx &= m_arraySize - 1]: computed in 64 bits, stored in K.
    A table of size 0 gives the mask 2^64-1. *)
Definition mask (sz : nat) (idx : N) : N :=
  wrap w (N.land idx (wrap 64 (N.of_nat sz + 2 ^ 64 - 1))).

(** LP_Set.hxx:311-329 and 335-342: the probe loop common to insert and
    contains; stops at the key ([true]) or at a free cell ([false]) and reports
    the cell index.  Reading outside the array is undefined behaviour. *)
Fixpoint probe (fuel : nat) (arr : list N) (key idx : N) : res (nat * bool) :=
  match fuel with
  | O => NoFuel
  | S f =>
      let i := mask (length arr) idx in
      match nth_error arr (N.to_nat i) with
      | None => Undef
      | Some c =>
          if c =? key then Val (N.to_nat i, true)
          else if c =? 0 then Val (N.to_nat i, false)
          else probe f arr key (wrap w (i + 1))
      end
  end.

(** LP_Set.hxx:437-439, zero initialised allocation. *)
Definition alloc (n : N) : list N := repeat 0 (N.to_nat n).

(** LP_Set.hxx:260-267. *)
Definition set_new (size a : N) : lpset :=
  mkset (alloc (nextPow2 64 (N.max 1 size))) 0 a.

(** LP_Set.hxx:332-344. *)
Definition set_contains (fuel : nat) (s : lpset) (key : N) : res bool :=
  rmap snd (probe fuel (s_arr s) key (hash (s_mult s) key)).

(** LP_Set.hxx:311-329, the part of insert after the growth test. *)
Definition insert_raw (fuel : nat) (s : lpset) (key : N) : res (lpset * bool) :=
  rmap (fun r => match r with
                 | (_, true) => (s, false)
                 | (i, false) => (mkset (upd (s_arr s) i key) (S (s_items s)) (s_mult s), true)
                 end)
       (probe fuel (s_arr s) key (hash (s_mult s) key)).

(** LP_Set.hxx:365-384; during rehash [m_rehashing] is set, so the inner insert
    never grows. *)
Definition rehash (fuel : nat) (s : lpset) (newSize : N) : res lpset :=
  fold_res (fun t k => if k =? 0 then Val t else rmap fst (insert_raw fuel t k))
           (s_arr s)
           (mkset (alloc (nextPow2 64 newSize)) 0 (s_mult s)).

(** LP_Set.hxx:305-330.  [(double) m_items / m_arraySize >= 0.5]: the size is a
    power of two, so the quotient is exact; for size 0 it is NaN and the test
    is false. *)
Definition set_insert (g : bool) (fuel : nat) (s : lpset) (key : N) : res (lpset * bool) :=
  let sz := length (s_arr s) in
  if g && negb (Nat.eqb sz 0) && Nat.leb sz (2 * s_items s)
  then rbind (rehash fuel s (wrap 64 (2 * N.of_nat sz))) (fun s' => insert_raw fuel s' key)
  else insert_raw fuel s key.

(** LP_Set.hxx:363. *)
Definition set_size (s : lpset) : nat := s_items s.

(** LP_Set.hxx:386-395; [g] says whether the receiving set is growing. *)
Definition set_merge (g : bool) (fuel : nat) (s other : lpset) : res lpset :=
  rbind (rehash fuel s (wrap 64 (N.of_nat (length (s_arr s)) + N.of_nat (length (s_arr other)))))
        (fun s' => fold_res (fun t k => if k =? 0 then Val t else rmap fst (set_insert g fuel t k))
                            (s_arr other) s').

(** LP_Set.hxx:397-416; the filter is another set, [filter.count] its
    [contains] (0 or 1) compared with [cmp]. *)
Definition rehash_filter (fuel : nat) (s : lpset) (newSize : N) (flt : lpset) (cmp : bool) : res lpset :=
  fold_res (fun t k =>
              if k =? 0 then Val t
              else rbind (set_contains fuel flt k)
                         (fun b => if Bool.eqb b cmp then rmap fst (insert_raw fuel t k) else Val t))
           (s_arr s)
           (mkset (alloc (nextPow2 64 newSize)) 0 (s_mult s)).

(** LP_Set.hxx:418-422. *)
Definition set_filter (fuel : nat) (s flt : lpset) : res lpset :=
  rehash_filter fuel s (N.of_nat (length (s_arr s))) flt false.

(** LP_Set.hxx:424-432; line 426 does not pass [cmp] on, so the set's own
    elements are always filtered with [cmp = false]. *)
Definition set_merge_filter (g : bool) (fuel : nat) (s other flt : lpset) (cmp : bool) : res lpset :=
  rbind (rehash_filter fuel s (wrap 64 (2 * (N.of_nat (s_items s) + N.of_nat (s_items other)))) flt false)
        (fun s' => fold_res (fun t k =>
              if k =? 0 then Val t
              else rbind (set_contains fuel flt k)
                         (fun b => if Bool.eqb b cmp then rmap fst (set_insert g fuel t k) else Val t))
           (s_arr other) s').

(** LP_Set.hxx:294-303: the copy is constructed with [nextPow2(max 1 size)] cells and
    receives [m_arraySize] cells.  Writing beyond the allocated cells would be
    undefined behaviour. *)
Definition set_copy (s : lpset) : res lpset :=
  let fresh := alloc (nextPow2 64 (N.max 1 (N.of_nat (length (s_arr s))))) in
  if Nat.leb (length (s_arr s)) (length fresh)
  then Val (mkset (s_arr s ++ skipn (length (s_arr s)) fresh) (s_items s) (s_mult s))
  else Undef.

(** LP_Set.hxx:469-489: the archive is the sequence of saved fields.  The boost
    archive itself is trusted to return the fields in the order written. *)
Record set_archive := mksar { ar_size : nat; ar_items : nat; ar_cells : list N; ar_mult : N }.
Definition set_save (s : lpset) : set_archive :=
  mksar (length (s_arr s)) (s_items s) (s_arr s) (s_mult s).
Definition set_load (a : set_archive) : lpset :=
  mkset (firstn (ar_size a) (ar_cells a ++ repeat 0 (ar_size a))) (ar_items a) (ar_mult a).

(** LP_Set.hxx:494-505: compare sizes, then test every element of the other set. *)
Fixpoint all_contained (fuel : nat) (s : lpset) (l : list N) : res bool :=
  match l with
  | [] => Val true
  | k :: t => if k =? 0 then all_contained fuel s t
              else rbind (set_contains fuel s k)
                         (fun b => if b then all_contained fuel s t else Val false)
  end.
Definition set_eqb (fuel : nat) (s other : lpset) : res bool :=
  if Nat.eqb (s_items s) (s_items other) then all_contained fuel s (s_arr other) else Val false.

(** Histories of calls on one set. *)
Inductive set_op := OpInsert (k : N) | OpContains (k : N) | OpSize.
Inductive set_out := OutBool (b : bool) | OutSize (n : nat).
Definition set_step (g : bool) (fuel : nat) (s : lpset) (o : set_op) : res (lpset * set_out) :=
  match o with
  | OpInsert k => rmap (fun r => (fst r, OutBool (snd r))) (set_insert g fuel s k)
  | OpContains k => rmap (fun b => (s, OutBool b)) (set_contains fuel s k)
  | OpSize => Val (s, OutSize (set_size s))
  end.
Fixpoint set_run (g : bool) (fuel : nat) (s : lpset) (ops : list set_op) : res (lpset * list set_out) :=
  match ops with
  | [] => Val (s, [])
  | o :: t => rbind (set_step g fuel s o) (fun r =>
              rmap (fun r' => (fst r', snd r :: snd r')) (set_run g fuel (fst r) t))
  end.
End W.

(** LP_Set.hxx:350-361: [empty(idx)] and [at(idx)].  The iterator only calls them
    with [idx < capacity()]. *)
Definition set_empty_at (s : lpset) (i : nat) : bool :=
  match nth_error (s_arr s) i with Some c => c =? 0 | None => true end.
Definition set_at (s : lpset) (i : nat) : N := nth i (s_arr s) 0.

(** LP_Set.hxx:445-455: begin(), end(), range(). *)
Definition set_begin (s : lpset) : nat := skip (length (s_arr s)) (set_empty_at s) 0.
Definition set_end (s : lpset) : nat := length (s_arr s).
Definition set_next (s : lpset) : nat -> nat := next (length (s_arr s)) (set_empty_at s).

(** [for (auto k : set)]. *)
Definition set_iterate (fuel : nat) (s : lpset) : res (list N) :=
  rmap (map (set_at s)) (visit (set_next s) (length (s_arr s)) fuel (set_begin s) (set_end s)).

(** A parallel loop over [set.range()] under a schedule of splits; [grain] is 1000 by
    default (LP_Set.hxx:217). *)
Definition set_parallel (fuel : nat) (s : lpset) (grain : nat) (t : splits) : res (list N) :=
  let sk := skip (length (s_arr s)) (set_empty_at s) in
  rmap (map (set_at s))
    (visit_all (set_next s) (length (s_arr s)) fuel
       (leaves sk t (range_new sk (set_begin s) (set_end s) grain))).
