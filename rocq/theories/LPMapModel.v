(** Model of the sequential linear-probing map, include/datastructures/LP_Map.hxx:9-245.

    [m_keys] holds the keys (0 = free), [m_vals] the values; [new V[size]]
    (line 183) leaves the values indeterminate, modelled by [None].  The class
    of V is the unsigned integers (the source returns [0] for a missing key). *)
From Verif Require Import Outcome ListUtil WordsModel RangeModel LPSetModel.
Local Open Scope N_scope.

Record lpmap := mkmap { m_keys : list N; m_vals : list (option N); m_items : nat; m_mult : N }.

Section W.
Variable w : N.

(** LP_Map.hxx:182-185. *)
Definition map_alloc (n a : N) : lpmap :=
  mkmap (alloc n) (repeat None (N.to_nat n)) 0 a.

(** LP_Map.hxx:16-23; no [max(1,size)], so size 0 gives no cells. *)
Definition map_new (size a : N) : lpmap := map_alloc (nextPow2 64 size) a.

(** LP_Map.hxx:51-72: the probe loop of insert is that of the set; an existing key gets
    the new value. *)
Definition map_insert_raw (fuel : nat) (m : lpmap) (key v : N) : res (lpmap * bool) :=
  rmap (fun r => match r with
                 | (i, true) => (mkmap (m_keys m) (upd (m_vals m) i (Some v)) (m_items m) (m_mult m), false)
                 | (i, false) => (mkmap (upd (m_keys m) i key) (upd (m_vals m) i (Some v)) (S (m_items m)) (m_mult m), true)
                 end)
       (probe w fuel (m_keys m) key (hash w (m_mult m) key)).

(** One pass of the copying loops, LP_Map.hxx:130-133, 143-146; reading the value of an
    occupied cell that was never written would be undefined. *)
Definition map_copy_cell (ins : lpmap -> N -> N -> res (lpmap * bool)) (keep : N -> res bool)
                         (t : lpmap) (c : N * option N) : res lpmap :=
  let (k, ov) := c in
  if k =? 0 then Val t
  else rbind (keep k) (fun b =>
       if b then match ov with None => Undef | Some v => rmap fst (ins t k v) end else Val t).

(** LP_Map.hxx:117-137. *)
Definition map_rehash (fuel : nat) (m : lpmap) (newSize : N) : res lpmap :=
  fold_res (map_copy_cell (map_insert_raw fuel) (fun _ => Val true)) (combine (m_keys m) (m_vals m))
           (map_alloc (nextPow2 64 newSize) (m_mult m)).

(** LP_Map.hxx:45-73.  [m_items / m_arraySize >= 0.5] divides integers: it is true
    exactly when the table is full; size 0 divides by zero. *)
Definition map_insert (fuel : nat) (m : lpmap) (key v : N) : res (lpmap * bool) :=
  let sz := length (m_keys m) in
  if Nat.eqb sz 0 then Undef
  else if Nat.leb 1 (m_items m / sz)
  then rbind (map_rehash fuel m (wrap 64 (2 * N.of_nat sz))) (fun m' => map_insert_raw fuel m' key v)
  else map_insert_raw fuel m key v.

(** LP_Map.hxx:79-91. *)
Definition map_get (fuel : nat) (m : lpmap) (key : N) : res N :=
  rbind (probe w fuel (m_keys m) key (hash w (m_mult m) key)) (fun r =>
    match r with
    | (i, true) => match nth_error (m_vals m) i with Some (Some v) => Val v | _ => Undef end
    | (_, false) => Val 0
    end).

(** LP_Map.hxx:93-95. *)
Definition map_contains (fuel : nat) (m : lpmap) (key : N) : res bool :=
  rmap (fun v => negb (v =? 0)) (map_get fuel m key).

(** LP_Map.hxx:139-147. *)
Definition map_merge (fuel : nat) (m other : lpmap) : res lpmap :=
  rbind (map_rehash fuel m (wrap 64 (2 * (N.of_nat (length (m_keys m)) + N.of_nat (length (m_keys other))))))
    (fun m' => fold_res (map_copy_cell (map_insert fuel) (fun _ => Val true)) (combine (m_keys other) (m_vals other)) m').

(** LP_Map.hxx:149-169, 171-179; the filter is an LP_Set. *)
Definition map_rehash_filter (fuel : nat) (m : lpmap) (newSize : N) (flt : lpset) : res lpmap :=
  fold_res (map_copy_cell (map_insert_raw fuel) (fun k => rmap negb (set_contains w fuel flt k)))
           (combine (m_keys m) (m_vals m)) (map_alloc (nextPow2 64 newSize) (m_mult m)).
Definition map_merge_filter (fuel : nat) (m other : lpmap) (flt : lpset) : res lpmap :=
  rbind (map_rehash_filter fuel m (wrap 64 (2 * (N.of_nat (length (m_keys m)) + N.of_nat (length (m_keys other))))) flt)
    (fun m' => fold_res (map_copy_cell (map_insert fuel) (fun k => rmap negb (set_contains w fuel flt k)))
                        (combine (m_keys other) (m_vals other)) m').

(** LP_Map.hxx:207-228. *)
Record map_archive := mkmar { ma_size : nat; ma_items : nat; ma_keys : list N; ma_vals : list (option N); ma_mult : N }.
Definition map_save (m : lpmap) : map_archive :=
  mkmar (length (m_keys m)) (m_items m) (m_keys m) (m_vals m) (m_mult m).
Definition map_load (a : map_archive) : lpmap :=
  mkmap (firstn (ma_size a) (ma_keys a ++ repeat 0 (ma_size a)))
        (firstn (ma_size a) (ma_vals a ++ repeat None (ma_size a))) (ma_items a) (ma_mult a).

(** Histories. *)
Inductive map_op := MInsert (k v : N) | MGet (k : N) | MContains (k : N) | MSize.
Inductive map_out := MOBool (b : bool) | MOVal (v : N) | MOSize (n : nat).
Definition map_step (fuel : nat) (m : lpmap) (o : map_op) : res (lpmap * map_out) :=
  match o with
  | MInsert k v => rmap (fun r => (fst r, MOBool (snd r))) (map_insert fuel m k v)
  | MGet k => rmap (fun v => (m, MOVal v)) (map_get fuel m k)
  | MContains k => rmap (fun b => (m, MOBool b)) (map_contains fuel m k)
  | MSize => Val (m, MOSize (m_items m))
  end.
Fixpoint map_run (fuel : nat) (m : lpmap) (ops : list map_op) : res (lpmap * list map_out) :=
  match ops with
  | [] => Val (m, [])
  | o :: t => rbind (map_step fuel m o) (fun r =>
              rmap (fun r' => (fst r', snd r :: snd r')) (map_run fuel (fst r) t))
  end.
End W.

(** LP_Map.hxx:104-111, 192-202: iteration yields pairs. *)
Definition map_empty_at (m : lpmap) (i : nat) : bool :=
  match nth_error (m_keys m) i with Some c => c =? 0 | None => true end.
Definition map_at (m : lpmap) (i : nat) : N * option N := (nth i (m_keys m) 0, nth i (m_vals m) None).
Definition map_parallel (fuel : nat) (m : lpmap) (grain : nat) (t : splits) : res (list (N * option N)) :=
  let n := length (m_keys m) in
  let sk := skip n (map_empty_at m) in
  rmap (map (map_at m)) (visit_all (next n (map_empty_at m)) n fuel (leaves sk t (range_new sk (sk 0%nat) n grain))).
