(** Bit_Set, include/datastructures/Bit_Set.hxx:146-522, and its iterator, 10-142.
    tKeyType is the 32-bit [uint] (151), cENTRIES = 32 (489), bounds are 64-bit size_t. *)
From Verif Require Import Outcome ListUtil WordsModel RangeModel.
Local Open Scope N_scope.

(** Bit_Set.hxx:479-486; m_arraySize is the length of [b_words]. *)
Record bitset := mkbs { b_lo : N; b_up : N; b_words : list N; b_ones : N }.

(** Array read; [None] is out of bounds. *)
Definition rd (l : list N) (b : N) : option N := if b <? N.of_nat (length l) then nth_error l (N.to_nat b) else None.
(** Array write, used after a successful read of the same cell. *)
Definition wr (l : list N) (b v : N) : list N := upd l (N.to_nat b) v.

(** Bit_Set.hxx:160-161 (also 316-317): rounding of the bounds; [upperBound + 31] wraps. *)
Definition round_lo (x : N) : N := x / 32 * 32.
Definition round_up (x : N) : N := wrap 64 (x + 31) / 32 * 32.

(** Bit_Set.hxx:155-173.  Precondition of the model: [lower <= upper] after rounding, else
    [m_upperBound - m_lowerBound] wraps and the allocation fails ([Undef]: null array).  [zero = false]
    leaves the words indeterminate; they are given by [junk]. *)
Definition bs_new_with (junk : nat -> list N) (lower upper : N) : res bitset :=
  let lo := round_lo lower in
  let up := round_up upper in
  if up <? lo then Undef
  else Val (mkbs lo up (junk (N.to_nat ((up - lo) / 32))) 0).
Definition bs_new (lower upper : N) : res bitset := bs_new_with (repeat 0) lower upper.

(** Bit_Set.hxx:444-450: [idx - m_lowerBound] wraps. *)
Definition bs_block (s : bitset) (i : N) : N := wrap 64 (i + 2 ^ 64 - b_lo s) / 32.

(** [1 << (idx % cENTRIES)], Bit_Set.hxx:200; [1 << 31] converts to 2^31 as a uint. *)
Definition bmask (i : N) : N := 2 ^ (i mod 32).
(** [~x] on a uint. *)
Definition not32 (x : N) : N := N.lxor x (2 ^ 32 - 1).

(** Bit_Set.hxx:254-263. *)
Definition bs_isSet (s : bitset) (i : N) : res bool :=
  if (b_lo s <=? i) && (i <? b_up s) then
    match rd (b_words s) (bs_block s i) with
    | None => Undef
    | Some v => Val (negb (v =? 0) && negb (N.land v (bmask i) =? 0))
    end
  else Val false.

(** Bit_Set.hxx:195-204; the assertions are compiled out in release builds. *)
Definition bs_testAndSet (s : bitset) (i : N) : res (bitset * bool) :=
  rbind (bs_isSet s i) (fun test =>
  match rd (b_words s) (bs_block s i) with
  | None => Undef
  | Some v => Val (mkbs (b_lo s) (b_up s) (wr (b_words s) (bs_block s i) (N.lor v (bmask i)))
                        (wrap 64 (b_ones s + if test then 0 else 1)), test)
  end).

(** Bit_Set.hxx:206-215. *)
Definition bs_testAndUnset (s : bitset) (i : N) : res (bitset * bool) :=
  rbind (bs_isSet s i) (fun test =>
  match rd (b_words s) (bs_block s i) with
  | None => Undef
  | Some v => Val (mkbs (b_lo s) (b_up s) (wr (b_words s) (bs_block s i) (N.land v (not32 (bmask i))))
                        (wrap 64 (b_ones s + 2 ^ 64 - if test then 1 else 0)), test)
  end).

(** Bit_Set.hxx:425, 427, 429. *)
Definition bs_insert (s : bitset) (i : N) : res (bitset * bool) := rmap (fun r => (fst r, negb (snd r))) (bs_testAndSet s i).
Definition bs_erase (s : bitset) (i : N) : res (bitset * bool) := bs_testAndUnset s i.
Definition bs_contains (s : bitset) (i : N) : res bool := bs_isSet s i.

(** Bit_Set.hxx:265-284. *)
Definition bs_zero (s : bitset) : bool := b_ones s =? 0.
Definition bs_one (s : bitset) : bool := b_ones s =? b_up s - b_lo s.
Definition bs_zeros (s : bitset) : N := wrap 64 (b_up s - b_lo s + 2 ^ 64 - b_ones s).
Definition bs_count (s : bitset) : N := b_ones s.

(** Bit_Set.hxx:239-240: the middle words. *)
Fixpoint fill (n : nat) (b : N) (l : list N) : res (list N) :=
  match n with
  | O => Val l
  | S n' => match rd l b with None => Undef | Some _ => fill n' (b + 1) (wr l b (2 ^ 32 - 1)) end
  end.

(** Bit_Set.hxx:217-252.  [to - 1] is computed in 32 bits and wraps; shifting by
    [32 - to % 32 = 32] bits is undefined. *)
Definition bs_batchSet (s : bitset) (from to : N) : res bitset :=
  let fb := bs_block s from in
  let tb := bs_block s (wrap 32 (to + 2 ^ 32 - 1)) in
  match rd (b_words s) fb with
  | None => Undef
  | Some _ =>
      rbind (fill (N.to_nat (tb - (fb + 1))) (fb + 1)
               (wr (b_words s) fb (wrap 32 (N.shiftl (2 ^ 32 - 1) (from mod 32))))) (fun l =>
      if to mod 32 =? 0 then Undef
      else match rd l tb with
           | None => Undef
           | Some v =>
               let last := N.land (N.shiftr (2 ^ 32 - 1) (32 - to mod 32)) (if tb =? fb then v else 2 ^ 32 - 1) in
               Val (mkbs (b_lo s) (b_up s) (wr l tb last) (wrap 32 (to + 2 ^ 32 - from)))
           end)
  end.

(** Loops that fill a fresh array cell by cell. *)
Fixpoint mapr {A B} (f : A -> res B) (l : list A) : res (list B) :=
  match l with
  | [] => Val []
  | x :: t => rbind (f x) (fun y => rmap (cons y) (mapr f t))
  end.
Definition of_opt {A} (o : option A) : res A := match o with Some x => Val x | None => Undef end.

(** Bit_Set.hxx:310-341; resize(upper), 306-308, is [bs_resize s (b_lo s) upper]. *)
Definition bs_resize (s : bitset) (lower upper : N) : res bitset :=
  let lo := N.min (b_lo s) (round_lo lower) in
  let up := N.max (b_up s) (round_up upper) in
  let ob := (b_lo s - lo) / 32 in
  let oe := (b_up s - lo) / 32 in
  rmap (fun ws => mkbs lo up ws (b_ones s))
    (mapr (fun i => let b := N.of_nat i in
                    if b <? ob then Val 0
                    else if b <? oe then of_opt (rd (b_words s) (b - ob))
                    else Val 0)
          (seq 0 (N.to_nat ((up - lo) / 32)))).

(** Bit_Set.hxx:366-369 (also 410-414): the word of [s] at index [i], or 0. *)
Definition word_at (s : bitset) (i : N) : res N :=
  if (b_lo s <=? i) && (i <? b_up s) then of_opt (rd (b_words s) ((i - b_lo s) / 32)) else Val 0.
Definition sum_pop (ws : list N) : N := fold_left (fun a v => a + popcount 32 v) ws 0.

(** Bit_Set.hxx:343-373.  The loop runs over i = lo, lo+32, ... < up. *)
Definition bs_merge (s o : bitset) : res bitset :=
  let lo := N.min (b_lo s) (b_lo o) in
  let up := N.max (b_up s) (b_up o) in
  rmap (fun ws => mkbs lo up ws (wrap 64 (sum_pop ws)))
    (mapr (fun k => let i := lo + 32 * N.of_nat k in
                    rbind (word_at s i) (fun x => rmap (fun y => N.lor x y) (word_at o i)))
          (seq 0 (N.to_nat ((up - lo) / 32)))).

(** Bit_Set.hxx:387-420. *)
Definition bs_mergeFilter (s o f : bitset) : res bitset :=
  let lo := N.min (b_lo s) (b_lo o) in
  let up := N.max (b_up s) (b_up o) in
  rmap (fun ws => mkbs lo up ws (wrap 64 (sum_pop ws)))
    (mapr (fun k => let i := lo + 32 * N.of_nat k in
                    rbind (word_at s i) (fun x => rbind (word_at o i) (fun y =>
                    rmap (fun z => N.land (N.lor x y) (not32 z)) (word_at f i))))
          (seq 0 (N.to_nat ((up - lo) / 32)))).

(** Bit_Set.hxx:375-385: the loop over the common blocks; [n] iterations are left. *)
Fixpoint filter_loop (n : nat) (lo flo i : N) (ws fws : list N) (ones : N) : res (list N * N) :=
  match n with
  | O => Val (ws, ones)
  | S n' => match rd ws ((i - lo) / 32), rd fws ((i - flo) / 32) with
            | Some v, Some z => let v' := N.land v (not32 z) in
                                filter_loop n' lo flo (i + 32) (wr ws ((i - lo) / 32) v') fws (ones + popcount 32 v')
            | _, _ => Undef
            end
  end.
Definition bs_filter (s f : bitset) : res bitset :=
  let a := N.max (b_lo s) (b_lo f) in
  let e := N.min (b_up s) (b_up f) in
  rmap (fun r => mkbs (b_lo s) (b_up s) (fst r) (wrap 64 (snd r)))
       (filter_loop (N.to_nat ((e - a + 31) / 32)) (b_lo s) (b_lo f) a (b_words s) (b_words f) 0).

(** Bit_Set.hxx:286-304 (copy), 494-519 (save; load). *)
Definition bs_copy (o : bitset) : bitset := mkbs (b_lo o) (b_up o) (map (fun v => v) (b_words o)) (b_ones o).
Definition bs_save (s : bitset) : N * N * N * N * list N :=
  (N.of_nat (length (b_words s)), b_lo s, b_up s, b_ones s, b_words s).
Definition bs_load (a : N * N * N * N * list N) : bitset :=
  let '(n, lo, up, ones, ws) := a in mkbs lo up (firstn (N.to_nat n) ws) ones.

(** *** Iterator.  The position is relative to m_lowerBound. *)
Local Open Scope nat_scope.
(** Bit_Set.hxx:452-454; the argument is converted to 32 bits. *)
Definition bit_rel (ws : list N) (i : nat) : bool :=
  let j := N.to_nat (wrap 32 (N.of_nat i)) in
  match nth_error ws (j / 32) with
  | Some v => negb (N.eqb v 0) && negb (N.eqb (N.land v (bmask (N.of_nat j))) 0)
  | None => false
  end.
(** Bit_Set.hxx:114-117, 119-122: the step width (read only at positions before the end). *)
Definition it_step (ws : list N) (i : nat) : nat :=
  if Nat.eqb (i mod 32) 0 then
    match nth_error ws (i / 32) with
    | Some v => if N.eqb v 0 then 32 else 1
    | None => 1
    end
  else 1.
(** Bit_Set.hxx:111-124; every step is at least 1, so [m_end - i] steps are enough. *)
Fixpoint adv_loop (ws : list N) (e d i : nat) : nat :=
  match d with
  | O => i
  | S d' => if Nat.ltb i e && negb (bit_rel ws i) then adv_loop ws e d' (i + it_step ws i) else i
  end.
Definition bs_end (s : bitset) : nat := N.to_nat (b_up s - b_lo s).
Definition bs_skip (s : bitset) (i : nat) : nat := adv_loop (b_words s) (bs_end s) (bs_end s - i) i.
Definition bs_next (s : bitset) (i : nat) : nat :=
  let i' := i + it_step (b_words s) i in adv_loop (b_words s) (bs_end s) (bs_end s - i') i'.
(** operator*, Bit_Set.hxx:95. *)
Definition bs_deref (s : bitset) (i : nat) : N := (b_lo s + N.of_nat i)%N.
(** [for (auto x : set)] and loops over the leaves of a split range. *)
Definition bs_iterate (fuel : nat) (s : bitset) : res (list N) :=
  rmap (map (bs_deref s)) (visit (bs_next s) (bs_end s) fuel (bs_skip s 0) (bs_end s)).
Definition bs_parallel (fuel : nat) (s : bitset) (grain : nat) (t : splits) : res (list N) :=
  rmap (map (bs_deref s))
    (visit_all (bs_next s) (bs_end s) fuel (leaves (bs_skip s) t (range_new (bs_skip s) (bs_skip s 0) (bs_end s) grain))).
(** operator--, Bit_Set.hxx:127-134: [m_idx >= 0] is always true. *)
Definition bs_prev (s : bitset) (i : nat) : res nat := dec (fun j => negb (bit_rel (b_words s) j)) i.

(** Histories of calls. *)
Inductive bop := BInsert (i : N) | BErase (i : N) | BContains (i : N) | BOnes | BZeros | BEmpty.
Inductive bout := BB (b : bool) | BN (n : N).
Definition bs_step (s : bitset) (o : bop) : res (bitset * bout) :=
  match o with
  | BInsert i => rmap (fun r => (fst r, BB (snd r))) (bs_insert s i)
  | BErase i => rmap (fun r => (fst r, BB (snd r))) (bs_erase s i)
  | BContains i => rmap (fun b => (s, BB b)) (bs_contains s i)
  | BOnes => Val (s, BN (bs_count s))
  | BZeros => Val (s, BN (bs_zeros s))
  | BEmpty => Val (s, BB (bs_zero s))
  end.
Fixpoint bs_run (s : bitset) (l : list bop) : res (bitset * list bout) :=
  match l with
  | [] => Val (s, [])
  | o :: t => rbind (bs_step s o) (fun r => rmap (fun q => (fst q, snd r :: snd q)) (bs_run (fst r) t))
  end.
