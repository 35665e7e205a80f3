(** BlockedArray2, include/datastructures/BlockedArray2.hxx, and the part of dSimplices built on it,
    include/Geometry.h:722-937.

    Ids are 64-bit numbers ([tIdType]); a vector of blocks is a list; [None] for an id-addressed access
    means that std::out_of_range was thrown. *)
From Verif Require Import Outcome ListUtil WordsModel RangeModel.
From Coq Require Import Permutation.
Local Open Scope N_scope.

Section A.
Context {A : Type}.

(** BlockedArray2.hxx:398-401. *)
Record block := mkblk { b_min : N; b_max : N; b_data : list A }.

(** BlockedArray2.hxx:302-307, 365-367 [new T[size]()]: every cell is value-initialised ([dflt]).  Needs
    min <= max: otherwise the size [max - min] wraps around to more than any memory. *)
Definition block_new (dflt : A) (min max : N) : block := mkblk min max (repeat dflt (N.to_nat (max - min))).

(** BlockedArray2.hxx:343-345 (also _testBlock, 547-549). *)
Definition blk_contains (b : block) (idx : N) : bool := (b_min b <=? idx) && (idx <? b_max b).

(** BlockedArray2.hxx:323-341 [m_data[idx - m_min]] with NDEBUG.  Below m_min the difference wraps around
    to a number beyond the block; outside the block the access is undefined. *)
Definition blk_at (b : block) (idx : N) : option A :=
  if b_min b <=? idx then nth_error (b_data b) (N.to_nat (idx - b_min b)) else None.
Definition blk_set (b : block) (idx : N) (v : A) : block :=
  mkblk (b_min b) (b_max b) (upd (b_data b) (N.to_nat (idx - b_min b)) v).

(** BlockedArray2.hxx:355-357 in wrap-around arithmetic. *)
Definition blk_size (b : block) : N := wrap 64 (b_max b + 2 ^ 64 - b_min b).

(** BlockedArray2.hxx:579-581, 434, 442: std::sort by min; any order it may produce. *)
Definition sort_result (l l' : list block) : Prop :=
  Permutation l l' /\
  forall i j bi bj, (i < j)%nat -> nth_error l' i = Some bi -> nth_error l' j = Some bj -> b_min bi <= b_min bj.

(** BlockedArray2.hxx:414-416. *)
Definition ba_new (dflt : A) (min max : N) : list block := [block_new dflt min max].
(** BlockedArray2.hxx:429-437. *)
Definition ba_addBlock (dflt : A) (l : list block) (min max : N) (l' : list block) : Prop :=
  sort_result (l ++ [block_new dflt min max]) l'.
(** BlockedArray2.hxx:439-443. *)
Definition ba_merge (l other l' : list block) : Prop := sort_result (l ++ other) l'.

(** BlockedArray2.hxx:559-570: the loop of _findBlock. *)
Fixpoint find_loop (fuel : nat) (l : list block) (idx : N) (start count : nat) : res nat :=
  match fuel with
  | O => NoFuel
  | S f =>
      if Nat.eqb count 0 then Val start
      else
        let step := Nat.div count 2 in
        let it := (start + step)%nat in
        match nth_error l it with
        | None => Undef
        | Some b =>
            if blk_contains b idx then Val it
            else if b_min b <? idx then find_loop f l idx (S it) (count - (step + 1))%nat
            else find_loop f l idx start step
        end
  end.

(** BlockedArray2.hxx:552-577; the number of blocks is truncated to 32 bits (554). *)
Definition find_block (l : list block) (idx : N) (doThrow : bool) : res (option nat) :=
  let e := N.to_nat (wrap 32 (N.of_nat (length l))) in
  rmap (fun start => if Nat.eqb start e && doThrow then None else Some start) (find_loop (S e) l idx 0 e).

(** BlockedArray2.hxx:461-467: the block used, which becomes the new hint. *)
Definition ba_seek (l : list block) (idx : N) (hint : nat) : res (option nat) :=
  match nth_error l hint with
  | None => Undef
  | Some b => if blk_contains b idx then Val (Some hint) else find_block l idx true
  end.

(** BlockedArray2.hxx:461-475, at(idx, hint): read, and write through the reference. *)
Definition ba_at (l : list block) (idx : N) (hint : nat) : res (option (A * nat)) :=
  rbind (ba_seek l idx hint) (fun oh =>
    match oh with
    | None => Val None
    | Some h =>
        match nth_error l h with
        | None => Undef
        | Some b => match blk_at b idx with None => Undef | Some a => Val (Some (a, h)) end
        end
    end).
Definition ba_set (l : list block) (idx : N) (hint : nat) (v : A) : res (option (list block * nat)) :=
  rbind (ba_seek l idx hint) (fun oh =>
    match oh with
    | None => Val None
    | Some h =>
        match nth_error l h with
        | None => Undef
        | Some b => match blk_at b idx with None => Undef | Some _ => Val (Some (upd l h (blk_set b idx v), h)) end
        end
    end).

(** BlockedArray2.hxx:481-492: the answer and the new hint. *)
Definition ba_contains (l : list block) (idx : N) (hint : nat) : res (bool * nat) :=
  match nth_error l hint with
  | None => Undef
  | Some b =>
      if blk_contains b idx then Val (true, hint)
      else rbind (find_block l idx false) (fun oh =>
        match oh with
        | None => Undef
        | Some k =>
            if Nat.eqb k (length l) then Val (false, hint)
            else match nth_error l k with
                 | None => Undef
                 | Some b' => if blk_contains b' idx then Val (true, k) else Val (false, hint)
                 end
        end)
  end.

(** BlockedArray2.hxx:494-500; front() and back() of an empty vector (a moved-from array) are undefined. *)
Definition ba_lower (l : list block) : res N := match l with [] => Undef | b :: _ => Val (b_min b) end.
Definition ba_upper (l : list block) : res N :=
  match nth_error l (length l - 1) with None => Undef | Some b => Val (b_max b) end.
(** BlockedArray2.hxx:502-509. *)
Definition ba_exact_size (l : list block) : N := fold_left (fun s b => wrap 64 (s + blk_size b)) l 0.

(** ** Iterators, BlockedArray2.hxx:14-293.
    [flt = None]: block_iterator, all cells.  [flt = Some valid]: filtered_block_iterator with the
    container's _valid. *)
Variable flt : option (A -> bool).

(** m_block and m_idx. *)
Record iter := mkit { i_block : nat; i_idx : N }.

(** BlockedArray2.hxx:68-70, 74-76 (194-196, 200-202). *)
Definition it_eqb (a b : iter) : bool := Nat.eqb (i_block a) (i_block b) && (i_idx a =? i_idx b).
Definition it_ltb (a b : iter) : bool :=
  Nat.ltb (i_block a) (i_block b) || (Nat.eqb (i_block a) (i_block b) && (i_idx a <? i_idx b)).
(** BlockedArray2.hxx:49-51 (175-177). *)
Definition it_minus (a b : iter) : N := wrap 64 (i_idx a + 2 ^ 64 - i_idx b).

(** BlockedArray2.hxx:117-123, 261-267. *)
Definition it_inc (l : list block) (it : iter) : res iter :=
  match nth_error l (i_block it) with
  | None => Undef
  | Some b =>
      let i := wrap 64 (i_idx it + 1) in
      if (b_max b =? i) && Nat.ltb (i_block it) (length l - 1)
      then match nth_error l (S (i_block it)) with
           | None => Undef
           | Some b' => Val (mkit (S (i_block it)) (b_min b'))
           end
      else Val (mkit (i_block it) i)
  end.

(** BlockedArray2.hxx:125-131, 281-287. *)
Definition it_dec (l : list block) (it : iter) : res iter :=
  match nth_error l (i_block it) with
  | None => Undef
  | Some b =>
      if (b_min b =? i_idx it) && Nat.ltb 0 (i_block it)
      then match nth_error l (i_block it - 1) with
           | None => Undef
           | Some b' => Val (mkit (i_block it - 1) (wrap 64 (b_max b' + 2 ^ 64 - 1)))
           end
      else Val (mkit (i_block it) (wrap 64 (i_idx it + 2 ^ 64 - 1)))
  end.

(** operator*, BlockedArray2.hxx:90, 216. *)
Definition it_deref (l : list block) (it : iter) : res A :=
  match nth_error l (i_block it) with
  | None => Undef
  | Some b => match blk_at b (i_idx it) with None => Undef | Some a => Val a end
  end.

(** BlockedArray2.hxx:254-258: the loop of _advance; block_iterator has none. *)
Fixpoint adv_loop (fuel : nat) (l : list block) (it : iter) : res iter :=
  match flt with
  | None => Val it
  | Some valid =>
      match fuel with
      | O => NoFuel
      | S f =>
          rbind (ba_upper l) (fun u =>
            if i_idx it <? u
            then rbind (it_deref l it) (fun a => if valid a then Val it else rbind (it_inc l it) (adv_loop f l))
            else Val it)
      end
  end.
(** operator++, BlockedArray2.hxx:32-35, 157-160. *)
Definition it_next (fuel : nat) (l : list block) (it : iter) : res iter := rbind (it_inc l it) (adv_loop fuel l).

(** BlockedArray2.hxx:274-278: the loop of _dec. *)
Fixpoint dec_loop (fuel : nat) (l : list block) (it : iter) : res iter :=
  match flt with
  | None => Val it
  | Some valid =>
      match fuel with
      | O => NoFuel
      | S f =>
          rbind (ba_lower l) (fun lo =>
            if lo <? i_idx it
            then rbind (it_deref l it) (fun a => if valid a then Val it else rbind (it_dec l it) (dec_loop f l))
            else Val it)
      end
  end.
(** operator--, BlockedArray2.hxx:42-45, 168-171. *)
Definition it_prev (fuel : nat) (l : list block) (it : iter) : res iter := rbind (it_dec l it) (dec_loop fuel l).

(** begin() and end(), BlockedArray2.hxx:528-542 and Geometry.h:915-929. *)
Definition ba_begin (fuel : nat) (l : list block) : res iter :=
  rbind (ba_lower l) (fun lo => adv_loop fuel l (mkit 0 lo)).
Definition ba_end (l : list block) : res iter := rmap (fun u => mkit (length l - 1) u) (ba_upper l).

(** half and _setIdx, BlockedArray2.hxx:94-108, 112-115, 220-236, 240-245; [None]: _findBlock threw. *)
Definition it_half (fuel : nat) (l : list block) (b e : iter) : res (option iter) :=
  let idx := wrap 64 (i_idx b + it_minus e b / 2) in
  rbind (find_block l idx true) (fun ok =>
    match ok with
    | None => Val None
    | Some k =>
        match nth_error l k with
        | None => Undef
        | Some bk =>
            rbind (adv_loop fuel l (mkit k (N.max idx (b_min bk)))) (fun m =>
              if it_eqb m e
              then rmap (fun m' => Some (if it_ltb m' b then b else m')) (it_prev fuel l m)
              else Val (Some m))
        end
    end).

(** range_type with these iterators, LP_Set.hxx:184-246; [bg_mid = None]: the constructor threw. *)
Record brange := mkbr { g_begin : iter; g_end : iter; g_mid : iter; g_grain : N }.

(** LP_Set.hxx:238-244. *)
Definition br_mid (fuel : nat) (l : list block) (b e : iter) (grain : N) : res (option brange) :=
  if it_eqb b e then Val (Some (mkbr b e e grain))
  else rmap (option_map (fun m => mkbr b e m grain)) (it_half fuel l b e).
(** LP_Set.hxx:198-200. *)
Definition br_divisible (r : brange) : bool :=
  it_ltb (g_begin r) (g_mid r) && it_ltb (g_mid r) (g_end r) && (g_grain r <=? it_minus (g_end r) (g_begin r)).

(** for (it = begin; it != end; ++it): the dereferenced positions. *)
Fixpoint br_visit (fuel : nat) (l : list block) (it e : iter) : res (list iter) :=
  match fuel with
  | O => NoFuel
  | S f =>
      if it_eqb it e then Val []
      else rbind (it_deref l it) (fun _ => rbind (it_next fuel l it) (fun it' => rmap (cons it) (br_visit f l it' e)))
  end.

(** A tree of splits as in RangeModel: the front half goes to the new range (LP_Set.hxx:203-214), the
    loop body runs at the leaves; [None] if _findBlock threw. *)
Fixpoint br_run (fuel : nat) (l : list block) (t : splits) (r : brange) : res (option (list iter)) :=
  match t with
  | Run => rmap Some (br_visit fuel l (g_begin r) (g_end r))
  | Split f b =>
      if br_divisible r then
        rbind (br_mid fuel l (g_begin r) (g_mid r) (g_grain r)) (fun o1 =>
        rbind (br_mid fuel l (g_mid r) (g_end r) (g_grain r)) (fun o2 =>
          match o1, o2 with
          | Some r1, Some r2 =>
              rbind (br_run fuel l f r1) (fun v1 => rmap (fun v2 =>
                match v1, v2 with Some a, Some b => Some (a ++ b) | _, _ => None end) (br_run fuel l b r2))
          | _, _ => Val None
          end))
      else rmap Some (br_visit fuel l (g_begin r) (g_end r))
  end.

(** A sequential loop over the container: the ids of the visited cells, in order. *)
Definition ba_iterate (fuel : nat) (l : list block) : res (list N) :=
  rbind (ba_begin fuel l) (fun b => rbind (ba_end l) (fun e => rmap (map i_idx) (br_visit fuel l b e))).
(** tbb::parallel_for over range(), LP_Set.hxx:217-224. *)
Definition ba_parallel (fuel : nat) (l : list block) (grain : N) (t : splits) : res (option (list N)) :=
  rbind (ba_begin fuel l) (fun b => rbind (ba_end l) (fun e =>
    rbind (br_mid fuel l b e grain) (fun o =>
      match o with
      | None => Val None
      | Some r => rmap (option_map (map i_idx)) (br_run fuel l t r)
      end))).
End A.
Arguments block A : clear implicits.

(** Serialization, BlockedArray2.hxx:587-607 and Block::save/load, 374-396.  load resizes the vector of
    pointers of the existing array, where new pointers are null (602), and then reads each block through its
    pointer (605). *)
Definition resize_ptrs {A} (old : list (block A)) (n : nat) : list (option (block A)) :=
  firstn n (map Some old) ++ repeat None (n - length old).
Fixpoint load_loop {A} (ptrs : list (option (block A))) (saved : list (block A)) : res (list (block A)) :=
  match ptrs, saved with
  | [], [] => Val []
  | Some _ :: p, b :: s => rmap (cons b) (load_loop p s)
  | _, _ => Undef
  end.
Definition ba_load {A} (old saved : list (block A)) : res (list (block A)) :=
  load_loop (resize_ptrs old (length saved)) saved.
