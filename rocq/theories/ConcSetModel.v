(** Concurrent_LP_Set, include/datastructures/LP_Set.hxx:520-786.

    The fields are those of the sequential table ([lpset]) with atomic cells and an atomic
    counter.  [m_version] and [m_currentCopyBlock] belong to the growing table and are modelled there.  One
    step is one atomic access with the tests on the value read. *)
From Verif Require Import Outcome ListUtil WordsModel LPSetModel Conc.
Local Open Scope N_scope.

(** Calls: insert 571-618, the internal _insert 717-749, contains 634-636 (get 620-632). *)
Inductive csop := SInsert (k : N) | SPut (k : N) | SContains (k : N).
(** InsertReturn: Full, or the Boolean; _insert returns nothing, its result here says whether
    the key was added. *)
Inductive csret := RFull | RB (b : bool).

Inductive csloc :=
| LIdle (p : list csop)
| LEntry (o : csop) (p : list csop)                       (* at the test of m_items, 574-577 *)
| LProbe (o : csop) (idx cols : N) (p : list csop)        (* at the load, 591 / 625 / 725 *)
| LCas (o : csop) (idx cols : N) (p : list csop)          (* found a free cell; at the exchange, 604 / 736 *)
| LCount (o : csop) (p : list csop)                       (* exchanged; at [++m_items], 606 / 738 *)
| LRet (o : csop) (r : csret) (p : list csop).

Definition cs_key (o : csop) : N := match o with SInsert k | SPut k | SContains k => k end.
Definition is_insert (o : csop) : bool := match o with SInsert _ => true | _ => false end.

Section W.
Variable w : N.
(** Template parameter Growing. *)
Variable g : bool.

(** The head of the loop, 581-587: with Growing, insert gives up after more than
    c_growThreshold = 10 (773) occupied cells.  The loop variable is masked here. *)
Definition cs_head (s : lpset) (o : csop) (idx cols : N) (p : list csop) : sres lpset csloc (ev csop csret) :=
  if g && is_insert o && (10 <? cols) then Step s (LRet o RFull p) [Lin o RFull]
  else Step s (LProbe o (mask w (length (s_arr s)) idx) cols p) [].

(** [++cols; continue; idx++], 598-599, 612-613. *)
Definition cs_next (s : lpset) (o : csop) (i cols : N) (p : list csop) : sres lpset csloc (ev csop csret) :=
  cs_head s o (wrap w (i + 1)) (wrap w (cols + 1)) p.

(** Growing inserts test [m_items >= m_arraySize >> 1], 574; others [m_items == m_arraySize], 577. *)
Definition cs_full (s : lpset) : bool :=
  if g then Nat.leb (length (s_arr s) / 2) (s_items s) else Nat.eqb (s_items s) (length (s_arr s)).

Definition cs_step (s : lpset) (l : csloc) : sres lpset csloc (ev csop csret) :=
  match l with
  | LIdle [] => Stop
  | LIdle (o :: p) => Step s (LEntry o p) [Inv o]
  | LEntry o p =>
      if is_insert o && cs_full s then Step s (LRet o RFull p) [Lin o RFull]
      else cs_head s o (hash w (s_mult s) (cs_key o)) 0 p
  | LProbe o i cols p =>
      match nth_error (s_arr s) (N.to_nat i) with
      | None => Bad
      | Some c =>
          match o with
          | SContains k =>
              if c =? k then Step s (LRet o (RB true) p) [Lin o (RB true)]
              else if c =? 0 then Step s (LRet o (RB false) p) [Lin o (RB false)]
              else cs_next s o i cols p
          | SInsert k | SPut k =>
              if c =? k then Step s (LRet o (RB false) p) [Lin o (RB false)]
              else if negb (c =? 0) then cs_next s o i cols p
              else Step s (LCas o i cols p) []
          end
      end
  | LCas o i cols p =>
      match nth_error (s_arr s) (N.to_nat i) with
      | None => Bad
      | Some c =>
          if c =? 0 then Step (mkset (upd (s_arr s) (N.to_nat i) (cs_key o)) (s_items s) (s_mult s)) (LCount o p) [Lin o (RB true)]
          else if c =? cs_key o then Step s (LRet o (RB false) p) [Lin o (RB false)]
          else cs_next s o i cols p
      end
  | LCount o p => Step (mkset (s_arr s) (S (s_items s)) (s_mult s)) (LRet o (RB true) p) []
  | LRet o r p => Step s (LIdle p) [Rsp o r]
  end.

(** LP_Set.hxx:533-543; here nextPow2(0) = 0 is possible. *)
Definition cs_new (size a : N) : lpset := mkset (alloc (nextPow2 64 size)) 0 a.

Definition cs_start (s : lpset) (progs : list (list csop)) : config lpset csloc := mkc s (map LIdle progs).

(** unsafe_merge, LP_Set.hxx:660-709.  The new size, 666-670; [newSize <<= 1] wraps. *)
Fixpoint grow_size (fuel : nat) (comb sz : N) : res N :=
  if comb <=? sz / 2 then Val sz
  else match fuel with O => NoFuel | S f => grow_size f comb (wrap 64 (2 * sz)) end.

(** The work of loop index [i], 695-707: the cell of the old array, then that of the other
    set, unless free or filtered ([flt] decides [filter.count]). *)
Definition merge_cell (flt : N -> bool) (l : list N) (i : nat) : list csop :=
  match nth_error l i with Some v => if negb (v =? 0) && negb (flt v) then [SPut v] else [] | None => [] end.
Definition merge_work (flt : N -> bool) (old other : list N) (i : nat) : list csop :=
  merge_cell flt old i ++ merge_cell flt other i.

(** The fresh table, 672-686 (the allocation is zero initialised, then zeroed again). *)
Definition merge_table (s : lpset) (sz : N) : lpset := mkset (alloc sz) 0 (s_mult s).
End W.
