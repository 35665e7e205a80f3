(** Concurrent_Bit_Set, include/datastructures/Bit_Set.hxx:524-723.  Its fields are those of
    Bit_Set with atomic words and an atomic counter.  One step is one atomic access, together with
    the tests on the value read; [compare_exchange_strong] does not fail spuriously. *)
From Verif Require Import Outcome ListUtil WordsModel BitSetModel Conc.
Local Open Scope N_scope.

(** Calls: insert 655, erase 657, contains 659, and ones() 652. *)
Inductive cbop := CInsert (i : N) | CErase (i : N) | CContains (i : N).

(** Control of a thread: its remaining calls and its position in the current one. *)
Inductive cbloc :=
| CIdle (p : list cbop)
| CEntry (o : cbop) (p : list cbop)            (* entered the function *)
| CLoop (o : cbop) (val : N) (p : list cbop)   (* at the compare-exchange, 583 / 607 *)
| CCount (o : cbop) (p : list cbop)            (* exchanged; at [++m_ones] 586 / [--m_ones] 610 *)
| CRet (o : cbop) (r : bool) (p : list cbop).

Definition cb_idx (o : cbop) : N := match o with CInsert i | CErase i | CContains i => i end.

(** The loop test on a value just read, Bit_Set.hxx:581 and 605: go on to the exchange or leave
    the loop; the result is that of insert (negated, 655) or erase. *)
Definition cb_test (s : bitset) (o : cbop) (val : N) (p : list cbop) : sres bitset cbloc (ev cbop bool) :=
  let bit := negb (N.land val (bmask (cb_idx o)) =? 0) in
  match o with
  | CInsert _ => if bit then Step s (CRet o false p) [Lin o false] else Step s (CLoop o val p) []
  | CErase _ => if bit then Step s (CLoop o val p) [] else Step s (CRet o false p) [Lin o false]
  | CContains _ => let r := negb (val =? 0) && bit in Step s (CRet o r p) [Lin o r]
  end.

(** The exchanged word, Bit_Set.hxx:582 and 606. *)
Definition cb_des (o : cbop) (val : N) : N :=
  match o with
  | CInsert i => N.lor val (bmask i)
  | CErase i => N.land val (not32 (bmask i))
  | CContains _ => val
  end.

(** testAndSet 573-595, testAndUnset 597-619, isSet 621-631. *)
Definition cb_step (s : bitset) (l : cbloc) : sres bitset cbloc (ev cbop bool) :=
  match l with
  | CIdle [] => Stop
  | CIdle (o :: p) => Step s (CEntry o p) [Inv o]
  | CEntry o p =>
      match o with
      | CContains i =>
          if (b_lo s <=? i) && (i <? b_up s) then
            match rd (b_words s) (bs_block s i) with None => Bad | Some val => cb_test s o val p end
          else Step s (CRet o false p) [Lin o false]
      | _ => match rd (b_words s) (bs_block s (cb_idx o)) with None => Bad | Some val => cb_test s o val p end
      end
  | CLoop o val p =>
      match rd (b_words s) (bs_block s (cb_idx o)) with
      | None => Bad
      | Some cur =>
          if cur =? val
          then Step (mkbs (b_lo s) (b_up s) (wr (b_words s) (bs_block s (cb_idx o)) (cb_des o val)) (b_ones s)) (CCount o p) [Lin o true]
          else cb_test s o cur p
      end
  | CCount o p =>
      let d := match o with CErase _ => 2 ^ 64 - 1 | _ => 1 end in
      Step (mkbs (b_lo s) (b_up s) (b_words s) (wrap 64 (b_ones s + d))) (CRet o true p) []
  | CRet o r p => Step s (CIdle p) [Rsp o r]
  end.

(** Threads with their calls, on a Bit_Set converted by 725-737 (same words, same counter). *)
Definition cb_start (s : bitset) (progs : list (list cbop)) : config bitset cbloc := mkc s (map CIdle progs).
