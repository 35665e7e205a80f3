(** GrowingHashTable and its handles, include/datastructures/Growing_LP.hxx, over
    Concurrent_LP_Set<tIdType, true> (LP_Set.hxx:520-786, ConcSetModel).

    One step is one atomic access with the tests on the value read; the two critical sections under
    [grow_mutex] are one step each.  The copy [l_table = parent.g_table_r] (340) and the store
    [parent.g_table_r = w_table] (395) are steps too, although the code does not synchronise them with
    each other.  Epochs, versions, the helper count and the copy counter are unbounded numbers. *)
From Verif Require Import Outcome ListUtil WordsModel LPSetModel Conc ConcSetModel.
Local Open Scope nat_scope.

(** A table with its m_currentCopyBlock (LP_Set.hxx:542, 771).  Its m_version is its index in [g_tabs]:
    a table is only made with the version after the last one (355-363). *)
Record gtab := mkt { t_set : lpset; t_copy : nat }.

(** Members of GrowingHashTable, 62-74: all tables made so far, g_epoch_r, g_epoch_w, the versions of g_table_r and
    g_table_w, helperThreads. *)
Record gsh := mkg { g_tabs : list gtab; g_er : nat; g_ew : nat; g_tr : nat; g_tw : nat; g_help : nat }.

(** Calls of a thread: replace its handle by a new one (210-212), insert 217-231, contains 234-240. *)
Inductive gop := GNew | GInsert (k : N) | GContains (k : N).
(** Visible events: a call, and its result. *)
Inductive gev := Call (o : gop) | Return (o : gop) (r : csret).

(** What follows getTable or grow: the end of the constructor, the second test of [t_epoch] (221),
    the operation on the table (226 / 239), the recursive call of insert (229). *)
Inductive gcont := KNew | KTest (o : gop) (te : nat) | KOp (o : gop) | KAgain (o : gop).

(** Program counter.  [w] is the version of the local w_table. *)
Inductive gpc :=
| PIdle
| PCheck (o : gop)                                             (* load of the epoch, 218 / 235 *)
| PGetE (k : gcont)                                            (* load of g_epoch_r, 339 *)
| PGetT (k : gcont)                                            (* copy of g_table_r, 340, and the test 342 *)
| POp (o : gop) (c : csloc)                                    (* inside l_table->insert / contains *)
| PLock1 (k : gcont)                                           (* first critical section, 355-363 *)
| PCasW (w : nat) (k : gcont)                                  (* 366-367 *)
| PUp (w : nat) (k : gcont)                                    (* 370 *)
| PBlock (w : nat) (k : gcont)                                 (* fetch_add, 373 / 381, and the loop test *)
| PMig (w i e : nat) (k : gcont)                               (* load of cell i in _migrate; block ends at e *)
| PPut (w i e : nat) (c : csloc) (k : gcont)                   (* inside w_table->_insert for cell i *)
| PDown (w : nat) (k : gcont)                                  (* 385 *)
| PSpin (w : nat) (k : gcont)                                  (* 388 *)
| PLock2 (w : nat) (k : gcont)                                 (* second critical section, 392-397 *)
| PCasR (w : nat) (k : gcont).                                 (* 400-401 *)

(** A thread: l_epoch and the version of l_table (409-410), where it is, and its further calls. *)
Record gloc := mkl { h_ep : nat; h_tab : nat; l_pc : gpc; l_prog : list gop }.

(** The operation on the table for a call. *)
Definition tab_op (o : gop) : list csop :=
  match o with GNew => [] | GInsert k => [SInsert k] | GContains k => [SContains k] end.
Definition set_pc (l : gloc) (pc : gpc) : gloc := mkl (h_ep l) (h_tab l) pc (l_prog l).
Definition start_op (o : gop) : gpc := POp o (LIdle (tab_op o)).

(** After getTable: 212, 221-223, 226 / 239, 228-229. *)
Definition after (k : gcont) (ep : nat) : gpc :=
  match k with
  | KNew => PIdle
  | KTest o te => if ep <? te then PLock1 (KOp o) else start_op o
  | KOp o => start_op o
  | KAgain o => PCheck o
  end.
(** The event at the end of the constructor. *)
Definition after_ev (k : gcont) : list gev := match k with KNew => [Return GNew (RB true)] | _ => [] end.

(** The result of the operation on the table, if it has returned. *)
Definition op_done (c : csloc) : option csret := match c with LRet _ r _ => Some r | _ => None end.

(** Replace the set of table [v]. *)
Definition set_tab (sh : gsh) (v : nat) (tb : gtab) : gsh :=
  mkg (upd (g_tabs sh) v tb) (g_er sh) (g_ew sh) (g_tr sh) (g_tw sh) (g_help sh).

(** The next cell of the block, 377, or the next block, 381. *)
Definition next_cell (w i e : nat) (k : gcont) : gpc := if S i <? e then PMig w (S i) e k else PBlock w k.

Section M.
(** The hash multiplier of the table of each version: the constructor of HT draws one (LP_Set.hxx:534).  Oracle. *)
Variable mult : nat -> N.

(** Entry of a call: insert 217-224, contains 234-238, construction of a handle 210-212. *)
Definition check (sh : gsh) (l : gloc) (o : gop) : gpc :=
  match o with
  | GNew => PGetE KNew
  | GInsert _ => if h_ep l <? g_ew sh then PGetE (KTest o (g_ew sh)) else start_op o
  | GContains _ => if h_ep l <? g_er sh then PGetE (KOp o) else start_op o
  end.

Definition g_step (sh : gsh) (l : gloc) : sres gsh gloc gev :=
  match nth_error (g_tabs sh) (h_tab l) with
  | None => Bad
  | Some tb =>
  match l_pc l with
  | PIdle => match l_prog l with [] => Stop | o :: p => Step sh (mkl (h_ep l) (h_tab l) (PCheck o) p) [Call o] end
  | PCheck o => Step sh (set_pc l (check sh l o)) []
  | PGetE k => Step sh (mkl (g_er sh) (h_tab l) (PGetT k) (l_prog l)) []
  | PGetT k =>
      if g_tr sh =? h_ep l then Step sh (mkl (h_ep l) (g_tr sh) (after k (h_ep l)) (l_prog l)) (after_ev k)
      else Step sh (mkl (h_ep l) (g_tr sh) (PGetE k) (l_prog l)) []
  | POp o c =>
      match op_done c with
      | Some RFull => match o with GInsert _ => Step sh (set_pc l (PLock1 (KAgain o))) [] | _ => Bad end       (* 227-228 *)
      | Some r => Step sh (set_pc l PIdle) [Return o r]
      | None => match cs_step 64 true (t_set tb) c with
                | Step s' c' _ => Step (set_tab sh (h_tab l) (mkt s' (t_copy tb))) (set_pc l (POp o c')) []
                | Stop | Bad => Bad
                end
      end
  | PLock1 k =>
      if g_tw sh =? h_tab l then
        let cap2 := wrap 64 (2 * N.of_nat (length (s_arr (t_set tb)))) in
        (* an array of 2^60 or more 8-byte cells cannot be allocated: std::bad_array_new_length ends the thread *)
        if (2 ^ 60 <=? cap2)%N then Stop
        else Step (mkg (g_tabs sh ++ [mkt (cs_new cap2 (mult (length (g_tabs sh)))) 0]) (g_er sh) (g_ew sh) (g_tr sh) (S (g_tw sh)) (g_help sh))
                  (set_pc l (PCasW (S (g_tw sh)) k)) []
      else Step sh (set_pc l (PCasW (g_tw sh) k)) []
  | PCasW w k =>
      Step (if g_ew sh =? h_tab l then mkg (g_tabs sh) (g_er sh) w (g_tr sh) (g_tw sh) (g_help sh) else sh) (set_pc l (PUp w k)) []
  | PUp w k => Step (mkg (g_tabs sh) (g_er sh) (g_ew sh) (g_tr sh) (g_tw sh) (S (g_help sh))) (set_pc l (PBlock w k)) []
  | PBlock w k =>
      let b := t_copy tb in
      let cap := length (s_arr (t_set tb)) in
      Step (set_tab sh (h_tab l) (mkt (t_set tb) (b + 256)))
           (set_pc l (if b <? cap then PMig w b (Nat.min (b + 256) cap) k else PDown w k)) []
  | PMig w i e k =>
      match nth_error (s_arr (t_set tb)) i with
      | None => Bad
      | Some v => Step sh (set_pc l (if (v =? 0)%N then next_cell w i e k else PPut w i e (LIdle [SPut v]) k)) []
      end
  | PPut w i e c k =>
      match op_done c with
      | Some _ => Step sh (set_pc l (next_cell w i e k)) []
      | None =>
          match nth_error (g_tabs sh) w with
          | None => Bad
          | Some tw => match cs_step 64 true (t_set tw) c with
                       | Step s' c' _ => Step (set_tab sh w (mkt s' (t_copy tw))) (set_pc l (PPut w i e c' k)) []
                       | Stop | Bad => Bad
                       end
          end
      end
  | PDown w k => Step (mkg (g_tabs sh) (g_er sh) (g_ew sh) (g_tr sh) (g_tw sh) (g_help sh - 1)) (set_pc l (PSpin w k)) []
  | PSpin w k => Step sh (set_pc l (if g_help sh =? 0 then PLock2 w k else PSpin w k)) []
  | PLock2 w k =>
      Step (if g_tr sh <? w then mkg (g_tabs sh) (g_er sh) (g_ew sh) w (g_tw sh) (g_help sh) else sh) (set_pc l (PCasR w k)) []
  | PCasR w k =>
      Step (if g_er sh =? h_tab l then mkg (g_tabs sh) w (g_ew sh) (g_tr sh) (g_tw sh) (g_help sh) else sh) (set_pc l (PGetE k)) []
  end
  end.

(** The constructor 24-29 around a table [s] of version 0, and threads that hold a handle made then. *)
Definition g_start (s : lpset) (progs : list (list gop)) : config gsh gloc :=
  mkc (mkg [mkt s 0] 0 0 0 0 0) (map (mkl 0 0 PIdle) progs).
End M.
