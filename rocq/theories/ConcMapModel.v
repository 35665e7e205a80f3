(** Concurrent_LP_Map, include/datastructures/LP_Map.hxx:243-513, and Concurrent_LP_MultiMap,
    include/datastructures/LP_MultiMap.hxx:346-653.

    The fields are those of the sequential tables ([lpmap]) with atomic cells and an atomic counter.
    The two classes share the structure of insert, so one step function covers both; [mm] selects the
    multimap, in which a cell holding the same key is passed over.  One step is one atomic access with the
    tests on the value read.  [m_version] and [m_currentCopyBlock] belong to the growing table. *)
From Verif Require Import Outcome ListUtil WordsModel LPSetModel LPMapModel Conc.
Local Open Scope N_scope.

(** Calls: insert (LP_Map.hxx:293-329, LP_MultiMap.hxx:403-439); the internal _insert(k, v) (LP_Map.hxx:456-486,
    LP_MultiMap.hxx:601-626); get of the map (LP_Map.hxx:335-346); contains of the multimap
    (LP_MultiMap.hxx:479-490).  The internal _insert(pair) of both classes calls insert and drops
    its result (LP_Map.hxx:488-490, LP_MultiMap.hxx:628-630). *)
Inductive cmop := KIns (k v : N) | KPut (k v : N) | KGet (k : N) | KHas (k : N).
(** Results: Full, a Boolean, or a value; [RV None] stands for the indeterminate value of a cell whose
    value was not yet written ([new std::atomic<V>[size]], LP_Map.hxx:434). *)
Inductive cmret := RFull | RB (b : bool) | RV (v : option N).

(** Local states; [j] counts the cells passed by the current call (not in the code, used in proofs). *)
Inductive cmloc :=
| MIdle (p : list cmop)
| MEntry (o : cmop) (p : list cmop)                         (* at the test of m_items, 296 / 407 *)
| MProbe (o : cmop) (i : N) (j : nat) (p : list cmop)       (* at the load of the key, 304 / 421 *)
| MCas (o : cmop) (i : N) (j : nat) (p : list cmop)         (* found a free cell; at the exchange, 316 / 429 *)
| MSet (o : cmop) (i : N) (j : nat) (b : bool) (p : list cmop) (* at the store of the value, 307, 318, 323 / 431 *)
| MCnt (o : cmop) (i : N) (j : nat) (p : list cmop)         (* at [++m_items], 319 / 432 *)
| MRead (o : cmop) (i : N) (p : list cmop)                  (* get found the key; at the load of the value, 341 *)
| MRet (o : cmop) (r : cmret) (p : list cmop).

Definition cm_key (o : cmop) : N := match o with KIns k _ | KPut k _ | KGet k | KHas k => k end.
Definition cm_val (o : cmop) : N := match o with KIns _ v | KPut _ v => v | KGet _ | KHas _ => 0 end.

Section W.
Variable w : N.
(** true: the multimap. *)
Variable mm : bool.

(** [idx &= m_arraySize - 1] at the head of the loop, 300 / 417, with the loop variable [idx]. *)
Definition cm_head (s : lpmap) (o : cmop) (idx : N) (j : nat) (p : list cmop) : sres lpmap cmloc (ev cmop cmret) :=
  Step s (MProbe o (mask w (length (m_keys s)) idx) j p) [].
(** [continue; idx++]. *)
Definition cm_next (s : lpmap) (o : cmop) (i : N) (j : nat) (p : list cmop) : sres lpmap cmloc (ev cmop cmret) :=
  cm_head s o (wrap w (i + 1)) (S j) p.

(** After storing and counting: insert returns; the map's internal _insert(k, v) has no
    return and goes on probing, LP_Map.hxx:468-484. *)
Definition cm_done (s : lpmap) (o : cmop) (i : N) (j : nat) (b : bool) (p : list cmop) : sres lpmap cmloc (ev cmop cmret) :=
  match o with
  | KPut _ _ => if mm then Step s (MRet o (RB b) p) [] else cm_next s o i j p
  | _ => Step s (MRet o (RB b) p) []
  end.

Definition cm_step (s : lpmap) (l : cmloc) : sres lpmap cmloc (ev cmop cmret) :=
  match l with
  | MIdle [] => Stop
  | MIdle (o :: p) => Step s (MEntry o p) [Inv o]
  | MEntry o p =>
      match o with
      | KIns _ _ => if Nat.leb (length (m_keys s) / 2) (m_items s) then Step s (MRet o RFull p) [Lin o RFull]
                    else cm_head s o (hash w (m_mult s) (cm_key o)) 0 p
      | _ => cm_head s o (hash w (m_mult s) (cm_key o)) 0 p
      end
  | MProbe o i j p =>
      match nth_error (m_keys s) (N.to_nat i) with
      | None => Bad
      | Some c =>
          match o with
          | KIns k _ | KPut k _ =>
              if negb mm && (c =? k) then Step s (MSet o i j false p) [Lin o (RB false)]
              else if negb (c =? 0) then cm_next s o i j p
              else Step s (MCas o i j p) []
          | KGet k =>
              if c =? k then Step s (MRead o i p) []
              else if c =? 0 then Step s (MRet o (RV (Some 0)) p) [Lin o (RV (Some 0))]
              else cm_next s o i j p
          | KHas k =>
              if c =? k then Step s (MRet o (RB true) p) [Lin o (RB true)]
              else if c =? 0 then Step s (MRet o (RB false) p) [Lin o (RB false)]
              else cm_next s o i j p
          end
      end
  | MCas o i j p =>
      match nth_error (m_keys s) (N.to_nat i) with
      | None => Bad
      | Some c =>
          if c =? 0 then Step (mkmap (upd (m_keys s) (N.to_nat i) (cm_key o)) (m_vals s) (m_items s) (m_mult s))
                              (MSet o i j true p) [Lin o (RB true)]
          else if negb mm && (c =? cm_key o) then Step s (MSet o i j false p) [Lin o (RB false)]
          else cm_next s o i j p
      end
  | MSet o i j b p =>
      match nth_error (m_vals s) (N.to_nat i) with
      | None => Bad
      | Some _ =>
          let s' := mkmap (m_keys s) (upd (m_vals s) (N.to_nat i) (Some (cm_val o))) (m_items s) (m_mult s) in
          if b then Step s' (MCnt o i j p) [] else cm_done s' o i j false p
      end
  | MCnt o i j p => cm_done (mkmap (m_keys s) (m_vals s) (S (m_items s)) (m_mult s)) o i j true p
  | MRead o i p =>
      match nth_error (m_vals s) (N.to_nat i) with
      | None => Bad
      | Some ov => Step s (MRet o (RV ov) p) [Lin o (RV ov)]
      end
  | MRet o r p => Step s (MIdle p) [Rsp o r]
  end.

(** LP_Map.hxx:256-266, LP_MultiMap.hxx:364-376: [nextPow2(size)] cells, keys zeroed, values indeterminate. *)
Definition cm_new (size a : N) : lpmap := map_alloc (nextPow2 64 size) a.
Definition cm_start (s : lpmap) (progs : list (list cmop)) : config lpmap cmloc := mkc s (map MIdle progs).

(** unsafe_rehash, LP_Map.hxx:369-383, LP_MultiMap.hxx:509-523: for each index of the old table one insert into a
    fresh table with [nextPow2(newSize)] cells.  The value of an occupied cell that was never
    written would be indeterminate; at rest there is none. *)
Definition cell_op (op : N -> N -> cmop) (keep : N -> bool) (ks : list N) (vs : list (option N)) (i : nat) : list cmop :=
  match nth_error ks i, nth_error vs i with
  | Some k, Some (Some v) => if negb (k =? 0) && keep k then [op k v] else []
  | _, _ => []
  end.
Definition rehash_work (s : lpmap) (i : nat) : list cmop := cell_op KIns (fun _ => true) (m_keys s) (m_vals s) i.
Definition rehash_table (s : lpmap) (newSize : N) : lpmap := map_alloc (nextPow2 64 newSize) (m_mult s).

(** _migrate(idx, target) of both classes (LP_Map.hxx:492-496, LP_MultiMap.hxx:632-636) is the same
    call insert on the target, its result dropped. *)
Definition migrate_work := rehash_work.

(** LP_MultiMap::unsafe_merge, LP_MultiMap.hxx:559-579: the old cell through _insert(k, v), the
    cell of the other table through _insert(pair), that is insert. *)
Definition mmerge_work (flt : N -> bool) (s other : lpmap) (i : nat) : list cmop :=
  cell_op KPut (fun k => negb (flt k)) (m_keys s) (m_vals s) i ++ cell_op KIns (fun k => negb (flt k)) (m_keys other) (m_vals other) i.
(** LP_Map::unsafe_merge with a filter, LP_Map.hxx:404-429: insert for both. *)
Definition merge_work2 (flt : N -> bool) (s other : lpmap) (i : nat) : list cmop :=
  cell_op KIns (fun k => negb (flt k)) (m_keys s) (m_vals s) i ++ cell_op KIns (fun k => negb (flt k)) (m_keys other) (m_vals other) i.
End W.
