(** The partition makers: include/load_balancing/BoundsIntersectionChecker.h, GridIntersectionChecker.h and
    AccurateGridIntersectionChecker.h.

    The growing tables are sets with a capacity as in KWayModel.  The assigner [part] is any function; the partitioners
    pass those of AssignModel.  The checkers of the grid use the tree of AABBModel. *)
From Coq Require Import Reals.
From Verif Require Import Outcome ListUtil WordsModel LPSetModel SimplexModel PointModel GeoModel PartModel AABBModel KWayModel Pool.
Open Scope list_scope.
Import ListNotations.

Section M.
Variable D : nat.
Variable pts : points vec.
Notation Dn := (N.of_nat D).

(** The sets of ids, BoundsIntersectionChecker.h:36-40, GridIntersectionChecker.h:99-102. *)
Definition m_sets (n k : nat) : list kset := repeat (mkk (N.of_nat n / N.of_nat k) []) k.
(** The parallel loop over the ids, BoundsIntersectionChecker.h:45-55, GridIntersectionChecker.h:106-115, the ids in any order. *)
Fixpoint m_split (part : N -> res nat) (ids : list N) (ss : list kset) : res (list kset) :=
  match ids with
  | [] => Val ss
  | i :: r => if p_finite Dn i then rbind (part i) (fun j => rbind (k_put ss j i) (m_split part r)) else m_split part r ss
  end.
(** The infinite ids, BoundsIntersectionChecker.h:77-81, GridIntersectionChecker.h:143-147; a set without cells cannot be inserted into. *)
Definition m_inf (s : kset) : res (list N) :=
  if (k_cap s =? 0)%N then Undef else Val (fold_left (fun l i => k_add i l) (inf_ids D) (k_ids s)).
Fixpoint m_infs (ss : list kset) : res (list (list N)) :=
  match ss with
  | [] => Val []
  | s :: r => rbind (m_inf s) (fun l => rmap (cons l) (m_infs r))
  end.
(** The id sets of the result. *)
Definition m_ids (part : N -> res nat) (ids : list N) (k : nat) : res (list (list N)) :=
  rbind (m_split part ids (m_sets (length ids) k)) m_infs.

(** ** The boxes, BoundsIntersectionChecker.h:61-75, GridIntersectionChecker.h:125-141 *)
(** std::vector<bool> packs its entries into words (of 64 bits in libstdc++); setting one reads its word and writes it back.
    A box is [None] until it is assigned: dBox() leaves its corners uninitialised, Geometry.h:77. *)
Record bsh := mkbsh { s_words : list N; s_box : list (option box) }.
(** Where a task is for the first id of its list: before the test of the entry, before the read of the word, or about to write it. *)
Inductive bpc := Look | Grab | Put (v : N).
Record btask := mkb { b_part : nat; b_todo : list N; b_pc : bpc }.
Definition b_word (j : nat) : nat := (j / 64)%nat.
Definition b_bit (j : nat) : N := N.of_nat (j mod 64).
Definition b_step (sh : bsh) (t : btask) : tres bsh btask :=
  let j := b_part t in
  match b_todo t with
  | [] => TStep sh []
  | i :: r =>
      match b_pc t with
      | Look =>
          match p_get Dn pts i, nth_error (s_words sh) (b_word j), nth_error (s_box sh) j with
          | Val c, Some w, Some ob =>
              if N.testbit w (b_bit j) then
                match ob with
                | Some b => TStep (mkbsh (s_words sh) (upd (s_box sh) j (Some (enlarge D b c)))) [mkb j r Look]
                | None => TBad
                end
              else TStep (mkbsh (s_words sh) (upd (s_box sh) j (Some (mkbox c c)))) [mkb j (i :: r) Grab]
          | _, _, _ => TBad
          end
      | Grab =>
          match nth_error (s_words sh) (b_word j) with
          | Some w => TStep sh [mkb j (i :: r) (Put w)]
          | None => TBad
          end
      | Put v =>
          if Nat.ltb (b_word j) (length (s_words sh))
          then TStep (mkbsh (upd (s_words sh) (b_word j) (N.lor v (2 ^ b_bit j))) (s_box sh)) [mkb j r Look]
          else TBad
      end
  end.
(** All partitions; [ls] are their ids in the order of iteration. *)
Definition b_start (ls : list (list N)) : pool bsh btask :=
  mkp (mkbsh (repeat 0%N (length ls / 64 + 1)) (repeat None (length ls)))
      (map (fun jl => mkb (fst jl) (snd jl) Look) (combine (seq 0 (length ls)) ls)).

(** ** The checkers *)
(** BoundsIntersectionChecker::intersects, BoundsIntersectionChecker.h:17-21; without a box the corners are indeterminate. *)
Definition bounds_meets (b : option box) (s : sphere) : res bool :=
  match b with Some b => Val (box_meets D b s) | None => Undef end.

Variable w : R.
(** indices[partition], GridIntersectionChecker.h:128: a set of cells, in any order, given by the cells of the points. *)
Definition same_cell (i j : nat -> Z) : bool := forallb (fun d => Z.eqb (i d) (j d)) (seq 0 D).
Fixpoint m_cells (ids : list N) : res (list (nat -> Z)) :=
  match ids with
  | [] => Val []
  | i :: r => rbind (p_get Dn pts i) (fun c => rbind (index_at D w c) (fun z => rmap (fun l => if existsb (same_cell z) l then l else z :: l) (m_cells r)))
  end.
(** The checker of a partition, GridIntersectionChecker.h:149-156; [ids] its finite ids. *)
Definition grid_checker (fuel : nat) (b : option box) (ids : list N) : res node :=
  rbind (m_cells ids) (fun cells => match b with Some b => checker_new D w fuel b cells | None => Undef end).

(** The map from cells to ids, AccurateGridIntersectionChecker.h:121-130. *)
Definition cellmap := list ((nat -> Z) * list N).
Fixpoint cm_add (z : nat -> Z) (i : N) (m : cellmap) : cellmap :=
  match m with
  | [] => [(z, [i])]
  | (y, l) :: r => if same_cell z y then (y, l ++ [i]) :: r else (y, l) :: cm_add z i r
  end.
Fixpoint cm_build (ids : list N) (m : cellmap) : res cellmap :=
  match ids with
  | [] => Val m
  | i :: r => rbind (p_get Dn pts i) (fun c => rbind (index_at D w c) (fun z => cm_build r (cm_add z i m)))
  end.
(** mCells->find; the assert that it finds something is off. *)
Fixpoint cm_find (z : nat -> Z) (m : cellmap) : res (list N) :=
  match m with
  | [] => Undef
  | (y, l) :: r => if same_cell z y then Val l else cm_find z r
  end.
(** intersects, AccurateGridIntersectionChecker.h:51-66: [ids] is the set that pointIds refers to, all ids the maker was
    given; [hit] is checkCircumsphereContainsPoint for the sphere and simplex.  Lookups in the set return. *)
Fixpoint acc_loop (hit : N -> bool) (ids : list N) (m : cellmap) (cells : list (nat -> Z)) : res bool :=
  match cells with
  | [] => Val false
  | z :: r => rbind (cm_find z m) (fun l => if existsb (fun i => k_mem i ids && hit i) l then Val true else acc_loop hit ids m r)
  end.
Definition acc_meets (t : node) (hit : N -> bool) (ids : list N) (m : cellmap) (s : sphere) : res bool :=
  rbind (node_cells D w t s) (acc_loop hit ids m).
End M.
