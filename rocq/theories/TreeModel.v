(** Partition trees and the recursions over them: include/load_balancing/PartitionTree.h, SimplePartitioner.h,
    FlatPartitioner.h, OldPartitionerPartitioner.h, the recursion of src/lib/DCTriangulator.cpp and of
    include/LoadBalancedDCTriangulator.tpp, and getRecursionDepth of include/Partitioner.h. *)
From Verif Require Import Outcome ListUtil WordsModel LPSetModel SimplexModel PointModel GeoModel PartModel.

Section T.
(** Intersection checkers; the trees only use their bounds, IntersectionChecker.h:15. *)
Variable C : Type.
Variable bounds : C -> box.

(** PartitionTree, PartitionTree.h:13-19: the checker may be the null pointer ([None]); the attachment is a vector of
    trees or a set of ids. *)
Inductive tree :=
| Tleaf (ck : option C) (ids : lpset)
| Tnode (ck : option C) (ch : list tree).
Definition t_ck (t : tree) : option C := match t with Tleaf ck _ => ck | Tnode ck _ => ck end.
(** isLeaf, 69-71. *)
Definition is_leaf (t : tree) : bool := match t with Tleaf _ _ => true | Tnode _ _ => false end.
(** std::get<Point_Ids>: throws for the other alternative; no caller catches it, so this is [Undef]. *)
Definition t_ids (t : tree) : res lpset := match t with Tleaf _ s => Val s | Tnode _ _ => Undef end.

(** collect, 39-51.  [m]: the hash multiplier of the new, default constructed sets; simplification: the same one for
    all of them. *)
Fixpoint collect (fuel : nat) (m : N) (t : tree) : res tree :=
  match t with
  | Tleaf _ _ => Val t
  | Tnode ck ch =>
      rmap (Tleaf ck)
        ((fix go (ch : list tree) (acc : lpset) : res lpset :=
            match ch with
            | [] => Val acc
            | c :: r => rbind (collect fuel m c) (fun c' =>
                        rbind (t_ids c') (fun s =>
                        rbind (set_iterate fuel s) (fun l =>
                        rbind (add_all fuel l acc) (go r))))
            end) ch (set_new 1 m))
  end.

(** flattenContainer, 74-100. *)
Fixpoint flat (t : tree) : list tree :=
  match t with
  | Tleaf _ _ => [t]
  | Tnode _ ch => (fix go (ch : list tree) := match ch with [] => [] | c :: r => flat c ++ go r end) ch
  end.
(** flatten, 53-67. *)
Definition flatten (t : tree) : tree := match t with Tleaf _ _ => t | Tnode ck _ => Tnode ck (flat t) end.

(** toOldPartitioning, 103-119, from part number [id]: dereferences the checker of every child. *)
Fixpoint to_old (fuel : nat) (m : N) (id : nat) (ch : list tree) : res (list part * list C) :=
  match ch with
  | [] => Val ([], [])
  | c :: r => rbind (collect fuel m c) (fun c' =>
              rbind (t_ids c') (fun s =>
              match t_ck c' with
              | None => Undef
              | Some k => rmap (fun x => (mkpart id s (bounds k) :: fst x, k :: snd x)) (to_old fuel m (S id) r)
              end))
  end.
Definition to_old_partitioning (fuel : nat) (m : N) (ch : list tree) := to_old fuel m 0 ch.

(** ** Building trees *)
Variable D : nat.
Variable pts : points vec.
(** The checker made from bounds (BoundsIntersectionChecker). *)
Variable mk : box -> C.
Notation Dn := (N.of_nat D).

(** SimplePartitioner::partition, SimplePartitioner.h:16-57: a point that is not in the left box goes right.  Line 28 reads
    the point before testing whether the id is finite. *)
Fixpoint simple_split (fuel : nat) (left : box) (ids : list N) (l r : lpset) : res (lpset * lpset) :=
  match ids with
  | [] => Val (l, r)
  | i :: t => rbind (p_get Dn pts i) (fun c =>
              if p_finite Dn i then
                if box_has D left c then rbind (set_insert 64 true fuel l i) (fun x => simple_split fuel left t (fst x) r)
                else rbind (set_insert 64 true fuel r i) (fun x => simple_split fuel left t l (fst x))
              else simple_split fuel left t l r)
  end.
Definition simple_partition (fuel : nat) (m0 m1 : N) (b : box) (ids : lpset) : res tree :=
  let x := ((b_lo b O + b_hi b O) / 2)%R in
  let (lb, rb) := split_box b O x in
  rbind (set_iterate fuel ids) (fun l =>
  rbind (simple_split fuel lb l (set_new 1 m0) (set_new 1 m1)) (fun lr =>
  rbind (add_all fuel (inf_ids D) (fst lr)) (fun sl =>
  rmap (fun sr => Tnode (Some (mk b)) [Tleaf (Some (mk lb)) sl; Tleaf (Some (mk rb)) sr]) (add_all fuel (inf_ids D) (snd lr))))).

(** OldPartitionerPartitioner::buildTree, OldPartitionerPartitioner.h:30-66.  [split fuel prov ids] is the call of the
    wrapped partitioner; the provenance is the list of the part numbers appended so far. *)
Variable split : nat -> list nat -> lpset -> res (list part).
Fixpoint build_tree (fuel cutoff rem : nat) (prov : list nat) (b : box) (ids : lpset) : res tree :=
  match rem with
  | O => Val (Tnode (Some (mk b)) [Tleaf (Some (mk b)) ids])
  | S r =>
      rbind (split fuel prov ids) (fun ps =>
      rmap (Tnode (Some (mk b)))
        ((fix go (i : nat) (ps : list part) : res (list tree) :=
            match ps with
            | [] => Val []
            | p :: q => rbind (if Nat.ltb cutoff (set_size ids) then build_tree fuel cutoff r (prov ++ [i]) (pa_box p) (pa_pts p)
                               else Val (Tleaf (Some (mk (pa_box p))) (pa_pts p)))
                              (fun t => rmap (cons t) (go (S i) q))
            end) 0%nat ps))
  end.

(** ** The recursions of the triangulators *)
(** One call of the base triangulator: the provenance ([None] stands for the 'e' of an edge triangulation) and the ids. *)
Definition call := (list (option nat) * lpset)%type.
(** DCTriangulator::_triangulate, DCTriangulator.cpp:498-608, its calls of _triangulateBase in program order; the
    provenance of the outermost call, "0", is the empty list here.  [edge fuel prov ids] gives the ids that getEdge
    collects there (C41).  Simplification: every part number is one character, so the length of the provenance is the depth
    plus one; the splitters return at most 8 parts for D <= 3. *)
Variable dsplit : nat -> list (option nat) -> lpset -> res (list part).
Variable edge : nat -> list (option nat) -> lpset -> res lpset.
Fixpoint dc_calls (fuel : nat) (depth : nat) (par_edge : bool) (prov : list (option nat)) (ids : lpset) : res (list call) :=
  match fuel with
  | O => NoFuel
  | S f =>
      if Nat.ltb (length prov) depth && (500 <? N.of_nat (set_size ids))%N then
        rbind (dsplit f prov ids) (fun ps =>
        rbind ((fix go (i : nat) (ps : list part) : res (list call) :=
                  match ps with
                  | [] => Val []
                  | p :: r => rbind (dc_calls f depth par_edge (prov ++ [Some i]) (pa_pts p)) (fun x => rmap (app x) (go (S i) r))
                  end) 0%nat ps) (fun parts =>
        rbind (edge f prov ids) (fun e =>
        rmap (app parts) (if par_edge then dc_calls f depth par_edge (prov ++ [None]) e else Val [(prov ++ [None], e)]))))
      else Val [(prov, ids)]
  end.

(** The copy constructor, PartitionTree.h:23-26, which copies the vectors below it too: no checker in the tree may be null. *)
Fixpoint copyable (t : tree) : bool :=
  match t with
  | Tleaf ck _ => match ck with None => false | Some _ => true end
  | Tnode ck ch => match ck with None => false | Some _ => (fix go (ch : list tree) : bool := match ch with [] => true | c :: r => copyable c && go r end) ch end
  end.
(** LoadBalancing::DCTriangulator::recursiveTriangulate, LoadBalancedDCTriangulator.tpp:572-695.  The children are passed by value (616), so they are copied
    first. *)
Variable tedge : list (option nat) -> list tree -> lpset.
Fixpoint lb_calls (prov : list (option nat)) (t : tree) : res (list call) :=
  match t_ck t with
  | None => Undef
  | Some _ =>
      match t with
      | Tleaf _ s => Val [(prov, s)]
      | Tnode _ [] => Undef
      | Tnode _ [c] => rmap (fun s => [(prov, s)]) (t_ids c)
      | Tnode _ ch =>
          rmap (fun x => x ++ [(prov ++ [None], tedge prov ch)])
               ((fix go (i : nat) (ch : list tree) : res (list call) :=
                   match ch with
                   | [] => Val []
                   | c :: r => rbind (if copyable c then lb_calls (prov ++ [Some i]) c else Undef) (fun x => rmap (app x) (go (S i) r))
                   end) 0%nat ch)
      end
  end.
End T.
Arguments Tleaf {C}. Arguments Tnode {C}. Arguments t_ck {C}. Arguments is_leaf {C}. Arguments t_ids {C}. Arguments collect {C}. Arguments flat {C}. Arguments flatten {C}. Arguments copyable {C}.
