(** include/datastructures/AABBTree.h and the part of include/load_balancing/GridIntersectionChecker.h that builds and
    queries the tree. *)
From Verif Require Import Outcome ListUtil GeoModel.
Local Open Scope R_scope.

(** TreeNode, AABBTree.h:10-34 and 203-208: nChildren is -1 for a leaf, else the length of [n_ch].  Smart pointers are
    modelled by values; cell_size is the same in all nodes and a parameter below. *)
Inductive node := Node (n_box : box) (n_leaf : bool) (n_ch : list node).
Definition n_box (n : node) : box := let (b, _, _) := n in b.
Definition n_leaf (n : node) : bool := let (_, l, _) := n in l.
Definition n_ch (n : node) : list node := let (_, _, c) := n in c.

Section Tree.
Variables (D : nat) (w : R).

(** operator==, Geometry.h:185-187. *)
Definition box_eqb (a b : box) : bool :=
  forallb (fun d => reqb (b_lo a d) (b_lo b d)) (seq 0 D) && forallb (fun d => reqb (b_hi a d) (b_hi b d)) (seq 0 D).
(** contains(dBox), AABBTree.h:81-83. *)
Definition node_has (n : node) (b : box) : bool := box_has_box D (n_box n) b || box_eqb (n_box n) b.
(** cChildren, AABBTree.h:17. *)
Definition c_children : nat := Nat.pow 2 D.

(** The boxes of the new children, AABBTree.h:181-192. *)
Definition mid (b : box) (d : nat) : R := IZR (Int_part ((b_lo b d + (b_hi b d - b_lo b d) / 2) / w)) * w.
Definition quadrant (b : box) (i : nat) : box :=
  mkbox (fun d => if Nat.testbit i d then mid b d else b_lo b d) (fun d => if Nat.testbit i d then b_hi b d else mid b d).
Definition quadrants (b : box) : list node := map (fun i => Node (quadrant b i) false []) (seq 0 c_children).

(** The index of the first child containing the box, AABBTree.h:110-111. *)
Fixpoint first_child (cs : list node) (b : box) : option nat :=
  match cs with
  | [] => None
  | c :: t => if node_has c b then Some O else option_map S (first_child t b)
  end.

(** insert, AABBTree.h:93-134, and split, 174-200: the fuel counts nested calls.
    Writing children[-1] and using an empty pointer are undefined.  The result: the new node and the returned flag. *)
Fixpoint node_insert (fuel : nat) (n b : node) : res (node * bool) :=
  match fuel with
  | O => NoFuel
  | S f =>
      let split (m : node) : res node :=
        if Nat.eqb (List.length (n_ch m)) c_children
        then fold_left (fun r o => rbind r (fun m => rmap fst (node_insert f m o))) (n_ch m)
                       (Val (Node (n_box m) (n_leaf m) (quadrants (n_box m))))
        else Undef in
      if negb (box_has_box D (n_box n) (n_box b)) then Val (n, false)
      else if box_eqb (n_box n) (n_box b)
      then Val (Node (n_box n) (n_leaf n || (Nat.eqb (List.length (n_ch n)) 0 && n_leaf b)) (n_ch n), true)
      else match first_child (n_ch n) (n_box b) with
           | Some i =>
               match nth_error (n_ch n) i with
               | Some c =>
                   rbind (node_insert f c b) (fun cr =>
                     let (c', ok) := cr : node * bool in
                     if ok then Val (Node (n_box n) (n_leaf n) (upd (n_ch n) i c'), true)
                     else rbind (split c') (fun c2 => rmap (fun cr : node * bool =>
                            (Node (n_box n) (n_leaf n) (upd (n_ch n) i (fst cr)), snd cr)) (node_insert f c2 b)))
               | None => Undef
               end
           | None =>
               if n_leaf n then Undef
               else if Nat.ltb (List.length (n_ch n)) c_children then Val (Node (n_box n) (n_leaf n) (n_ch n ++ [b])%list, true)
               else rbind (split n) (fun n2 => node_insert f n2 b)
           end
  end.

(** intersects, AABBTree.h:136-153. *)
Fixpoint node_meets (n : node) (s : sphere) : bool :=
  match n with
  | Node b leaf ch => if box_meets D b s then if leaf then true else existsb (fun c => node_meets c s) ch else false
  end.
(** intersectingCells, AABBTree.h:157-170. *)
Fixpoint node_cells (n : node) (s : sphere) : res (list (nat -> Z)) :=
  match n with
  | Node b leaf ch =>
      if box_meets D b s
      then if leaf then rmap (fun i => [i]) (index_at D w (fun d => 1 / 2 * (b_lo b d + b_hi b d)))
           else fold_left (fun r c => rbind r (fun l => rmap (fun l2 => (l ++ l2)%list) (node_cells c s))) ch (Val [])
      else Val []
  end.

(** round, AABBTree.h:247-256 (ceil(x) is -floor(-x)). *)
Definition round_box (b : box) : box :=
  mkbox (fun d => IZR (Int_part (b_lo b d / w)) * w) (fun d => IZR (- Int_part (- (b_hi b d / w))) * w).
(** Constructor, AABBTree.h:216, and insert, 230-232. *)
Definition tree_new (b : box) : node := Node (round_box b) false [].
Definition tree_insert (fuel : nat) (t : node) (b : box) : res (node * bool) := node_insert fuel t (Node b true []).

(** GridIntersectionChecker's constructor, GridIntersectionChecker.h:15-37: insert the boxes of the cells; what insert
    returns is ignored. *)
Definition checker_new (fuel : nat) (b : box) (cells : list (nat -> Z)) : res node :=
  fold_left (fun r i => rbind r (fun t => rbind (bounds_of D w i) (fun c => rmap fst (tree_insert fuel t c))))
            cells (Val (tree_new b)).
End Tree.
