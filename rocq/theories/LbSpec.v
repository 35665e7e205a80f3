(** What the load balanced triangulator relies on: trees whose nodes divide the points along hyperplanes, and checkers that find their points. *)
From Verif Require Import Outcome ListUtil LPSetModel SimplexModel GeoModel GeoSpec DelSpec PlaceSpec TreeModel TreeSpec SplitModel.
Local Open Scope nat_scope.

Section Tree.
Variable D : N.
Variable co : N -> vec.
Variable r : vec.
Variable C : Type.
Variable meets : C -> sphere -> simplex -> bool.
Notation Dn := (N.to_nat D).

(** The checker finds every circumsphere of a simplex that has the point [p] in it or on it. *)
Definition covers (k : C) (p : vec) : Prop := forall s sp, full Dn co (x_verts s) -> on_ball Dn co (x_verts s) (sp_c sp) (sp_r sp ^ 2) -> (0 <= sp_r sp)%R ->
  (dist2 Dn p (sp_c sp) <= sp_r sp ^ 2)%R -> meets k sp s = true.
(** One child has finite points, and the checker of another one covers a point beyond them (within the corners); or all of them are in a hyperplane and it covers
    one of them; or it covers one on the border of their hull. *)
Definition past (ch : list (tree C)) (pt : nat -> list N) : Prop := exists i j c k u p, i < length ch /\ nth_error ch j = Some c /\ t_ck c = Some k /\ i <> j /\ In u (pt i) /\ p_finite D u = true /\
  covers k p /\
  ((forall d, d < Dn -> (Rabs (p d) <= r d)%R) /\ parted Dn co (filter (p_finite D) (pt i)) p \/
   p = co u /\ (exists g, affine Dn g /\ (exists x, g x <> 0%R) /\ forall v, In v (pt i) -> p_finite D v = true -> g (co v) = 0%R) \/
   p = co u /\ exists g y, affine Dn g /\ g (co u) = 0%R /\ (forall v, In v (pt i) -> p_finite D v = true -> (0 <= g (co v))%R) /\ (forall d, d < Dn -> (Rabs (y d) <= r d)%R) /\ (g y < 0)%R).

(** A tree for the points [S]: every tree below has a checker; a node has one leaf, or several children with a partitioning of the points, each covered by the
    checker of its child, and either two of them have finite points or a checker reaches beyond the one that has. *)
Inductive tree_ok : tree C -> list N -> Prop :=
| tk_leaf k ids S : lists ids S -> tree_ok (Tleaf (Some k) ids) S
| tk_one k k' ids S : lists ids S -> tree_ok (Tnode (Some k) [Tleaf (Some k') ids]) S
| tk_node k ch pt S : 2 <= length ch -> NoDup S -> (forall i c, nth_error ch i = Some c -> tree_ok c (pt i)) ->
    partitioned D co (length ch) pt S ->
    (forall i c k' v, nth_error ch i = Some c -> t_ck c = Some k' -> In v (pt i) -> p_finite D v = true -> covers k' (co v)) ->
    two_filled D (length ch) pt \/ past ch pt ->
    tree_ok (Tnode (Some k) ch) S.
End Tree.

(** The number of levels with several children. *)
Fixpoint height {C} (t : tree C) : nat :=
  match t with
  | Tleaf _ _ | Tnode _ [] | Tnode _ [_] => 0
  | Tnode _ ch => Datatypes.S ((fix go (ch : list (tree C)) := match ch with [] => 0 | c :: q => Nat.max (height c) (go q) end) ch)
  end.
(** The greatest number of children of a node. *)
Fixpoint width {C} (t : tree C) : nat :=
  match t with
  | Tleaf _ _ => 0
  | Tnode _ ch => Nat.max (length ch) ((fix go (ch : list (tree C)) := match ch with [] => 0 | c :: q => Nat.max (width c) (go q) end) ch)
  end.

(** The trees below a tree. *)
Inductive below {C} : tree C -> tree C -> Prop :=
| below_here t : below t t
| below_child u k ch c : In c ch -> below u c -> below u (Tnode k ch).
(** Every node with several children has a finite point below it. *)
Definition filled {C} (D : N) (t : tree C) : Prop := forall k ch, below (Tnode k ch) t -> 2 <= length ch ->
  exists d s i, leaf_at (Tnode k ch) d s /\ i <> 0%N /\ has s i /\ p_finite D i = true.
