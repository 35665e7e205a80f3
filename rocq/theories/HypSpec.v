(** Trees of the partitioners that split in two, as the load balanced triangulator gets them, C78 and C79. *)
From Verif Require Import Outcome ListUtil LPSetModel SimplexModel GeoModel GeoSpec PlaceSpec TreeModel TreeSpec SplitModel BisectModel BisectSpec.
Local Open Scope nat_scope.

(** The same tree with its leaves as sets of ids: PartitionTree, include/load_balancing/PartitionTree.h:16-71.  BisectModel lists the ids of a leaf. *)
Inductive tree_of {C} : ptree C -> tree C -> Prop :=
| to_leaf ck s ids : lists s ids -> tree_of (PLeaf ck ids) (Tleaf ck s)
| to_node ck l r l' r' : tree_of l l' -> tree_of r r' -> tree_of (PNode ck l r) (Tnode ck [l'; r']).
Lemma some_leaf {C} (t : ptree C) : exists q l, leaf_ids t q l.
Proof. induction t as [ck ids|ck l (q & x & k & H) r _]; [exists [], ids, ck; constructor|]. exists (false :: q), x, k. now constructor. Qed.

(** Every node has a finite point below it. *)
Definition peopled {C} (D : N) (t : ptree C) : Prop := forall q ck l r, at_path t q (PNode ck l r) -> exists q' ids i, leaf_ids (PNode ck l r) q' ids /\ In i ids /\ p_finite D i = true.
(** Every plane has some of the points [P] on either side: [o] is its offset, 1e-6 more than that of the checker of the left child. *)
Definition cutting (D : nat) (co : N -> vec) (P : list N) (t : ptree hck) : Prop := forall q ck l r, at_path t q (PNode ck l r) ->
  exists n o, ck_of l = Some (HPlane (Some (n, o - / 1000000)%R)) /\ (exists u, In u P /\ (o < dot D n (co u))%R) /\ exists v, In v P /\ (dot D n (co v) <= o)%R.
(** The samples are finite points of the set, Sampler.h:135-147, 160-175. *)
Definition drawn_from (D : nat) (co : N -> vec) (ids : list N) (sm : samp) : Prop := forall s, In s (sm_pts sm) -> exists i, In i ids /\ p_finite (N.of_nat D) i = true /\ veq D s (co i).
