(** What a partition tree means (C39, C46). *)
From Verif Require Import Outcome ListUtil WordsModel LPSetModel LPSetHistory SimplexModel PointModel PointProofs GeoModel GeoSpec PartModel PartSpec TreeModel.
Local Open Scope nat_scope.

Section T.
Context {C : Type}.
(** The leaves of a tree from left to right. *)
Inductive Leaves : tree C -> list (option C * lpset) -> Prop :=
| L_leaf ck s : Leaves (Tleaf ck s) [(ck, s)]
| L_node ck ch ls : Forall2 Leaves ch ls -> Leaves (Tnode ck ch) (concat ls).

(** Every leaf carries a set as produced by insertions. *)
Definition good_sets (l : list (option C * lpset)) : Prop := forall ck s, In (ck, s) l -> exists K, repr 64 s K.
(** [i] is in one of the leaves. *)
Definition in_leaves (l : list (option C * lpset)) (i : N) : Prop := exists ck s, In (ck, s) l /\ returns (fun f => set_contains 64 f s i) true.
(** The number of entries of all leaves. *)
Definition entries (l : list (option C * lpset)) : nat := list_sum (map (fun x => set_size (snd x)) l).
End T.

(** A leaf with the set [s] at depth [d]. *)
Inductive leaf_at {C : Type} : tree C -> nat -> lpset -> Prop :=
| leaf_here ck s : leaf_at (Tleaf ck s) 0 s
| leaf_below ck ch c d s : In c ch -> leaf_at c d s -> leaf_at (Tnode ck ch) (S d) s.

(** The ids a set holds. *)
Definition has (s : lpset) (i : N) : Prop := returns (fun f => set_contains 64 f s i) true.
(** [s] has at most [n] finite ids. *)
Definition at_most (D : nat) (s : lpset) (n : nat) : Prop :=
  forall F, NoDup F -> (forall i, In i F -> (i <> 0)%N /\ ~ is_inf_id (N.of_nat D) i /\ has s i) -> length F <= n.
(** [x] is the only entry of [l] with the property. *)
Definition only {A} (P : A -> Prop) (l : list A) (j : nat) (x : A) : Prop :=
  nth_error l j = Some x /\ P x /\ forall j' x', nth_error l j' = Some x' -> P x' -> j' = j.
