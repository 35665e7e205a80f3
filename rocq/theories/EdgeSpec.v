(** What the edge extraction has to compute. *)
From Verif Require Import Outcome ListUtil WordsModel SimplexModel Pool EdgeModel.
Local Open Scope nat_scope.

Section E.
Variable np : nat.
Variable get : nat -> N -> option simplex.
Variable hull : nat -> list N.
Variable hits : nat -> simplex -> bool.

(** The circumsphere of [s] meets the box of a partition other than [p]. *)
Definition crosses (p : nat) (s : simplex) : Prop := exists i, i < np /\ i <> p /\ hits i s = true.

(** Simplices reached from the convex hull through simplices whose circumsphere crosses into another partition. *)
Inductive reached (p : nat) : N -> Prop :=
| reached_hull id : In id (hull p) -> id <> s_inf -> reached p id
| reached_next id s n : reached p id -> get p id = Some s -> crosses p s -> In n (x_nbrs s) -> n <> s_inf -> reached p n.

(** The edge: a reached simplex that crosses. *)
Definition on_edge (p : nat) (id : N) (s : simplex) : Prop := p < np /\ reached p id /\ get p id = Some s /\ crosses p s.

(** Ids lead to live simplices: those on the hull, and the neighbors of live simplices.  (A deleted simplex has the infinite id.) *)
Definition linked : Prop :=
  (forall p id, p < np -> In id (hull p) -> id <> s_inf -> exists s, get p id = Some s /\ x_id s = id) /\
  (forall p id s n, p < np -> get p id = Some s -> x_id s = id -> In n (x_nbrs s) -> n <> s_inf -> exists s', get p n = Some s' /\ x_id s' = n).
End E.
