(** What is said about findNearestSimplex: the simplices the walk can reach, the faces it can cross, and the contract
    of the priority queue. *)
From Coq Require Import Permutation.
From Verif Require Import Outcome ListUtil BlockModel BlockSpec SimplexModel.
Local Open Scope N_scope.

(** The simplex the search starts from: the hint, or the stored one with the least id if the hint is cINF. *)
Definition starts_at (l : list (block simplex)) (hintS start : N) : Prop :=
  (hintS <> s_inf -> start = hintS) /\
  (hintS = s_inf -> (exists s, holds l start s) /\ forall i s, holds l i s -> start <= i).

Section S.
Variable l : list (block simplex).
Variable start : N.
(** Reachable from [start] along neighbor entries. *)
Inductive reach : N -> Prop :=
| reach_start : reach start
| reach_step i s n : reach i -> holds l i s -> In n (x_nbrs s) -> s_finite n = true -> reach n.

(** [j] is the neighbor of a reachable simplex [s] over the face [d], and [dist s d w]. *)
Definition over_face {W} (dist : simplex -> nat -> W -> Prop) (j : N) (w : W) : Prop :=
  exists i s d, reach i /\ holds l i s /\ nth_error (x_nbrs s) d = Some j /\ dist s d w.
End S.

(** std::priority_queue: the entry taken is one of the queue, none that remains is smaller. *)
Definition pq_ok {W} (ltb : W -> W -> bool) (take : list (W * N) -> (W * N) * list (W * N)) : Prop :=
  forall q, q <> [] -> Permutation q (fst (take q) :: snd (take q)) /\
  forall z, In z (snd (take q)) -> ltb (fst z) (fst (fst (take q))) = false.

(** [<] of numbers: irreflexive and transitive. *)
Definition less_ok {W} (ltb : W -> W -> bool) : Prop :=
  (forall x, ltb x x = false) /\ (forall x y z, ltb x y = true -> ltb y z = true -> ltb x z = true).

(** The entry of [log] with the smallest number below [huge], if any; [r] is the id stored in its simplex, [none] if
    there is no such entry. *)
Definition least_entry {W} (ltb : W -> W -> bool) (huge : W) (none : N) (l : list (block simplex)) (log : list (W * N)) (r : N) : Prop :=
  (r = none /\ forall w i, In (w, i) log -> ltb w huge = false) \/
  (exists w i s, In (w, i) log /\ holds l i s /\ r = x_id s /\ ltb w huge = true /\ forall w' j, In (w', j) log -> ltb w' w = false).
