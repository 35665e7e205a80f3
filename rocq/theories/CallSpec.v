(** What is expected of the base cases of a run. *)
From Verif Require Import Outcome ListUtil SimplexModel SplitModel.
Local Open Scope nat_scope.

Notation bcall := (list (option nat) * list N)%type (only parsing).
(** A base case that is not within an edge triangulation. *)
Definition plain (c : bcall) : bool := forallb (fun o : option nat => match o with Some _ => true | None => false end) (fst c).
(** The base cases [cs] of a run on [P] with [k] partitions at most per level. *)
Record base_cases (D : N) (depth : nat) (par_edge : bool) (k : nat) (P : list N) (cs : list bcall) : Prop := mkbc {
  bc_once : NoDup (map fst cs);
  bc_small : forall pv S, In (pv, S) cs -> (N.of_nat (length S) <= 500)%N \/ length pv = depth \/ par_edge = false /\ exists q, pv = q ++ [None];
  bc_deep : forall pv S, In (pv, S) cs -> length pv <= depth;
  bc_set : forall pv S, In (pv, S) cs -> NoDup S;
  bc_sub : forall pv S, In (pv, S) cs -> forall v, In v S -> In v P;
  bc_inf : forall pv S v, In (pv, S) cs -> (p_inf D <= v < 2 ^ 64)%N -> In v S;
  bc_all : forall v, In v P -> p_finite D v = true -> exists c, In c cs /\ plain c = true /\ In v (snd c) /\ forall c', In c' cs -> plain c' = true -> In v (snd c') -> c' = c;
  bc_count : length (filter plain cs) <= k ^ depth }.
(** How many partitions a splitter makes. *)
Definition ways (D : nat) (sp : splitter) : nat := match sp with DWay => 2 ^ D | _ => 2 end.
