(** What the text form of an experiment run and the generated experiments should be. *)
From Coq Require Import Ascii String.
From Verif Require Import Outcome.
Local Open Scope N_scope.

(** [w] stands in [s] at place [i]. *)
Definition stands (w s : list ascii) (i : nat) : Prop := exists a b, s = a ++ w ++ b /\ length a = i.
(** [sep] written behind [s] is found there and not before. *)
Definition ends_with (sep s : list ascii) : Prop := forall i, stands sep (s ++ sep) i -> i = length s.
(** The traits that identify the program and the moment, not the experiment. *)
Definition volatile (k : list ascii) : Prop :=
  k = list_ascii_of_string "host" \/ k = list_ascii_of_string "git-rev" \/ k = list_ascii_of_string "start-time" \/
  k = list_ascii_of_string "end-time" \/ k = list_ascii_of_string "run-number".
(** The value of the trait [k]. *)
Definition trait (m : list (list ascii * list ascii)) (k v : list ascii) : Prop := In (k, v) m.
(** A std::map has each key once. *)
Definition keyed (m : list (list ascii * list ascii)) : Prop := NoDup (map fst m).
(** The same experiment: the same traits but for the volatile ones. *)
Definition same_exp (m o : list (list ascii * list ascii)) : Prop := forall k v, ~ volatile k -> (trait m k v <-> trait o k v).
(** Traits that can be written with these separators. *)
Definition writable (ts is : list ascii) (m : list (list ascii * list ascii)) : Prop :=
  forall k v, In (k, v) m -> ends_with is k /\ ends_with ts (k ++ is ++ v).

(** An experiment: distribution, points, algorithm, threads, and for some of the algorithms occupancy, and splitter, parallel base and parallel edge. *)
Inductive exp :=
| Seq (dist : ascii) (n : N)
| Grid (dist : ascii) (n threads occ : N)
| Dac (dist : ascii) (n : N) (alg : ascii) (threads occ : N) (splitter : ascii) (base edge : bool).
(** The traits of an experiment, besides host and git-rev.  [sh] writes numbers. *)
Definition exp_traits (sh : N -> list ascii) (e : exp) : list (list ascii * list ascii) :=
  let b (x : bool) := sh (if x then 1 else 0) in
  let t := list_ascii_of_string in
  match e with
  | Seq d n => [(t "dist", [d]); (t "nP", sh n); (t "alg", ["c"%char]); (t "threads", sh 1)]
  | Grid d n th o => [(t "dist", [d]); (t "nP", sh n); (t "alg", ["m"%char]); (t "threads", sh th); (t "occupancy", sh o)]
  | Dac d n a th o s pb pe => [(t "dist", [d]); (t "nP", sh n); (t "alg", [a]); (t "threads", sh th); (t "occupancy", sh o); (t "splitter", [s]); (t "parallel-base", b pb); (t "parallel-edge", b pe)]
  end%string.
(** The experiments that are asked for.  [ns]: numbers of points, [ths]: numbers of threads, [edges]: the values of parallel-edge. *)
Inductive asked (splitters algs dists : list ascii) (occs : list N) (pbase : bool) (edges : bool -> Prop) (ns ths : N -> Prop) : exp -> Prop :=
| ask_seq d n : In d dists -> ns n -> In "c"%char algs -> asked splitters algs dists occs pbase edges ns ths (Seq d n)
| ask_grid d n th o : In d dists -> ns n -> In "m"%char algs -> ths th -> In o occs -> asked splitters algs dists occs pbase edges ns ths (Grid d n th o)
| ask_base1 d n a th s e : In d dists -> ns n -> In a algs -> a <> "c"%char -> a <> "m"%char -> ths th -> occs <> [] -> In s splitters -> edges e ->
    asked splitters algs dists occs pbase edges ns ths (Dac d n a th 1 s false e)
| ask_par d n a th o s e : In d dists -> ns n -> In a algs -> a <> "c"%char -> a <> "m"%char -> ths th -> In o occs -> In s splitters -> pbase = true -> edges e ->
    asked splitters algs dists occs pbase edges ns ths (Dac d n a th o s true e).
