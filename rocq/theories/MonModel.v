(** Counting during a run: ComprehensiveMonitor::registerBaseTriangulation (include/load_balancing/monitors/ComprehensiveMonitor.h:27-36),
    ExperimentRun::incCounter and avgMeasurement (include/utils/Timings.h:92-94, src/utils/Timings.cpp:64-75). *)
From Verif Require Import Outcome WordsModel.
Local Open Scope N_scope.

(** Any thread makes its next step; the memory is sequentially consistent. *)
Inductive interleave {T S : Type} (one : T -> S -> T -> S -> Prop) : list T * S -> list T * S -> Prop :=
| i_step l1 t l2 s t' s' : one t s t' s' -> interleave one (l1 ++ t :: l2, s) (l1 ++ t' :: l2, s').
Inductive runs {X : Type} (step : X -> X -> Prop) : nat -> X -> X -> Prop :=
| r_here x : runs step 0 x x
| r_more n x y z : step x y -> runs step n y z -> runs step (S n) x z.

Section Monitor.
  (** The provenance strings, ComprehensiveMonitor.h:14. *)
  Variable P : Type.
  (** The accumulator, ComprehensiveMonitor.h:11-18: the mutex, the number of points and the list of the base triangulations. *)
  Record acc := { a_lock : bool; a_num : N; a_list : list (N * P) }.
  (** Where a thread is within registerBaseTriangulation, ComprehensiveMonitor.h:27-32: the lock is held from the second place on; [Read r]: the number was read. *)
  Inductive place := Outside | Inside | Read (r : N) | Counted | Listed.
  Notation thread := (place * list (N * P))%type (only parsing).
  (** The calls of a thread, and the steps of a call: lock (line 28), read and write the number (line 30), emplace_back (line 31), unlock (line 32).
      registerSampleTriangulation (lines 34-36) is the same call. *)
  Inductive reg : thread -> acc -> thread -> acc -> Prop :=
  | g_lock c cs num l : reg (Outside, c :: cs) (Build_acc false num l) (Inside, c :: cs) (Build_acc true num l)
  | g_read c cs k num l : reg (Inside, c :: cs) (Build_acc k num l) (Read num, c :: cs) (Build_acc k num l)
  | g_count c cs r k num l : reg (Read r, c :: cs) (Build_acc k num l) (Counted, c :: cs) (Build_acc k (wrap 64 (r + fst c)) l)
  | g_list c cs k num l : reg (Counted, c :: cs) (Build_acc k num l) (Listed, c :: cs) (Build_acc k num (l ++ [c]))
  | g_unlock c cs k num l : reg (Listed, c :: cs) (Build_acc k num l) (Outside, cs) (Build_acc false num l).
  (** Before the run, ComprehensiveMonitor.h:12: threads with the calls they are going to make. *)
  Definition mon_start (calls : list (list (N * P))) : list (place * list (N * P)) * acc := (map (pair Outside) calls, Build_acc false 0 []).
End Monitor.
Arguments Build_acc {P}. Arguments a_lock {P}. Arguments a_num {P}. Arguments a_list {P}. Arguments reg {P}. Arguments mon_start {P}.

(** incCounter, Timings.h:92-94: += on an element of a concurrent map of plain numbers reads and writes it in two steps, without a lock.  A thread has
    the value that it read in the call it is in, and the amounts of its calls.  Simplified: one name, whose element exists; a race of plain accesses is
    formally undefined behaviour, here it has the effect of its steps in some order. *)
Inductive inc : option N * list N -> N -> option N * list N -> N -> Prop :=
| n_read v vs s : inc (None, v :: vs) s (Some s, v :: vs) s
| n_write r v vs s : inc (Some r, v :: vs) s (None, vs) (wrap 64 (r + v)).
(** Before the run: a new element of the map is zero. *)
Definition cnt_start (calls : list (list N)) : list (option N * list N) * N := (map (pair None) calls, 0).

(** avgMeasurement, Timings.cpp:64-75. *)
Definition avg (ms : list N) : N :=
  let a := fold_left (fun a m => wrap 64 (a + m)) ms 0 in
  if 0 <? N.of_nat (length ms) then a / N.of_nat (length ms) else a.
