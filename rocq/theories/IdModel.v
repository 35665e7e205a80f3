(** include/utils/IndexHandler.h: the ids of the cells of a CGAL triangulation. *)
From Verif Require Import Outcome ListUtil WordsModel.
Local Open Scope N_scope.

(** IndexHandler.h:39-41: m_id, m_freeIds (a FIFO queue), m_enabled. *)
Record handler := mkh { h_id : N; h_free : list N; h_on : bool }.

(** IndexHandler.h:10-12, 48-50. *)
Definition h_new (i : N) : handler := mkh i [] true.
(** IndexHandler.h:15-23; m_id++ wraps around at 2^64. *)
Definition h_get (s : handler) : N * handler :=
  match h_free s with
  | [] => (h_id s, mkh (wrap 64 (h_id s + 1)) [] (h_on s))
  | x :: q => (x, mkh (h_id s) q (h_on s))
  end.
(** IndexHandler.h:25-28. *)
Definition h_release (s : handler) (x : N) : handler := if h_on s then mkh (h_id s) (h_free s ++ [x]) (h_on s) else s.
(** IndexHandler.h:34-36. *)
Definition h_disable (s : handler) : handler := mkh (h_id s) (h_free s) false.
(** IndexHandler.h:30-32. *)
Definition h_max (s : handler) : N := h_id s.

(** What a client sees: an id handed out, an id given back, disable(). *)
Inductive iev := Got (x : N) | Back (x : N) | Off.

(** A sequential use: each call is a get, a release or disable. *)
Inductive seq_run (s : handler) : list iev -> handler -> Prop :=
| sr_nil : seq_run s [] s
| sr_get evs s' : seq_run s evs s' -> seq_run s (evs ++ [Got (fst (h_get s'))]) (snd (h_get s'))
| sr_release evs s' x : seq_run s evs s' -> seq_run s (evs ++ [Back x]) (h_release s' x)
| sr_disable evs s' : seq_run s evs s' -> seq_run s (evs ++ [Off]) (h_disable s').

(** Concurrent_IndexHandler, IndexHandler.h:45-78: try_pop of tbb::concurrent_queue is atomic (trusted; it
    may also fail although the queue is not empty), m_id++ is one atomic access.  The threads are
    numbered; [pend] lists those between a failed try_pop and the increment. *)
Inductive conc_run (s : handler) : list iev -> handler -> list nat -> Prop :=
| cr_nil : conc_run s [] s []
| cr_pop evs s' pend t x q : conc_run s evs s' pend -> ~ In t pend -> h_free s' = x :: q ->
    conc_run s (evs ++ [Got x]) (mkh (h_id s') q (h_on s')) pend          (* 54-56 *)
| cr_miss evs s' pend t : conc_run s evs s' pend -> ~ In t pend -> conc_run s evs s' (t :: pend) (* 55 *)
| cr_inc evs s' p1 t p2 : conc_run s evs s' (p1 ++ t :: p2) ->
    conc_run s (evs ++ [Got (h_id s')]) (mkh (wrap 64 (h_id s' + 1)) (h_free s') (h_on s')) (p1 ++ p2) (* 58 *)
| cr_release evs s' pend t x : conc_run s evs s' pend -> ~ In t pend ->
    conc_run s (evs ++ [Back x]) (h_release s' x) pend                    (* 61-64 *)
| cr_disable evs s' pend t : conc_run s evs s' pend -> ~ In t pend -> conc_run s (evs ++ [Off]) (h_disable s') pend.

(** src/lib/CGALTriangulator.cpp:325-330: [startId = simplexID.fetch_add(lastId)], one atomic access per
    triangulation, in the order of the accesses; the blocks are [startId, startId + lastId). *)
Fixpoint reserve (next : N) (sizes : list N) : list (N * N) * N :=
  match sizes with
  | [] => ([], next)
  | n :: t => let r := reserve (wrap 64 (next + n)) t in ((next, wrap 64 (next + n)) :: fst r, snd r)
  end.
