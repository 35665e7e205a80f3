(** The face table: buildWhereUsed, src/lib/DCTriangulator.cpp:182-249 (the same in include/LoadBalancedDCTriangulator.tpp:206-273).

    tbb::parallel_for over the edge simplices: every id is a task of its own, so every way of splitting the range and every schedule is
    included.  The multimap is ideal: an insert is one atomic step, adds an entry and is never lost (C14, C18). *)
From Verif Require Import Outcome ListUtil WordsModel SimplexModel SimplexProofs Pool NbrModel.
Local Open Scope nat_scope.

(** The marks and the entries (hash, id) of wuFaces. *)
Record wsh := mkw { w_marks : N -> N; w_tab : list (N * N) }.

Inductive wtask :=
| WItem (id : N)                                              (* 212-216 *)
| WMark (id : N)                                              (* 217 *)
| WScan (id : N) (ns : list N)                                (* loop 219, tests 220 *)
| WTest (id n : N) (ns : list N)                              (* 222 *)
| WQueue (id n : N) (ns : list N)                             (* 223 *)
| WIns (id n : N) (i : nat) (ns : list N).                    (* loop 225-228 *)

Section W.
Variable over : N -> N.
(** simplicesHandle[id]. *)
Variable get : N -> option simplex.
(** edgeSimplices: the ids it holds. *)
Variable edge : list N.
Variable mark0 : N.

(** queuedMark, doneMark, 201-202: as in updateNeighbors. *)
Definition w_step (sh : wsh) (t : wtask) : tres wsh wtask :=
  match t with
  | WItem id =>
      match get id with
      | None => TBad
      | Some _ => if (w_marks sh id =? ud_mark mark0)%N then TStep sh [] else TStep sh [WMark id]
      end
  | WMark id =>
      match get id with
      | None => TBad
      | Some s => TStep (mkw (put_mark (w_marks sh) id (ud_mark mark0)) (w_tab sh)) [WScan id (x_nbrs s)]
      end
  | WScan id [] => TStep sh []
  | WScan id (n :: ns) => TStep sh [if s_finite n && negb (isin edge n) then WTest id n ns else WScan id ns]
  | WTest id n ns =>
      match get n with
      | None => TBad
      | Some _ => TStep sh [if (w_marks sh n <? uq_mark mark0)%N then WQueue id n ns else WScan id ns]
      end
  | WQueue id n ns => TStep (mkw (put_mark (w_marks sh) n (uq_mark mark0)) (w_tab sh)) [WIns id n 0 ns]
  | WIns id n i ns =>
      match get n with
      | None => TBad
      | Some s =>
          if Nat.ltb i (length (x_verts s)) then
            match face_fp over s i with
            | Val h => TStep (mkw (w_marks sh) ((h, n) :: w_tab sh)) [WIns id n (S i) ns]
            | _ => TBad
            end
          else TStep sh [WScan id ns]
      end
  end.

Definition w_start (m0 : N -> N) (order : list N) : pool wsh wtask := mkp (mkw m0 []) (map WItem order).
End W.
