(** Edge extraction: getEdge, src/lib/DCTriangulator.cpp:96-180 (the same in include/LoadBalancedDCTriangulator.tpp:118-204),
    called for all partitions in parallel (550-562), the calls sharing the sets edgePoints and edgeSimplices.

    The two sets are ideal concurrent sets: an insert is one atomic step and is never lost.  (For the growing tables used by the
    code see C18: an insert that overlaps a growth can be lost.)  The unsynchronised accesses to dSimplex::mark are single reads
    and writes of a byte. *)
From Verif Require Import Outcome ListUtil WordsModel SimplexModel Pool.
Local Open Scope nat_scope.

(** The marks of the simplices (Geometry.h:668), per partition and id; edgeSimplices; edgePoints. *)
Record esh := mke { e_marks : nat -> N -> N; e_simp : list N; e_pts : list N }.

(** What is left to do of a call or of an item. *)
Inductive etask :=
| EInf (p : nat) (k : N)                                      (* loop over the infinite points, 104-106, then the pass begins, 121-133 *)
| EItem (p : nat) (id : N)                                    (* an item: the tests 136 and 147 *)
| EMark (p : nat) (id : N)                                    (* 150, then the test 152-157 *)
| EInsS (p : nat) (id : N)                                    (* 163 *)
| EInsV (p : nat) (id : N) (vs : list N)                      (* 165-167: the vertices still to insert *)
| EScan (p : nat) (id : N) (ns : list N)                      (* 169-170: the neighbors still to look at *)
| EQueue (p : nat) (id n : N) (ns : list N)                   (* 172 *)
| EAdd (p : nat) (id n : N) (ns : list N).                    (* 173 *)

Definition set_mark (m : nat -> N -> N) (p : nat) (id v : N) : nat -> N -> N :=
  fun p' id' => if Nat.eqb p' p && (id' =? id)%N then v else m p' id'.

Section E.
(** The dimension; the number of partitions. *)
Variable D : N.
Variable np : nat.
(** [get p id]: the simplex that simplicesHandle[id] refers to in partial triangulation [p] (BlockModel.ba_at); None: no such cell. *)
Variable get : nat -> N -> option simplex.
(** convexHull and mark of partial triangulation [p] before the call, Geometry.h:954-955. *)
Variable hull : nat -> list N.
Variable mark0 : nat -> N.
(** [hits i s]: partitioning[i].bounds.intersects(circumsphere of s), 152-155.  Oracle (GeoModel, C32, C36). *)
Variable hits : nat -> simplex -> bool.

(** queuedMark, doneMark, 121-122: two increments of an 8-bit counter. *)
Definition q_mark (p : nat) : N := wrap 8 (mark0 p + 1).
Definition d_mark (p : nat) : N := wrap 8 (mark0 p + 2).

(** intersectsBounds, 153-157. *)
Definition meets (p : nat) (s : simplex) : bool := existsb (fun i => negb (Nat.eqb i p) && hits i s) (seq 0 np).

Definition e_step (sh : esh) (t : etask) : tres esh etask :=
  match t with
  | EInf p k =>
      let sh' := mke (e_marks sh) (e_simp sh) (k :: e_pts sh) in
      let k' := wrap 64 (k + 1) in
      if (k' =? 0)%N then TStep sh' (map (EItem p) (hull p)) else TStep sh' [EInf p k']
  | EItem p id =>
      if negb (s_finite id) then TStep sh []
      else match get p id with
           | None => TBad
           | Some _ => if (e_marks sh p id =? d_mark p)%N then TStep sh [] else TStep sh [EMark p id]
           end
  | EMark p id =>
      match get p id with
      | None => TBad
      | Some s => TStep (mke (set_mark (e_marks sh) p id (d_mark p)) (e_simp sh) (e_pts sh)) (if meets p s then [EInsS p id] else [])
      end
  | EInsS p id =>
      match get p id with
      | None => TBad
      | Some s => TStep (mke (e_marks sh) (x_id s :: e_simp sh) (e_pts sh)) [EInsV p id (x_verts s)]
      end
  | EInsV p id [] => match get p id with None => TBad | Some s => TStep sh [EScan p id (x_nbrs s)] end
  | EInsV p id (v :: vs) => TStep (mke (e_marks sh) (e_simp sh) (v :: e_pts sh)) [EInsV p id vs]
  | EScan p id [] => TStep sh []
  | EScan p id (n :: ns) =>
      if negb (s_finite n) then TStep sh [EScan p id ns]
      else match get p n with
           | None => TBad
           | Some _ => TStep sh [if (e_marks sh p n <? q_mark p)%N then EQueue p id n ns else EScan p id ns]
           end
  | EQueue p id n ns => TStep (mke (set_mark (e_marks sh) p n (q_mark p)) (e_simp sh) (e_pts sh)) [EAdd p id n ns]
  | EAdd p id n ns => TStep sh [EScan p id ns; EItem p n]
  end.

(** All calls of getEdge, 550-562, on empty sets; the simplices have marks [m0]. *)
Definition e_start (m0 : nat -> N -> N) : pool esh etask := mkp (mke m0 [] []) (map (fun p => EInf p (p_inf D)) (seq 0 np)).
End E.
