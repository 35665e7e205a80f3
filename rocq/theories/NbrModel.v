(** Neighbor update: updateNeighbors, src/lib/DCTriangulator.cpp:251-353 (the same in
    include/LoadBalancedDCTriangulator.tpp:275-377), run by tbb::parallel_do.

    The cells' ids, vertices and fingerprints do not change during the update; their neighbors and marks do.  Every access to a
    neighbor slot or a mark is one step; they are plain (unsynchronised) accesses. *)
From Verif Require Import Outcome ListUtil WordsModel SimplexModel Pool.
Local Open Scope nat_scope.

(** neighbors[d] (Geometry.h:666) and mark (668) of the cell of an id. *)
Record ush := mku { u_nbr : N -> nat -> N; u_marks : N -> N }.

(** What is left to do of an item. *)
Inductive utask :=
| UItem (id : N)                                              (* 285-289 *)
| UMark (id : N)                                              (* 290 *)
| USlot (id : N) (d : nat)                                    (* loop head 298 and the first read of the slot, 305 *)
| UHas (id : N) (d : nat)                                     (* contains(neighbors[d]), the second read, 308 *)
| UAdj (id : N) (d : nat)                                     (* isNeighbor(handle[neighbors[d]]), the third read, 308 *)
| UReset (id : N) (d : nat)                                   (* 312, then the lookup 317-318 *)
| UCand (id : N) (d : nat) (cs : list N)                      (* loop over the candidates, 320-327 *)
| UWrite (id : N) (d : nat) (c : N) (cs : list N)             (* 331 *)
| UTest (id : N) (d : nat) (c : N) (cs : list N)              (* 332 *)
| UQueue (id : N) (d : nat) (c : N) (cs : list N)             (* 333 *)
| UAdd (id : N) (d : nat) (c : N) (cs : list N).              (* 334 *)

Definition set_nbr (f : N -> nat -> N) (id : N) (d : nat) (v : N) : N -> nat -> N :=
  fun id' d' => if (id' =? id)%N && Nat.eqb d' d then v else f id' d'.
Definition put_mark (m : N -> N) (id v : N) : N -> N := fun id' => if (id' =? id)%N then v else m id'.

Section U.
(** The value of a shift by the word size (SimplexModel). *)
Variable over : N -> N.
(** simplicesHandle[id] (BlockModel.ba_at); None: no such cell (std::out_of_range, or undefined). *)
Variable get : N -> option simplex.
(** wuFacesHandle.get(hash): the ids stored under a hash, in the order of the iteration.  Oracle: an ideal multimap (C14, C18). *)
Variable tbl : N -> list N.
(** simplices.mark before the call. *)
Variable mark0 : N.

(** queuedMark, doneMark, 265-266. *)
Definition uq_mark : N := wrap 8 (mark0 + 1).
Definition ud_mark : N := wrap 8 (mark0 + 2).

(** dSimplices::contains(id), Geometry.h:772-781, 950-952. *)
Definition has (id : N) : bool := match get id with Some s => s_finite (x_id s) | None => false end.
(** isNeighbor with enough fuel for its loop. *)
Definition adj (s t : simplex) : res bool := is_neighbor (S (length (x_verts s) + length (x_verts t))) s t.

(** The test of a candidate, 322-327. *)
Definition accepts (s : simplex) (d : nat) (c : N) : res bool :=
  if (c =? x_id s)%N then Val false
  else if negb (s_finite c) then Val false
  else if negb (has c) then Val false
  else match get c with
       | None => Undef
       | Some t =>
           rbind (adj s t) (fun b => if negb b then Val false
             else match nth_error (x_verts s) d with None => Undef | Some v => Val (negb (s_contains t v)) end)
       end.

Definition u_step (sh : ush) (t : utask) : tres ush utask :=
  match t with
  | UItem id =>
      match get id with
      | None => TBad
      | Some _ => if (u_marks sh id =? ud_mark)%N then TStep sh [] else TStep sh [UMark id]
      end
  | UMark id => TStep (mku (u_nbr sh) (put_mark (u_marks sh) id ud_mark)) [USlot id 0]
  | USlot id d =>
      match get id with
      | None => TBad
      | Some s =>
          if Nat.ltb d (length (x_verts s)) then TStep sh [if s_finite (u_nbr sh id d) then UHas id d else UReset id d]
          else TStep sh []
      end
  | UHas id d => TStep sh [if has (u_nbr sh id d) then UAdj id d else UReset id d]
  | UAdj id d =>
      match get id, get (u_nbr sh id d) with
      | Some s, Some t => match adj s t with
                          | Val b => TStep sh [if b then USlot id (S d) else UReset id d]
                          | _ => TBad
                          end
      | _, _ => TBad
      end
  | UReset id d =>
      match get id with
      | None => TBad
      | Some s => match face_fp over s d with
                  | Val h => TStep (mku (set_nbr (u_nbr sh) id d s_inf) (u_marks sh)) [UCand id d (tbl h)]
                  | _ => TBad
                  end
      end
  | UCand id d [] => TStep sh [USlot id (S d)]
  | UCand id d (c :: cs) =>
      match get id with
      | None => TBad
      | Some s => match accepts s d c with
                  | Val b => TStep sh [if b then UWrite id d c cs else UCand id d cs]
                  | _ => TBad
                  end
      end
  | UWrite id d c cs => TStep (mku (set_nbr (u_nbr sh) id d c) (u_marks sh)) [UTest id d c cs]
  | UTest id d c cs => TStep sh [if (u_marks sh c <? uq_mark)%N then UQueue id d c cs else UCand id d cs]
  | UQueue id d c cs => TStep (mku (u_nbr sh) (put_mark (u_marks sh) c uq_mark)) [UAdd id d c cs]
  | UAdd id d c cs => TStep sh [UCand id d cs; UItem c]
  end.

(** tbb::parallel_do(toCheck.range(), ...), 278. *)
Definition u_start (nbr0 : N -> nat -> N) (m0 : N -> N) (toCheck : list N) : pool ush utask := mkp (mku nbr0 m0) (map UItem toCheck).
End U.
