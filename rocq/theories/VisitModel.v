(** A parallel loop over a filtered range whose body changes the cells it visits, so that visited cells may drop out of the filter while
    other parts of the range are still split and visited: the loop of mergeTriangulation over the edge triangulation,
    src/lib/DCTriangulator.cpp:419-461 (include/LoadBalancedDCTriangulator.tpp:443-485), on BlockedArray2's filtered iterators.

    A step is: one split of a range (both halves look for their middle, LP_Set.hxx:203-246); one run of the body; one operator++.  The scans
    over cells inside a split or an operator++ are taken in one step; the cells of the range a task works on are changed by that task only,
    and of the cells behind it only matters that they are behind it. *)
From Verif Require Import Outcome ListUtil WordsModel RangeModel BlockModel Pool.
Local Open Scope nat_scope.

Section V.
Context {A : Type}.
(** _valid, Geometry.h:950-952. *)
Variable valid : A -> bool.
(** The loop body: the new content of the cell; [None] if it throws. *)
Variable body : A -> option A.

(** The array and a record of the ids visited with their content at the visit, last first. *)
Record vsh := mkv { v_arr : list (block A); v_log : list (N * A) }.

(** A range to be split further as the tree says; the loop at it with end e (426); operator++ of the loop (426). *)
Inductive vtask := VRange (t : splits) (r : brange) | VLoop (it e : iter) | VNext (it e : iter).

(** The number of cells: enough for the scans. *)
Definition cells (l : list (block A)) : nat := fold_right (fun b n => length (b_data b) + n) 0 l.

(** Writing through the reference operator* gives, BlockedArray2.hxx:216. *)
Definition it_write (l : list (block A)) (it : iter) (v : A) : list (block A) :=
  match nth_error l (i_block it) with Some b => upd l (i_block it) (blk_set b (i_idx it) v) | None => l end.

Definition v_step (sh : vsh) (t : vtask) : tres vsh vtask :=
  let l := v_arr sh in
  let fuel := S (cells l) in
  match t with
  | VRange Run r => TStep sh [VLoop (g_begin r) (g_end r)]
  | VRange (Split f k) r =>
      if br_divisible r then
        match br_mid (Some valid) fuel l (g_begin r) (g_mid r) (g_grain r), br_mid (Some valid) fuel l (g_mid r) (g_end r) (g_grain r) with
        | Val (Some r1), Val (Some r2) => TStep sh [VRange f r1; VRange k r2]
        | _, _ => TBad
        end
      else TStep sh [VLoop (g_begin r) (g_end r)]
  | VLoop it e =>
      if it_ltb it e then
        match it_deref l it with
        | Val a => match body a with
                   | Some a' => TStep (mkv (it_write l it a') ((i_idx it, a) :: v_log sh)) [VNext it e]
                   | None => TBad
                   end
        | _ => TBad
        end
      else TStep sh []
  | VNext it e => match it_next (Some valid) fuel l it with Val it' => TStep sh [VLoop it' e] | _ => TBad end
  end.

(** edgeDT.range(), LP_Set.hxx:217-224, Geometry.h:931-937. *)
Definition v_start (l : list (block A)) (grain : N) (t : splits) : res (pool vsh vtask) :=
  let fuel := S (cells l) in
  rbind (ba_begin (Some valid) fuel l) (fun b => rbind (ba_end l) (fun e => rbind (br_mid (Some valid) fuel l b e grain) (fun o =>
    match o with Some r => Val (mkp (mkv l []) [VRange t r]) | None => Undef end))).
End V.
Arguments vsh A : clear implicits.
