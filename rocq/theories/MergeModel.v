(** Merging the triangulations: mergeTriangulation, src/lib/DCTriangulator.cpp:355-475 (include/LoadBalancedDCTriangulator.tpp:379-499),
    with dSimplices::merge and filter, include/Geometry.h:806-836, and Partition::contains, Partitioning::partition,
    include/Partitioner.h:30-46, 64-71.

    Sets of ids are lists of their members and their lookups are ideal (C01-C08, C10).  The concurrent vectors are lists; pushing is one step
    together with the visit that pushes. *)
From Verif Require Import Outcome ListUtil WordsModel RangeModel BlockModel SimplexModel SimplexProofs Pool VisitModel NbrModel WhereModel.
From Coq Require Import Permutation.
Local Open Scope nat_scope.

(** dSimplices, Geometry.h:722-955: the cells, convexHull and mark. *)
Record dsims := mkd { d_arr : list (block simplex); d_hull : list N; d_mark : N }.

(** dSimplices::merge, Geometry.h:806-815. *)
Definition d_merge (a b : dsims) (mergeConvexHull : bool) (c : dsims) : Prop :=
  ba_merge (d_arr a) (d_arr b) (d_arr c) /\
  d_hull c = d_hull a ++ (if mergeConvexHull then d_hull b else []) /\ d_mark c = N.max (d_mark a) (d_mark b).

(** DCTriangulator.cpp:368-372. *)
Inductive merge_rest : dsims -> list dsims -> dsims -> Prop :=
| merge_done a : merge_rest a [] a
| merge_next a b r c d : d_merge a b true c -> merge_rest c r d -> merge_rest a (b :: r) d.
Definition merge_all (ps : list dsims) (d : dsims) : Prop := match ps with [] => False | p :: r => merge_rest p r d end.

(** The id set to dSimplex::cINF. *)
Definition killed (s : simplex) : simplex := mks s_inf (x_verts s) (x_nbrs s) (x_fp s) (x_mark s).

(** at(id, hint).id = cINF, Geometry.h:823.  The hint is that of the range (821); it does not matter (C24), so 0 is taken. *)
Definition kill (l : list (block simplex)) (id : N) : res (option (list (block simplex))) :=
  rbind (ba_at l id 0) (fun o => match o with
    | None => Val None
    | Some (s, h) => rmap (option_map fst) (ba_set l id h (killed s))
    end).
(** The loop 818-826 in any order: each id is written once, and each write is to a cell of its own. *)
Fixpoint kill_all (l : list (block simplex)) (ids : list N) : res (option (list (block simplex))) :=
  match ids with
  | [] => Val (Some l)
  | i :: r => rbind (kill l i) (fun o => match o with None => Val None | Some l' => kill_all l' r end)
  end.
(** dSimplices::filter, Geometry.h:817-836. *)
Definition d_filter (a : dsims) (edge order : list N) : res (option dsims) :=
  rmap (option_map (fun l => mkd l (filter (fun id => negb (isin edge id)) (d_hull a)) (d_mark a))) (kill_all (d_arr a) order).

(** dSimplicesHandle::operator[] on an array; [None]: it throws or is undefined. *)
Definition d_get (l : list (block simplex)) (id : N) : option simplex :=
  match ba_at l id 0 with Val (Some (s, _)) => Some s | _ => None end.
Definition d_valid (s : simplex) : bool := s_finite (x_id s).

(** Partitions: id and points.  partition(p), Partitioner.h:64-71; [None]: it throws. *)
Definition part := (nat * list N)%type.
Fixpoint part_of (parts : list part) (p : N) : option nat :=
  match parts with
  | [] => None
  | (id, pts) :: r => if isin pts p then Some id else part_of r p
  end.

Section M.
Variable over : N -> N.
Variable D : N.
Variable parts : list part.
(** mergedDT after filter. *)
Variable merged : list (block simplex).
(** deletedSimplices, sorted. *)
Variable del : list N.

(** std::lower_bound, 436-438: on a sorted range the first element whose fingerprint is not below the hash. *)
Fixpoint lower (l : list N) (h : N) : option (list N) :=
  match l with
  | [] => Some []
  | i :: r => match d_get merged i with
              | None => None
              | Some t => if (x_fp t <? h)%N then lower r h else Some l
              end
  end.
(** The loop 441-445. *)
Fixpoint found (l : list N) (s : simplex) (acc : bool) : option bool :=
  match l with
  | [] => Some acc
  | i :: r => match d_get merged i with
              | None => None
              | Some t => if (x_fp t =? x_fp s)%N then found r s (if equal_vertices s t then true else acc) else Some acc
              end
  end.
(** 430-446: whether the simplex is inserted.  [None]: partition() throws, or the vector access is undefined. *)
Definition insert_it (s : simplex) : option bool :=
  match x_verts s with
  | [] => None
  | v :: _ =>
      match part_of parts v with
      | None => None
      | Some p0 =>
          match nth_error parts p0 with
          | None => None
          | Some (_, pts) =>
              if negb (forallb (isin pts) (x_verts s)) then Some true
              else match lower del (x_fp s) with None => None | Some l => found l s false end
          end
      end
  end.
(** The loop body as far as the cell is concerned, 448-459. *)
Definition m_body (s : simplex) : option simplex := match insert_it s with Some true => Some s | Some false => Some (killed s) | None => None end.

(** What the loop pushed and inserted for the simplices it visited, 448-456. *)
Definition took (s : simplex) : bool := match insert_it s with Some b => b | None => false end.
Definition m_inserted (log : list (N * simplex)) : list N := map (fun e => x_id (snd e)) (filter (fun e => took (snd e)) log).
Definition m_hull (log : list (N * simplex)) : list N :=
  map (fun e => x_id (snd e)) (filter (fun e => took (snd e) && negb (s_isfinite D (snd e))) log).
Definition faces (s : simplex) : list (N * N) :=
  flat_map (fun d => match face_fp over s d with Val h => [(h, x_id s)] | _ => [] end) (seq 0 (length (x_verts s))).
Definition m_faces (log : list (N * simplex)) : list (N * N) := flat_map (fun e => if took (snd e) then faces (snd e) else []) log.
End M.

(** The order of deletedSimplices, 388-397. *)
Definition fp_sorted (merged : list (block simplex)) (del : list N) : Prop :=
  forall i j a b s t, i < j -> nth_error del i = Some a -> nth_error del j = Some b -> d_get merged a = Some s -> d_get merged b = Some t -> (x_fp s <= x_fp t)%N.

(** The marks of the cells before updateNeighbors: those of mergedDT as buildWhereUsed left them, those of edgeDT as they were. *)
Definition m_marks (merged new : list (block simplex)) (w : wsh) (id : N) : N :=
  match d_get merged id with
  | Some _ => w_marks w id
  | None => match d_get new id with Some s => x_mark s | None => 0%N end
  end.

(** mergeTriangulation up to updateNeighbors, 355-466: the merged triangulation, insertedSimplices, wuFaces and the marks, for any order and schedule.
    The marks are kept apart from the cells: nothing but buildWhereUsed and updateNeighbors looks at them.  buildWhereUsed counts the mark
    of mergedDT up twice (201-202). *)
Inductive merge_run (over : N -> N) (D : N) (parts : list part) (partials : list dsims) (edge : list N) (edgeDT out : dsims) (inserted : list N) (table : list (N * N)) (marks : N -> N) : Prop :=
| merge_run_intro (all : dsims) (order : list N) (flt : dsims) (worder : list N) (w : wsh) (del : list N) (grain : N) (tree : splits) (start : pool (vsh simplex) vtask) (fin : vsh simplex) (joined : dsims) :
    (* 368-373 *)
    merge_all partials all -> Permutation order edge -> d_filter all edge order = Val (Some flt) ->
    (* 386 *)
    Permutation worder edge ->
    pexec (w_step over (d_get (d_arr flt)) edge (d_mark flt)) (w_start (fun id => match d_get (d_arr flt) id with Some s => x_mark s | None => 0%N end) worder) (mkp w []) ->
    (* 388-397 *)
    Permutation del edge -> fp_sorted (d_arr flt) del ->
    (* 419-461 *)
    v_start d_valid (d_arr edgeDT) grain tree = Val start -> pexec (v_step d_valid (m_body parts (d_arr flt) del)) start (mkp fin []) ->
    Permutation inserted (m_inserted parts (d_arr flt) del (v_log fin)) ->
    Permutation table (w_tab w ++ m_faces over parts (d_arr flt) del (v_log fin)) ->
    (* 463-465 *)
    d_merge (mkd (d_arr flt) (d_hull flt) (ud_mark (d_mark flt))) (mkd (v_arr fin) (d_hull edgeDT) (d_mark edgeDT)) false joined ->
    (exists hull, Permutation hull (m_hull D parts (d_arr flt) del (v_log fin)) /\ out = mkd (d_arr joined) (d_hull joined ++ hull) (d_mark joined)) ->
    (forall id, marks id = m_marks (d_arr flt) (v_arr fin) w id) ->
    merge_run over D parts partials edge edgeDT out inserted table marks.
