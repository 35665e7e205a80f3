(** Point statistics and the partitioners: include/Partitioner.h and src/lib/Partitioner.cpp.

    Coordinates are exact real numbers as in GeoModel; points are those of PointModel. *)
From Verif Require Import Outcome ListUtil WordsModel LPSetModel SimplexModel PointModel GeoModel Conc ConcSetModel.

(** dPointStats, Partitioner.h:74-93. *)
Record stats := mkst { st_min : vec; st_mid : vec; st_max : vec }.

Section D.
Variable D : nat.
Variable pts : points vec.
Notation Dn := (N.of_nat D).
Notation finite := (p_finite Dn).

(** ** Statistics *)
(** std::numeric_limits<Precision>::min() and max(): the smallest positive and the largest value. *)
Variables tiny huge : R.
(** Constructor, Partitioner.h:77-84, and the start values of getPointStatsSeq, 123-124. *)
Definition st_empty : stats := mkst (fun _ => huge) (fun _ => 0%R) (fun _ => tiny).
(** Partitioner.h:133-134 and 168-171, for all dimensions at once. *)
Definition st_add (s : stats) (c : vec) : stats :=
  mkst (fun d => Rmin (st_min s d) (c d)) (st_mid s) (fun d => Rmax (st_max s d) (c d)).
Definition st_finish (s : stats) : stats :=
  mkst (st_min s) (fun d => ((st_max s d + st_min s d) / 2)%R) (st_max s).
(** The loop over the ids, 126-136 and 157-173: [st] is updated by the points that are finite or not ignored.
    Simplification: getPointStatsSeq runs the loop once per dimension; here one pass does all dimensions. *)
Fixpoint st_loop (ignore : bool) (ids : list N) (s : stats) : res stats :=
  match ids with
  | [] => Val s
  | i :: t => if finite i || negb ignore then rbind (p_get Dn pts i) (fun c => st_loop ignore t (st_add s c)) else st_loop ignore t s
  end.
(** getPointStatsSeq, Partitioner.h:111-143. *)
Definition stats_seq (ignore : bool) (ids : list N) : res stats := rmap st_finish (st_loop ignore ids st_empty).
(** getPointStats, Partitioner.h:145-192.  [work] lists, for every thread that took part, the ids of the ranges it
    ran, in order; combine folds the thread-local statistics (177-186). *)
Definition st_combine (a b : stats) : stats :=
  mkst (fun d => Rmin (st_min a d) (st_min b d)) (fun _ => 0%R) (fun d => Rmax (st_max a d) (st_max b d)).
Fixpoint st_local (ignore : bool) (work : list (list N)) : res (list stats) :=
  match work with
  | [] => Val []
  | w :: t => rbind (st_loop ignore w st_empty) (fun s => rmap (cons s) (st_local ignore t))
  end.
(** tbb::enumerable_thread_specific::combine: a fresh value if there is no local one, else a left fold. *)
Definition ets_combine (l : list stats) : stats :=
  match l with [] => st_empty | s :: t => fold_left st_combine t s end.
Definition stats_par (ignore : bool) (work : list (list N)) : res stats :=
  rmap (fun l => st_finish (ets_combine l)) (st_local ignore work).

(** ** Partitioners *)
(** Partition, Partitioner.h:15-50. *)
Record part := mkpart { pa_id : nat; pa_pts : lpset; pa_box : box }.
Variable st : stats.
(** The hash multipliers drawn for the new sets. *)
Variable mult : nat -> N.

(** The coordinate test of one point, Partitioner.cpp:94 (107, 153, 235): [coords[k] > mid[k]]; reading beyond
    the D coordinates is undefined. *)
Definition route1 (k : nat) (c : vec) : res nat :=
  if Nat.ltb k D then Val (if rltb (st_mid st k) (c k) then 1 else 0)%nat else Undef.
(** Partitioner.cpp:38-41: bit d of the part number; the bits are distinct, so [|=] is a sum. *)
Definition routed (c : vec) : res nat :=
  Val (fold_left (fun p d => p + (if rltb (st_mid st d) (c d) then Nat.pow 2 d else 0))%nat (seq 0 D) 0%nat).
(** Where a point id goes; [None]: an infinite point, skipped (Partitioner.cpp:32-33, 88-89, 145-146, 227-228). *)
Definition route_id (route : vec -> res nat) (i : N) : res (option nat) :=
  if finite i then rbind (p_get Dn pts i) (fun c => rmap Some (route c)) else Val None.

(** The bounds, Partitioner.cpp:22-27. *)
Definition d_box (i : nat) : box :=
  mkbox (fun d => if Nat.testbit i d then st_mid st d else st_min st d) (fun d => if Nat.testbit i d then st_max st d else st_mid st d).
(** Partitioner.cpp:77-87 (and 165-175, 248-258). *)
Definition half_box (k i : nat) : box :=
  if Nat.eqb i 0 then mkbox (st_min st) (fun d => if Nat.eqb d k then st_mid st d else st_max st d)
  else mkbox (fun d => if Nat.eqb d k then st_mid st d else st_min st d) (st_max st).

(** points.insert on part [i]; indexing beyond the vector is undefined. *)
Definition part_put (fuel : nat) (ps : list part) (i : nat) (k : N) : res (list part) :=
  match nth_error ps i with
  | Some p => rmap (fun r => upd ps i (mkpart (pa_id p) (fst r) (pa_box p))) (set_insert 64 true fuel (pa_pts p) k)
  | None => Undef
  end.
(** The distribution loop of the sequential partitioners, Partitioner.cpp:30-48, 90-103. *)
Fixpoint distribute (fuel : nat) (route : vec -> res nat) (ids : list N) (ps : list part) : res (list part) :=
  match ids with
  | [] => Val ps
  | i :: t => rbind (route_id route i) (fun r =>
              match r with
              | Some j => rbind (part_put fuel ps j i) (distribute fuel route t)
              | None => distribute fuel route t ps
              end)
  end.
(** Adding the infinite points, Partitioner.cpp:51-57, 107-113, 178-184, 261-267: [for (k = cINF; k != 0; ++k)]. *)
Definition inf_ids : list N := map (fun j => wrap 64 (p_inf Dn + N.of_nat j)) (seq 0 (N.to_nat (p_ninf Dn))).
Fixpoint add_all (fuel : nat) (ks : list N) (s : lpset) : res lpset :=
  match ks with
  | [] => Val s
  | k :: t => rbind (set_insert 64 true fuel s k) (fun r => add_all fuel t (fst r))
  end.
Fixpoint add_inf (fuel : nat) (ignore : bool) (ps : list part) : res (list part) :=
  match ps with
  | [] => Val []
  | p :: t => rbind (if ignore then Val (pa_pts p) else add_all fuel inf_ids (pa_pts p)) (fun s =>
              rmap (cons (mkpart (pa_id p) s (pa_box p))) (add_inf fuel ignore t))
  end.

(** dWayPartitioner::partition, Partitioner.cpp:3-60.  The size of the new sets is computed in floating point,
    [ids.size() / pow(2, D)], and truncated: the integer quotient for sizes below 2^53. *)
Definition d_way (fuel : nat) (ids : lpset) (ignore : bool) : res (list part) :=
  rbind (set_iterate fuel ids) (fun l =>
  rbind (distribute fuel routed l
           (map (fun i => mkpart i (set_new (N.of_nat (set_size ids) / 2 ^ Dn) (mult i)) (d_box i)) (seq 0 (Nat.pow 2 D))))
        (add_inf fuel ignore)).
(** OneDimPartitioner::partition, Partitioner.cpp:62-118. *)
Definition one_dim (k fuel : nat) (ids : lpset) (ignore : bool) : res (list part) :=
  rbind (set_iterate fuel ids) (fun l =>
  rbind (distribute fuel (route1 k) l
           (map (fun i => mkpart i (set_new (N.of_nat (set_size ids) / 2) (mult i)) (half_box k i)) (seq 0 2)))
        (add_inf fuel ignore)).

(** *** The parallel distribution of the other two, Partitioner.cpp:137-163, 219-245 *)
(** A thread: the call it is in ([None] between calls) on one of the tables, and the ids of its ranges still to do. *)
Record ploc := mkpl { pl_cur : option (nat * csloc); pl_ids : list N }.
Definition pstep (route : N -> res (option nat)) (ts : list lpset) (l : ploc) : sres (list lpset) ploc (nat * ev csop csret) :=
  match pl_cur l with
  | None =>
      match pl_ids l with
      | [] => Stop
      | i :: t => match route i with
                  | Val (Some j) => Step ts (mkpl (Some (j, LIdle [SInsert i])) t) []
                  | Val None => Step ts (mkpl None t) []
                  | _ => Bad
                  end
      end
  | Some (j, c) =>
      match nth_error ts j with
      | None => Bad
      | Some s => match cs_step 64 false s c with
                  | Step s' c' evs => Step (upd ts j s') (mkpl (match c' with LIdle [] => None | _ => Some (j, c') end) (pl_ids l)) (map (pair j) evs)
                  | Stop => Stop
                  | Bad => Bad
                  end
      end
  end.
(** The two tables, Partitioner.cpp:131-134, 213-216, and the threads with the ids of their ranges. *)
Definition two_tables (n : N) : list lpset := [cs_new n (mult 0); cs_new n (mult 1)].
Definition pstart (n : N) (work : list (list N)) : config (list lpset) ploc := mkc (two_tables n) (map (mkpl None) work).

(** After the loop, Partitioner.cpp:165-184, 247-267: the tables become the points of the parts (LP_Set.hxx:790-796
    takes over the array, the counter and the hasher). *)
Definition half_finish (k fuel : nat) (ts : list lpset) (ignore : bool) : res (list part) :=
  match ts with
  | [s0; s1] => add_inf fuel ignore [mkpart 0 s0 (half_box k 0); mkpart 1 s1 (half_box k 1)]
  | _ => Undef
  end.
(** The splitting dimension of CyclePartitioner, Partitioner.cpp:129: [(provenance.size() - 1) % D] in size_t. *)
Definition cycle_dim (provenance : N) : nat := N.to_nat (wrap 64 (provenance + 2 ^ 64 - 1) mod Dn).
(** That of ExtendPartitioner, Partitioner.cpp:201-213: [None] stands for -1 converted to uint. *)
Definition extend_dim : option nat :=
  snd (fold_left (fun a d => if rltb (fst a) (st_max st d - st_min st d)%R then ((st_max st d - st_min st d)%R, Some d) else a)
                 (seq 0 D) (0%R, None)).
(** Reading coords[2^32 - 1] is undefined. *)
Definition extend_route (c : vec) : res nat := match extend_dim with Some k => route1 k c | None => Undef end.
End D.

(** ** Queries *)
(** Partition::contains(id), Partitioner.h:30 ([count] is [contains]). *)
Definition part_has (fuel : nat) (p : part) (i : N) : res bool := set_contains 64 fuel (pa_pts p) i.
(** Partition::contains(simplex, partially), Partitioner.h:32-46. *)
Fixpoint part_has_simplex (fuel : nat) (p : part) (vs : list N) (partially : bool) : res bool :=
  match vs with
  | [] => Val (negb partially)
  | v :: t => rbind (part_has fuel p v) (fun b =>
              if negb partially && negb b then Val false else if partially && b then Val true else part_has_simplex fuel p t partially)
  end.
(** Partitioning::partition, Partitioner.h:64-71: [None] stands for the exception. *)
Fixpoint part_of (fuel : nat) (ps : list part) (i : N) : res (option nat) :=
  match ps with
  | [] => Val None
  | p :: t => rbind (part_has fuel p i) (fun b => if b then Val (Some (pa_id p)) else part_of fuel t i)
  end.
