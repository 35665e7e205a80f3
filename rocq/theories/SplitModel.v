(** The partitioners of PartModel as the splitter of DCTriangulator. *)
From Verif Require Import Outcome ListUtil LPSetModel LPSetHistory PointModel GeoModel Conc PartModel.
Local Open Scope nat_scope.

(** Partitioner::make, include/Partitioner.h:322-345: the splitters there are. *)
Inductive splitter := DWay | OneDim (k : nat) | Cycle | Extend.

Section D.
Variable D : nat.
Variable pts : points vec.
Variables tiny huge : R.

(** The parallel loop of CyclePartitioner and ExtendPartitioner, run by some threads in some order until all are through, and what follows it:
    Partitioner.cpp:120-187 and 189-270. *)
Definition halved (st : stats) (mult : nat -> N) (route : vec -> res nat) (k : nat) (ids : lpset) (work : list (list N)) (ps : list part) : Prop :=
  exists c tr, exec (pstep (route_id D pts route)) (pstart mult (N.of_nat (set_size ids)) work) c tr /\ (forall l, In l (c_loc c) -> l = mkpl None []) /\
  returns (fun f => half_finish D st k f (c_sh c) false) ps.
(** partition(ids, points, stats, provenance, false): Partitioner.cpp.  [plen]: the length of the provenance string; [work]: how the loop hands out the ids. *)
Definition parted_by (sp : splitter) (st : stats) (mult : nat -> N) (plen : N) (ids : lpset) (work : list (list N)) (ps : list part) : Prop :=
  match sp with
  | DWay => returns (fun f => d_way D pts st mult f ids false) ps
  | OneDim k => returns (fun f => one_dim D pts st mult k f ids false) ps
  | Cycle => halved st mult (route1 D st (cycle_dim D plen)) (cycle_dim D plen) ids work ps
  | Extend => exists k, extend_dim D st = Some k /\ halved st mult (extend_route D st) k ids work ps
  end.
(** A set and its members in some order. *)
Definition lists (s : lpset) (L : list N) : Prop := NoDup L /\ repr 64 s L.
(** partition(ids, points, provenance), include/Partitioner.h:208-215, called with the set of the points [S] (DCTriangulator.cpp:520): getPointStats with
    ignoreInfinite true, then the call above.  The provenance as in DcModel; each entry is one character, after the outermost one.  The result as DcModel
    wants it: the members of the sets, and the bounds. *)
Definition splits (sp : splitter) (prov : list (option nat)) (S : list N) (qs : list (list N * box)) : Prop :=
  exists ids work st mult work' ps, lists ids S /\
    NoDup (concat work) /\ (forall i, In i (concat work) <-> In i S) /\ stats_par D pts tiny huge true work = Val st /\
    NoDup (concat work') /\ (forall i, In i (concat work') <-> In i S) /\
    parted_by sp st mult (N.of_nat (length prov) + 1) ids work' ps /\
    Forall2 (fun p q => lists (pa_pts p) (fst q) /\ snd q = pa_box p) ps qs.
End D.
