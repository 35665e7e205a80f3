(** What the merged triangulation must hold. *)
From Verif Require Import Outcome ListUtil WordsModel BlockModel BlockProofs BlockSpec SimplexModel SimplexProofs Pool MergeModel.
Local Open Scope nat_scope.

Section S.
Variable over : N -> N.
Variable D : N.
Variable parts : list part.
Variable partials : list dsims.
Variable edge : list N.

(** Some triangulation of the list holds [s] under the id [i]. *)
Definition stored (ps : list dsims) (i : N) (s : simplex) : Prop := exists p, In p ps /\ holds (d_arr p) i s.
(** All vertices lie in one partition. *)
Definition in_one_part (s : simplex) : Prop := exists id pts, In (id, pts) parts /\ forall v, In v (x_verts s) -> In v pts.
(** A simplex of the edge triangulation that belongs in the result. *)
Definition wanted (s : simplex) : Prop := ~ in_one_part s \/ exists e t, In e edge /\ stored partials e t /\ x_verts t = x_verts s.

(** The partitions carry their numbers, share only infinite points, and an infinite point is in all or in none. *)
Definition parts_ok : Prop :=
  (forall k id pts, nth_error parts k = Some (id, pts) -> id = k) /\
  (forall id pts id' pts' v, In (id, pts) parts -> In (id', pts') parts -> In v pts -> In v pts' -> p_finite D v = true -> id = id') /\
  (forall id pts id' pts' v, In (id, pts) parts -> In (id', pts') parts -> p_finite D v = false -> In v pts -> In v pts').

(** Sorted vertices and their fingerprint. *)
Definition well (s : simplex) : Prop :=
  x_fp s = gen_fp over (x_verts s) /\ sorted (x_verts s) /\ x_verts s <> [] /\ forall v, In v (x_verts s) -> (v < 2 ^ 64)%N.
(** A cell has the infinite id (deleted, or never filled), or it holds a simplex under its id; no mark is above the triangulation's. *)
Definition proper (d : dsims) : Prop := forall i s, holds (d_arr d) i s ->
  i <> s_inf /\ (x_mark s <= d_mark d)%N /\ (x_id s = s_inf \/ x_id s = i /\ well s).
Definition no_shared (a b : dsims) : Prop := no_common (d_arr a) (d_arr b).
Definition blocks (ps : list dsims) : nat := list_sum (map (fun p => length (d_arr p)) ps).
End S.

(** The input of the merge: triangulations in arrays of blocks with increasing ids (what [made] arrays are), without common ids; edge simplices stored in the partial ones; the first vertex
    of each simplex of the edge triangulation in some partition. *)
Record merge_input (over : N -> N) (D : N) (parts : list part) (partials : list dsims) (edge : list N) (edgeDT : dsims) : Prop := mkmi {
  mi_D : (D <= 30)%N;
  mi_some : partials <> [];
  mi_made : forall p, In p (edgeDT :: partials) -> wf (d_arr p) /\ proper over p;
  mi_apart : ForallOrdPairs no_shared (edgeDT :: partials);
  mi_blocks : (N.of_nat (blocks (edgeDT :: partials)) < 2 ^ 32)%N;
  mi_parts : parts_ok D parts;
  mi_edge : forall e, In e edge -> exists s, stored partials e s /\ x_id s <> s_inf;
  mi_first : forall i s v r, holds (d_arr edgeDT) i s -> x_id s <> s_inf -> x_verts s = v :: r -> exists id pts, In (id, pts) parts /\ In v pts }.
