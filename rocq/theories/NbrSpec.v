(** What the neighbor update has to establish. *)
From Verif Require Import Outcome ListUtil WordsModel SimplexModel Pool NbrModel.
Local Open Scope nat_scope.

Section U.
Variable over : N -> N.
Variable get : N -> option simplex.
Variable tbl : N -> list N.
Variable nbr0 : N -> nat -> N.
Variable toCheck : list N.

(** The triangulation holds a simplex (not a deleted one) under the id [c]. *)
Definition live (c : N) (t : simplex) : Prop := get c = Some t /\ x_id t = c /\ c <> s_inf.
(** [t] has all vertices of [s] but the one at [d]: they share the face opposite to that vertex. *)
Definition opposite (s : simplex) (d : nat) (t : simplex) : Prop :=
  exists v, nth_error (x_verts s) d = Some v /\ forall w, In w (x_verts s) -> (In w (x_verts t) <-> w <> v).
(** The simplex with id [c] may be the neighbor of [s] in slot [d]. *)
Definition fits (s : simplex) (d : nat) (c : N) : Prop := c <> x_id s /\ exists t, live c t /\ opposite s d t.
(** The face table lists [c] for the face opposite to vertex [d] of [s]. *)
Definition listed (s : simplex) (d : nat) (c : N) : Prop := exists h, face_fp over s d = Val h /\ In c (tbl h).
(** The old entry in slot [d] is a simplex that still exists and still is a neighbor. *)
Definition good (id : N) (d : nat) : Prop := exists s t d', live id s /\ live (nbr0 id d) t /\ opposite s d' t.

(** The simplices the update looks at: those given, and the neighbors it finds for a slot without a good entry. *)
Inductive visited : N -> Prop :=
| visited_given id : In id toCheck -> visited id
| visited_found id s d c : visited id -> live id s -> ~ good id d -> listed s d c -> fits s d c -> visited c.

(** Each slot has at most one simplex that fits. *)
Definition one_each : Prop := forall id s d c c', live id s -> fits s d c -> fits s d c' -> c = c'.
(** Old entries that are still simplices and still share a face are in the right slot and were mutual. *)
Definition old_right : Prop := forall id s d t e, live id s -> d < length (x_verts s) -> live (nbr0 id d) t -> opposite s e t ->
  opposite s d t /\ exists d', d' < length (x_verts t) /\ nbr0 (nbr0 id d) d' = id.
(** The table lists every simplex looked at for each of its faces. *)
Definition all_listed : Prop := forall id s d, visited id -> live id s -> d < length (x_verts s) -> listed s d id.
(** All simplices have the same number of vertices, and their fingerprints are up to date. *)
Definition uniform : Prop := forall id s, live id s -> x_fp s = gen_fp over (x_verts s) /\ forall id' s', live id' s' -> length (x_verts s') = length (x_verts s).
End U.

(** Executions all of whose states satisfy [P]. *)
Inductive pexec_in {Sh Task} (tstep : Sh -> Task -> tres Sh Task) (P : pool Sh Task -> Prop) (a : pool Sh Task) : pool Sh Task -> Prop :=
| pexec_in_start : P a -> pexec_in tstep P a a
| pexec_in_step b c : pexec_in tstep P a b -> pstep tstep b c -> P c -> pexec_in tstep P a c.

(** The task has begun to work on the simplex [id]. *)
Definition works_on (t : utask) (id : N) : Prop :=
  match t with
  | UItem _ => False
  | UMark i | USlot i _ | UHas i _ | UAdj i _ | UReset i _ | UCand i _ _ | UWrite i _ _ _ | UTest i _ _ _ | UQueue i _ _ _ | UAdd i _ _ _ => i = id
  end.
(** No simplex is worked on by two tasks. *)
Definition exclusive (a : pool ush utask) : Prop :=
  forall l1 t l2 id x, p_tasks a = l1 ++ t :: l2 -> works_on t id -> In x (l1 ++ l2) -> ~ works_on x id.
