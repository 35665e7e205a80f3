(** What the face table must hold. *)
From Verif Require Import Outcome SimplexModel.

Section S.
Variable over : N -> N.
Variable get : N -> option simplex.
Variable edge : list N.

(** A finite neighbor of an edge simplex outside the edge. *)
Definition inward (n : N) : Prop := exists e s, In e edge /\ get e = Some s /\ In n (x_nbrs s) /\ n <> s_inf /\ ~ In n edge.

(** h is the fingerprint of one of the faces of the simplex stored under n. *)
Definition face_of (n h : N) : Prop := exists s i, get n = Some s /\ (i < length (x_verts s))%nat /\ face_fp over s i = Val h.
End S.
