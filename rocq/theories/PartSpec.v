(** What a partitioning should be (C34). *)
From Verif Require Import Outcome ListUtil WordsModel LPSetModel SimplexModel PointModel PointProofs GeoModel GeoSpec PartModel.
Local Open Scope nat_scope.

(** What a caller sees of a part's point set. *)
Definition holds (p : part) (i : N) : Prop := returns (fun f => part_has f p i) true.
Definition lacks (p : part) (i : N) : Prop := returns (fun f => part_has f p i) false.

Section D.
Variable D : nat.
Variable pts : points vec.
Notation Dn := (N.of_nat D).

(** [K] are the ids to be partitioned. *)
Definition good_partition (K : list N) (ignore : bool) (ps : list part) : Prop :=
  (forall j p, nth_error ps j = Some p -> pa_id p = j) /\
  (forall i, In i K -> is_inf_id Dn i \/
     exists j p c, nth_error ps j = Some p /\ holds p i /\ p_get Dn pts i = Val c /\ in_box D (pa_box p) c /\
       forall j' p', nth_error ps j' = Some p' -> holds p' i -> j' = j) /\
  (forall j p i, nth_error ps j = Some p -> (i <> 0)%N -> holds p i -> (In i K /\ ~ is_inf_id Dn i) \/ (ignore = false /\ is_inf_id Dn i)) /\
  (ignore = false -> forall j p i, nth_error ps j = Some p -> is_inf_id Dn i -> holds p i).

(** Every lookup in every part is answered. *)
Definition answering (ps : list part) : Prop := forall p i, In p ps -> (i <> 0)%N -> holds p i \/ lacks p i.

(** The statistics cover the finite points. *)
Definition covers (K : list N) (st : stats) : Prop :=
  forall i, In i K -> ~ is_inf_id Dn i -> exists c, p_get Dn pts i = Val c /\ forall d, d < D -> (st_min st d <= c d <= st_max st d)%R.
End D.
