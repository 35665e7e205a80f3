(** C45: point ids, include/Geometry.h:207-343, include/datastructures/VectorAdapter2.hxx, include/utils/MakeIds.h. *)
From Verif Require Import Outcome ListUtil WordsModel WordsProofs LPSetModel ProbeTheory LPSetProofs LPSetHistory LPSetIter LPSetSpec SimplexModel PointModel PointProofs.
Local Open Scope N_scope.

(** A set of points: entry 0 is reserved ([pts_ok] asks for it), the finite ids end below the infinite ones, and
    there are 2^D infinite points.  [is_id]: the finite ids are those strictly between offset and offset plus
    size of the vector, the infinite ones the last 2^D. *)
Theorem C45_finite_infinite : forall D i, D <= 30 -> i < 2 ^ 64 ->
  (p_finite D i = true <-> i < 2 ^ 64 - 2 ^ D) /\
  (p_finite D i = false -> p_infidx D i < p_ninf D /\ p_inf D + p_infidx D i = i).
Proof.
  intros D i HD Hi. split; [apply p_finite_spec; assumption|]. intros Hf. destruct (p_infidx_inf D HD i Hi Hf) as [E Hge].
  rewrite E, p_ninf_val, p_inf_val by exact HD. pose proof (pow_D_le D HD). assert (2 ^ 30 < 2 ^ 64) by reflexivity. lia.
Qed.
Print Assumptions C45_finite_infinite.
Example C45_inf_ex : p_finite 3 (2 ^ 64 - 9) = true /\ p_finite 3 (2 ^ 64 - 8) = false /\ p_infidx 3 (2 ^ 64 - 3) = 5 /\ p_ninf 3 = 8.
Proof. vm_compute. auto. Qed.

Theorem C45_contains : forall D A (p : points A) i, D <= 30 -> pts_ok D p -> i < 2 ^ 64 ->
  p_contains D p i = true <-> is_id D p i.
Proof. intros D A p i HD. exact (contains_id D HD p i). Qed.
Print Assumptions C45_contains.

(** Every id has its own cell: finite ids one in the vector, infinite ids one in the array. *)
Theorem C45_access : forall D A (p : points A) i, D <= 30 -> pts_ok D p -> is_id D p i ->
  exists a, p_get D p i = Val a /\
    ((is_fin_id p i /\ nth_error (p_vec p) (N.to_nat (i - p_off p)) = Some a) \/
     (is_inf_id D i /\ nth_error (p_infs p) (N.to_nat (i - (2 ^ 64 - 2 ^ D))) = Some a)).
Proof. intros D A p i HD. exact (get_id D HD p i). Qed.
Print Assumptions C45_access.

Theorem C45_range : forall D A (p : points A), D <= 30 -> pts_ok D p ->
  NoDup (p_range p) /\ forall i, In i (p_range p) <-> is_fin_id p i.
Proof. intros D A p HD Hp. split; [exact (range_NoDup D HD p)|intros i; exact (range_In D HD p i Hp)]. Qed.
Print Assumptions C45_range.

(** makePointIds returns; iterating the set lists each id once; its size is the number of ids. *)
Theorem C45_make_ids : forall D A (p : points A) a, D <= 30 -> pts_ok D p -> 4 * (finite_size p + 2 ^ D) <= 2 ^ 63 ->
  exists s l, returns (fun f => make_ids D f a p) s /\ returns (fun f => set_iterate f s) l /\
    NoDup l /\ (forall i, In i l <-> is_id D p i) /\ N.of_nat (set_size s) = finite_size p - 1 + 2 ^ D /\
    p_eq D p l = true.
Proof.
  intros D A p a HD Hp Hs. destruct (make_ids_spec D HD p a Hp Hs) as [s [Hm Ha]].
  destruct (iterate_after _ _ _ _ _ _ Ha) as [l [Hi [Hn [Hin _]]]]. exists s, l.
  assert (HI : forall i, In i l <-> is_id D p i) by (intros i; rewrite Hin, inserted_map; now apply (keys_In D HD)).
  pose proof (after_repr _ _ _ _ _ _ Ha) as HR. pose proof (repr_items _ _ _ HR) as Hsz.
  split; [exact Hm|]. split; [exact Hi|]. split; [exact Hn|]. split; [exact HI|].
  assert (Hc : 2 ^ 63 < 2 ^ 64) by reflexivity. split.
  - unfold set_size. rewrite Hsz, inserted_map. rewrite <- (keys_length D HD p Hp). f_equal. unfold distinct.
    rewrite nodup_fixed_point; [apply rev_length|]. apply NoDup_rev. now apply (keys_NoDup D HD).
  - apply (p_eq_spec D HD); auto; [lia|]. intros i Hx. apply HI in Hx. destruct Hp as [_ [Hlt _]]. unfold finite_size in Hlt.
    pose proof (WordsProofs.pow2_pos D). destruct Hx as [[_ Hx]|[_ Hx]]; [lia|exact Hx].
Qed.
Print Assumptions C45_make_ids.

(** operator== accepts exactly the containers that list the ids. *)
Theorem C45_equality : forall D A (p : points A) ids, D <= 30 -> pts_ok D p -> finite_size p + 2 ^ D < 2 ^ 64 -> NoDup ids ->
  (forall i, In i ids -> i < 2 ^ 64) -> p_eq D p ids = true <-> (forall i, In i ids <-> is_id D p i).
Proof. intros D A p ids HD. exact (p_eq_spec D HD p ids). Qed.
Print Assumptions C45_equality.

(* offset 100, three points besides the reserved entry, dimension 2 *)
Definition C45_pts : points N := mkpts [0; 11; 12; 13] 100 [91; 92; 93; 94].
Example C45_ex : pts_ok 2 C45_pts /\ map (p_contains 2 C45_pts) [100; 101; 103; 104; 2 ^ 64 - 4; 2 ^ 64 - 5] = [false; true; true; false; true; false] /\
  map (p_get 2 C45_pts) [101; 103; 2 ^ 64 - 4; 2 ^ 64 - 1] = [Val 11; Val 13; Val 91; Val 94] /\ p_range C45_pts = [101; 102; 103] /\
  rmap (fun s => keys_of (s_arr s)) (make_ids 2 40 12345 C45_pts) = Val [2 ^ 64 - 3; 102; 2 ^ 64 - 1; 2 ^ 64 - 4; 101; 2 ^ 64 - 2; 103] /\
  p_eq 2 C45_pts [101; 102; 103; 2 ^ 64 - 4; 2 ^ 64 - 3; 2 ^ 64 - 2; 2 ^ 64 - 1] = true /\
  p_eq 2 C45_pts [100; 102; 103; 2 ^ 64 - 4; 2 ^ 64 - 3; 2 ^ 64 - 2; 2 ^ 64 - 1] = false.
Proof. split; [unfold pts_ok; split; [discriminate|vm_compute; split; [discriminate|reflexivity]]|]. vm_compute. auto 10. Qed.
