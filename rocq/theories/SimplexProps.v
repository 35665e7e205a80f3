(** C29, C30: dSimplex, include/Geometry.h:415-689. *)
From Verif Require Import Outcome ListUtil WordsModel SimplexModel SimplexProofs PointProofs.
From Coq Require Import Permutation Sorted.
Local Open Scope N_scope.
Notation sorted := (StronglySorted N.lt).

(** ** C29 *)
Theorem C29_contains : forall s p, sorted (x_verts s) -> s_contains s p = true <-> In p (x_verts s).
Proof. intros s p. exact (contains_loop_spec (x_verts s) p). Qed.
Print Assumptions C29_contains.

(** [c] lists the common vertices without repetition. *)
Theorem C29_shared : forall s t, sorted (x_verts s) -> sorted (x_verts t) ->
  exists c, NoDup c /\ (forall x, In x c <-> In x (x_verts s) /\ In x (x_verts t)) /\
    returns (fun f => count_shared f s t) (length c) /\
    returns (fun f => is_neighbor f s t) (Nat.eqb (length c) (length (x_verts s) - 1)).
Proof. exact shared_count. Qed.
Print Assumptions C29_shared.
Example C29_ex : let s := mks 1 [2; 5; 7] [0; 0; 0] 0 0 in let t := mks 2 [5; 6; 7] [0; 0; 0] 0 0 in
  sorted (x_verts s) /\ sorted (x_verts t) /\ count_shared 9 s t = Val 2%nat /\ is_neighbor 9 s t = Val true /\
  is_neighbor 9 s s = Val false /\ s_contains s 5 = true /\ s_contains s 6 = false.
Proof. cbv zeta. repeat split; try (vm_compute; reflexivity); repeat constructor; reflexivity. Qed.
(** The order matters: with vertices out of order both answers may be wrong. *)
Example C29_unsorted : let s := mks 1 [7; 2; 5] [0; 0; 0] 0 0 in
  s_contains s 5 = false /\ count_shared 9 s (mks 2 [2; 5; 7] [0; 0; 0] 0 0) = Val 1%nat.
Proof. vm_compute. split; reflexivity. Qed.

Theorem C29_contains_all_any : forall s ps, sorted (x_verts s) ->
  (contains_all s ps = true <-> forall p, In p ps -> In p (x_verts s)) /\
  (contains_any s ps = true <-> exists p, In p ps /\ In p (x_verts s)).
Proof.
  intros s ps Hs. unfold contains_all, contains_any. rewrite forallb_forall, existsb_exists. split; split.
  - intros H p Hp. apply C29_contains; auto.
  - intros H p Hp. apply C29_contains; auto.
  - intros [p [H1 H2]]. exists p. split; [exact H1|]. now apply C29_contains in H2.
  - intros [p [H1 H2]]. exists p. split; [exact H1|]. now apply C29_contains.
Qed.
Print Assumptions C29_contains_all_any.
Example C29_all_any_ex : let s := mks 1 [2; 5; 7; 9] [] 0 0 in
  contains_all s [9; 2; 2] = true /\ contains_all s [9; 3] = false /\ contains_any s [1; 3] = false /\ contains_any s [1; 7] = true.
Proof. vm_compute. auto. Qed.

(** isFinite: the ids from 2^64 - 2^D on are the infinite ones. *)
Theorem C29_isfinite : forall D s, D <= 30 -> (forall v, In v (x_verts s) -> v < 2 ^ 64) ->
  s_isfinite D s = true <-> forall v, In v (x_verts s) -> v < 2 ^ 64 - 2 ^ D.
Proof.
  intros D s HD Hr. rewrite isfinite_spec. split; intros H v Hv; [apply (p_finite_spec D HD); auto|].
  apply (p_finite_spec D HD); auto.
Qed.
Print Assumptions C29_isfinite.
Example C29_isfinite_ex : s_isfinite 2 (mks 1 [2; 5; 7] [] 0 0) = true /\ s_isfinite 2 (mks 1 [2; 5; 2 ^ 64 - 4] [] 0 0) = false.
Proof. vm_compute. auto. Qed.

(** sortVertices: the pairs (vertex, neighbor) are permuted, the vertices end up in increasing order. *)
Theorem C29_sort_vertices : forall s, length (x_nbrs s) = length (x_verts s) -> N.of_nat (length (x_verts s)) <= 32768 ->
  NoDup (x_verts s) -> exists t, sort_vertices s = Val t /\ sorted (x_verts t) /\ length (x_nbrs t) = length (x_verts t) /\
    Permutation (combine (x_verts t) (x_nbrs t)) (combine (x_verts s) (x_nbrs s)) /\
    x_id t = x_id s /\ x_fp t = x_fp s /\ x_mark t = x_mark s.
Proof. exact sort_vertices_spec. Qed.
Print Assumptions C29_sort_vertices.
Example C29_sort_ex : sort_vertices (mks 1 [7; 2; 5] [17; 12; 15] 3 0) = Val (mks 1 [2; 5; 7] [12; 15; 17] 3 0).
Proof. vm_compute. reflexivity. Qed.

(** ** C30.  [over x] is what the machine computes for the undefined shift of x by 32 places. *)
Theorem C30_vertex_set : forall over vs ws, NoDup vs -> NoDup ws -> (forall v, In v vs <-> In v ws) ->
  gen_fp over vs = gen_fp over ws.
Proof. intros over vs ws H1 H2 H. apply gen_fp_perm. now apply NoDup_Permutation. Qed.
Print Assumptions C30_vertex_set.
Example C30_vertex_set_ex : gen_fp (fun _ => 0) [9; 64; 3] = gen_fp (fun _ => 0) [64; 3; 9] /\ gen_fp (fun _ => 0) [9; 64; 3] <> 0.
Proof. vm_compute. split; [reflexivity|discriminate]. Qed.

(** The face opposite to vertex [v] of [s] is the face opposite to [u] of [t]. *)
Theorem C30_shared_face : forall over s t i j v u,
  NoDup (x_verts s) -> NoDup (x_verts t) -> x_fp s = gen_fp over (x_verts s) -> x_fp t = gen_fp over (x_verts t) ->
  nth_error (x_verts s) i = Some v -> nth_error (x_verts t) j = Some u ->
  (forall x, In x (x_verts s) /\ x <> v <-> In x (x_verts t) /\ x <> u) ->
  exists h, face_fp over s i = Val h /\ face_fp over t j = Val h /\ 0 < h < 2 ^ 32.
Proof.
  intros over s t i j v u Hs Ht Fs Ft Hi Hj Hf. pose proof (face_fp_spec over s i v Fs Hi) as E1. pose proof (face_fp_spec over t j u Ft Hj) as E2.
  assert (HW : forall l k x, NoDup l -> nth_error l k = Some x -> NoDup (without k l) /\ forall y, In y (without k l) <-> In y l /\ y <> x).
  { intros l k x Hn E. pose proof (without_perm k l x E) as HP. pose proof (Permutation_NoDup HP Hn) as Hn2. inversion Hn2 as [|? ? Hni Hn3]; subst.
    split; [exact Hn3|]. intros y. split.
    - intros Hy. split; [apply (Permutation_in _ (Permutation_sym HP)); now right|]. intros ->. contradiction.
    - intros [Hy Hne]. destruct (Permutation_in _ HP Hy) as [|]; [congruence|assumption]. }
  destruct (HW _ _ _ Hs Hi) as [N1 I1]. destruct (HW _ _ _ Ht Hj) as [N2 I2].
  assert (E : gen_fp over (without i (x_verts s)) = gen_fp over (without j (x_verts t))).
  { apply C30_vertex_set; auto. intros x. rewrite I1, I2. apply Hf. }
  exists (N.lor (gen_fp over (without i (x_verts s))) 1). split; [exact E1|]. split; [rewrite E; exact E2|].
  exact (face_fp_range over s i _ Fs E1).
Qed.
Print Assumptions C30_shared_face.
Example C30_shared_face_ex : let over := fun _ => 0 in
  let s := with_fp over (mks 1 [2; 5; 7] [] 0 0) in let t := with_fp over (mks 2 [5; 6; 7] [] 0 0) in
  face_fp over s 0 = Val 801 /\ face_fp over t 1 = Val 801.
Proof. vm_compute. auto. Qed.

Theorem C30_equal_vertices : forall over s t, sorted (x_verts s) -> sorted (x_verts t) ->
  x_fp s = gen_fp over (x_verts s) -> x_fp t = gen_fp over (x_verts t) ->
  equal_vertices s t = true <-> forall x, In x (x_verts s) <-> In x (x_verts t).
Proof.
  intros over s t Hs Ht Fs Ft. rewrite (equal_vertices_spec over s t Fs Ft). split; [intros ->; reflexivity|].
  apply sorted_set_eq; assumption.
Qed.
Print Assumptions C30_equal_vertices.
(** Vertices 10 and 40 have the same image, so simplices that differ have the same fingerprint: the comparison of
    the vertices after the comparison of the fingerprints is needed. *)
Example C30_equal_ex : let over := fun _ => 0 in
  let s := with_fp over (mks 1 [1; 2; 10] [] 0 0) in let t := with_fp over (mks 2 [1; 2; 40] [] 0 0) in
  x_fp s = x_fp t /\ equal_vertices s t = false /\ equal_vertices s s = true /\ face_fp over s 0 = face_fp over t 0.
Proof. vm_compute. auto. Qed.

(** A vertex id divisible by 32 (in its low 32 bits) makes the rotation shift by the full width: undefined; without
    such a vertex the value does not depend on the machine. *)
Theorem C30_defined : forall over vs,
  gen_fp_checked vs = if forallb (fun v => negb (v mod 32 =? 0)) vs then Val (gen_fp over vs) else Undef.
Proof. exact gen_fp_checked_spec. Qed.
Print Assumptions C30_defined.
Example C30_defined_ex : gen_fp_checked [1; 2; 10] = Val 10250 /\ gen_fp_checked [1; 2; 32] = Undef.
Proof. vm_compute. auto. Qed.

(** operator== is not transitive, and equalNeighbors answers the opposite question. *)
Theorem C30_equality_refuted : exists r s t, s_eq r s = true /\ s_eq s t = true /\ s_eq r t = false.
Proof. exists (mks 1 [2; 5; 7] [] 0 0), (mks s_inf [2; 5; 7] [] 0 0), (mks 2 [2; 5; 7] [] 0 0). vm_compute. auto. Qed.
Print Assumptions C30_equality_refuted.
Theorem C30_equal_neighbors_refuted : forall s t, equal_neighbors s t = true <-> x_nbrs s <> x_nbrs t.
Proof.
  intros s t. unfold equal_neighbors. rewrite negb_true_iff. split.
  - intros H E. apply equal_arrays_spec in E. congruence.
  - intros H. destruct (equal_arrays _ _) eqn:E; [|reflexivity]. apply equal_arrays_spec in E. contradiction.
Qed.
Print Assumptions C30_equal_neighbors_refuted.
Example C30_equal_neighbors_ex : equal_neighbors (mks 1 [2; 5; 7] [3; 4; 5] 0 0) (mks 1 [2; 5; 7] [3; 4; 5] 0 0) = false.
Proof. reflexivity. Qed.
