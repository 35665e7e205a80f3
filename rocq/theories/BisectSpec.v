(** What is said of the partitioners that split in two, C62 to C64. *)
From Coq Require Import Reals.
From Verif Require Import Outcome PointModel GeoModel GeoSpec SampleModel BisectModel.
Open Scope list_scope.
Import ListNotations.

(** The subtree reached from the root by the turns of a path. *)
Inductive at_path {C : Type} : ptree C -> list bool -> ptree C -> Prop :=
| at_here t : at_path t [] t
| at_left ck l r p u : at_path l p u -> at_path (PNode ck l r) (false :: p) u
| at_right ck l r p u : at_path r p u -> at_path (PNode ck l r) (true :: p) u.
(** The leaf at a path holds these ids. *)
Definition leaf_ids {C} (t : ptree C) (p : list bool) (ids : list N) : Prop := exists ck, at_path t p (PLeaf ck ids).
(** The checker of a tree. *)
Definition ck_of {C} (t : ptree C) : option C := match t with PLeaf ck _ => ck | PNode ck _ _ => ck end.
(** The leaves divide the finite ids of [ids]: each is in exactly one; a leaf has no other ids than these and infinite ones, none
    of them twice. *)
Definition divided {C} (fin : N -> bool) (ids : list N) (t : ptree C) : Prop :=
  (forall i, In i ids -> fin i = true -> exists p l, leaf_ids t p l /\ In i l /\ forall p' l', leaf_ids t p' l' -> In i l' -> p' = p) /\
  (forall p l, leaf_ids t p l -> NoDup l /\ forall i, In i l -> In i ids \/ fin i = false).
(** A checker answers yes for all spheres around or through a finite point of [ids]. *)
Definition covers {C} (D : nat) (meets : C -> sphere -> bool) (fin : N -> bool) (co : N -> vec) (ck : C) (ids : list N) : Prop :=
  forall i s, In i ids -> fin i = true -> in_ball D s (co i) -> meets ck s = true.
(** The scalar product. *)
Definition dot (D : nat) (a b : vec) : R := sumn D (fun d => (a d * b d)%R).

(** A sampling: one label and one position for every node, edges between nodes. *)
Definition samp_ok (sm : samp) : Prop :=
  exists n, length (sm_part sm) = n /\ length (sm_pts sm) = n /\ length (g_rec (sm_g sm)) = S n /\
  (forall r, In r (g_rec (sm_g sm)) -> (r <= length (g_adj (sm_g sm)))%nat) /\ forall b, In b (g_adj (sm_g sm)) -> (b < n)%nat.
(** Node [b] is in the adjacency list of node [a]. *)
Definition edge_of (sm : samp) (a b : nat) : Prop :=
  exists lo hi i, nth_error (g_rec (sm_g sm)) a = Some lo /\ nth_error (g_rec (sm_g sm)) (S a) = Some hi /\ (lo <= i < hi)%nat /\ nth_error (g_adj (sm_g sm)) i = Some b.
(** [m] is the midpoint of an edge whose ends have labels in the relation [cut]. *)
Definition cut_mid (sm : samp) (cut : Z -> Z -> Prop) (m : vec) : Prop :=
  exists a b pa pb x y, edge_of sm a b /\ nth_error (sm_part sm) a = Some pa /\ nth_error (sm_part sm) b = Some pb /\ cut pa pb /\
    nth_error (sm_pts sm) a = Some x /\ nth_error (sm_pts sm) b = Some y /\ forall d, (m d = (x d + y d) / 2)%R.
