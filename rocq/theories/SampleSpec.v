(** A graph in compressed form: what nodeRecords, adjacency and edgeWeights are to mean. *)
From Verif Require Import Outcome ListUtil SimplexModel SampleModel.
Local Open Scope N_scope.

(** [i] and [j] number different points of [ids] that are finite vertices of a common simplex. *)
Definition adjacent (D : N) (ids : list N) (ls : list simplex) (i j : nat) : Prop :=
  i <> j /\ exists s a b, In s ls /\ In a (x_verts s) /\ In b (x_verts s) /\ p_finite D a = true /\ p_finite D b = true /\
  nth_error ids i = Some a /\ nth_error ids j = Some b.

(** [n] nodes; the entries of node [i] are those from nodeRecords[i] to before nodeRecords[i+1]. *)
Definition entry_of (g : graph) (i k : nat) : Prop :=
  exists b e, nth_error (g_rec g) i = Some b /\ nth_error (g_rec g) (S i) = Some e /\ (b <= k < e)%nat.

Record csr (n : nat) (adj : nat -> nat -> Prop) (wt : nat -> nat -> Z -> Prop) (g : graph) : Prop := {
  csr_len : length (g_rec g) = S n;
  csr_first : nth_error (g_rec g) 0 = Some O;
  csr_last : nth_error (g_rec g) n = Some (length (g_adj g));
  csr_wts : length (g_wt g) = length (g_adj g);
  csr_mono : forall i b e, nth_error (g_rec g) i = Some b -> nth_error (g_rec g) (S i) = Some e -> (b <= e)%nat;
  (** the entries of a node are its neighbors, each once, with their weights *)
  csr_entry : forall i k j, entry_of g i k -> nth_error (g_adj g) k = Some j -> adj i j;
  csr_all : forall i j, adj i j -> exists k, entry_of g i k /\ nth_error (g_adj g) k = Some j;
  csr_once : forall i k k' j, entry_of g i k -> entry_of g i k' -> nth_error (g_adj g) k = Some j -> nth_error (g_adj g) k' = Some j -> k = k';
  csr_weight : forall i k j w, entry_of g i k -> nth_error (g_adj g) k = Some j -> nth_error (g_wt g) k = Some w -> wt i j w }.

(** The neighbors of each node in increasing order. *)
Definition csr_sorted (g : graph) : Prop :=
  forall i k k' j j', entry_of g i k -> entry_of g i k' -> (k < k')%nat ->
  nth_error (g_adj g) k = Some j -> nth_error (g_adj g) k' = Some j' -> (j < j')%nat.
(** The weight of the edge from [i] to [j]. *)
Definition weight_is (ids : list N) (wt : N -> N -> Z) (i j : nat) (w : Z) : Prop :=
  exists a b, nth_error ids i = Some a /\ nth_error ids j = Some b /\ w = wt a b.
(** Fewer than 2^31 pairs (the number of edges fits into int). *)
Definition few (P : nat -> nat -> Prop) : Prop :=
  forall l, NoDup l -> (forall p, In p l -> P (fst p) (snd p)) -> N.of_nat (length l) < 2 ^ 31.
