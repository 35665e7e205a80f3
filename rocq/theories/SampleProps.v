(** C47: the adjacency graph of a sample. *)
From Coq Require Import Permutation Sorted.
From Verif Require Import Outcome ListUtil WordsModel SimplexModel SampleModel SampleSpec SampleProofs SampleSeq SampleSort.
Local Open Scope N_scope.

Section L.
Variables (D : N) (ids : list N) (wt : N -> N -> Z) (ls : list simplex).
Hypothesis ND : NoDup ids.
Notation num := (fun a => match tr_find (id_trans ids) a with Some i => i | None => O end).
Lemma num_iff a i : In a ids -> (num a = i <-> nth_error ids i = Some a).
Proof using ND.
  clear - ND. intros Ha. apply In_nth_error in Ha. destruct Ha as [k Hk]. pose proof (proj2 (trans_find ids a k ND) Hk) as E. cbn beta. rewrite E. split; [intros <-; exact Hk|].
  intros Hi. apply (trans_find ids a i ND) in Hi. congruence.
Qed.
Hypothesis Hfin : forall s a, In s ls -> In a (x_verts s) -> p_finite D a = true -> In a ids.
Notation es0 := (flat_map (edges_of D wt num) ls).
Lemma edges_iff i j w : In (i, j, w) es0 <-> adjacent D ids ls i j /\ weight_is ids wt i j w.
Proof using Hfin ND.
  rewrite in_flat_map. split.
  - intros (s & Hs & H). apply edges_of_In in H. destruct H as (Hne & a & b & Ha & Hb & Fa & Fb & Ei & Ej & ->).
    symmetry in Ei, Ej. apply num_iff in Ei; [|eauto]. apply num_iff in Ej; [|eauto]. split; [|exists a, b; auto]. split; [exact Hne|]. exists s, a, b. auto 10.
  - intros [(Hne & s & a & b & Hs & Ha & Hb & Fa & Fb & Ei & Ej) (a' & b' & Ei' & Ej' & ->)]. rewrite Ei in Ei'. rewrite Ej in Ej'. injection Ei' as <-. injection Ej' as <-.
    exists s. split; [exact Hs|]. apply edges_of_In. split; [exact Hne|]. exists a, b. repeat split; auto; symmetry; apply num_iff; eauto.
Qed.
Lemma weight_fun i j w w' : weight_is ids wt i j w -> weight_is ids wt i j w' -> w = w'.
Proof using. intros (a & b & E1 & E2 & ->) (a' & b' & E1' & E2' & ->). congruence. Qed.
Lemma adjacent_weight i j : adjacent D ids ls i j -> exists w, weight_is ids wt i j w.
Proof using. intros (_ & s & a & b & _ & _ & _ & _ & _ & E1 & E2). exists (wt a b), a, b. auto. Qed.
Lemma adjacent_edge i j : adjacent D ids ls i j <-> exists w, In (i, j, w) es0.
Proof using Hfin ND. split; [intros A; destruct (adjacent_weight i j A) as [w Hw]; exists w; now apply edges_iff|]. intros [w H]. now apply edges_iff in H. Qed.
Lemma edges_ok : Forall (edge_ok (length ids)) es0.
Proof using Hfin ND.
  apply Forall_forall. intros [[i j] w] H. apply edges_iff in H. destruct H as [_ (a & b & E1 & E2 & _)]. split; cbn [fst snd]; apply nth_error_Some; congruence.
Qed.
Lemma few_iff (P Q : nat -> nat -> Prop) : (forall i j, Q i j -> P i j) -> few P -> few Q.
Proof using. intros H F l N1 N2. apply F; auto. Qed.
End L.

Theorem C47_sequential : forall D ids wt ls srt, NoDup ids -> N.of_nat (length ids) < 2 ^ 31 ->
  (forall s a, In s ls -> In a (x_verts s) -> p_finite D a = true -> In a ids) -> few (adjacent D ids ls) -> (forall l, sorted_as l (srt l)) ->
  exists g, graph_seq D (id_trans ids) wt srt ls = Val g /\ csr (length ids) (adjacent D ids ls) (weight_is ids wt) g /\ csr_sorted g.
Proof.
  intros D ids wt ls srt ND Hn Hfin Hfew Hsrt.
  destruct (seq_ok D wt (id_trans ids) srt ls) as (g & L & Hg & HS & Hso & HL).
  - now rewrite id_trans_length.
  - rewrite id_trans_length. now apply edges_ok.
  - eapply few_iff; [|exact Hfew]. intros i j H. eapply adjacent_edge; eassumption.
  - intros i j w w' H H'. apply (edges_iff D ids wt ls ND Hfin) in H, H'. eapply weight_fun; [apply H|apply H'].
  - exact Hsrt.
  - rewrite id_trans_length in *. exists g. split; [exact Hg|]. split; [|now apply (slices_sorted (length ids) L)]. apply (slices_csr (length ids) L); [exact HS| | | |].
    + intros i j (_ & s & a & b & _ & _ & _ & _ & _ & E & _). apply nth_error_Some. congruence.
    + intros i j Hi. rewrite (adjacent_edge D ids wt ls ND Hfin i j), in_map_iff. split.
      * intros [w H]. exists (j, w). split; [reflexivity|]. now apply HL.
      * intros ([j' w] & E & H). cbn in E. subst j'. exists w. now apply HL.
    + intros i Hi. apply ssorted_nodup, Hso, Hi.
    + intros i j w Hi H. apply HL in H; [|exact Hi]. now apply (edges_iff D ids wt ls ND Hfin) in H.
Qed.
Print Assumptions C47_sequential.

(** [es]: the edges in the order the tasks insert them, any interleaving; [order]: the order they are assigned in. *)
Theorem C47_parallel : forall D ids wt ls, NoDup ids -> N.of_nat (length ids) < 2 ^ 31 ->
  (forall s a, In s ls -> In a (x_verts s) -> In a ids) -> few (adjacent D ids ls) ->
  exists es0, all_edges D wt (look_par (id_trans ids)) ls = Val es0 /\
  forall es order, Permutation es0 es -> (forall m, Permutation m (order m)) ->
  exists g, graph_par (id_trans ids) es order = Val g /\ csr (length ids) (adjacent D ids ls) (weight_is ids wt) g.
Proof.
  intros D ids wt ls ND Hn Hv Hfew. set (num := fun a => match tr_find (id_trans ids) a with Some i => i | None => O end).
  assert (Hfin : forall s a, In s ls -> In a (x_verts s) -> p_finite D a = true -> In a ids) by eauto.
  exists (flat_map (edges_of D wt num) ls). split.
  { apply all_edges_val. intros s a Hs Ha. unfold look_par, num. destruct (In_nth_error _ _ (Hv s a Hs Ha)) as [i Hi]. apply (trans_find ids a i ND) in Hi. now rewrite Hi. }
  intros es order HP Hord.
  assert (HI : forall e, In e es <-> In e (flat_map (edges_of D wt num) ls)) by (intros e; split; apply Permutation_in; [symmetry|]; exact HP).
  destruct (par_ok (length ids) Hn (id_trans ids) (id_trans_length ids) es) with (order := order) as (g & L & Hg & HS & N1 & N2 & N3).
  - rewrite Forall_forall. intros e He. apply HI in He. pose proof (edges_ok D ids wt ls ND Hfin) as F. rewrite Forall_forall in F. auto.
  - eapply few_iff; [|exact Hfew]. intros i j [w H]. apply HI in H. apply (adjacent_edge D ids wt ls ND Hfin). eauto.
  - exact Hord.
  - exists g. split; [exact Hg|]. apply (slices_csr (length ids) L); [exact HS| | | |].
    + intros i j (_ & s & a & b & _ & _ & _ & _ & _ & E & _). apply nth_error_Some. congruence.
    + intros i j Hi. rewrite (N2 i j Hi), (adjacent_edge D ids wt ls ND Hfin i j). split; intros [w H]; exists w; now apply HI.
    + exact N1.
    + intros i j w Hi H. apply N3 in H; [|exact Hi]. apply HI in H. now apply (edges_iff D ids wt ls ND Hfin) in H.
Qed.
Print Assumptions C47_parallel.

(** With REPRODUCIBLE the parallel version gives the graph of the sequential one, whatever the schedule. *)
Theorem C47_reproducible : forall D ids wt ls srt, NoDup ids -> N.of_nat (length ids) < 2 ^ 31 ->
  (forall s a, In s ls -> In a (x_verts s) -> In a ids) -> few (adjacent D ids ls) -> (forall l, sorted_as l (srt l)) ->
  exists es0 g, all_edges D wt (look_par (id_trans ids)) ls = Val es0 /\ graph_seq D (id_trans ids) wt srt ls = Val g /\
  forall es order nodes, Permutation es0 es -> (forall m, Permutation m (order m)) -> Permutation (seq 0 (length ids)) nodes ->
  rbind (graph_par (id_trans ids) es order) (fun h => sort_nodes h nodes) = Val g.
Proof.
  intros D ids wt ls srt ND Hn Hv Hfew Hsrt. set (num := fun a => match tr_find (id_trans ids) a with Some i => i | None => O end).
  assert (Hfin : forall s a, In s ls -> In a (x_verts s) -> p_finite D a = true -> In a ids) by eauto.
  set (es0 := flat_map (edges_of D wt num) ls).
  destruct (seq_ok D wt (id_trans ids) srt ls) as (g & L & Hg & HS & Hso & HL).
  { now rewrite id_trans_length. }
  { rewrite id_trans_length. now apply edges_ok. }
  { eapply few_iff; [|exact Hfew]. intros i j H. eapply adjacent_edge; eassumption. }
  { intros i j w w' H H'. apply (edges_iff D ids wt ls ND Hfin) in H, H'. eapply weight_fun; [apply H|apply H']. }
  { exact Hsrt. }
  rewrite id_trans_length in *. exists es0, g. split; [|split; [exact Hg|]].
  { apply all_edges_val. intros s a Hs Ha. unfold look_par, num. destruct (In_nth_error _ _ (Hv s a Hs Ha)) as [i Hi]. apply (trans_find ids a i ND) in Hi. now rewrite Hi. }
  intros es order nodes HP Hord Hnodes.
  assert (HI : forall e, In e es <-> In e es0) by (intros e; split; apply Permutation_in; [symmetry|]; exact HP).
  destruct (par_ok (length ids) Hn (id_trans ids) (id_trans_length ids) es) with (order := order) as (h & L1 & Hh & HS1 & N1 & N2 & N3).
  { rewrite Forall_forall. intros e He. apply HI in He. pose proof (edges_ok D ids wt ls ND Hfin) as F. rewrite Forall_forall in F. auto. }
  { eapply few_iff; [|exact Hfew]. intros i j [w H]. apply HI in H. apply (adjacent_edge D ids wt ls ND Hfin). eauto. }
  { exact Hord. }
  rewrite Hh. cbn [rbind]. destruct (sort_nodes_ok _ L1 h nodes HS1 N1 Hnodes) as (g' & L2 & -> & HS2 & H2). f_equal.
  eapply slices_unique; [|exact HS]. eapply slices_ext; [|exact HS2]. intros i Hi. destruct (H2 i Hi) as [S2 P2]. apply ssorted_ext; [exact S2|now apply Hso|].
  assert (E1 : forall j w, In (j, w) (L1 i) <-> In (i, j, w) es0).
  { intros j w. split; [intros H; apply HI; now apply N3|]. intros H. assert (Hj : In j (map fst (L1 i))) by (apply N2; [exact Hi|]; exists w; now apply HI).
    apply in_map_iff in Hj. destruct Hj as ([j' w'] & E & Hj). cbn in E. subst j'. pose proof (N3 i j w' Hi Hj) as H'. apply HI in H'.
    apply (edges_iff D ids wt ls ND Hfin) in H, H'. replace w with w' by (eapply weight_fun; [apply H'|apply H]). exact Hj. }
  intros [j w]. rewrite (HL i j w Hi). fold num es0. rewrite <- E1. split; apply Permutation_in; [symmetry|]; exact P2.
Qed.
Print Assumptions C47_reproducible.

(** An edge is stored from both ends, with the same weight if the weight of a pair does not depend on its order. *)
Theorem C47_symmetric : forall D ids wt ls n g, csr n (adjacent D ids ls) (weight_is ids wt) g -> (forall a b, wt a b = wt b a) ->
  forall i k j w, entry_of g i k -> nth_error (g_adj g) k = Some j -> nth_error (g_wt g) k = Some w ->
  exists k', entry_of g j k' /\ nth_error (g_adj g) k' = Some i /\ nth_error (g_wt g) k' = Some w.
Proof.
  intros D ids wt ls n g H Sym i k j w He Hj Hw.
  assert (A : adjacent D ids ls j i). { destruct (csr_entry _ _ _ _ H i k j He Hj) as (Hne & s & a & b & H1 & H2 & H3 & H4 & H5 & H6 & H7). split; [auto|]. exists s, b, a. auto 10. }
  destruct (csr_all _ _ _ _ H j i A) as (k' & He' & Hi). exists k'. split; [exact He'|]. split; [exact Hi|].
  assert (Lk : (k' < length (g_wt g))%nat) by (rewrite (csr_wts _ _ _ _ H); now apply nth_error_lt in Hi). destruct (nth_error_ex _ _ Lk) as [w' Hw'].
  destruct (csr_weight _ _ _ _ H i k j w He Hj Hw) as (a & b & E1 & E2 & ->). destruct (csr_weight _ _ _ _ H j k' i w' He' Hi Hw') as (b' & a' & E1' & E2' & ->).
  rewrite Hw'. f_equal. rewrite E1 in E2'. rewrite E2 in E1'. injection E2' as <-. injection E1' as <-. apply Sym.
Qed.
Print Assumptions C47_symmetric.

(** ** Cases *)
(** Sorting by insertion. *)
Fixpoint put (e : nat * Z) (l : list (nat * Z)) : list (nat * Z) := match l with [] => [e] | x :: r => if Nat.leb (fst e) (fst x) then e :: l else x :: put e r end.
Definition isort (l : list (nat * Z)) : list (nat * Z) := fold_right put [] l.
Lemma put_perm e : forall l, Permutation (e :: l) (put e l).
Proof. induction l as [|x r IH]; cbn [put]; [reflexivity|]. destruct (Nat.leb _ _); [reflexivity|]. rewrite perm_swap. now apply perm_skip. Qed.
Lemma put_sorted e : forall l, StronglySorted (fun a b => (fst a <= fst b)%nat) l -> StronglySorted (fun a b => (fst a <= fst b)%nat) (put e l).
Proof.
  induction 1 as [|x l HS IH F]; cbn [put]; [repeat constructor|]. destruct (Nat.leb_spec (fst e) (fst x)) as [Le|Gt].
  - constructor; [now constructor|]. constructor; [exact Le|]. eapply Forall_impl; [|exact F]. cbn. intros. lia.
  - constructor; [exact IH|]. apply Forall_forall. intros b Hb. apply (Permutation_in _ (Permutation_sym (put_perm e l))) in Hb. destruct Hb as [<-|Hb]; [lia|]. rewrite Forall_forall in F. auto.
Qed.
Lemma isort_ok l : sorted_as l (isort l).
Proof.
  assert (H : Permutation l (isort l) /\ StronglySorted (fun a b => (fst a <= fst b)%nat) (isort l)).
  { induction l as [|e l [IH1 IH2]]; cbn [isort fold_right]; [split; [constructor|constructor]|]. split; [|apply put_sorted, IH2]. rewrite <- put_perm. now apply perm_skip. }
  destruct H as [H1 H2]. split; [exact H1|]. revert H2. generalize (isort l). clear. induction 1 as [|x l HS IH F]; intros i j a b Lt Hi Hj; [destruct i; discriminate|].
  destruct j as [|j]; [lia|]. cbn [nth_error] in Hj. destruct i as [|i]; cbn [nth_error] in Hi; [injection Hi as <-; rewrite Forall_forall in F; apply F; eapply nth_error_In, Hj|].
  apply (IH i j a b); auto. lia.
Qed.
(** Two triangles 10, 20, 30 and 20, 30, 40 over a common side. *)
Definition two_ids : list N := [30; 10; 40; 20].
Definition two : list simplex := [mks 0 [10; 20; 30] [] 0 0; mks 1 [20; 30; 40] [] 0 0].
Definition two_wt (a b : N) : Z := Z.of_N (a + b).
Lemma few_small n (P : nat -> nat -> Prop) : (forall i j, P i j -> (i < n /\ j < n)%nat) -> N.of_nat (n * n) < 2 ^ 31 -> few P.
Proof.
  intros H Hn l N1 N2. assert (L : (length l <= length (list_prod (seq 0 n) (seq 0 n)))%nat).
  { apply NoDup_incl_length; [exact N1|]. intros [i j] Hp. apply in_prod; apply in_seq; specialize (H i j (N2 _ Hp)); lia. }
  rewrite prod_length, seq_length in L. lia.
Qed.
Lemma two_few : few (adjacent 2 two_ids two).
Proof.
  apply (few_small 4); [|reflexivity]. intros i j (_ & s & a & b & _ & _ & _ & _ & _ & E1 & E2). split; [apply nth_error_lt in E1; exact E1|apply nth_error_lt in E2; exact E2].
Qed.
Lemma two_in s a : In s two -> In a (x_verts s) -> In a two_ids.
Proof. intros [<-|[<-|[]]] [<-|[<-|[<-|[]]]]; cbn; auto 10. Qed.
Lemma two_nd : NoDup two_ids.
Proof. unfold two_ids. repeat (constructor; [cbn; intuition discriminate|]). constructor. Qed.
Example C47_case : exists g, graph_seq 2 (id_trans two_ids) two_wt isort two = Val g /\
  csr 4 (adjacent 2 two_ids two) (weight_is two_ids two_wt) g /\ csr_sorted g.
Proof. apply (C47_sequential 2 two_ids two_wt two isort two_nd); [reflexivity| |apply two_few|apply isort_ok]. intros s a H1 H2 _. eapply two_in; eassumption. Qed.
Example C47_value : graph_seq 2 (id_trans two_ids) two_wt isort two =
  Val (mkg [0; 3; 5; 7; 10]%nat [1; 2; 3; 0; 3; 0; 3; 0; 1; 2]%nat [40; 70; 50; 40; 30; 70; 60; 50; 30; 60]%Z).
Proof. reflexivity. Qed.
(** The last insertion first, the entries assigned backwards. *)
Example C47_par_value : rbind (all_edges 2 two_wt (look_par (id_trans two_ids)) two) (fun es => graph_par (id_trans two_ids) (rev es) (@rev _)) =
  Val (mkg [0; 3; 5; 7; 10]%nat [1; 3; 2; 3; 0; 3; 0; 1; 0; 2]%nat [40; 50; 70; 30; 40; 60; 70; 30; 50; 60]%Z).
Proof. vm_compute. reflexivity. Qed.
Example C47_case_par : exists es0 g, all_edges 2 two_wt (look_par (id_trans two_ids)) two = Val es0 /\ graph_seq 2 (id_trans two_ids) two_wt isort two = Val g /\
  forall es order nodes, Permutation es0 es -> (forall m, Permutation m (order m)) -> Permutation (seq 0 4) nodes ->
  rbind (graph_par (id_trans two_ids) es order) (fun h => sort_nodes h nodes) = Val g.
Proof. apply (C47_reproducible 2 two_ids two_wt two isort two_nd); [reflexivity|apply two_in|apply two_few|apply isort_ok]. Qed.
