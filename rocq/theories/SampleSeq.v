From Coq Require Import Permutation Sorted.
From Verif Require Import Outcome ListUtil WordsModel SimplexModel SampleModel SampleSpec SampleProofs.
Local Open Scope N_scope.

(** ** Strictly sorted lists *)
Notation ssorted := (StronglySorted (fun a b : nat * Z => (fst a < fst b)%nat)).
Lemma ssorted_nodup l : ssorted l -> NoDup (map fst l).
Proof.
  induction 1 as [|a l HS IH F]; cbn [map]; constructor; [|exact IH]. intros H. apply in_map_iff in H. destruct H as (b & E & Hb). rewrite Forall_forall in F. specialize (F b Hb). lia.
Qed.
Lemma ssorted_ext : forall l l', ssorted l -> ssorted l' -> (forall e, In e l <-> In e l') -> l = l'.
Proof.
  induction l as [|a l IH]; intros [|b l'] H H' E; [reflexivity| | |].
  - exfalso. apply (E b). now left.
  - exfalso. apply (E a). now left.
  - inversion_clear H as [|? ? HS F]. inversion_clear H' as [|? ? HS' F']. rewrite Forall_forall in F, F'.
    assert (a = b).
    { destruct (proj1 (E a) (or_introl eq_refl)) as [->|Ha]; [reflexivity|]. destruct (proj2 (E b) (or_introl eq_refl)) as [->|Hb]; [reflexivity|].
      specialize (F b Hb). specialize (F' a Ha). lia. }
    subst b. f_equal. apply IH; [assumption|assumption|]. intros e. split; intros He.
    + destruct (proj1 (E e) (or_intror He)) as [<-|Hx]; [|exact Hx]. specialize (F a He). lia.
    + destruct (proj2 (E e) (or_intror He)) as [<-|Hx]; [|exact Hx]. specialize (F' a He). lia.
Qed.

(** ** Sorting and removing equal neighbors *)
Lemma sorted_as_sorted l l' : sorted_as l l' -> StronglySorted (fun a b => (fst a <= fst b)%nat) l'.
Proof.
  intros [_ H]. revert H. clear l. induction l' as [|a l IH]; intros H; constructor.
  - apply IH. intros i j x y Lt Hi Hj. apply (H (S i) (S j) x y); auto. lia.
  - apply Forall_forall. intros b Hb. apply In_nth_error in Hb. destruct Hb as [j Hj]. apply (H 0%nat (S j) a b); auto. lia.
Qed.
Lemma unique_eq a b r : unique (a :: b :: r) =
  if Nat.eqb (fst a) (fst b) && Z.eqb (snd a) (snd b) then match unique (b :: r) with [] => [] | _ :: u => a :: u end else a :: unique (b :: r).
Proof. reflexivity. Qed.
Lemma unique_head : forall r a, exists u, unique (a :: r) = a :: u.
Proof.
  induction r as [|b r IH]; intros a; [exists []; reflexivity|]. rewrite unique_eq. destruct (Nat.eqb (fst a) (fst b) && Z.eqb (snd a) (snd b)); [|eauto].
  destruct (IH b) as [u ->]. eauto.
Qed.
Lemma unique_In : forall l e, In e (unique l) <-> In e l.
Proof.
  induction l as [|a [|b r] IH]; intros e; [reflexivity|reflexivity|]. rewrite unique_eq.
  destruct (Nat.eqb (fst a) (fst b) && Z.eqb (snd a) (snd b)) eqn:E.
  - apply andb_true_iff in E. destruct E as [E1 E2]. apply Nat.eqb_eq in E1. apply Z.eqb_eq in E2.
    assert (a = b) by (destruct a, b; cbn in *; congruence). subst b. specialize (IH e). destruct (unique_head r a) as [u Hu]. rewrite Hu in *. cbn [In] in *. tauto.
  - cbn [In]. rewrite (IH e). cbn [In]. tauto.
Qed.
Lemma unique_sorted : forall l, StronglySorted (fun a b => (fst a <= fst b)%nat) l -> (forall a b, In a l -> In b l -> fst a = fst b -> a = b) -> ssorted (unique l).
Proof.
  induction l as [|a [|b r] IH]; intros HS HF; [constructor|repeat constructor|]. rewrite unique_eq.
  inversion_clear HS as [|? ? HS' F].
  assert (IH' : ssorted (unique (b :: r))) by (apply IH; [exact HS'|]; intros; apply HF; auto; now right).
  destruct (Nat.eqb (fst a) (fst b) && Z.eqb (snd a) (snd b)) eqn:E.
  - apply andb_true_iff in E. destruct E as [E1 E2]. apply Nat.eqb_eq in E1. apply Z.eqb_eq in E2.
    assert (a = b) by (destruct a, b; cbn in *; congruence). subst b. destruct (unique_head r a) as [u Hu]. rewrite Hu in *. exact IH'.
  - constructor; [exact IH'|]. apply Forall_forall. intros e He. apply (proj1 (unique_In (b :: r) e)) in He. rewrite Forall_forall in F. pose proof (F e He) as Le.
    assert (Lb := F b (or_introl eq_refl)).
    assert (Hab : fst a <> fst b). { intros X. rewrite (HF a b) in E; [|now left|right; now left|exact X]. rewrite Nat.eqb_refl, Z.eqb_refl in E. discriminate. }
    destruct He as [<-|He]; [lia|]. inversion_clear HS' as [|? ? _ F2]. rewrite Forall_forall in F2. specialize (F2 e He). lia.
Qed.

(** ** The adjacency lists *)
Definition ent2 (e : nat * nat * Z) : nat * Z := (snd (fst e), snd e).
Definition raw (es : list (nat * nat * Z)) (i : nat) : list (nat * Z) := map ent2 (filter (fun e => Nat.eqb (fst (fst e)) i) es).
Lemma raw_In es i j w : In (j, w) (raw es i) <-> In (i, j, w) es.
Proof.
  unfold raw. rewrite in_map_iff. split.
  - intros ([[i' j'] w'] & E & H). apply filter_In in H. destruct H as [H1 H2]. cbn [fst snd ent2] in *. apply Nat.eqb_eq in H2. unfold ent2 in E. cbn in E. congruence.
  - intros H. exists (i, j, w). split; [reflexivity|]. apply filter_In. split; [exact H|]. apply Nat.eqb_refl.
Qed.
Lemma push_ok n : forall es P adj, Forall (fun e => (fst (fst e) < n)%nat) es -> length adj = n -> (forall i, (i < n)%nat -> nth_error adj i = Some (raw P i)) ->
  exists adj', fold_left push_edge es (Val adj) = Val adj' /\ length adj' = n /\ forall i, (i < n)%nat -> nth_error adj' i = Some (raw (P ++ es) i).
Proof.
  induction es as [|e es IH]; intros P adj He Hl Ha; [exists adj; rewrite app_nil_r; auto|]. inversion_clear He as [|? ? H1 H2]. cbn [fold_left]. unfold push_edge at 2.
  cbn [rbind]. rewrite (Ha _ H1). replace (P ++ e :: es) with ((P ++ [e]) ++ es) by now rewrite <- app_assoc. apply IH; [exact H2|now rewrite upd_length|].
  intros i Hi. unfold raw. rewrite filter_app, map_app. cbn [filter]. destruct (Nat.eqb_spec (fst (fst e)) i) as [E|E].
  - subst i. rewrite nth_error_upd_eq by lia. reflexivity.
  - rewrite nth_error_upd_neq by lia. cbn [map]. rewrite app_nil_r. apply Ha, Hi.
Qed.

Section Seq.
Variables (D : N) (wt : N -> N -> Z) (tr : list (N * nat)).
Notation f := (fun a => match tr_find tr a with Some i => i | None => O end).

Lemma adjacency_ok ls : let es := flat_map (edges_of D wt f) ls in Forall (fun e => (fst (fst e) < length tr)%nat) es ->
  exists adj, adjacency_list D tr wt ls = Val adj /\ length adj = length tr /\ forall i, (i < length tr)%nat -> nth_error adj i = Some (raw es i).
Proof.
  cbn zeta. unfold adjacency_list.
  assert (G : forall ls P adj, Forall (fun e => (fst (fst e) < length tr)%nat) (flat_map (edges_of D wt f) ls) -> length adj = length tr ->
    (forall i, (i < length tr)%nat -> nth_error adj i = Some (raw P i)) ->
    exists adj', fold_left (fun adj s => rbind adj (fun adj => rbind (simplex_edges D wt (look_seq tr) s) (fun es => fold_left push_edge es (Val adj)))) ls (Val adj) = Val adj' /\
      length adj' = length tr /\ forall i, (i < length tr)%nat -> nth_error adj' i = Some (raw (P ++ flat_map (edges_of D wt f) ls) i)).
  { clear ls. induction ls as [|s ls IH]; intros P adj HF Hl Ha; cbn [fold_left flat_map] in *; [exists adj; rewrite app_nil_r; auto|].
    apply Forall_app in HF. destruct HF as [HF1 HF2]. cbn [rbind]. rewrite (simplex_edges_val D wt _ f s) by reflexivity. cbn [rbind].
    destruct (push_ok (length tr) _ P adj HF1 Hl Ha) as (adj1 & E1 & L1 & A1). rewrite E1. rewrite app_assoc. apply IH; auto. }
  intros HF. apply (G ls []); [exact HF|apply repeat_length|]. intros i Hi. rewrite nth_error_repeat by lia. reflexivity.
Qed.

End Seq.

Lemma records_length : forall adj s, length (records s adj) = S (length adj).
Proof. induction adj as [|l r IH]; intros s; cbn [records length]; [reflexivity|]. now rewrite IH. Qed.
Definition lst (adj : list (list (nat * Z))) (i : nat) : list (nat * Z) := nth i adj [].
Lemma off_cons l r i : off (lst (l :: r)) (S i) = (length l + off (lst r) i)%nat.
Proof. induction i as [|i IH]; [cbn; lia|]. cbn [off] in *. rewrite IH. unfold lst. cbn [nth]. lia. Qed.
Lemma records_nth : forall adj s i, (i <= length adj)%nat -> nth_error (records s adj) i = Some (s + off (lst adj) i)%nat.
Proof.
  induction adj as [|l r IH]; intros s i Hi; cbn [records length] in *.
  - replace i with O by lia. cbn. f_equal. lia.
  - destruct i as [|i]; cbn [nth_error]; [cbn; f_equal; lia|]. rewrite IH by lia. rewrite off_cons. f_equal. lia.
Qed.
Lemma concat_length : forall adj : list (list (nat * Z)), length (concat adj) = off (lst adj) (length adj).
Proof. induction adj as [|l r IH]; [reflexivity|]. cbn [concat length]. rewrite app_length, off_cons, IH. reflexivity. Qed.
Lemma concat_nth : forall adj i r e, nth_error (lst adj i) r = Some e -> nth_error (concat adj) (off (lst adj) i + r) = Some e.
Proof.
  induction adj as [|l q IH]; intros i r e H; [unfold lst in H; destruct i, r; discriminate|]. destruct i as [|i]; cbn [concat].
  - cbn [off Nat.add]. unfold lst in H. cbn [nth] in H. rewrite nth_error_app1; [exact H|]. now apply nth_error_lt in H.
  - rewrite off_cons, nth_error_app2 by lia. replace (length l + off (lst q) i + r - length l)%nat with (off (lst q) i + r)%nat by lia. apply IH. exact H.
Qed.
Lemma to_graph_ok adj : N.of_nat (length (concat adj)) < 2 ^ 31 -> N.of_nat (length adj) < 2 ^ 31 ->
  exists g, to_graph adj = Val g /\ slices (length adj) (lst adj) g.
Proof.
  intros H1 H2. unfold to_graph, is_int. rewrite (proj2 (N.ltb_lt _ _) H1), (proj2 (N.ltb_lt _ _) H2). cbn [andb]. eexists. split; [reflexivity|].
  constructor; cbn [g_rec g_adj g_wt].
  - apply records_length.
  - intros i Hi. rewrite records_nth by exact Hi. reflexivity.
  - now rewrite map_length, concat_length.
  - now rewrite map_length, concat_length.
  - intros i r e Hi He. rewrite !nth_error_map, (concat_nth _ _ _ _ He). split; reflexivity.
Qed.

(** ** The sequential graph *)
Lemma concat_pairs (P : nat -> nat -> Prop) : forall (adj : list (list (nat * Z))) k, (forall i l, nth_error adj i = Some l -> NoDup (map fst l) /\ forall j, In j (map fst l) -> P (k + i)%nat j) ->
  exists l, NoDup l /\ length l = length (concat adj) /\ forall p, In p l -> (k <= fst p)%nat /\ P (fst p) (snd p).
Proof.
  induction adj as [|a adj IH]; intros k H; [exists []; split; [apply NoDup_nil|]; split; [reflexivity|]; intros p Hp; destruct Hp|].
  destruct (IH (S k)) as (l & N1 & N2 & N3). { intros i x Hx. destruct (H (S i) x Hx) as [A B]. split; [exact A|]. intros j Hj. replace (S k + i)%nat with (k + S i)%nat by lia. auto. }
  destruct (H O a eq_refl) as [A B]. rewrite Nat.add_0_r in B. exists (map (fun j => (k, j)) (map fst a) ++ l). repeat split.
  - apply BlockProofs.NoDup_app_intro; [|exact N1|].
    + apply FinFun.Injective_map_NoDup; [|exact A]. intros x y E. congruence.
    + intros p Hp Hp'. apply in_map_iff in Hp. destruct Hp as (j & <- & _). apply N3 in Hp'. cbn [fst] in Hp'. lia.
  - cbn [concat]. rewrite !app_length, !map_length. lia.
  - apply in_app_or in H0. destruct H0 as [Hp|Hp]; [apply in_map_iff in Hp; destruct Hp as (j & <- & _); cbn; lia|apply N3 in Hp; lia].
  - apply in_app_or in H0. destruct H0 as [Hp|Hp]; [|now apply N3 in Hp]. apply in_map_iff in Hp. destruct Hp as (j & <- & Hj). cbn [fst snd]. auto.
Qed.

Lemma seq_ok D wt tr srt ls : let f := fun a => match tr_find tr a with Some i => i | None => O end in let es := flat_map (edges_of D wt f) ls in
  N.of_nat (length tr) < 2 ^ 31 -> Forall (edge_ok (length tr)) es -> few (fun i j => exists w, In (i, j, w) es) ->
  (forall i j w w', In (i, j, w) es -> In (i, j, w') es -> w = w') -> (forall l, sorted_as l (srt l)) ->
  exists g L, graph_seq D tr wt srt ls = Val g /\ slices (length tr) L g /\ (forall i, (i < length tr)%nat -> ssorted (L i)) /\
  (forall i j w, (i < length tr)%nat -> (In (j, w) (L i) <-> In (i, j, w) es)).
Proof.
  intros f es Hn Hes Hfew Hfun Hsrt. unfold graph_seq.
  destruct (adjacency_ok D wt tr ls) as (adj & -> & La & Ha). { eapply Forall_impl; [|exact Hes]. intros e [He _]. exact He. }
  fold f es in Ha. cbn [rbind]. set (L := fun i => unique (srt (raw es i))).
  assert (InL : forall i j w, In (j, w) (L i) <-> In (i, j, w) es).
  { intros i j w. unfold L. rewrite unique_In, <- raw_In. split; apply Permutation_in; [symmetry|]; apply Hsrt. }
  assert (SL : forall i, ssorted (L i)).
  { intros i. apply unique_sorted; [eapply sorted_as_sorted, Hsrt|]. intros [j w] [j' w'] H1 H2 E. cbn in E. subst j'.
    apply (Permutation_in _ (Permutation_sym (proj1 (Hsrt (raw es i))))) in H1. apply (Permutation_in _ (Permutation_sym (proj1 (Hsrt (raw es i))))) in H2.
    apply raw_In in H1. apply raw_In in H2. f_equal. eauto. }
  set (adj' := map (fun l => unique (srt l)) adj).
  assert (La' : length adj' = length tr) by (unfold adj'; now rewrite map_length).
  assert (Ha' : forall i, (i < length tr)%nat -> nth_error adj' i = Some (L i)). { intros i Hi. unfold adj'. rewrite nth_error_map, (Ha i Hi). reflexivity. }
  assert (Small : N.of_nat (length (concat adj')) < 2 ^ 31).
  { destruct (concat_pairs (fun i j => exists w, In (i, j, w) es) adj' 0) as (l & N1 & N2 & N3).
    - intros i l Hl. assert (Hi : (i < length tr)%nat) by (apply nth_error_lt in Hl; lia). rewrite (Ha' i Hi) in Hl. injection Hl as <-. split; [apply ssorted_nodup, SL|].
      intros j Hj. apply in_map_iff in Hj. destruct Hj as ([j' w] & E & Hin). cbn in E. subst j'. exists w. apply InL, Hin.
    - rewrite <- N2. apply Hfew; [exact N1|]. intros p Hp. apply (N3 p Hp). }
  destruct (to_graph_ok adj' Small) as (g & Hg & HS); [rewrite La'; exact Hn|]. exists g, L. split; [exact Hg|]. rewrite La' in HS. split; [|auto].
  eapply slices_ext; [|exact HS]. intros i Hi. unfold lst. erewrite nth_error_nth; [|apply Ha', Hi]. reflexivity.
Qed.
