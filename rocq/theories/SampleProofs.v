From Coq Require Import Permutation Sorted.
From Verif Require Import Outcome ListUtil WordsModel BlockProofs SimplexModel SampleModel SampleSpec.
Local Open Scope N_scope.

(** ** The numbering *)
Lemma combine_seq_In : forall (ids : list N) k a i, In (a, i) (combine ids (seq k (length ids))) <-> (k <= i)%nat /\ nth_error ids (i - k) = Some a.
Proof.
  induction ids as [|x ids IH]; intros k a i; cbn [length seq combine In].
  - split; [intros []|]. intros [_ H]. destruct (i - k)%nat; discriminate.
  - rewrite IH. split.
    + intros [E|[H1 H2]]; [injection E as -> ->; rewrite Nat.sub_diag; auto|]. split; [lia|]. replace (i - k)%nat with (S (i - S k)) by lia. exact H2.
    + intros [H1 H2]. destruct (Nat.eq_dec i k) as [->|Hne]; [left; rewrite Nat.sub_diag in H2; cbn in H2; congruence|]. right. split; [lia|].
      replace (i - k)%nat with (S (i - S k)) in H2 by lia. exact H2.
Qed.
Lemma trans_find ids a i : NoDup ids -> (tr_find (id_trans ids) a = Some i <-> nth_error ids i = Some a).
Proof.
  intros ND. unfold tr_find, id_trans. set (t := combine ids (seq 0 (length ids))).
  assert (Ht : forall a i, In (a, i) (rev t) <-> nth_error ids i = Some a).
  { intros a' i'. rewrite <- in_rev. unfold t. rewrite combine_seq_In, Nat.sub_0_r. intuition lia. }
  destruct (find (fun e => fst e =? a) (rev t)) as [[a' i']|] eqn:E; cbn [option_map snd].
  - apply find_some in E. destruct E as [E1 E2]. cbn [fst] in E2. apply N.eqb_eq in E2. subst a'. apply Ht in E1. split.
    + intros H. now injection H as <-.
    + intros H. f_equal. apply (proj1 (NoDup_nth_error ids) ND); [apply nth_error_Some; congruence|congruence].
  - split; [discriminate|]. intros H. apply Ht in H. apply (find_none _ _ E) in H. cbn [fst] in H. rewrite N.eqb_refl in H. discriminate.
Qed.
Lemma id_trans_length ids : length (id_trans ids) = length ids.
Proof. unfold id_trans. rewrite combine_length, seq_length. lia. Qed.

(** ** The edges *)
Section E.
Variable D : N.
Variable wt : N -> N -> Z.
Definition edges_of (f : N -> nat) (s : simplex) : list (nat * nat * Z) :=
  flat_map (fun a => if p_finite D a then flat_map (fun b => if p_finite D b && negb (Nat.eqb (f a) (f b)) then [(f a, f b, wt a b)] else []) (x_verts s) else []) (x_verts s).

Lemma simplex_edges_val look f s : (forall a, In a (x_verts s) -> look a = Val (f a)) -> simplex_edges D wt look s = Val (edges_of f s).
Proof.
  intros H. unfold simplex_edges, edges_of.
  assert (Inner : forall a i vs es, (forall b, In b vs -> look b = Val (f b)) ->
    fold_left (fun acc b => rbind acc (fun es => rmap (fun j => if p_finite D b && negb (Nat.eqb i j) then es ++ [(i, j, wt a b)] else es) (look b))) vs (Val es) =
    Val (es ++ flat_map (fun b => if p_finite D b && negb (Nat.eqb i (f b)) then [(i, f b, wt a b)] else []) vs)).
  { induction vs as [|b vs IH]; intros es Hb; cbn [fold_left flat_map]; [now rewrite app_nil_r|]. cbn [rbind]. rewrite (Hb b) by now left. cbn [rmap].
    rewrite IH by (intros; apply Hb; now right). destruct (p_finite D b && negb (Nat.eqb i (f b))); [now rewrite <- app_assoc|reflexivity]. }
  assert (Outer : forall vs es, (forall b, In b vs -> In b (x_verts s)) ->
    fold_left (fun acc a => rbind acc (fun es => rbind (look a) (fun i =>
      if p_finite D a then
        fold_left (fun acc b => rbind acc (fun es => rmap (fun j => if p_finite D b && negb (Nat.eqb i j) then es ++ [(i, j, wt a b)] else es) (look b))) (x_verts s) (Val es)
      else Val es))) vs (Val es) =
    Val (es ++ flat_map (fun a => if p_finite D a then flat_map (fun b => if p_finite D b && negb (Nat.eqb (f a) (f b)) then [(f a, f b, wt a b)] else []) (x_verts s) else []) vs)).
  { induction vs as [|a vs IH]; intros es Hb; cbn [fold_left flat_map]; [now rewrite app_nil_r|]. cbn [rbind]. rewrite (H a) by (apply Hb; now left). cbn [rbind].
    destruct (p_finite D a).
    - rewrite Inner by exact H. rewrite IH by (intros; apply Hb; now right). now rewrite <- app_assoc.
    - rewrite IH by (intros; apply Hb; now right). reflexivity. }
  rewrite Outer by auto. reflexivity.
Qed.

Lemma edges_of_In f s i j w : In (i, j, w) (edges_of f s) <-> i <> j /\ exists a b, In a (x_verts s) /\ In b (x_verts s) /\
  p_finite D a = true /\ p_finite D b = true /\ i = f a /\ j = f b /\ w = wt a b.
Proof.
  unfold edges_of. rewrite in_flat_map. split.
  - intros (a & Ha & H). destruct (p_finite D a) eqn:Ea; [|destruct H]. apply in_flat_map in H. destruct H as (b & Hb & H).
    destruct (p_finite D b && negb (Nat.eqb (f a) (f b))) eqn:E; [|destruct H]. destruct H as [H|[]]. injection H as <- <- <-.
    apply andb_true_iff in E. destruct E as [E1 E2]. apply negb_true_iff, Nat.eqb_neq in E2. split; [exact E2|]. exists a, b. auto 10.
  - intros (Hne & a & b & Ha & Hb & Ea & Eb & -> & -> & ->). exists a. split; [exact Ha|]. rewrite Ea. apply in_flat_map. exists b. split; [exact Hb|].
    rewrite Eb. apply Nat.eqb_neq in Hne. rewrite Hne. now left.
Qed.

Lemma all_edges_val look f ls : (forall s a, In s ls -> In a (x_verts s) -> look a = Val (f a)) -> all_edges D wt look ls = Val (flat_map (edges_of f) ls).
Proof.
  unfold all_edges. intros H.
  assert (G : forall ls es, (forall s a, In s ls -> In a (x_verts s) -> look a = Val (f a)) ->
    fold_left (fun acc s => rbind acc (fun es => rmap (app es) (simplex_edges D wt look s))) ls (Val es) = Val (es ++ flat_map (edges_of f) ls)).
  { clear ls H. induction ls as [|s ls IH]; intros es H; cbn [fold_left flat_map]; [now rewrite app_nil_r|]. cbn [rbind].
    rewrite (simplex_edges_val look f s) by (intros; apply (H s); auto; now left). cbn [rmap]. rewrite IH by (intros; eapply H; eauto; now right).
    now rewrite app_assoc. }
  apply (G ls []), H.
Qed.
End E.

(** ** Keys *)
Lemma key_split i j : N.of_nat i < 2 ^ 32 -> N.of_nat j < 2 ^ 32 -> key_src (edge_key i j) = i /\ key_dst (edge_key i j) = j.
Proof.
  intros Hi Hj. unfold key_src, key_dst, edge_key. rewrite N.shiftl_mul_pow2.
  assert (B1 : N.of_nat i * 2 ^ 32 < 2 ^ 64) by (change (2 ^ 64) with (2 ^ 32 * 2 ^ 32); apply N.mul_lt_mono_pos_r; [reflexivity|exact Hi]).
  rewrite (wrap_small 64 (N.of_nat i * 2 ^ 32)) by exact B1.
  assert (B2 : N.of_nat i * 2 ^ 32 + N.of_nat j < 2 ^ 64).
  { change (2 ^ 64) with (2 ^ 32 * 2 ^ 32). change (2 ^ 32) with 4294967296 in *. lia. }
  rewrite (wrap_small 64 (N.of_nat i * 2 ^ 32 + N.of_nat j)) by exact B2. rewrite N.shiftr_div_pow2.
  assert (Q : (N.of_nat i * 2 ^ 32 + N.of_nat j) / 2 ^ 32 = N.of_nat i).
  { rewrite N.div_add_l by discriminate. rewrite N.div_small by exact Hj. lia. }
  rewrite Q. split; [lia|]. rewrite N.shiftl_mul_pow2, (wrap_small 64 (N.of_nat i * 2 ^ 32)) by exact B1. rewrite wrap_sub by lia. lia.
Qed.

(** ** Counting *)
Definition cnt {A} (f : A -> nat) (i : nat) (l : list A) : nat := length (filter (fun x => Nat.eqb (f x) i) l).
Definition below {A} (f : A -> nat) (i : nat) (l : list A) : nat := length (filter (fun x => Nat.ltb (f x) i) l).
Section Cnt.
Context {A : Type}.
Variable f : A -> nat.
Lemma cnt_app i l1 l2 : cnt f i (l1 ++ l2) = (cnt f i l1 + cnt f i l2)%nat.
Proof. unfold cnt. now rewrite filter_app, app_length. Qed.
Lemma cnt_cons i x l : cnt f i (x :: l) = ((if Nat.eqb (f x) i then 1 else 0) + cnt f i l)%nat.
Proof. unfold cnt. cbn [filter]. now destruct (Nat.eqb (f x) i). Qed.
Lemma below_0 l : below f 0 l = O.
Proof. unfold below. induction l as [|x l IH]; [reflexivity|]. cbn [filter]. exact IH. Qed.
Lemma below_S i l : below f (S i) l = (below f i l + cnt f i l)%nat.
Proof.
  unfold below, cnt. induction l as [|x l IH]; [reflexivity|]. cbn [filter].
  destruct (Nat.ltb_spec (f x) (S i)), (Nat.ltb_spec (f x) i), (Nat.eqb_spec (f x) i); cbn [length]; lia.
Qed.
Lemma below_mono i j l : (i <= j)%nat -> (below f i l <= below f j l)%nat.
Proof. induction 1; [lia|]. rewrite below_S. lia. Qed.
Lemma below_all n l : (forall x, In x l -> (f x < n)%nat) -> below f n l = length l.
Proof.
  intros H. unfold below. induction l as [|x l IH]; [reflexivity|]. cbn [filter]. destruct (Nat.ltb_spec (f x) n) as [_|Hx].
  - cbn [length]. f_equal. apply IH. intros; apply H; now right.
  - specialize (H x (or_introl eq_refl)). lia.
Qed.
Lemma cnt_perm i l l' : Permutation l l' -> cnt f i l = cnt f i l'.
Proof.
  unfold cnt. induction 1; cbn [filter]; try congruence.
  - destruct (Nat.eqb (f x) i); cbn [length]; congruence.
  - destruct (Nat.eqb (f x) i), (Nat.eqb (f y) i); cbn [length]; congruence.
Qed.
(** The r-th element with value i has a place of its own. *)
Lemma place_inj l i r i' r' : (r < cnt f i l)%nat -> (r' < cnt f i' l)%nat -> (below f i l + r = below f i' l + r')%nat -> i = i' /\ r = r'.
Proof.
  intros H H' E. destruct (Nat.lt_trichotomy i i') as [L|[L|L]].
  - pose proof (below_mono (S i) i' l L) as M. rewrite below_S in M. lia.
  - subst. lia.
  - pose proof (below_mono (S i') i l L) as M. rewrite below_S in M. lia.
Qed.
End Cnt.

Lemma partial_sum_nth : forall l acc k x, nth_error l k = Some x -> nth_error (partial_sum acc l) k = Some (acc + list_sum (firstn (S k) l))%nat.
Proof.
  induction l as [|y l IH]; intros acc k x E; [destruct k; discriminate|]. destruct k as [|k]; cbn [nth_error partial_sum firstn list_sum fold_right] in *.
  - f_equal. lia.
  - rewrite (IH _ _ _ E). f_equal. unfold list_sum. cbn [firstn fold_right]. destruct l; [destruct k; discriminate|]. cbn [fold_right]. lia.
Qed.
Lemma partial_sum_length : forall l acc, length (partial_sum acc l) = length l.
Proof. induction l; intros; cbn [partial_sum length]; [reflexivity|]. now rewrite IHl. Qed.
Lemma list_sum_snoc l x : list_sum (l ++ [x]) = (list_sum l + x)%nat.
Proof. rewrite list_sum_app. cbn. lia. Qed.
Lemma firstn_S_nth {A} : forall (l : list A) k x, nth_error l k = Some x -> firstn (S k) l = firstn k l ++ [x].
Proof.
  induction l as [|y l IH]; intros k x E; [destruct k; discriminate|]. destruct k as [|k]; cbn [nth_error] in E; [injection E as ->; reflexivity|].
  cbn [firstn app]. f_equal. now apply IH.
Qed.

(** ** The collection *)
Section Par.
Variable n : nat.
Hypothesis Hn : N.of_nat n < 2 ^ 31.
Notation src := (fun m : N * Z => key_src (fst m)).
Definition key_of (e : nat * nat * Z) : N := edge_key (fst (fst e)) (snd (fst e)).
Definition edge_ok (e : nat * nat * Z) : Prop := (fst (fst e) < n /\ snd (fst e) < n)%nat.

Lemma key_ok e : edge_ok e -> key_src (key_of e) = fst (fst e) /\ key_dst (key_of e) = snd (fst e).
Proof. intros [H1 H2]. apply key_split; lia. Qed.

Record cinv (P : list (nat * nat * Z)) (c : collected) : Prop := {
  ci_nodup : NoDup (map fst (c_map c));
  ci_len : length (c_cnt c) = S n;
  ci_zero : nth_error (c_cnt c) 0 = Some O;
  ci_cnt : forall i, (i < n)%nat -> nth_error (c_cnt c) (S i) = Some (cnt src i (c_map c));
  ci_all : forall e, In e P -> In (key_of e) (map fst (c_map c));
  ci_from : forall k w, In (k, w) (c_map c) -> exists i j, In (i, j, w) P /\ k = edge_key i j }.

Lemma collect_ok : forall es P c, Forall edge_ok es -> cinv P c -> exists c', fold_left insert_edge es (Val c) = Val c' /\ cinv (P ++ es) c'.
Proof.
  induction es as [|e es IH]; intros P c He I; [exists c; rewrite app_nil_r; auto|]. inversion_clear He as [|? ? He1 He2].
  cbn [fold_left]. unfold insert_edge at 2. cbn [rbind]. fold (key_of e). destruct (key_ok e He1) as [Ks Kd].
  replace (P ++ e :: es) with ((P ++ [e]) ++ es) by now rewrite <- app_assoc.
  destruct (existsb (fun m => fst m =? key_of e) (c_map c)) eqn:Ex.
  - apply IH; [exact He2|]. destruct I. constructor; auto.
    + intros x Hx. apply in_app_or in Hx. destruct Hx as [Hx|[<-|[]]]; [auto|]. apply existsb_exists in Ex. destruct Ex as (m & Hm & E). apply N.eqb_eq in E.
      rewrite <- E. apply in_map, Hm.
    + intros k w Hk. destruct (ci_from0 k w Hk) as (i & j & Hi & Hk'). exists i, j. split; [apply in_or_app; now left|exact Hk'].
  - destruct He1 as [L1 L2]. rewrite Nat.add_1_r. rewrite (ci_cnt _ _ I _ L1). apply IH; [exact He2|].
    assert (Hnew : ~ In (key_of e) (map fst (c_map c))).
    { intros H. apply in_map_iff in H. destruct H as (m & E & Hm). assert (existsb (fun m => fst m =? key_of e) (c_map c) = true); [|congruence].
      apply existsb_exists. exists m. split; [exact Hm|]. apply N.eqb_eq, E. }
    destruct I. constructor; cbn [c_map c_cnt].
    + rewrite map_app. apply NoDup_app_intro; [assumption|apply NoDup_cons; [intros Hf; destruct Hf|apply NoDup_nil]|]. intros x Hx [<-|[]]. exact (Hnew Hx).
    + now rewrite upd_length.
    + rewrite nth_error_upd_neq by lia. assumption.
    + intros i Hi. rewrite cnt_app, cnt_cons. cbn [fst]. rewrite Ks. change (cnt src i []) with O. rewrite Nat.add_0_r.
      destruct (Nat.eqb_spec (fst (fst e)) i) as [E|E].
      * subst i. rewrite nth_error_upd_eq by lia. reflexivity.
      * rewrite nth_error_upd_neq by lia. rewrite Nat.add_0_r. auto.
    + intros x Hx. rewrite map_app. apply in_or_app. apply in_app_or in Hx. destruct Hx as [Hx|[<-|[]]]; [left; auto|right; now left].
    + intros k w Hk. apply in_app_or in Hk. destruct Hk as [Hk|[Hk|[]]].
      * destruct (ci_from0 k w Hk) as (i & j & Hi & Hk'). exists i, j. split; [apply in_or_app; now left|exact Hk'].
      * injection Hk as <- <-. exists (fst (fst e)), (snd (fst e)). split; [apply in_or_app; right; left; now destruct e as [[? ?] ?]|reflexivity].
Qed.

(** ** The assignment *)
Variable M : list (N * Z).
Hypothesis HM : forall m, In m M -> (src m < n)%nat.
Variable rec : list nat.
Hypothesis Hrec : forall i, (i <= n)%nat -> nth_error rec i = Some (below src i M).

Record ainv (P : list (N * Z)) (index adj : list nat) (w : list Z) : Prop := {
  ai_len : length index = n; ai_ladj : length adj = length M; ai_lw : length w = length M;
  ai_idx : forall i, (i < n)%nat -> nth_error index i = Some (cnt src i P);
  ai_at : forall i r m, nth_error (filter (fun m => Nat.eqb (src m) i) P) r = Some m ->
    nth_error adj (below src i M + r) = Some (key_dst (fst m)) /\ nth_error w (below src i M + r) = Some (snd m) }.

Lemma assign_ok E : Permutation M E -> forall Q P index adj w, E = P ++ Q -> ainv P index adj w ->
  exists index' adj' w', fold_left (assign_edge rec) Q (Val (index, adj, w)) = Val (index', adj', w') /\ ainv E index' adj' w'.
Proof.
  intros HP. induction Q as [|m Q IH]; intros P index adj w HE I.
  { rewrite app_nil_r in HE. subst. exists index, adj, w. auto. }
  cbn [fold_left]. unfold assign_edge at 2. cbn [rbind].
  assert (Hm : (src m < n)%nat). { apply HM. eapply Permutation_in; [symmetry; exact HP|]. subst E. apply in_or_app. right. now left. }
  cbn beta in Hm. rewrite (Hrec _ (Nat.lt_le_incl _ _ Hm)), (ai_idx _ _ _ _ I _ Hm).
  set (i := key_src (fst m)) in *. set (pos := (below src i M + cnt src i P)%nat).
  assert (C : forall i', (cnt src i' P + (if Nat.eqb i i' then 1 else 0) <= cnt src i' M)%nat).
  { intros i'. rewrite (cnt_perm src i' M E HP), HE, cnt_app, cnt_cons. fold i. lia. }
  assert (Hc := C i). rewrite Nat.eqb_refl in Hc.
  assert (Hpos : (pos < length M)%nat).
  { unfold pos. rewrite <- (below_all src n M HM). pose proof (below_mono src (S i) n M Hm) as X. rewrite below_S in X. lia. }
  rewrite (ai_ladj _ _ _ _ I), (ai_lw _ _ _ _ I). destruct (Nat.ltb_spec pos (length M)) as [_|X]; [|lia]. cbn [andb].
  apply (IH (P ++ [m])); [subst E; now rewrite <- app_assoc|]. destruct I. constructor.
  - now rewrite upd_length.
  - now rewrite upd_length.
  - now rewrite upd_length.
  - intros i' Hi'. rewrite cnt_app, cnt_cons. fold i. change (cnt src i' []) with O. destruct (Nat.eqb_spec i i') as [E'|E'].
    + subst i'. rewrite nth_error_upd_eq by lia. f_equal; lia.
    + rewrite nth_error_upd_neq by lia. rewrite !Nat.add_0_r. auto.
  - intros i' r m' Hr. rewrite filter_app in Hr. cbn [filter] in Hr. fold i in Hr.
    destruct (Nat.lt_ge_cases r (cnt src i' P)) as [Lr|Lr].
    + rewrite nth_error_app1 in Hr by exact Lr. destruct (ai_at0 i' r m' Hr) as [A1 A2].
      assert (Hne : (below src i' M + r <> pos)%nat).
      { unfold pos. intros X. specialize (C i'). destruct (place_inj src M i' r i (cnt src i P)) as [X1 X2]; [lia|lia|exact X|]. subst. lia. }
      rewrite !nth_error_upd_neq by lia. auto.
    + rewrite nth_error_app2 in Hr by exact Lr. destruct (Nat.eqb_spec i i') as [E'|E']; [|destruct (r - _)%nat; discriminate].
      subst i'. fold (cnt src i P) in Hr. destruct (r - cnt src i P)%nat as [|x] eqn:Ex; [|destruct x; discriminate]. cbn in Hr. injection Hr as <-.
      replace (below src i M + r)%nat with pos by (unfold pos; lia). rewrite !nth_error_upd_eq by lia. auto.
Qed.
End Par.

(** ** A graph given by the list of entries of each node *)
Lemma nth_error_ext {A} : forall (l l' : list A), (forall k, nth_error l k = nth_error l' k) -> l = l'.
Proof.
  induction l as [|x l IH]; intros [|y l'] H; [reflexivity|discriminate (H O)|discriminate (H O)|]. pose proof (H O) as E. injection E as <-. f_equal. apply IH. intros k. exact (H (S k)).
Qed.
Section Slices.
Fixpoint off (L : nat -> list (nat * Z)) (i : nat) : nat := match i with O => O | S i => (off L i + length (L i))%nat end.
Record slices (n : nat) (L : nat -> list (nat * Z)) (g : graph) : Prop := {
  sl_len : length (g_rec g) = S n;
  sl_rec : forall i, (i <= n)%nat -> nth_error (g_rec g) i = Some (off L i);
  sl_adj : length (g_adj g) = off L n;
  sl_wt : length (g_wt g) = off L n;
  sl_at : forall i r e, (i < n)%nat -> nth_error (L i) r = Some e ->
    nth_error (g_adj g) (off L i + r) = Some (fst e) /\ nth_error (g_wt g) (off L i + r) = Some (snd e) }.

Lemma off_mono L i j : (i <= j)%nat -> (off L i <= off L j)%nat.
Proof. induction 1; [lia|]. cbn [off]. lia. Qed.
Lemma off_place L : forall n k, (k < off L n)%nat -> exists i r, (i < n)%nat /\ (r < length (L i))%nat /\ k = (off L i + r)%nat.
Proof.
  induction n as [|n IH]; intros k Hk; cbn [off] in Hk; [lia|]. destruct (Nat.lt_ge_cases k (off L n)) as [Lt|Ge].
  - destruct (IH k Lt) as (i & r & H1 & H2 & H3). exists i, r. auto.
  - exists n, (k - off L n)%nat. repeat split; lia.
Qed.
Lemma off_ext L L' : forall n, (forall i, (i < n)%nat -> length (L i) = length (L' i)) -> off L n = off L' n.
Proof. induction n as [|n IH]; intros H; cbn [off]; [reflexivity|]. rewrite IH, (H n); auto. Qed.

Lemma slices_unique n L g g' : slices n L g -> slices n L g' -> g = g'.
Proof.
  intros H H'.
  assert (Rec : g_rec g = g_rec g').
  { apply nth_error_ext. intros i. destruct (Nat.lt_ge_cases n i).
    - rewrite !(proj2 (nth_error_None _ _)); [reflexivity|destruct H'; lia|destruct H; lia].
    - rewrite (sl_rec _ _ _ H), (sl_rec _ _ _ H') by lia. reflexivity. }
  assert (Adj : g_adj g = g_adj g').
  { apply nth_error_ext. intros k. destruct (Nat.lt_ge_cases k (off L n)) as [Hk|Hk].
    - destruct (off_place L n k Hk) as (i & r & H1 & H2 & ->). destruct (nth_error_ex (L i) r H2) as [e He].
      rewrite (proj1 (sl_at _ _ _ H i r e H1 He)), (proj1 (sl_at _ _ _ H' i r e H1 He)). reflexivity.
    - rewrite !(proj2 (nth_error_None _ _)); [reflexivity|destruct H'; lia|destruct H; lia]. }
  assert (W : g_wt g = g_wt g').
  { apply nth_error_ext. intros k. destruct (Nat.lt_ge_cases k (off L n)) as [Hk|Hk].
    - destruct (off_place L n k Hk) as (i & r & H1 & H2 & ->). destruct (nth_error_ex (L i) r H2) as [e He].
      rewrite (proj2 (sl_at _ _ _ H i r e H1 He)), (proj2 (sl_at _ _ _ H' i r e H1 He)). reflexivity.
    - rewrite !(proj2 (nth_error_None _ _)); [reflexivity|destruct H'; lia|destruct H; lia]. }
  destruct g, g'. cbn in *. congruence.
Qed.
Lemma slices_ext n L L' g : (forall i, (i < n)%nat -> L i = L' i) -> slices n L g -> slices n L' g.
Proof.
  intros HL H. assert (O : forall i, (i <= n)%nat -> off L i = off L' i). { intros i Hi. apply off_ext. intros k Hk. now rewrite HL by lia. }
  destruct H. constructor; auto.
  - intros i Hi. rewrite <- O by lia. auto.
  - rewrite <- O by lia. auto.
  - rewrite <- O by lia. auto.
  - intros i r e Hi He. rewrite <- O by lia. apply sl_at0; [exact Hi|]. now rewrite HL.
Qed.
Lemma slices_entry n L g i k : slices n L g -> (entry_of g i k <-> (i < n)%nat /\ exists r, (r < length (L i))%nat /\ k = (off L i + r)%nat).
Proof.
  intros H. unfold entry_of. split.
  - intros (b & e & Hb & He & Hk). assert (Hi : (i < n)%nat). { apply nth_error_lt in He. destruct H. lia. }
    rewrite (sl_rec _ _ _ H) in Hb by lia. rewrite (sl_rec _ _ _ H) in He by lia. injection Hb as <-. injection He as <-. cbn [off] in Hk.
    split; [exact Hi|]. exists (k - off L i)%nat. lia.
  - intros (Hi & r & Hr & ->). exists (off L i), (off L (S i)). rewrite !(sl_rec _ _ _ H) by lia. cbn [off]. repeat split; lia.
Qed.
Lemma slices_csr n L g (adj : nat -> nat -> Prop) (wt : nat -> nat -> Z -> Prop) : slices n L g ->
  (forall i j, adj i j -> (i < n)%nat) ->
  (forall i j, (i < n)%nat -> (adj i j <-> In j (map fst (L i)))) ->
  (forall i, (i < n)%nat -> NoDup (map fst (L i))) ->
  (forall i j w, (i < n)%nat -> In (j, w) (L i) -> wt i j w) -> csr n adj wt g.
Proof.
  intros H Hb Hadj ND Hw.
  assert (At : forall i k j, entry_of g i k -> nth_error (g_adj g) k = Some j -> (i < n)%nat /\ exists r w, k = (off L i + r)%nat /\ nth_error (L i) r = Some (j, w) /\ nth_error (g_wt g) k = Some w).
  { intros i k j E Hj. apply (slices_entry n L g i k H) in E. destruct E as (Hi & r & Hr & ->). split; [exact Hi|]. destruct (nth_error_ex (L i) r Hr) as [[j' w] He].
    destruct (sl_at _ _ _ H i r _ Hi He) as [A1 A2]. cbn [fst snd] in *. exists r, w. replace j with j' by congruence. auto. }
  constructor.
  - apply (sl_len _ _ _ H).
  - rewrite (sl_rec _ _ _ H) by lia. reflexivity.
  - rewrite (sl_rec _ _ _ H) by lia. now rewrite (sl_adj _ _ _ H).
  - now rewrite (sl_adj _ _ _ H), (sl_wt _ _ _ H).
  - intros i b e Hb' He. assert (Hi : (i < n)%nat). { apply nth_error_lt in He. destruct H. lia. }
    rewrite (sl_rec _ _ _ H) in Hb' by lia. rewrite (sl_rec _ _ _ H) in He by lia. injection Hb' as <-. injection He as <-. cbn [off]. lia.
  - intros i k j E Hj. destruct (At i k j E Hj) as (Hi & r & w & _ & Hr & _). apply Hadj; [exact Hi|]. apply (in_map fst _ _ (nth_error_In _ _ Hr)).
  - intros i j A. assert (Hi := Hb i j A). apply Hadj in A; [|exact Hi]. apply in_map_iff in A. destruct A as ([j' w] & Ej & Hin). cbn in Ej. subst j'.
    apply In_nth_error in Hin. destruct Hin as [r Hr]. exists (off L i + r)%nat. split.
    + apply (slices_entry n L g _ _ H). split; [exact Hi|]. exists r. split; [now apply nth_error_lt in Hr|reflexivity].
    + apply (proj1 (sl_at _ _ _ H i r _ Hi Hr)).
  - intros i k k' j E E' Hj Hj'. destruct (At i k j E Hj) as (Hi & r & w & -> & Hr & _). destruct (At i k' j E' Hj') as (_ & r' & w' & -> & Hr' & _).
    f_equal. apply (proj1 (NoDup_nth_error (map fst (L i))) (ND i Hi)).
    + rewrite map_length. now apply nth_error_lt in Hr.
    + rewrite !nth_error_map, Hr, Hr'. reflexivity.
  - intros i k j w E Hj Hwt. destruct (At i k j E Hj) as (Hi & r & w' & -> & Hr & Hw'). replace w with w' by congruence. apply Hw; [exact Hi|]. eapply nth_error_In, Hr.
Qed.
Lemma slices_sorted n L g : slices n L g -> (forall i, (i < n)%nat -> StronglySorted (fun a b => (fst a < fst b)%nat) (L i)) -> csr_sorted g.
Proof.
  intros H HS i k k' j j' E E' Lt Hj Hj'. apply (slices_entry n L g i k H) in E. apply (slices_entry n L g i k' H) in E'.
  destruct E as (Hi & r & Hr & ->). destruct E' as (_ & r' & Hr' & ->). destruct (nth_error_ex (L i) r Hr) as [e He]. destruct (nth_error_ex (L i) r' Hr') as [e' He'].
  rewrite (proj1 (sl_at _ _ _ H i r _ Hi He)) in Hj. rewrite (proj1 (sl_at _ _ _ H i r' _ Hi He')) in Hj'. injection Hj as <-. injection Hj' as <-.
  assert (Lr : (r < r')%nat) by lia. clear - HS Hi He He' Lr. specialize (HS i Hi). revert r r' Lr He He'. induction HS as [|x l HS IH F]; intros r r' Lr He He'.
  - destruct r; discriminate.
  - destruct r' as [|r']; [lia|]. cbn [nth_error] in He'. destruct r as [|r]; cbn [nth_error] in He.
    + injection He as <-. rewrite Forall_forall in F. apply F. eapply nth_error_In, He'.
    + eapply IH; [|eassumption|eassumption]. lia.
Qed.
End Slices.

(** ** The parallel graph *)
Section ParGraph.
Variable n : nat.
Hypothesis Hn : N.of_nat n < 2 ^ 31.
Variable tr : list (N * nat).
Hypothesis Htr : length tr = n.
Variable es : list (nat * nat * Z).
Hypothesis Hes : Forall (edge_ok n) es.
Hypothesis Hfew : few (fun i j => exists w, In (i, j, w) es).
Notation src := (fun m : N * Z => key_src (fst m)).
Definition ent (m : N * Z) : nat * Z := (key_dst (fst m), snd m).

Lemma cinv_start : cinv n [] (mkcol [] (repeat O (n + 1))).
Proof using.
  clear. constructor; cbn [c_map c_cnt].
  - apply NoDup_nil.
  - rewrite repeat_length. lia.
  - apply nth_error_repeat. lia.
  - intros i Hi. rewrite nth_error_repeat by lia. reflexivity.
  - intros e [].
  - intros k w [].
Qed.
Lemma ci_edge c k w : cinv n es c -> In (k, w) (c_map c) -> exists i j, In (i, j, w) es /\ key_src k = i /\ key_dst k = j /\ (i < n /\ j < n)%nat /\ k = edge_key i j.
Proof using Hes Hn.
  intros I Hk. destruct (ci_from _ _ _ I k w Hk) as (i & j & Hin & ->). exists i, j. rewrite Forall_forall in Hes. pose proof (Hes _ Hin) as O.
  destruct (key_ok n Hn _ O) as [E1 E2]. cbn [fst snd key_of] in *. unfold key_of in *. cbn [fst snd] in *. repeat split; auto; apply O.
Qed.
Lemma rec_at c : cinv n es c -> forall i, (i <= n)%nat -> nth_error (partial_sum 0 (c_cnt c)) i = Some (below src i (c_map c)).
Proof using.
  clear. intros I. assert (G : forall i, (i <= n)%nat -> list_sum (firstn (S i) (c_cnt c)) = below src i (c_map c)).
  { induction i as [|i IH]; intros Hi.
    - rewrite (firstn_S_nth _ _ _ (ci_zero _ _ _ I)). cbn. now rewrite below_0.
    - rewrite (firstn_S_nth _ _ _ (ci_cnt _ _ _ I i Hi)), list_sum_snoc, IH by lia. now rewrite below_S. }
  intros i Hi. destruct (nth_error_ex (c_cnt c) i) as [x Hx]; [destruct I; lia|]. rewrite (partial_sum_nth _ _ _ _ Hx). now rewrite G.
Qed.

Lemma par_ok order : (forall m, Permutation m (order m)) -> exists g L, graph_par tr es order = Val g /\ slices n L g /\
  (forall i, (i < n)%nat -> NoDup (map fst (L i))) /\
  (forall i j, (i < n)%nat -> (In j (map fst (L i)) <-> exists w, In (i, j, w) es)) /\
  (forall i j w, (i < n)%nat -> In (j, w) (L i) -> In (i, j, w) es).
Proof.
  intros Hord. unfold graph_par. rewrite Htr. destruct (collect_ok n Hn es [] _ Hes cinv_start) as (c & -> & I). cbn [app rbind] in *.
  set (M := c_map c) in *. set (rec := partial_sum 0 (c_cnt c)).
  assert (HM : forall m, In m M -> (src m < n)%nat). { intros [k w] Hm. destruct (ci_edge c k w I Hm) as (i & j & _ & E & _ & B & _). cbn [fst]. lia. }
  assert (Lrec : length rec = S n) by (unfold rec; rewrite partial_sum_length; destruct I; lia).
  assert (Hlast : last rec O = length M).
  { rewrite <- (below_all src n M HM). assert (X := rec_at c I n (Nat.le_refl n)). fold rec M in X.
    apply nth_error_nth with (d := O) in X. rewrite <- X. replace n with (length rec - 1)%nat by lia. clear. induction rec as [|a [|b l] IH]; try reflexivity.
    change (last (a :: b :: l) O) with (last (b :: l) O). rewrite IH. cbn [length]. rewrite !Nat.sub_succ, !Nat.sub_0_r. reflexivity. }
  rewrite Hlast.
  assert (NDk : NoDup (map (fun m : N * Z => (key_src (fst m), key_dst (fst m))) M)).
  { assert (Inj : forall m m', In m M -> In m' M -> (key_src (fst m), key_dst (fst m)) = (key_src (fst m'), key_dst (fst m')) -> fst m = fst m').
    { intros [k w] [k' w'] H1 H2 E. cbn [fst] in *. destruct (ci_edge c k w I H1) as (i & j & _ & E1 & E2 & _ & ->). destruct (ci_edge c k' w' I H2) as (i' & j' & _ & E1' & E2' & _ & ->). congruence. }
    pose proof (ci_nodup _ _ _ I) as ND. fold M in ND. clear - ND Inj. induction M as [|m l IH]; cbn [map] in *; [constructor|]. inversion_clear ND as [|? ? N1 N2].
    constructor; [|apply IH; [intros; apply Inj; auto; now right|exact N2]]. intros Hin. apply in_map_iff in Hin. destruct Hin as (m' & E & Hm'). apply N1.
    rewrite <- (Inj m' m); [apply in_map, Hm'|now right|now left|exact E]. }
  assert (Small : N.of_nat (length M) < 2 ^ 31).
  { rewrite <- (map_length (fun m : N * Z => (key_src (fst m), key_dst (fst m))) M). apply Hfew; [exact NDk|]. intros p Hp. apply in_map_iff in Hp.
    destruct Hp as ([k w] & <- & Hm). cbn [fst snd]. destruct (ci_edge c k w I Hm) as (i & j & Hin & -> & -> & _). eauto. }
  unfold is_int. rewrite (proj2 (N.ltb_lt _ _) Small), (proj2 (N.ltb_lt _ _) Hn). cbn [andb].
  set (E := order M). assert (HE : Permutation M E) by apply Hord.
  assert (Start : ainv n M [] (repeat O n) (repeat O (length M)) (repeat 0%Z (length M))).
  { constructor; rewrite ?repeat_length; auto.
    - intros i Hi. rewrite nth_error_repeat by lia. reflexivity.
    - intros i r m Hr. destruct r; discriminate. }
  destruct (assign_ok n Hn M HM rec (rec_at c I) E HE E [] _ _ _ eq_refl Start) as (index & adj & w & -> & A).
  cbn [rmap]. set (L := fun i => map ent (filter (fun m => Nat.eqb (src m) i) E)).
  assert (HL : forall i, length (L i) = cnt src i M). { intros i. unfold L. rewrite map_length. symmetry. apply (cnt_perm src i M E HE). }
  assert (Hoff : forall i, off L i = below src i M). { induction i as [|i IH]; cbn [off]; [now rewrite below_0|]. rewrite IH, HL. symmetry. apply below_S. }
  assert (InL : forall i j w, In (j, w) (L i) <-> exists k, In (k, w) M /\ key_src k = i /\ key_dst k = j).
  { intros i j w'. unfold L. rewrite in_map_iff. split.
    - intros ([k w''] & E1 & Hf). apply filter_In in Hf. destruct Hf as [Hf1 Hf2]. apply Nat.eqb_eq in Hf2. unfold ent in E1. cbn [fst snd] in *. injection E1 as E1 <-.
      exists k. repeat split; auto. apply (Permutation_in _ (Permutation_sym HE) Hf1).
    - intros (k & Hk & E1 & E2). exists (k, w'). split; [unfold ent; cbn [fst snd]; congruence|]. apply filter_In. split; [apply (Permutation_in _ HE Hk)|]. cbn [fst]. now apply Nat.eqb_eq. }
  exists (mkg rec adj w), L. split; [reflexivity|]. split; [|split; [|split]].
  - constructor; cbn [g_rec g_adj g_wt].
    + exact Lrec.
    + intros i Hi. rewrite Hoff. apply (rec_at c I i Hi).
    + rewrite (ai_ladj _ _ _ _ _ _ A), Hoff. symmetry. apply (below_all src n M HM).
    + rewrite (ai_lw _ _ _ _ _ _ A), Hoff. symmetry. apply (below_all src n M HM).
    + intros i r e Hi He. unfold L in He. rewrite nth_error_map in He. destruct (nth_error (filter (fun m => Nat.eqb (src m) i) E) r) as [m|] eqn:Em; [|discriminate].
      cbn in He. injection He as <-. rewrite Hoff. apply (ai_at _ _ _ _ _ _ A i r m Em).
  - intros i Hi. unfold L. rewrite map_map. cbn [ent fst].
    assert (NDE : NoDup (map (fun m : N * Z => (key_src (fst m), key_dst (fst m))) E)) by (eapply Permutation_NoDup; [apply Permutation_map, HE|exact NDk]).
    clear - NDE. induction E as [|m l IH]; cbn [filter map] in *; [constructor|]. inversion_clear NDE as [|? ? N1 N2]. specialize (IH N2).
    destruct (Nat.eqb_spec (key_src (fst m)) i) as [E1|]; [|exact IH]. cbn [map]. constructor; [|exact IH]. intros Hin. apply N1. apply in_map_iff in Hin.
    destruct Hin as (m' & E2 & Hf). apply filter_In in Hf. destruct Hf as [Hf1 Hf2]. apply Nat.eqb_eq in Hf2. apply in_map_iff. exists m'. split; [congruence|exact Hf1].
  - intros i j Hi. split.
    + intros Hin. apply in_map_iff in Hin. destruct Hin as ([j' w'] & Ej & Hin). cbn in Ej. subst j'. apply InL in Hin. destruct Hin as (k & Hk & E1 & E2).
      destruct (ci_edge c k w' I Hk) as (i' & j' & He & F1 & F2 & _). exists w'. congruence.
    + intros (w' & He). pose proof (ci_all _ _ _ I _ He) as Hk. fold M in Hk. apply in_map_iff in Hk. destruct Hk as ([k w''] & Ek & Hk). cbn [fst] in Ek. subst k.
      rewrite Forall_forall in Hes. destruct (key_ok n Hn _ (Hes _ He)) as [E1 E2]. cbn [fst snd] in E1, E2.
      apply in_map_iff. exists (j, w''). split; [reflexivity|]. apply InL. eauto.
  - intros i j w' Hi Hin. apply InL in Hin. destruct Hin as (k & Hk & E1 & E2). destruct (ci_edge c k w' I Hk) as (i' & j' & He & F1 & F2 & _). congruence.
Qed.
End ParGraph.
