(** The sorting of the entries of each node, Sampler.h:386-406. *)
From Coq Require Import Permutation Sorted.
From Verif Require Import Outcome ListUtil WordsModel SimplexModel SampleModel SampleSpec SampleProofs SampleSeq.
Local Open Scope nat_scope.

Lemma upd_mid {A} : forall (l : list A) x r y, upd (l ++ x :: r) (length l) y = l ++ y :: r.
Proof. induction l as [|a l IH]; intros x r y; cbn [app length]; [reflexivity|]. unfold upd in *. cbn. f_equal. apply IH. Qed.
Lemma nth_mid {A} (l : list A) x r : nth_error (l ++ x :: r) (length l) = Some x.
Proof. now rewrite nth_error_app2, Nat.sub_diag by lia. Qed.

Notation zip_val z := (map fst z, map snd z).
Lemma ssorted_app l l' : ssorted (l ++ l') -> ssorted l /\ ssorted l' /\ forall a b, In a l -> In b l' -> fst a < fst b.
Proof.
  induction l as [|x l IH]; cbn [app]; intros H; [split; [constructor|split; [exact H|intros a b []]]|]. inversion_clear H as [|? ? HS F]. destruct (IH HS) as (H1 & H2 & H3).
  apply Forall_app in F. destruct F as [F1 F2]. split; [now constructor|]. split; [exact H2|]. intros a b [<-|Ha] Hb; [|auto]. rewrite Forall_forall in F2. auto.
Qed.
Lemma ssorted_join l l' : ssorted l -> ssorted l' -> (forall a b, In a l -> In b l' -> fst a < fst b) -> ssorted (l ++ l').
Proof.
  induction 1 as [|x l HS IH F]; intros H' H; cbn [app]; [exact H'|]. constructor; [apply IH; [exact H'|]; intros; apply H; auto; now right|].
  apply Forall_app. split; [exact F|]. apply Forall_forall. intros b Hb. apply H; [now left|exact Hb].
Qed.

Lemma shift_down_S lo h adj w v : shift_down lo (S h) adj w v =
  if Nat.ltb lo (S h) then
    match nth_error adj h, nth_error w h with
    | Some x, Some y => if Nat.ltb v x then
        if Nat.ltb (S h) (length adj) && Nat.ltb (S h) (length w) then shift_down lo h (upd adj (S h) x) (upd w (S h) y) v else Undef
      else Val (S h, adj, w)
    | _, _ => Undef
    end
  else Val (S h, adj, w).
Proof. reflexivity. Qed.
Lemma shift_ok (A : list (nat * Z)) v : forall S x B, ssorted S -> exists S1 S2 y, S = S1 ++ S2 /\
  shift_down (length A) (length A + length S) (map fst (A ++ S ++ x :: B)) (map snd (A ++ S ++ x :: B)) v =
  Val (length A + length S1, map fst (A ++ S1 ++ y :: S2 ++ B), map snd (A ++ S1 ++ y :: S2 ++ B)) /\
  (forall e, In e S1 -> fst e <= v) /\ (forall e, In e S2 -> v < fst e).
Proof.
  induction S as [|e S IH] using rev_ind; intros x B HS.
  - exists [], [], x. split; [reflexivity|]. cbn [length app]. rewrite Nat.add_0_r. split; [|split; intros e []].
    destruct (length A) as [|h]; [reflexivity|]. rewrite shift_down_S, Nat.ltb_irrefl. reflexivity.
  - destruct (ssorted_app S [e] HS) as (HS1 & _ & Hlt). rewrite app_length. cbn [length]. replace (length A + (length S + 1)) with (Datatypes.S (length A + length S)) by lia.
    rewrite shift_down_S. destruct (Nat.ltb_spec (length A) (Datatypes.S (length A + length S))) as [_|X]; [|lia].
    set (l := A ++ (S ++ [e]) ++ x :: B).
    assert (El : l = (A ++ S) ++ e :: x :: B) by (unfold l; now rewrite <- !app_assoc).
    assert (El2 : l = (A ++ S ++ [e]) ++ x :: B) by (unfold l; now rewrite <- !app_assoc).
    assert (Hnth : nth_error l (length A + length S) = Some e) by (rewrite El, <- app_length; apply nth_mid).
    rewrite !nth_error_map, Hnth. cbn [option_map]. destruct (Nat.ltb_spec v (fst e)) as [Lt|Ge].
    + rewrite !map_length. assert (Ll : Datatypes.S (length A + length S) < length l) by (rewrite El, !app_length; cbn [length]; lia).
      rewrite (proj2 (Nat.ltb_lt _ _) Ll). cbn [andb].
      assert (U1 : upd (map fst l) (Datatypes.S (length A + length S)) (fst e) = map fst (A ++ S ++ e :: e :: B)).
      { rewrite El2, map_app. cbn [map]. replace (Datatypes.S (length A + length S)) with (length (map fst (A ++ S ++ [e]))) by (rewrite map_length, !app_length; cbn; lia).
        rewrite upd_mid. rewrite <- map_cons, <- map_app. f_equal. now rewrite <- !app_assoc. }
      assert (U2 : upd (map snd l) (Datatypes.S (length A + length S)) (snd e) = map snd (A ++ S ++ e :: e :: B)).
      { rewrite El2, map_app. cbn [map]. replace (Datatypes.S (length A + length S)) with (length (map snd (A ++ S ++ [e]))) by (rewrite map_length, !app_length; cbn; lia).
        rewrite upd_mid. rewrite <- map_cons, <- map_app. f_equal. now rewrite <- !app_assoc. }
      rewrite U1, U2. destruct (IH e (e :: B) HS1) as (S1 & S2 & y & -> & -> & P1 & P2). exists S1, (S2 ++ [e]), y. split; [now rewrite app_assoc|].
      split; [now rewrite <- !app_assoc|]. split; [exact P1|]. intros e' He. apply in_app_or in He. destruct He as [He|[<-|[]]]; auto.
    + exists (S ++ [e]), [], x. split; [now rewrite app_nil_r|]. split.
      * rewrite app_length. cbn [length app]. replace (length A + (length S + 1)) with (Datatypes.S (length A + length S)) by lia. reflexivity.
      * split; [|intros e' []]. intros e' He. apply in_app_or in He. destruct He as [He|[<-|[]]]; [|exact Ge]. specialize (Hlt e' e He (or_introl eq_refl)). lia.
Qed.
Lemma sort_entry_ok (A S B : list (nat * Z)) x : ssorted S -> ~ In (fst x) (map fst S) -> exists S', ssorted S' /\ Permutation (S ++ [x]) S' /\
  sort_entry (length A) (Val (zip_val (A ++ S ++ x :: B))) (length A + length S) = Val (zip_val (A ++ S' ++ B)).
Proof.
  intros HS Hx. unfold sort_entry. cbn [rbind].
  assert (El : A ++ S ++ x :: B = (A ++ S) ++ x :: B) by now rewrite <- app_assoc.
  assert (Hnth : nth_error (A ++ S ++ x :: B) (length A + length S) = Some x) by (rewrite El, <- app_length; apply nth_mid).
  rewrite !nth_error_map, Hnth. cbn [option_map].
  destruct (shift_ok A (fst x) S x B HS) as (S1 & S2 & y & -> & -> & P1 & P2). cbn [rbind].
  assert (El2 : forall z, A ++ S1 ++ z :: S2 ++ B = (A ++ S1) ++ z :: S2 ++ B) by (intros; now rewrite <- app_assoc).
  rewrite !map_length. destruct (Nat.ltb_spec (length A + length S1) (length (A ++ S1 ++ y :: S2 ++ B))) as [_|X]; [|rewrite El2, !app_length in X; cbn [length] in X; lia].
  cbn [andb]. exists (S1 ++ x :: S2). destruct (ssorted_app _ _ HS) as (Q1 & Q2 & Q3).
  assert (NE : forall e, In e (S1 ++ S2) -> fst e <> fst x). { intros e He X. apply Hx. rewrite <- X. now apply in_map. }
  split; [|split].
  - apply ssorted_join; [exact Q1| |].
    + constructor; [exact Q2|]. apply Forall_forall. exact P2.
    + intros a b Ha Hb. specialize (P1 a Ha). assert (N1 := NE a (in_or_app _ _ _ (or_introl Ha))). destruct Hb as [<-|Hb]; [lia|]. specialize (P2 b Hb). lia.
  - rewrite <- app_assoc. apply Permutation_app_head. apply (Permutation_app_comm S2 [x]).
  - replace (A ++ (S1 ++ x :: S2) ++ B) with ((A ++ S1) ++ x :: S2 ++ B) by (now rewrite <- !app_assoc).
    rewrite El2, !map_app, !map_cons. f_equal. f_equal.
    + rewrite <- !map_app. replace (length A + length S1) with (length (map fst (A ++ S1))) by (now rewrite map_length, app_length). apply upd_mid.
    + rewrite <- !map_app. replace (length A + length S1) with (length (map snd (A ++ S1))) by (now rewrite map_length, app_length). apply upd_mid.
Qed.
Lemma sort_range_ok (A B : list (nat * Z)) : forall R S, ssorted S -> NoDup (map fst (S ++ R)) -> exists S', ssorted S' /\ Permutation (S ++ R) S' /\
  fold_left (sort_entry (length A)) (seq (length A + length S) (length R)) (Val (zip_val (A ++ S ++ R ++ B))) = Val (zip_val (A ++ S' ++ B)).
Proof.
  induction R as [|x R IH]; intros S HS ND; cbn [length seq fold_left]; [exists S; rewrite app_nil_r; auto|].
  assert (Hx : ~ In (fst x) (map fst S)). { rewrite map_app in ND. cbn [map] in ND. intros H. apply (NoDup_remove_2 _ _ _ ND). apply in_or_app. now left. }
  destruct (sort_entry_ok A S (R ++ B) x HS Hx) as (S1 & H1 & P1 & E1). cbn [app]. rewrite E1.
  assert (Ls : length S1 = Datatypes.S (length S)). { rewrite <- (Permutation_length P1), app_length. cbn. lia. }
  destruct (IH S1 H1) as (S2 & H2 & P2 & E2).
  { eapply Permutation_NoDup; [|exact ND]. apply Permutation_map. change (x :: R) with ([x] ++ R). rewrite app_assoc. now apply Permutation_app_tail. }
  exists S2. split; [exact H2|]. split.
  - rewrite <- P2. change (x :: R) with ([x] ++ R). rewrite app_assoc. now apply Permutation_app_tail.
  - rewrite Ls in E2. replace (Datatypes.S (length A + length S)) with (length A + Datatypes.S (length S)) by lia. exact E2.
Qed.

Lemma combine_fst {A B} : forall (l : list A) (l' : list B), length l = length l' -> map fst (combine l l') = l.
Proof. induction l as [|x l IH]; intros [|y l'] H; cbn in *; try lia; [reflexivity|]. f_equal. apply IH. lia. Qed.
Lemma combine_snd {A B} : forall (l : list A) (l' : list B), length l = length l' -> map snd (combine l l') = l'.
Proof. induction l as [|x l IH]; intros [|y l'] H; cbn in *; try lia; [reflexivity|]. f_equal. apply IH. lia. Qed.
Lemma combine_nth_error {A B} : forall (l : list A) (l' : list B) k a b, nth_error l k = Some a -> nth_error l' k = Some b -> nth_error (combine l l') k = Some (a, b).
Proof. induction l as [|x l IH]; intros [|y l'] [|k] a b H H'; cbn in *; try discriminate; [congruence|]. auto. Qed.

Definition set_at (L : nat -> list (nat * Z)) (i : nat) (l : list (nat * Z)) (k : nat) : list (nat * Z) := if Nat.eqb k i then l else L k.
Lemma set_off L i l : length l = length (L i) -> forall k, off (set_at L i l) k = off L k.
Proof. intros H k. apply off_ext. intros j _. unfold set_at. destruct (Nat.eqb_spec j i) as [->|]; [exact H|reflexivity]. Qed.

Lemma sort_node_ok n L rec adj w i : slices n L (mkg rec adj w) -> i < n -> NoDup (map fst (L i)) ->
  exists l adj' w', ssorted l /\ Permutation (L i) l /\ sort_node rec (Val (adj, w)) i = Val (adj', w') /\ slices n (set_at L i l) (mkg rec adj' w').
Proof.
  intros H Hi ND. unfold sort_node. pose proof (sl_rec _ _ _ H) as HR. cbn [g_rec] in HR. rewrite Nat.add_1_r, !HR by lia. cbn [off].
  replace (off L i + length (L i) - off L i) with (length (L i)) by lia.
  pose proof (sl_adj _ _ _ H) as H1. pose proof (sl_wt _ _ _ H) as H2. cbn [g_adj g_wt] in H1, H2. set (z := combine adj w).
  assert (Lz : length z = off L n) by (unfold z; rewrite combine_length; lia).
  assert (Hz : forall k r e, k < n -> nth_error (L k) r = Some e -> nth_error z (off L k + r) = Some e).
  { intros k r e Hk He. destruct (sl_at _ _ _ H k r e Hk He) as [A1 A2]. cbn [g_adj g_wt] in *. unfold z. rewrite (combine_nth_error _ _ _ _ _ A1 A2). now destruct e. }
  assert (Hoff : off L i + length (L i) <= off L n). { pose proof (off_mono L (S i) n Hi) as X. cbn [off] in X. exact X. }
  set (A := firstn (off L i) z). set (B := skipn (off L i + length (L i)) z).
  assert (LA : length A = off L i) by (unfold A; rewrite firstn_length; lia).
  assert (Ez : z = A ++ L i ++ B).
  { apply nth_error_ext. intros k. destruct (Nat.lt_ge_cases k (off L i)) as [L1|G1].
    - rewrite nth_error_app1 by lia. unfold A. clear - L1. revert k L1. generalize (off L i). intros m. revert m. induction z as [|x l IH]; intros m k L1; [now rewrite firstn_nil|].
      destruct m; [lia|]. destruct k; [reflexivity|]. cbn [firstn nth_error]. apply IH. lia.
    - rewrite nth_error_app2, LA by lia. destruct (Nat.lt_ge_cases (k - off L i) (length (L i))) as [L2|G2].
      + rewrite nth_error_app1 by lia. destruct (nth_error_ex (L i) _ L2) as [e He]. rewrite He. rewrite <- (Hz i _ e Hi He). f_equal. lia.
      + rewrite nth_error_app2 by lia. unfold B. assert (Sk : forall (l : list (nat * Z)) a b, nth_error (skipn a l) b = nth_error l (a + b)).
        { induction l as [|x l IH]; intros a b; [rewrite skipn_nil; destruct b, (a + _); reflexivity|]. destruct a; [reflexivity|]. cbn [skipn Nat.add nth_error]. apply IH. }
        rewrite Sk. f_equal. lia. }
  assert (Ea : adj = map fst z) by (symmetry; apply combine_fst; lia). assert (Ew : w = map snd z) by (symmetry; apply combine_snd; lia).
  destruct (sort_range_ok A B (L i) []) as (l & S1 & P1 & E1); [constructor|exact ND|]. cbn [length app] in E1, P1. rewrite Nat.add_0_r, LA, <- Ez, <- Ea, <- Ew in E1.
  exists l, (map fst (A ++ l ++ B)), (map snd (A ++ l ++ B)). split; [exact S1|]. split; [exact P1|]. split; [exact E1|].
  assert (Ll : length l = length (L i)) by (symmetry; now apply Permutation_length).
  constructor; cbn [g_rec g_adj g_wt].
  - apply (sl_len _ _ _ H).
  - intros k Hk. rewrite set_off by exact Ll. now apply HR.
  - rewrite set_off by exact Ll. rewrite map_length, <- Lz, Ez, !app_length. lia.
  - rewrite set_off by exact Ll. rewrite map_length, <- Lz, Ez, !app_length. lia.
  - intros k r e Hk He. rewrite set_off by exact Ll. rewrite !nth_error_map.
    assert (X : nth_error (A ++ l ++ B) (off L k + r) = Some e); [|rewrite X; split; reflexivity].
    unfold set_at in He. destruct (Nat.eqb_spec k i) as [->|Hne].
    + rewrite nth_error_app2 by lia. rewrite nth_error_app1 by (apply nth_error_lt in He; lia). rewrite <- He. f_equal. lia.
    + pose proof (Hz k r e Hk He) as G. apply nth_error_lt in He. rewrite Ez in G. destruct (Nat.lt_ge_cases k i) as [Lt|Ge].
      * pose proof (off_mono L (S k) i Lt) as X. cbn [off] in X. rewrite nth_error_app1 in G |- * by lia. exact G.
      * assert (Lt : i < k) by lia. pose proof (off_mono L (S i) k Lt) as X. cbn [off] in X. rewrite nth_error_app2, nth_error_app2 in G |- * by lia. rewrite Ll. exact G.
Qed.

Lemma sort_nodes_ok n L g nodes : slices n L g -> (forall i, i < n -> NoDup (map fst (L i))) -> Permutation (seq 0 n) nodes ->
  exists g' L', sort_nodes g nodes = Val g' /\ slices n L' g' /\ forall i, i < n -> ssorted (L' i) /\ Permutation (L i) (L' i).
Proof.
  intros H ND HP. unfold sort_nodes. destruct g as [rec adj w]. cbn [g_rec g_adj g_wt].
  assert (G : forall Q P L0 adj w, nodes = P ++ Q -> slices n L0 (mkg rec adj w) -> (forall i, i < n -> Permutation (L i) (L0 i)) -> (forall i, In i P -> ssorted (L0 i)) ->
    exists adj' w' L', fold_left (sort_node rec) Q (Val (adj, w)) = Val (adj', w') /\ slices n L' (mkg rec adj' w') /\ (forall i, i < n -> Permutation (L i) (L' i)) /\ (forall i, In i nodes -> ssorted (L' i))).
  { clear H adj w. induction Q as [|i Q IH]; intros P L0 adj w EQ H HL HD; cbn [fold_left].
    - exists adj, w, L0. rewrite app_nil_r in EQ. subst P. auto.
    - assert (Hi : i < n). { assert (In i (seq 0 n)) as X; [|apply in_seq in X; lia]. eapply Permutation_in; [symmetry; exact HP|]. rewrite EQ. apply in_or_app. right. now left. }
      destruct (sort_node_ok n L0 rec adj w i H Hi) as (l & adj1 & w1 & S1 & P1 & -> & H1). { eapply Permutation_NoDup; [apply Permutation_map, HL, Hi|]. auto. }
      apply (IH (P ++ [i]) (set_at L0 i l)); [rewrite EQ, <- app_assoc; reflexivity|exact H1| |].
      + intros k Hk. unfold set_at. destruct (Nat.eqb_spec k i) as [->|]; [|auto]. rewrite (HL i Hi). exact P1.
      + intros k Hk. unfold set_at. destruct (Nat.eqb_spec k i) as [->|Hne]; [exact S1|]. apply in_app_or in Hk. destruct Hk as [Hk|[<-|[]]]; [auto|now elim Hne]. }
  destruct (G nodes [] L adj w eq_refl H) as (adj' & w' & L' & -> & H' & P' & S'); [reflexivity|intros i []|].
  cbn [rmap]. exists (mkg rec adj' w'), L'. split; [reflexivity|]. split; [exact H'|]. intros i Hi. split; [|auto]. apply S'. eapply Permutation_in; [exact HP|]. apply in_seq. lia.
Qed.
