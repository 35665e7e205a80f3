From Verif Require Import Outcome ListUtil WordsModel RangeModel RangeProofs BlockModel.
From Coq Require Import Permutation.
Local Open Scope N_scope.

Lemma wrap_small w x : x < 2 ^ w -> wrap w x = x.
Proof. intros H. unfold wrap. apply N.mod_small, H. Qed.
Lemma wrap_sub a b : b <= a -> a < 2 ^ 64 -> wrap 64 (a + 2 ^ 64 - b) = a - b.
Proof.
  intros H1 H2. unfold wrap. replace (a + 2 ^ 64 - b) with ((a - b) + 1 * 2 ^ 64) by lia.
  rewrite N.mod_add by discriminate. apply N.mod_small. lia.
Qed.

Lemma NoDup_app_intro {B} : forall l1 l2 : list B, NoDup l1 -> NoDup l2 -> (forall x, In x l1 -> In x l2 -> False) -> NoDup (l1 ++ l2).
Proof.
  induction l1 as [|a l1 IH]; intros l2 H1 H2 H; [exact H2|]. inversion H1; subst. cbn [app]. constructor.
  - intros Hin. apply in_app_or in Hin. destruct Hin as [Hin|Hin]; [contradiction|]. apply (H a); [left; reflexivity|exact Hin].
  - apply IH; [assumption|assumption|]. intros x Hx. apply H. right. exact Hx.
Qed.

Section A.
Context {A : Type}.
Notation blk := (block A).

Definition bok (b : blk) : Prop := b_min b < b_max b /\ b_max b < 2 ^ 64 /\ length (b_data b) = N.to_nat (b_max b - b_min b).

(** Consecutive non-empty blocks. *)
Fixpoint chain (l : list blk) : Prop :=
  match l with
  | [] => True
  | b :: t => bok b /\ match t with [] => True | b' :: _ => b_max b <= b_min b' end /\ chain t
  end.

Definition wf (l : list blk) : Prop := l <> [] /\ N.of_nat (length l) < 2 ^ 32 /\ chain l.

Lemma chain_nth : forall l k b, chain l -> nth_error l k = Some b -> bok b.
Proof.
  induction l as [|a l IH]; intros [|k] b H E; cbn in E; try discriminate.
  - injection E as <-. apply H.
  - apply (IH k); [apply H|exact E].
Qed.

Lemma chain_lt : forall l i j bi bj, chain l -> (i < j)%nat ->
  nth_error l i = Some bi -> nth_error l j = Some bj -> b_max bi <= b_min bj.
Proof.
  induction l as [|a l IH]; intros i j bi bj H L Ei Ej; [destruct i; discriminate|].
  destruct j as [|j]; [lia|]. destruct i as [|i].
  - cbn in Ei, Ej. injection Ei as <-. destruct H as [Ha [H1 H2]]. destruct l as [|b l]; [destruct j; discriminate|].
    destruct j as [|j]; cbn in Ej.
    + injection Ej as <-. exact H1.
    + specialize (IH 0%nat (S j) b bj H2 ltac:(lia) eq_refl Ej). pose proof (chain_nth _ 0%nat b H2 eq_refl) as [H3 _]. lia.
  - apply (IH i j); [apply H|lia|exact Ei|exact Ej].
Qed.

Lemma contains_iff (b : blk) i : blk_contains b i = true <-> b_min b <= i < b_max b.
Proof. unfold blk_contains. lia. Qed.

(** ** The binary search: the first block whose end is beyond the id. *)
Definition first_beyond (l : list blk) (idx : N) (k : nat) : Prop :=
  (forall j b, (j < k)%nat -> nth_error l j = Some b -> b_max b <= idx) /\
  (forall j b, (k <= j)%nat -> nth_error l j = Some b -> idx < b_max b) /\ (k <= length l)%nat.

Lemma first_beyond_uniq l idx k k' : first_beyond l idx k -> first_beyond l idx k' -> k = k'.
Proof.
  intros [A1 [A2 A3]] [B1 [B2 B3]]. destruct (Nat.lt_trichotomy k k') as [H|[H|H]]; [|exact H|].
  - destruct (nth_error_ex l k) as [b E]; [lia|]. specialize (A2 k b (le_n k) E). specialize (B1 k b H E). lia.
  - destruct (nth_error_ex l k') as [b E]; [lia|]. specialize (B2 k' b (le_n k') E). specialize (A1 k' b H E). lia.
Qed.

Lemma find_loop_spec l idx : chain l -> forall fuel start count,
  (count < fuel)%nat -> (start + count <= length l)%nat ->
  (forall j b, (j < start)%nat -> nth_error l j = Some b -> b_max b <= idx) ->
  (forall j b, (start + count <= j)%nat -> nth_error l j = Some b -> idx < b_max b) ->
  exists k, find_loop fuel l idx start count = Val k /\ first_beyond l idx k.
Proof.
  intros Hc. induction fuel as [|fuel IH]; intros start count Hf Hl H1 H2; [lia|]. cbn [find_loop].
  destruct (Nat.eqb_spec count 0) as [->|Hn].
  - exists start. split; [reflexivity|]. split; [exact H1|]. split; [|lia]. intros j b Hj. apply H2. lia.
  - assert (Hs : (Nat.div count 2 < count)%nat) by (apply Nat.div_lt; lia).
    set (step := Nat.div count 2) in *. clearbody step. cbv zeta.
    destruct (nth_error_ex l (start + step)) as [b E]; [lia|]. rewrite E.
    destruct (chain_nth l _ b Hc E) as [B1 [B2 B3]].
    destruct (blk_contains b idx) eqn:Ec; [|destruct (N.ltb_spec (b_min b) idx) as [Hlt|Hge]].
    + apply contains_iff in Ec. exists (start + step)%nat. split; [reflexivity|]. repeat split; [| |lia].
      * intros j bj Hj Ej. pose proof (chain_lt l _ _ bj b Hc Hj Ej E). lia.
      * intros j bj Hj Ej. destruct (Nat.eq_dec j (start + step)) as [->|Hne]; [rewrite E in Ej; injection Ej as <-; lia|].
        pose proof (chain_lt l (start + step) j b bj Hc ltac:(lia) E Ej). destruct (chain_nth l _ bj Hc Ej). lia.
    + apply IH; try lia.
      * intros j bj Hj Ej. assert (Hb : b_max b <= idx).
        { destruct (N.le_gt_cases (b_max b) idx); [assumption|]. rewrite <- not_true_iff_false, contains_iff in Ec. lia. }
        destruct (Nat.eq_dec j (start + step)) as [->|Hne]; [rewrite E in Ej; injection Ej as <-; lia|].
        pose proof (chain_lt l j (start + step) bj b Hc ltac:(lia) Ej E). lia.
      * intros j bj Hj Ej. apply (H2 j); [lia|exact Ej].
    + apply IH; try lia; [exact H1|].
      intros j bj Hj Ej. destruct (Nat.eq_dec j (start + step)) as [->|Hne]; [rewrite E in Ej; injection Ej as <-; lia|].
      pose proof (chain_lt l (start + step) j b bj Hc ltac:(lia) E Ej). destruct (chain_nth l _ bj Hc Ej). lia.
Qed.

Lemma trunc_len (l : list blk) : N.of_nat (length l) < 2 ^ 32 -> N.to_nat (wrap 32 (N.of_nat (length l))) = length l.
Proof. intros H. rewrite wrap_small by exact H. apply Nnat.Nat2N.id. Qed.

Lemma find_block_spec l idx t : wf l ->
  exists k, first_beyond l idx k /\
    find_block l idx t = Val (if Nat.eqb k (length l) && t then None else Some k).
Proof.
  intros [H0 [H1 H2]]. unfold find_block. rewrite trunc_len by exact H1.
  destruct (find_loop_spec l idx H2 (S (length l)) 0 (length l)) as [k [E F]]; try lia.
  - intros j b Hj E. assert (j < length l)%nat by (apply nth_error_Some; congruence). lia.
  - exists k. split; [exact F|]. rewrite E. reflexivity.
Qed.

Lemma first_beyond_contains l idx k b : chain l -> nth_error l k = Some b -> blk_contains b idx = true -> first_beyond l idx k.
Proof.
  intros Hc E Hb. apply contains_iff in Hb. repeat split.
  - intros j bj Hj Ej. pose proof (chain_lt l _ _ bj b Hc Hj Ej E). lia.
  - intros j bj Hj Ej. destruct (Nat.eq_dec j k) as [->|Hne]; [rewrite E in Ej; injection Ej as <-; lia|].
    pose proof (chain_lt l k j b bj Hc ltac:(lia) E Ej). destruct (chain_nth l _ bj Hc Ej). lia.
  - apply Nat.lt_le_incl, nth_error_Some. congruence.
Qed.

Lemma block_uniq l idx k k' b b' : chain l -> nth_error l k = Some b -> nth_error l k' = Some b' ->
  b_min b <= idx < b_max b -> b_min b' <= idx < b_max b' -> k = k'.
Proof.
  intros Hc E E' H H'. apply (first_beyond_uniq l idx); eapply first_beyond_contains; eauto; apply contains_iff; assumption.
Qed.

(** ** Access by id *)
Lemma seek_in l idx hint k b : wf l -> (hint < length l)%nat -> nth_error l k = Some b -> b_min b <= idx < b_max b ->
  ba_seek l idx hint = Val (Some k).
Proof.
  intros Hw Hh E Hb. unfold ba_seek. destruct (nth_error_ex l hint Hh) as [bh Eh]. rewrite Eh.
  destruct Hw as [W0 [W1 W2]].
  destruct (blk_contains bh idx) eqn:Ec.
  - apply contains_iff in Ec. do 2 f_equal. eapply block_uniq; eauto.
  - destruct (find_block_spec l idx true (conj W0 (conj W1 W2))) as [k' [F ->]].
    assert (k' = k) as ->. { eapply first_beyond_uniq; [exact F|]. eapply first_beyond_contains; eauto. now apply contains_iff. }
    destruct (Nat.eqb_spec k (length l)) as [->|]; [|reflexivity].
    assert (length l < length l)%nat by (apply nth_error_Some; congruence). lia.
Qed.

Lemma seek_out l idx hint : wf l -> (hint < length l)%nat -> (forall b, In b l -> ~ (b_min b <= idx < b_max b)) ->
  (forall b, In b l -> b_max b <= idx) /\ ba_seek l idx hint = Val None \/
  exists k b, ba_seek l idx hint = Val (Some k) /\ nth_error l k = Some b /\ idx < b_min b.
Proof.
  intros Hw Hh Ho. unfold ba_seek. destruct (nth_error_ex l hint Hh) as [bh Eh]. rewrite Eh.
  destruct (blk_contains bh idx) eqn:Ec.
  - apply contains_iff in Ec. apply nth_error_In in Eh. destruct (Ho _ Eh Ec).
  - destruct (find_block_spec l idx true Hw) as [k [[F1 [F2 F3]] ->]].
    destruct (Nat.eqb_spec k (length l)) as [->|Hk]; cbn [andb].
    + left. split; [|reflexivity]. intros b Hb. apply In_nth_error in Hb. destruct Hb as [j Ej].
      apply (F1 j); [|exact Ej]. apply nth_error_Some. congruence.
    + right. destruct (nth_error_ex l k) as [b E]; [lia|]. exists k, b. split; [reflexivity|]. split; [exact E|].
      specialize (F2 k b (le_n k) E). apply nth_error_In in E. specialize (Ho b E). lia.
Qed.

(** Specification: the cell of an id. *)
Definition cell (l : list blk) (i : N) (a : A) : Prop :=
  exists b, In b l /\ b_min b <= i < b_max b /\ nth_error (b_data b) (N.to_nat (i - b_min b)) = Some a.

Lemma wf_bok l b : wf l -> In b l -> bok b.
Proof. intros [_ [_ H]] Hb. apply In_nth_error in Hb. destruct Hb as [k E]. eapply chain_nth; eauto. Qed.

Lemma cell_ex l i b : wf l -> In b l -> b_min b <= i < b_max b -> exists a, cell l i a.
Proof.
  intros Hw Hb Hi. destruct (wf_bok _ _ Hw Hb) as [_ [_ H]].
  destruct (nth_error_ex (b_data b) (N.to_nat (i - b_min b))) as [a E]; [lia|]. exists a, b. auto.
Qed.

Lemma blk_at_in (b : blk) i : b_min b <= i -> blk_at b i = nth_error (b_data b) (N.to_nat (i - b_min b)).
Proof. intros H. unfold blk_at. destruct (N.leb_spec (b_min b) i); [reflexivity|lia]. Qed.

Lemma at_spec l i a hint : wf l -> cell l i a -> (hint < length l)%nat ->
  exists h, ba_at l i hint = Val (Some (a, h)) /\ (h < length l)%nat.
Proof.
  intros Hw [b [Hb [Hi E]]] Hh. apply In_nth_error in Hb. destruct Hb as [k Ek]. exists k.
  unfold ba_at. rewrite (seek_in l i hint k b Hw Hh Ek Hi). cbn [rbind]. rewrite Ek, blk_at_in by lia. rewrite E.
  split; [reflexivity|]. apply nth_error_Some. congruence.
Qed.

Lemma chain_upd_data : forall l k b v i, chain l -> nth_error l k = Some b -> chain (upd l k (blk_set b i v)).
Proof.
  induction l as [|c l IH]; intros [|k] b v i H E; cbn [nth_error] in E; try discriminate; cbn [upd].
  - injection E as <-. cbn [chain]. destruct H as [[H1 [H2 H3]] [H4 H5]]. split; [|split; assumption].
    unfold bok, blk_set. cbn [b_min b_max b_data]. rewrite upd_length. auto.
  - cbn [chain]. destruct H as [H1 [H2 H3]]. split; [exact H1|]. split; [|apply IH; assumption].
    destruct l as [|d l]; [destruct k; discriminate|]. destruct k as [|k]; cbn [upd]; [|exact H2].
    cbn [nth_error] in E. injection E as <-. exact H2.
Qed.

Lemma wf_upd l k b v i : wf l -> nth_error l k = Some b -> wf (upd l k (blk_set b i v)).
Proof.
  intros [H0 [H1 H2]] E. split; [|split].
  - intros Hn. apply (f_equal (@length blk)) in Hn. rewrite upd_length in Hn. destruct l; [congruence|discriminate].
  - rewrite upd_length. exact H1.
  - apply chain_upd_data; assumption.
Qed.

Lemma set_spec l i a v hint : wf l -> cell l i a -> (hint < length l)%nat ->
  exists l' h, ba_set l i hint v = Val (Some (l', h)) /\ (h < length l')%nat /\ wf l' /\
    length l' = length l /\
    forall j x, cell l' j x <-> (j = i /\ x = v) \/ (j <> i /\ cell l j x).
Proof.
  intros Hw [b [Hb [Hi E]]] Hh. apply In_nth_error in Hb. destruct Hb as [k Ek].
  assert (Hk : (k < length l)%nat) by (apply nth_error_Some; congruence).
  exists (upd l k (blk_set b i v)), k. unfold ba_set. rewrite (seek_in l i hint k b Hw Hh Ek Hi). cbn [rbind].
  rewrite Ek, blk_at_in by lia. rewrite E.
  split; [reflexivity|]. rewrite upd_length. split; [exact Hk|]. split; [eapply wf_upd; eauto|]. split; [reflexivity|].
  assert (Hlen : (N.to_nat (i - b_min b) < length (b_data b))%nat) by (apply nth_error_Some; congruence).
  intros j x. split.
  - intros [b' [Hb' [Hj Ex]]]. apply In_nth_error in Hb'. destruct Hb' as [k' Ek'].
    destruct (Nat.eq_dec k' k) as [->|Hne].
    + rewrite nth_error_upd_eq in Ek' by exact Hk. injection Ek' as <-. cbn [blk_set b_min b_max b_data] in Hj, Ex.
      destruct (N.eq_dec j i) as [->|Hji].
      * rewrite nth_error_upd_eq in Ex by exact Hlen. injection Ex as <-. now left.
      * right. split; [exact Hji|]. rewrite nth_error_upd_neq in Ex by lia. exists b. split; [eapply nth_error_In; eauto|]. auto.
    + rewrite nth_error_upd_neq in Ek' by auto. right. split.
      * intros ->. apply Hne. eapply block_uniq; eauto. apply Hw.
      * exists b'. split; [eapply nth_error_In; eauto|]. auto.
  - intros [[-> ->]|[Hne [b' [Hb' [Hj Ex]]]]].
    + exists (blk_set b i v). split; [eapply nth_error_In; apply nth_error_upd_eq; exact Hk|]. cbn [blk_set b_min b_max b_data].
      split; [exact Hi|]. apply nth_error_upd_eq. exact Hlen.
    + apply In_nth_error in Hb'. destruct Hb' as [k' Ek']. destruct (Nat.eq_dec k' k) as [->|Hk'].
      * rewrite Ek in Ek'. injection Ek' as <-. exists (blk_set b i v).
        split; [eapply nth_error_In; apply nth_error_upd_eq; exact Hk|]. cbn [blk_set b_min b_max b_data]. split; [exact Hj|].
        rewrite nth_error_upd_neq by lia. exact Ex.
      * exists b'. split; [|auto]. apply (nth_error_In _ k'). rewrite nth_error_upd_neq by auto. exact Ek'.
Qed.

Lemma contains_spec l i hint : wf l -> (hint < length l)%nat ->
  exists r h, ba_contains l i hint = Val (r, h) /\ (h < length l)%nat /\ (r = true <-> exists a, cell l i a).
Proof.
  intros Hw Hh. unfold ba_contains. destruct (nth_error_ex l hint Hh) as [bh Eh]. rewrite Eh.
  destruct (blk_contains bh i) eqn:Ec.
  - exists true, hint. split; [reflexivity|]. split; [exact Hh|]. split; [intros _|reflexivity]. apply contains_iff in Ec.
    eapply cell_ex; eauto. eapply nth_error_In; eauto.
  - destruct (find_block_spec l i false Hw) as [k [F ->]]. rewrite andb_false_r. cbn [rbind].
    assert (Hk : forall b, In b l -> b_min b <= i < b_max b -> nth_error l k = Some b).
    { intros b Hb Hi. apply In_nth_error in Hb. destruct Hb as [k' Ek'].
      assert (k' = k) as <-; [|exact Ek']. eapply first_beyond_uniq; [|exact F]. eapply first_beyond_contains; [apply Hw|exact Ek'|].
      now apply contains_iff. }
    destruct (Nat.eqb_spec k (length l)) as [->|Hne].
    + exists false, hint. split; [reflexivity|]. split; [exact Hh|]. split; [discriminate|]. intros [a [b [Hb [Hi _]]]].
      specialize (Hk b Hb Hi). assert (length l < length l)%nat by (apply nth_error_Some; congruence). lia.
    + assert (Hlt : (k < length l)%nat) by (destruct F as [_ [_ F]]; lia). destruct (nth_error_ex l k Hlt) as [b E]. rewrite E.
      destruct (blk_contains b i) eqn:Eb.
      * exists true, k. split; [reflexivity|]. split; [exact Hlt|]. split; [intros _|reflexivity]. apply contains_iff in Eb.
        eapply cell_ex; eauto. eapply nth_error_In; eauto.
      * exists false, hint. split; [reflexivity|]. split; [exact Hh|]. split; [discriminate|]. intros [a [b' [Hb [Hi _]]]].
        specialize (Hk b' Hb Hi). rewrite E in Hk. injection Hk as ->. apply contains_iff in Hi. congruence.
Qed.

Lemma cell_fun l i a a' : wf l -> cell l i a -> cell l i a' -> a = a'.
Proof.
  intros Hw [b [Hb [Hi E]]] [b' [Hb' [Hi' E']]]. apply In_nth_error in Hb, Hb'. destruct Hb as [k Ek], Hb' as [k' Ek'].
  assert (k = k') as <- by (eapply block_uniq; eauto; apply Hw). rewrite Ek in Ek'. injection Ek' as <-. congruence.
Qed.

Lemma at_out l i hint : wf l -> (hint < length l)%nat -> (forall a, ~ cell l i a) ->
  ba_at l i hint = (if forallb (fun b => b_max b <=? i) l then Val None else Undef).
Proof.
  intros Hw Hh Ho. unfold ba_at.
  destruct (seek_out l i hint Hw Hh) as [[Ha ->]|[k [b [-> [E Hb]]]]].
  - intros b Hb Hi. destruct (cell_ex l i b Hw Hb Hi) as [a Hc]. exact (Ho a Hc).
  - cbn [rbind]. replace (forallb _ l) with true; [reflexivity|]. symmetry. apply forallb_forall. intros b Hb. apply N.leb_le, Ha, Hb.
  - cbn [rbind]. rewrite E. unfold blk_at. destruct (N.leb_spec (b_min b) i); [lia|].
    replace (forallb _ l) with false; [reflexivity|]. symmetry. apply not_true_iff_false. rewrite forallb_forall. intros Hf.
    pose proof (nth_error_In _ _ E) as Hin. specialize (Hf b Hin). destruct (wf_bok l b Hw Hin). lia.
Qed.

(** ** Building *)
Definition apart (l : list blk) : Prop :=
  forall i j bi bj, i <> j -> nth_error l i = Some bi -> nth_error l j = Some bj ->
    b_max bi <= b_min bj \/ b_max bj <= b_min bi.

Lemma chain_apart l : chain l -> apart l.
Proof.
  intros H i j bi bj Hn Ei Ej. destruct (Nat.lt_trichotomy i j) as [L|[L|L]]; [left|congruence|right]; eapply chain_lt; eauto.
Qed.

Definition apart' (l : list blk) : Prop := ForallOrdPairs (fun a b => b_max a <= b_min b \/ b_max b <= b_min a) l.
Lemma apart_ord l : apart l <-> apart' l.
Proof.
  unfold apart, apart'. split.
  - induction l as [|a l IH]; intros H; constructor.
    + rewrite Forall_forall. intros b Hb. apply In_nth_error in Hb. destruct Hb as [k E].
      apply (H 0%nat (S k)); [lia|reflexivity|exact E].
    + apply IH. intros i j bi bj Hn Ei Ej. apply (H (S i) (S j)); [lia|exact Ei|exact Ej].
  - induction 1 as [|a l Ha Hl IH]; intros i j bi bj Hn Ei Ej; [destruct i; discriminate|].
    rewrite Forall_forall in Ha. destruct i as [|i], j as [|j]; cbn in Ei, Ej; try congruence.
    + injection Ei as <-. apply Ha. eapply nth_error_In; eauto.
    + injection Ej as <-. apply or_comm. apply Ha. eapply nth_error_In; eauto.
    + apply (IH i j); [lia|exact Ei|exact Ej].
Qed.

Lemma apart_perm l l' : Permutation l l' -> apart l -> apart l'.
Proof.
  rewrite !apart_ord. unfold apart'. induction 1 as [|x l l' P IH|x y l|l l' l'' P1 IH1 P2 IH2]; intros H.
  - exact H.
  - inversion H; subst. constructor; [|apply IH; assumption]. eapply Permutation_Forall; eauto.
  - inversion H as [|? ? H1 H2]; subst. inversion H2 as [|? ? H3 H4]; subst. inversion H1; subst.
    constructor; [constructor; [tauto|assumption]|]. constructor; assumption.
  - auto.
Qed.

Lemma sorted_chain : forall l, Forall bok l -> apart l ->
  (forall i j bi bj, (i < j)%nat -> nth_error l i = Some bi -> nth_error l j = Some bj -> b_min bi <= b_min bj) -> chain l.
Proof.
  induction l as [|a l IH]; intros Hb Ha Hs; [exact I|]. inversion Hb; subst. cbn [chain]. split; [assumption|]. split.
  - destruct l as [|b l]; [exact I|]. destruct (Ha 0%nat 1%nat a b ltac:(lia) eq_refl eq_refl) as [H|H]; [exact H|].
    specialize (Hs 0%nat 1%nat a b ltac:(lia) eq_refl eq_refl). rewrite Forall_forall in Hb.
    destruct (Hb b) as [B1 _]; [right; left; reflexivity|]. destruct H1 as [A1 _]. lia.
  - apply IH; [assumption| |].
    + intros i j bi bj Hn Ei Ej. apply (Ha (S i) (S j)); [lia|exact Ei|exact Ej].
    + intros i j bi bj Hn Ei Ej. apply (Hs (S i) (S j)); [lia|exact Ei|exact Ej].
Qed.

Lemma chain_Forall l : chain l -> Forall bok l.
Proof. intros H. rewrite Forall_forall. intros b Hb. apply In_nth_error in Hb. destruct Hb as [k E]. eapply chain_nth; eauto. Qed.

Definition disjoint (l1 l2 : list blk) : Prop :=
  forall b1 b2, In b1 l1 -> In b2 l2 -> b_max b1 <= b_min b2 \/ b_max b2 <= b_min b1.

Lemma apart_app l1 l2 : apart l1 -> apart l2 -> disjoint l1 l2 -> apart (l1 ++ l2).
Proof.
  rewrite !apart_ord. unfold apart'. intros H1 H2 Hd. induction H1 as [|a l Ha Hl IH]; [exact H2|]. cbn [app]. constructor.
  - apply Forall_app. split; [exact Ha|]. rewrite Forall_forall. intros b Hb. apply Hd; [left; reflexivity|exact Hb].
  - apply IH. intros b1 b2 Hb1 Hb2. apply Hd; [right; exact Hb1|exact Hb2].
Qed.

Lemma merge_wf l1 l2 l : wf l1 -> wf l2 -> disjoint l1 l2 -> N.of_nat (length l1 + length l2) < 2 ^ 32 ->
  ba_merge l1 l2 l -> wf l /\ length l = (length l1 + length l2)%nat /\ forall i a, cell l i a <-> cell l1 i a \/ cell l2 i a.
Proof.
  intros W1 W2 Hd Hlen [P Hs]. assert (Hl : length l = (length l1 + length l2)%nat).
  { rewrite <- app_length. symmetry. apply Permutation_length, P. }
  split; [|split; [exact Hl|]].
  - split; [|split].
    + destruct W1 as [W1 _]. intros ->. destruct l1; [congruence|]. discriminate.
    + rewrite Hl. exact Hlen.
    + apply sorted_chain; [| |exact Hs].
      * eapply Permutation_Forall; [exact P|]. apply Forall_app. split; apply chain_Forall; [apply W1|apply W2].
      * eapply apart_perm; [exact P|]. apply apart_app; [apply chain_apart, W1|apply chain_apart, W2|exact Hd].
  - intros i a. unfold cell. split.
    + intros [b [Hb H]]. apply (Permutation_in _ (Permutation_sym P)) in Hb. apply in_app_or in Hb. destruct Hb; [left|right]; eauto.
    + intros [[b [Hb H]]|[b [Hb H]]]; exists b; (split; [|exact H]); apply (Permutation_in _ P), in_or_app; auto.
Qed.

Lemma block_new_ok (d : A) min max : min < max -> max < 2 ^ 64 -> wf (ba_new d min max) /\
  forall i a, cell (ba_new d min max) i a <-> min <= i < max /\ a = d.
Proof.
  intros H1 H2. split.
  - split; [discriminate|]. split; [reflexivity|]. cbn [ba_new chain]. split; [|split; exact I]. unfold bok, block_new. cbn [b_min b_max b_data].
    rewrite repeat_length. auto.
  - intros i a. unfold cell, ba_new. split.
    + intros [b [[<-|[]] [Hi E]]]. cbn [block_new b_min b_max b_data] in *. split; [exact Hi|].
      apply nth_error_In, repeat_spec in E. exact E.
    + intros [Hi ->]. exists (block_new d min max). split; [left; reflexivity|]. cbn [block_new b_min b_max b_data]. split; [exact Hi|].
      apply nth_error_repeat. lia.
Qed.

(** Sums and bounds *)
Lemma fold_wrap : forall (l : list blk) s, fold_left (fun s b => wrap 64 (s + blk_size b)) l (wrap 64 s) =
  wrap 64 (s + fold_right (fun b t => blk_size b + t) 0 l).
Proof.
  induction l as [|b l IH]; intros s; cbn [fold_left fold_right]; [now rewrite N.add_0_r|].
  replace (wrap 64 (wrap 64 s + blk_size b)) with (wrap 64 (s + blk_size b)).
  - rewrite IH, N.add_assoc. reflexivity.
  - unfold wrap. rewrite N.add_mod_idemp_l by discriminate. reflexivity.
Qed.

Lemma sizes_bound : forall l b, chain (b :: l) -> exists u,
  ba_upper (b :: l) = Val u /\ u < 2 ^ 64 /\ b_min b + fold_right (fun b t => blk_size b + t) 0 (b :: l) <= u /\
  (forall c, In c (b :: l) -> b_max c <= u).
Proof.
  induction l as [|c l IH]; intros b H.
  - exists (b_max b). cbn [fold_right]. destruct H as [[H1 [H2 H3]] _]. unfold ba_upper, blk_size. cbn [length Nat.sub nth_error].
    rewrite wrap_sub by lia. repeat split; try lia. intros c [<-|[]]. lia.
  - destruct H as [[H1 [H2 H3]] [H4 H5]]. destruct (IH c H5) as [u [U1 [U2 [U3 U4]]]]. exists u. split.
    { unfold ba_upper in *. cbn [length] in *. replace (S (S (length l)) - 1)%nat with (S (S (length l) - 1)) by lia. exact U1. }
    split; [exact U2|]. cbn [fold_right] in *. split.
    + unfold blk_size at 1. rewrite wrap_sub by lia. lia.
    + intros d [<-|Hd]; [|apply U4; exact Hd]. assert (b_max c <= u) by (apply U4; left; reflexivity).
      destruct (chain_nth _ 0%nat c H5 eq_refl). lia.
Qed.

Lemma exact_size_spec l : wf l -> exists ids, NoDup ids /\ (forall i, In i ids <-> exists a, cell l i a) /\
  ba_exact_size l = N.of_nat (length ids).
Proof.
  intros Hw. pose proof Hw as [H0 [_ Hc]]. destruct l as [|b l]; [congruence|]. destruct (sizes_bound l b Hc) as [u [_ [U2 [U3 _]]]].
  assert (E : ba_exact_size (b :: l) = fold_right (fun b t => blk_size b + t) 0 (b :: l)).
  { unfold ba_exact_size. replace 0 with (wrap 64 0) at 1 by reflexivity. rewrite fold_wrap, N.add_0_l. apply wrap_small. lia. }
  rewrite E. clear E U2 U3. set (L := b :: l) in *. clearbody L. clear b l.
  exists (flat_map (fun b => map (fun j => b_min b + N.of_nat j) (seq 0 (N.to_nat (b_max b - b_min b)))) L).
  split; [|split].
  - clear Hw H0. induction L as [|b l IH]; [constructor|]. cbn [flat_map]. apply NoDup_app_intro.
    + apply FinFun.Injective_map_NoDup; [intros x y Hxy; lia|apply seq_NoDup].
    + apply IH, Hc.
    + intros x Hx Hy. apply in_map_iff in Hx. destruct Hx as [j [<- Hj]]. apply in_seq in Hj.
      apply in_flat_map in Hy. destruct Hy as [b' [Hb' Hy]]. apply in_map_iff in Hy. destruct Hy as [j' [Ej' Hj']]. apply in_seq in Hj'.
      apply In_nth_error in Hb'. destruct Hb' as [k Ek].
      pose proof (chain_lt (b :: l) 0 (S k) b b' Hc ltac:(lia) eq_refl Ek). lia.
  - intros i. rewrite in_flat_map. split.
    + intros [b [Hb Hi]]. apply in_map_iff in Hi. destruct Hi as [j [<- Hj]]. apply in_seq in Hj. eapply cell_ex; eauto. lia.
    + intros [a [b [Hb [Hi _]]]]. exists b. split; [exact Hb|]. apply in_map_iff. exists (N.to_nat (i - b_min b)). split; [lia|]. apply in_seq. lia.
  - clear Hw H0. induction L as [|b l IH]; [reflexivity|]. cbn [fold_right flat_map]. rewrite app_length, map_length, seq_length.
    rewrite IH by apply Hc. destruct Hc as [[H1 [H2 H3]] _]. unfold blk_size. rewrite wrap_sub by lia. lia.
Qed.
End A.
