(** Proofs about the partition makers: the id sets and the loop over the boxes. *)
From Coq Require Import Reals Lia List.
From Verif Require Import Outcome ListUtil WordsModel LPSetModel SimplexModel PointModel GeoModel PartModel AABBModel KWayModel KWayProofs Pool MakerModel.
Open Scope list_scope.
Import ListNotations.

(** ** The id sets *)
Section S.
Variable D : nat.
Notation Dn := (N.of_nat D).
Variable part : N -> res nat.

Lemma m_split_ok : forall ids ss ss', m_split D part ids ss = Val ss' ->
  length ss' = length ss /\ (forall i, In i ids -> p_finite Dn i = true -> exists j, (j < length ss)%nat /\ part i = Val j) /\
  (forall j s, nth_error ss j = Some s -> exists s', nth_error ss' j = Some s' /\ k_cap s' = k_cap s /\ (NoDup (k_ids s) -> NoDup (k_ids s')) /\
     forall x, In x (k_ids s') <-> In x (k_ids s) \/ (In x ids /\ p_finite Dn x = true /\ part x = Val j)).
Proof using.
  induction ids as [|i ids IH]; intros ss ss' H; cbn [m_split] in H.
  - injection H as <-. split; [reflexivity|]. split; [intros i Hi; destruct Hi|]. intros j s Hs. exists s. cbn [In]. intuition auto.
  - destruct (p_finite Dn i) eqn:Ef.
    + destruct (part i) as [j0| |] eqn:Ei; try discriminate. cbn [rbind] in H.
      unfold k_put in H. destruct (nth_error ss j0) as [s0|] eqn:E0; [|discriminate]. unfold k_insert in H. destruct (k_cap s0 =? 0)%N; [discriminate|]. cbn [rmap rbind] in H.
      destruct (IH _ _ H) as (L & G & Q). rewrite upd_length in *. assert (L0 := nth_error_lt _ _ _ E0). split; [exact L|]. split.
      * intros x [<-|Hx] Hf; [exists j0; auto|auto].
      * intros j s Hs. destruct (Nat.eq_dec j j0) as [->|Hne].
        -- destruct (Q j0 (mkk (k_cap s0) (k_add i (k_ids s0)))) as (s' & H1 & H2 & H3 & H4); [now apply nth_error_upd_eq|]. assert (s0 = s) by congruence. subst s0. exists s'. split; [exact H1|]. split; [exact H2|]. cbn [k_ids k_cap] in *.
           split; [intros N; apply H3, k_add_nodup, N|]. intros x. rewrite H4, k_add_in. cbn [In]. intuition (subst; auto).
        -- destruct (Q j s) as (s' & H1 & H2 & H3 & H4); [rewrite nth_error_upd_neq by congruence; exact Hs|]. exists s'. split; [exact H1|]. split; [exact H2|]. split; [exact H3|]. intros x. rewrite H4. cbn [In].
           intuition (subst; auto; try congruence).
    + destruct (IH _ _ H) as (L & G & Q). split; [exact L|]. split.
      * intros x [<-|Hx] Hf; [congruence|auto].
      * intros j s Hs. destruct (Q j s Hs) as (s' & H1 & H2 & H3 & H4). exists s'. split; [exact H1|]. split; [exact H2|]. split; [exact H3|]. intros x. rewrite H4. cbn [In]. intuition (subst; auto; try congruence).
Qed.
Lemma m_split_total : forall ids ss, (forall i, In i ids -> p_finite Dn i = true -> exists j, (j < length ss)%nat /\ part i = Val j) -> (forall s, In s ss -> k_cap s <> 0%N) ->
  exists ss', m_split D part ids ss = Val ss'.
Proof using.
  induction ids as [|i ids IH]; intros ss H C; cbn [m_split]; [eauto|]. destruct (p_finite Dn i) eqn:Ef.
  - destruct (H i (or_introl eq_refl) Ef) as (j & Lj & ->). cbn [rbind]. unfold k_put. destruct (nth_error_ex ss j Lj) as [s Hs]. rewrite Hs. unfold k_insert.
    destruct (N.eqb_spec (k_cap s) 0) as [E|_]; [destruct (C s (nth_error_In _ _ Hs) E)|]. cbn [rmap rbind]. apply IH.
    + intros x Hx Hf. rewrite upd_length. apply H; [now right|exact Hf].
    + intros s' Hs'. apply In_nth_error in Hs'. destruct Hs' as [m Hm]. destruct (Nat.eq_dec m j) as [->|Hne].
      * rewrite nth_error_upd_eq in Hm by exact Lj. injection Hm as <-. cbn [k_cap]. apply C. eapply nth_error_In, Hs.
      * rewrite nth_error_upd_neq in Hm by congruence. apply C. eapply nth_error_In, Hm.
  - apply IH; [|exact C]. intros x Hx Hf. apply H; [now right|exact Hf].
Qed.
Lemma m_infs_ok : forall ss ls, m_infs D ss = Val ls -> length ls = length ss /\
  forall j s, nth_error ss j = Some s -> exists l, nth_error ls j = Some l /\ k_cap s <> 0%N /\ (NoDup (k_ids s) -> NoDup l) /\ forall x, In x l <-> In x (inf_ids D) \/ In x (k_ids s).
Proof using.
  induction ss as [|s ss IH]; intros ls H; cbn [m_infs] in H.
  - injection H as <-. split; [reflexivity|]. intros [|j] s Hs; discriminate.
  - unfold m_inf in H. destruct (N.eqb_spec (k_cap s) 0) as [E|E]; [discriminate|]. cbn [rbind] in H. destruct (m_infs D ss) as [r| |]; try discriminate. cbn [rmap] in H. injection H as <-.
    destruct (IH r eq_refl) as (L & Q). split; [cbn [length]; congruence|]. intros [|j] s' Hs; cbn [nth_error] in *; [|now apply Q].
    injection Hs as <-. eexists. split; [reflexivity|]. split; [exact E|]. split; [apply add_fold_nodup|]. intros x. apply add_fold_in.
Qed.
Lemma m_infs_total : forall ss, (forall s, In s ss -> k_cap s <> 0%N) -> exists ls, m_infs D ss = Val ls.
Proof using.
  induction ss as [|s ss IH]; intros C; cbn [m_infs]; [eauto|]. unfold m_inf. destruct (N.eqb_spec (k_cap s) 0) as [E|_]; [destruct (C s (or_introl eq_refl) E)|].
  cbn [rbind]. destruct IH as [ls ->]; [intros; apply C; now right|]. cbn [rmap]. eauto.
Qed.
Lemma m_sets_nth n k j s : nth_error (m_sets n k) j = Some s -> s = mkk (N.of_nat n / N.of_nat k) [] /\ (j < k)%nat.
Proof using. unfold m_sets. intros H. split; [eapply nth_error_repeat_inv, H|]. apply nth_error_lt in H. now rewrite repeat_length in H. Qed.

Lemma m_ids_ok ids k ls : m_ids D part ids k = Val ls ->
  length ls = k /\ (forall i, In i ids -> p_finite Dn i = true -> exists j, (j < k)%nat /\ part i = Val j) /\
  (forall j l, nth_error ls j = Some l -> NoDup l /\ forall i, In i l <-> In i (inf_ids D) \/ (In i ids /\ p_finite Dn i = true /\ part i = Val j)).
Proof using.
  unfold m_ids. destruct (m_split D part ids (m_sets (length ids) k)) as [ss| |] eqn:E; try discriminate. cbn [rbind]. intros H.
  destruct (m_split_ok _ _ _ E) as (L & G & Q). destruct (m_infs_ok _ _ H) as (L2 & Q2). assert (Lk : length (m_sets (length ids) k) = k) by apply repeat_length. rewrite Lk in *.
  split; [congruence|]. split; [exact G|]. intros j l Hl. assert (Hj : (j < k)%nat) by (rewrite <- L, <- L2; eapply nth_error_lt, Hl).
  destruct (nth_error_ex (m_sets (length ids) k) j) as [s0 H0]; [lia|]. destruct (Q j s0 H0) as (s & H1 & _ & H3 & H4). apply m_sets_nth in H0. destruct H0 as [-> _].
  destruct (Q2 j s H1) as (l' & H5 & _ & H6 & H7). assert (l' = l) by congruence. subst l'. cbn [k_ids] in *. split; [apply H6, H3, NoDup_nil|]. intros i. rewrite H7, H4. cbn [In]. tauto.
Qed.
Lemma m_ids_total ids k : (0 < k <= length ids)%nat -> (forall i, In i ids -> p_finite Dn i = true -> exists j, (j < k)%nat /\ part i = Val j) -> exists ls, m_ids D part ids k = Val ls.
Proof using.
  intros Hk Hp. unfold m_ids. assert (Lk : length (m_sets (length ids) k) = k) by apply repeat_length.
  assert (C : forall s, In s (m_sets (length ids) k) -> k_cap s <> 0%N).
  { intros s Hs. apply In_nth_error in Hs. destruct Hs as [j Hj]. apply m_sets_nth in Hj. destruct Hj as [-> _]. cbn [k_cap]. pose proof (N.div_str_pos (N.of_nat (length ids)) (N.of_nat k)). lia. }
  destruct (m_split_total ids (m_sets (length ids) k)) as [ss E]; [rewrite Lk; exact Hp|exact C|]. rewrite E. cbn [rbind]. apply m_infs_total.
  intros s Hs. apply In_nth_error in Hs. destruct Hs as [j Hj]. destruct (m_split_ok _ _ _ E) as (L & _ & Q).
  destruct (nth_error_ex (m_sets (length ids) k) j) as [s0 H0]; [rewrite <- L; eapply nth_error_lt, Hj|]. destruct (Q j s0 H0) as (s' & H1 & H2 & _).
  assert (s' = s) by congruence. subst s'. rewrite H2. apply C. eapply nth_error_In, H0.
Qed.
(** Fewer ids than partitions: the sets have no cells. *)
Lemma m_ids_few ids k ls : (length ids < k)%nat -> m_ids D part ids k <> Val ls.
Proof using.
  intros Hk. unfold m_ids. destruct (m_split D part ids (m_sets (length ids) k)) as [ss| |] eqn:E; try discriminate. cbn [rbind]. intros H.
  destruct (m_split_ok _ _ _ E) as (L & _ & Q). destruct (m_infs_ok _ _ H) as (L2 & Q2). assert (Lk : length (m_sets (length ids) k) = k) by apply repeat_length.
  destruct (nth_error_ex (m_sets (length ids) k) 0) as [s0 H0]; [lia|]. destruct (Q 0%nat s0 H0) as (s & H1 & H2 & _). destruct (Q2 0%nat s H1) as (_ & _ & C & _). apply C. rewrite H2.
  apply m_sets_nth in H0. destruct H0 as [-> _]. cbn [k_cap]. apply N.div_small. lia.
Qed.
End S.

(** ** The boxes *)
Lemma bounding_snoc D vs c : vs <> [] -> bounding D (vs ++ [c]) = option_map (fun b => enlarge D b c) (bounding D vs).
Proof. destruct vs as [|v t]; intros H; [contradiction|]. cbn [bounding app option_map]. now rewrite fold_left_app. Qed.
Lemma bounding_some D vs b : bounding D vs = Some b -> vs <> [].
Proof. intros H E. subst vs. discriminate. Qed.

Section B.
Variable D : nat.
Variable pts : points vec.
Notation Dn := (N.of_nat D).
Variable ls : list (list N).
Variable co : N -> vec.
Hypothesis Hget : forall l i, In l ls -> In i l -> p_get Dn pts i = Val (co i).
Notation k := (length ls).
Notation nw := (k / 64 + 1)%nat.

Definition is_put (t : btask) : bool := match b_pc t with Put _ => true | _ => false end.
(** At most one thread is between reading and writing a word of the vector. *)
Definition calm (p : pool bsh btask) : Prop := (length (filter is_put (p_tasks p)) <= 1)%nat.
Inductive cexec (P : pool bsh btask -> Prop) (a : pool bsh btask) : pool bsh btask -> Prop :=
| ce_start : P a -> cexec P a a
| ce_step b c : cexec P a b -> pstep (b_step D pts) b c -> P c -> cexec P a c.

Definition bit (sh : bsh) (j : nat) : bool := match nth_error (s_words sh) (b_word j) with Some w => N.testbit w (b_bit j) | None => false end.
Definition hold (q : Prop) (sh : bsh) (ts : list btask) (j : nat) (l : list N) : Prop :=
  exists pre tl, (pre ++ tl <> [] -> tl <> []) /\ nth_error (s_box sh) j = Some (bounding D (map co tl)) /\ (q -> pre = []) /\
  ((exists todo pc, In (mkb j todo pc) ts /\
      match pc with
      | Look => l = (pre ++ tl) ++ todo /\ (q -> pre ++ tl <> [] -> bit sh j = true)
      | _ => exists i r, todo = i :: r /\ l = (pre ++ tl) ++ r /\ pre ++ tl <> []
      end)
   \/ (~ In j (map b_part ts) /\ l = pre ++ tl)).
Definition full (sh : bsh) (j : nat) : Prop := nth_error (s_box sh) j <> Some None.
Record inv (q : Prop) (p : pool bsh btask) : Prop := mkinv {
  v_nd : NoDup (map b_part (p_tasks p));
  v_lt : forall t, In t (p_tasks p) -> (b_part t < k)%nat;
  v_box : length (s_box (p_sh p)) = k;
  v_wrd : length (s_words (p_sh p)) = nw;
  v_hold : forall j l, nth_error ls j = Some l -> hold q (p_sh p) (p_tasks p) j l;
  v_bit : forall j, bit (p_sh p) j = true -> (j < k)%nat -> full (p_sh p) j;
  v_put : forall j todo v, In (mkb j todo (Put v)) (p_tasks p) ->
     (q -> nth_error (s_words (p_sh p)) (b_word j) = Some v) /\
     forall j', (j' < k)%nat -> b_word j' = b_word j -> N.testbit v (b_bit j') = true -> full (p_sh p) j' }.

Lemma word_lt j : (j < k)%nat -> (b_word j < nw)%nat.
Proof using. intros H. unfold b_word. pose proof (Nat.div_le_mono j k 64 ltac:(lia) ltac:(lia)). lia. Qed.
Lemma in_mid {A} (x t : A) l1 l2 : In x (l1 ++ t :: l2) <-> x = t \/ In x (l1 ++ l2).
Proof using. rewrite !in_app_iff. cbn [In]. intuition auto. Qed.

Lemma start_inv q : inv q (b_start ls).
Proof using Hget.
  unfold b_start. split; cbn [p_tasks p_sh s_box s_words].
  - rewrite map_map. cbn [b_part]. assert (E : map fst (combine (seq 0 k) ls) = seq 0 k).
    { generalize 0%nat. clear. induction ls as [|l r IH]; intros a; cbn [length seq combine map fst]; [reflexivity|]. now rewrite IH. }
    match goal with |- NoDup (map ?f _) => replace (map f (combine (seq 0 k) ls)) with (seq 0 k) by (rewrite <- E at 1; now apply map_ext) end. apply seq_NoDup.
  - intros t Ht. apply in_map_iff in Ht. destruct Ht as ((j & l) & <- & Hin). cbn [b_part fst]. apply in_combine_l in Hin. apply in_seq in Hin. lia.
  - apply repeat_length.
  - apply repeat_length.
  - intros j l Hl. exists [], []. split; [auto|]. split; [apply nth_error_repeat; eapply nth_error_lt, Hl|]. split; [auto|]. left. exists l, Look. split; [|split; [reflexivity|intros _ E; contradiction]].
    apply in_map_iff. exists (j, l). split; [reflexivity|]. assert (E : forall a, In (a + j, l)%nat (combine (seq a (length ls)) ls)).
    { revert j Hl. clear. induction ls as [|x r IH]; intros [|j] Hl a; cbn [nth_error] in Hl; try discriminate; cbn [length seq combine].
      - injection Hl as ->. left. f_equal. lia.
      - right. replace (a + S j)%nat with (S a + j)%nat by lia. now apply IH. }
    apply (E 0%nat).
  - intros j Hb Hj. unfold bit in Hb. cbn [s_words] in Hb. rewrite nth_error_repeat in Hb by now apply word_lt. now rewrite N.bits_0 in Hb.
  - intros j todo v Hin. apply in_map_iff in Hin. destruct Hin as (x & E & _). discriminate.
Qed.

Lemma bits_eq j j' : b_word j = b_word j' -> b_bit j = b_bit j' -> j = j'.
Proof using. unfold b_word, b_bit. intros H1 H2. pose proof (Nat.div_mod j 64 ltac:(lia)). pose proof (Nat.div_mod j' 64 ltac:(lia)). lia. Qed.

(** The acting task, the other tasks, and what remains of the acting one. *)
Lemma step_inv q a b : inv q a -> (q -> calm a) -> (q -> calm b) -> pstep (b_step D pts) a b -> inv q b.
Proof using Hget.
  intros I Ca Cb (l1 & t & l2 & sh' & next & E1 & E2 & ->). destruct I as [Ind Ilt Ibox Iwrd Ihold Ibit Iput]. rewrite E1 in *.
  assert (Hlt := Ilt t ltac:(apply in_elt)). destruct t as [j todo pc]. cbn [b_part] in Hlt.
  assert (Hno : ~ In j (map b_part (l1 ++ l2))).
  { rewrite map_app in *. cbn [map b_part] in Ind. now apply NoDup_remove_2 in Ind. }
  assert (Hnd : NoDup (map b_part (l1 ++ l2))).
  { rewrite map_app in *. cbn [map b_part] in Ind. now apply NoDup_remove_1 in Ind. }
  assert (Huniq : forall todo' pc', In (mkb j todo' pc') (l1 ++ mkb j todo pc :: l2) -> mkb j todo' pc' = mkb j todo pc).
  { intros todo' pc' H. apply in_mid in H. destruct H as [H|H]; [exact H|]. destruct Hno. apply (in_map b_part) in H. exact H. }
  destruct (nth_error_ex ls j Hlt) as [l Hl]. assert (Hin := nth_error_In _ _ Hl).
  (* what j holds *)
  destruct (Ihold j l Hl) as (pre & tl & H1 & H2 & H3 & H4).
  destruct H4 as [(todo0 & pc0 & H5 & H6)|[H5 _]]; [|destruct H5; rewrite map_app; apply in_elt].
  apply Huniq in H5. injection H5 as -> ->.
  (* the other partitions *)
  assert (Oth : forall j' l' ts, j' <> j -> nth_error ls j' = Some l' -> (forall x, b_part x = j' -> (In x ts <-> In x (l1 ++ l2))) ->
            nth_error (s_box sh') j' = nth_error (s_box (p_sh a)) j' -> (q -> bit (p_sh a) j' = true -> bit sh' j' = true) -> hold q sh' ts j' l').
  { intros j' l' ts Hne Hl' Hts Hb' Hbit. destruct (Ihold j' l' Hl') as (pre' & tl' & K1 & K2 & K3 & K4). exists pre', tl'. split; [exact K1|]. split; [congruence|]. split; [exact K3|].
    destruct K4 as [(td & pc' & K5 & K6)|[K5 K6]].
    - left. exists td, pc'. split; [apply Hts; [reflexivity|]; apply in_mid in K5; destruct K5 as [K5|K5]; [injection K5; congruence|exact K5]|].
      destruct pc'; [destruct K6; split; auto|exact K6|exact K6].
    - right. split; [|exact K6]. intros X. apply K5. apply in_map_iff in X. destruct X as (x & X1 & X2). apply in_map_iff. exists x. split; [exact X1|]. apply in_mid. right. now apply Hts. }
  assert (Mid : forall t', b_part t' = j -> forall j' x, j' <> j -> b_part x = j' -> (In x (l1 ++ [t'] ++ l2) <-> In x (l1 ++ l2))).
  { intros t' Ht j' x Hne Hx. cbn [app]. rewrite in_mid. split; [|auto]. intros [->|H]; [congruence|exact H]. }
  assert (ND : forall t', b_part t' = j -> NoDup (map b_part (l1 ++ [t'] ++ l2))).
  { intros t' Ht. cbn [app]. rewrite map_app in *. cbn [map] in *. now rewrite Ht. }
  assert (LT : forall t', b_part t' = j -> forall x, In x (l1 ++ [t'] ++ l2) -> (b_part x < k)%nat).
  { intros t' Ht x Hx. cbn [app] in Hx. apply in_mid in Hx. destruct Hx as [->|Hx]; [congruence|]. apply Ilt. apply in_mid. now right. }
  unfold b_step in E2. cbn [b_part b_todo b_pc] in E2. destruct todo as [|i r].
  { injection E2 as <- <-. cbn [app]. split; cbn [p_tasks p_sh]; [exact Hnd| |exact Ibox|exact Iwrd| |exact Ibit|].
    - intros t Ht. apply Ilt. apply in_mid. now right.
    - intros j' l' Hl'. destruct (Nat.eq_dec j' j) as [->|Hne]; [|apply Oth; auto; tauto]. assert (l' = l) by congruence. subst l'. exists pre, tl. split; [exact H1|]. split; [exact H2|]. split; [exact H3|].
      right. split; [exact Hno|]. destruct pc; [destruct H6 as [H6 _]; now rewrite app_nil_r in H6| |]; destruct H6 as (? & ? & ? & _); discriminate.
    - intros j' todo' v Hin'. apply (Iput j' todo' v). apply in_mid. now right. }
  assert (Pold : forall t' sh2, b_part t' = j -> is_put t' = false -> s_words sh2 = s_words (p_sh a) -> (forall j', full (p_sh a) j' -> full sh2 j') -> forall j' td v, In (mkb j' td (Put v)) (l1 ++ [t'] ++ l2) ->
     (q -> nth_error (s_words sh2) (b_word j') = Some v) /\ forall j2, (j2 < k)%nat -> b_word j2 = b_word j' -> N.testbit v (b_bit j2) = true -> full sh2 j2).
  { intros t' sh2 Ht Hp Hw Hf j' td v X. cbn [app] in X. apply in_mid in X. destruct X as [X|X]; [subst t'; discriminate|]. destruct (Iput j' td v) as [P1 P2]; [apply in_mid; now right|]. rewrite Hw. split; [exact P1|]. intros j2 X1 X2 X3. apply Hf, P2; auto. }
  destruct pc as [| |v].
  - (* Look *)
    destruct H6 as [H6 H7]. assert (Hi : In i l) by (rewrite H6; apply in_elt). rewrite (Hget l i Hin Hi) in E2.
    destruct (nth_error_ex (s_words (p_sh a)) (b_word j)) as [w Hw]; [rewrite Iwrd; now apply word_lt|]. rewrite Hw, H2 in E2.
    assert (Hbe : bit (p_sh a) j = N.testbit w (b_bit j)) by (unfold bit; now rewrite Hw). rewrite <- Hbe in E2. destruct (bit (p_sh a) j) eqn:Eb.
    + assert (Hf := Ibit j Eb Hlt). unfold full in Hf. rewrite H2 in Hf. destruct (bounding D (map co tl)) as [bx|] eqn:Ebx; [|destruct (Hf eq_refl)]. injection E2 as <- <-.
      assert (Htl : tl <> []) by (intros X; subst tl; discriminate).
      assert (Hful : forall j', full (p_sh a) j' -> full (mkbsh (s_words (p_sh a)) (upd (s_box (p_sh a)) j (Some (enlarge D bx (co i))))) j').
      { intros j' X. unfold full. cbn [s_box]. destruct (Nat.eq_dec j' j) as [->|Hne]; [rewrite nth_error_upd_eq by (rewrite Ibox; exact Hlt); discriminate|]. rewrite nth_error_upd_neq by congruence. exact X. }
      split; cbn [p_tasks p_sh s_box s_words]; [now apply ND| | |exact Iwrd| | |].
      * intros t Ht. eapply LT; [|exact Ht]. reflexivity.
      * now rewrite upd_length.
      * intros j' l' Hl'. destruct (Nat.eq_dec j' j) as [->|Hne].
        -- assert (l' = l) by congruence. subst l'. exists pre, (tl ++ [i]). split; [intros _ X; now destruct tl|]. split; [cbn [s_box]; rewrite nth_error_upd_eq by (rewrite Ibox; exact Hlt); rewrite map_app; cbn [map]; rewrite bounding_snoc, Ebx; [reflexivity|]; intros X; now destruct tl|]. split; [exact H3|].
           left. exists r, Look. split; [cbn [app]; apply in_elt|]. split; [rewrite H6, <- !app_assoc; reflexivity|]. intros _ _. unfold bit in *. cbn [s_words]. exact Eb.
        -- apply Oth; auto. { intros x Hx. eapply Mid; eauto. } cbn [s_box]. now rewrite nth_error_upd_neq by congruence.
      * intros j' Hb' Hj'. apply Hful, Ibit; auto.
      * refine (Pold (mkb j r Look) (mkbsh (s_words (p_sh a)) _) eq_refl eq_refl eq_refl Hful).
    + injection E2 as <- <-.
      assert (Hful : forall j', full (p_sh a) j' -> full (mkbsh (s_words (p_sh a)) (upd (s_box (p_sh a)) j (Some (mkbox (co i) (co i))))) j').
      { intros j' X. unfold full. cbn [s_box]. destruct (Nat.eq_dec j' j) as [->|Hne]; [rewrite nth_error_upd_eq by (rewrite Ibox; exact Hlt); discriminate|]. rewrite nth_error_upd_neq by congruence. exact X. }
      split; cbn [p_tasks p_sh s_box s_words]; [now apply ND| | |exact Iwrd| | |].
      * intros t Ht. eapply LT; [|exact Ht]. reflexivity.
      * now rewrite upd_length.
      * intros j' l' Hl'. destruct (Nat.eq_dec j' j) as [->|Hne].
        -- assert (l' = l) by congruence. subst l'. exists (pre ++ tl), [i]. split; [discriminate|]. split; [cbn [s_box]; rewrite nth_error_upd_eq by (rewrite Ibox; exact Hlt); reflexivity|].
           split; [intros Q; destruct (pre ++ tl) eqn:Ep; [reflexivity|]; specialize (H7 Q ltac:(discriminate)); congruence|].
           left. exists (i :: r), Grab. split; [cbn [app]; apply in_elt|]. exists i, r. split; [reflexivity|]. split; [rewrite H6, <- !app_assoc; reflexivity|]. intros X. now destruct (pre ++ tl).
        -- apply Oth; auto. { intros x Hx. eapply Mid; eauto. } cbn [s_box]. now rewrite nth_error_upd_neq by congruence.
      * intros j' Hb' Hj'. apply Hful, Ibit; auto.
      * refine (Pold (mkb j (i :: r) Grab) (mkbsh (s_words (p_sh a)) _) eq_refl eq_refl eq_refl Hful).
  - (* Grab *)
    destruct (nth_error_ex (s_words (p_sh a)) (b_word j)) as [w Hw]; [rewrite Iwrd; now apply word_lt|]. rewrite Hw in E2. injection E2 as <- <-.
    split; cbn [p_tasks p_sh]; [now apply ND| |exact Ibox|exact Iwrd| |exact Ibit|].
    + intros t Ht. eapply LT; [|exact Ht]. reflexivity.
    + intros j' l' Hl'. destruct (Nat.eq_dec j' j) as [->|Hne].
      * assert (l' = l) by congruence. subst l'. exists pre, tl. split; [exact H1|]. split; [exact H2|]. split; [exact H3|]. left. exists (i :: r), (Put w). split; [cbn [app]; apply in_elt|exact H6].
      * apply Oth; auto. intros x Hx. eapply Mid; eauto.
    + intros j' td v X. cbn [app] in X. apply in_mid in X. destruct X as [X|X]; [|apply (Iput j' td v), in_mid; now right]. injection X as -> -> ->. split; [intros _; exact Hw|].
      intros j' X1 X2 X3. apply Ibit; [|exact X1]. unfold bit. rewrite X2, Hw. exact X3.
  - (* Put *)
    rewrite Iwrd in E2. rewrite (proj2 (Nat.ltb_lt _ _) (word_lt j Hlt)) in E2. injection E2 as <- <-.
    destruct (Iput j (i :: r) v ltac:(apply in_elt)) as [Pq Pf].
    assert (Hw : forall m, nth_error (upd (s_words (p_sh a)) (b_word j) (N.lor v (2 ^ b_bit j))) m = if Nat.eq_dec m (b_word j) then Some (N.lor v (2 ^ b_bit j)) else nth_error (s_words (p_sh a)) m).
    { intros m. destruct (Nat.eq_dec m (b_word j)) as [->|Hne]; [apply nth_error_upd_eq; rewrite Iwrd; now apply word_lt|apply nth_error_upd_neq; congruence]. }
    destruct H6 as (i' & r' & H6 & H7 & H8). injection H6 as <- <-.
    assert (Hfj : full (p_sh a) j).
    { unfold full. rewrite H2. intros X. injection X as X. specialize (H1 H8). destruct tl; [now apply H1|discriminate]. }
    split; cbn [p_tasks p_sh s_box s_words]; [now apply ND| |exact Ibox| | | |].
    + intros t Ht. eapply LT; [|exact Ht]. reflexivity.
    + now rewrite upd_length.
    + intros j' l' Hl'. destruct (Nat.eq_dec j' j) as [->|Hne].
      * assert (l' = l) by congruence. subst l'. exists pre, tl. split; [exact H1|]. split; [exact H2|]. split; [exact H3|]. left. exists r, Look. split; [cbn [app]; apply in_elt|]. split; [exact H7|].
        intros _ _. unfold bit. cbn [s_words]. rewrite Hw. destruct (Nat.eq_dec (b_word j) (b_word j)) as [_|Y]; [|destruct (Y eq_refl)]. now rewrite N.lor_spec, N.pow2_bits_true, Bool.orb_true_r.
      * apply Oth; auto. { intros x Hx. eapply Mid; eauto. } intros Q. unfold bit. cbn [s_words]. rewrite Hw. destruct (Nat.eq_dec (b_word j') (b_word j)) as [e|_]; [|auto].
        rewrite e, (Pq Q), N.lor_spec. now intros ->.
    + intros j' Hb' Hj'. change (full (p_sh a) j'). unfold bit in Hb'. cbn [s_words] in Hb'. rewrite Hw in Hb'. destruct (Nat.eq_dec (b_word j') (b_word j)) as [e|Y]; [|apply Ibit; auto].
      rewrite N.lor_spec in Hb'. apply Bool.orb_prop in Hb'. destruct Hb' as [Hb'|Hb']; [now apply Pf|]. rewrite N.pow2_bits_eqb in Hb'. apply N.eqb_eq in Hb'. rewrite (bits_eq j' j); auto.
    + intros j' td v' X. cbn [app] in X. apply in_mid in X. destruct X as [X|X]; [discriminate|]. destruct (Iput j' td v') as [P1 P2]; [apply in_mid; now right|]. split; [|exact P2].
      intros Q. exfalso. specialize (Ca Q). unfold calm in Ca. rewrite E1, filter_app in Ca. cbn [filter is_put b_pc] in Ca.
      assert (In (mkb j' td (Put v')) (filter is_put (l1 ++ l2))) by (apply filter_In; auto). rewrite filter_app in H. rewrite app_length in Ca. cbn [length] in Ca.
      apply (Nat.lt_irrefl 0). destruct (filter is_put l1), (filter is_put l2); cbn [length app] in *; try contradiction; lia.
Qed.

Lemma exec_inv : forall b, pexec (b_step D pts) (b_start ls) b -> inv False b.
Proof using Hget. intros b H. induction H as [|b c _ IH H]; [apply start_inv|]. eapply step_inv; eauto; intros []. Qed.
Lemma cexec_inv : forall b, cexec calm (b_start ls) b -> inv True b.
Proof using Hget.
  assert (G : forall b, cexec calm (b_start ls) b -> inv True b /\ calm b).
  { intros b H. induction H as [H|b c _ [IH1 IH2] H Hc]; [split; [apply start_inv|exact H]|]. split; [|exact Hc]. eapply step_inv; eauto. }
  intros b H. now apply G.
Qed.
Lemma cexec_exec P a b : cexec P a b -> pexec (b_step D pts) a b.
Proof using. intros H. induction H as [_|b c _ IH H _]; [constructor|econstructor; eauto]. Qed.

Lemma safe_inv q b : inv q b -> forall t, In t (p_tasks b) -> b_step D pts (p_sh b) t <> TBad.
Proof using Hget.
  intros I t Ht. destruct I as [Ind Ilt Ibox Iwrd Ihold Ibit Iput]. assert (Hlt := Ilt t Ht). destruct t as [j todo pc]. cbn [b_part] in Hlt. unfold b_step. cbn [b_part b_todo b_pc]. destruct todo as [|i r]; [discriminate|].
  destruct (nth_error_ex (s_words (p_sh b)) (b_word j)) as [w Hw]; [rewrite Iwrd; now apply word_lt|]. destruct pc as [| |v].
  - destruct (nth_error_ex ls j Hlt) as [l Hl]. destruct (Ihold j l Hl) as (pre & tl & H1 & H2 & H3 & H4). destruct H4 as [(todo0 & pc0 & H5 & H6)|[H5 _]]; [|destruct H5; apply (in_map b_part) in Ht; exact Ht].
    assert (E : mkb j todo0 pc0 = mkb j (i :: r) Look).
    { clear - Ind H5 Ht. induction (p_tasks b) as [|x l IH]; [destruct Ht|]. cbn [map] in Ind. inversion Ind as [|? ? N1 N2]; subst. destruct H5 as [->|H5], Ht as [E|Ht]; auto.
      - destruct N1. apply (in_map b_part) in Ht. exact Ht.
      - subst x. destruct N1. apply (in_map b_part) in H5. exact H5. }
    injection E as -> ->. destruct H6 as [-> H7]. rewrite (Hget _ i (nth_error_In _ _ Hl) ltac:(apply in_elt)), Hw, H2. destruct (N.testbit w (b_bit j)) eqn:Eb; [|discriminate].
    assert (Hf : full (p_sh b) j) by (apply Ibit; [unfold bit; now rewrite Hw|exact Hlt]). unfold full in Hf. rewrite H2 in Hf. destruct (bounding D (map co tl)); [discriminate|now destruct Hf].
  - rewrite Hw. discriminate.
  - rewrite Iwrd, (proj2 (Nat.ltb_lt _ _) (word_lt j Hlt)). discriminate.
Qed.
Lemma boxes_safe : psafe (b_step D pts) (b_start ls).
Proof using Hget. intros b t Hb Ht. eapply safe_inv; [apply exec_inv, Hb|exact Ht]. Qed.
Lemma boxes_term : pterminates (b_step D pts) (b_start ls).
Proof using.
  clear Hget co.
  pose (wt := fun (_ : bsh) (t : btask) => (3 + 3 * length (b_todo t) - match b_pc t with Look => 0 | Grab => 1 | Put _ => 2 end)%nat).
  apply (pterm_measure (b_step D pts) (fun _ => True) (fun _ => 0%nat) wt); [exact I|auto|]. intros b [j todo pc] sh' next _ _ E. right. split; [reflexivity|]. split; [intros; apply le_n|].
  unfold b_step in E. cbn [b_todo b_part b_pc] in E. destruct todo as [|i r].
  { injection E as <- <-. cbn. destruct pc; lia. }
  destruct pc as [| |v].
  - destruct (p_get Dn pts i); try discriminate. destruct (nth_error (s_words (p_sh b)) (b_word j)); [|discriminate]. destruct (nth_error (s_box (p_sh b)) j) as [ob|]; [|discriminate]. destruct (N.testbit n (b_bit j)).
    + destruct ob; [|discriminate]. injection E as <- <-. unfold wt. cbn [total b_todo b_pc length]. lia.
    + injection E as <- <-. unfold wt. cbn [total b_todo b_pc length]. lia.
  - destruct (nth_error (s_words (p_sh b)) (b_word j)); [|discriminate]. injection E as <- <-. unfold wt. cbn [total b_todo b_pc length]. lia.
  - destruct (Nat.ltb _ _); [|discriminate]. injection E as <- <-. unfold wt. cbn [total b_todo b_pc length]. lia.
Qed.
(** At the end every partition has the box of a last part of its ids, and of all of them if the words were not raced for. *)
Lemma boxes_end : forall b, pexec (b_step D pts) (b_start ls) b -> p_tasks b = [] -> length (s_box (p_sh b)) = k /\
  forall j l, nth_error ls j = Some l -> exists pre tl, l = pre ++ tl /\ (l <> [] -> tl <> []) /\ nth_error (s_box (p_sh b)) j = Some (bounding D (map co tl)).
Proof using Hget.
  intros b Hb Ht. destruct (exec_inv b Hb) as [_ _ Ibox _ Ihold _ _]. split; [exact Ibox|]. intros j l Hl. destruct (Ihold j l Hl) as (pre & tl & H1 & H2 & _ & [(td & pc & H4 & _)|[_ ->]]); [rewrite Ht in H4; destruct H4|]. exists pre, tl. auto.
Qed.
Lemma boxes_calm : forall b, cexec calm (b_start ls) b -> p_tasks b = [] -> forall j l, nth_error ls j = Some l -> nth_error (s_box (p_sh b)) j = Some (bounding D (map co l)).
Proof using Hget.
  intros b Hb Ht j l Hl. destruct (cexec_inv b Hb) as [_ _ _ _ Ihold _ _]. destruct (Ihold j l Hl) as (pre & tl & H1 & H2 & H3 & [(td & pc & H4 & _)|[_ ->]]); [rewrite Ht in H4; destruct H4|]. rewrite (H3 I) in *. exact H2.
Qed.
End B.
