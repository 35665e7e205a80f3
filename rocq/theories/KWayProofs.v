From Coq Require Import Reals Lra Psatz.
From Verif Require Import Outcome ListUtil WordsModel LPSetModel SimplexModel PointModel PointProofs GeoModel GeoSpec GeoProofs PartModel PartProofs KWayModel.
Open Scope list_scope.
Import ListNotations.

(** In how many of the leaves an id is. *)
Definition times (i : N) (ls : list kleaf) : nat := length (filter (fun l => if in_dec N.eq_dec i (snd l) then true else false) ls).
(** A rounding, as to float or double: monotone, exact for the numbers below 2^24, never off by more than a factor of two
    unless the result is 0. *)
Definition rounding (r : R -> R) : Prop :=
  (forall x y, (x <= y)%R -> (r x <= r y)%R) /\ (forall k, (0 <= k <= 2 ^ 24)%Z -> r (IZR k) = IZR k) /\
  (forall x, (0 <= x)%R -> (r x <= 2 * x)%R) /\ forall x, (0 < r x)%R -> (x <= 2 * r x)%R.

Lemma k_mem_iff i l : k_mem i l = true <-> In i l.
Proof. unfold k_mem. rewrite existsb_exists. split; [intros (x & H & E); apply N.eqb_eq in E; now subst|intros H; exists i; split; [exact H|apply N.eqb_refl]]. Qed.
Lemma k_add_in i l x : In x (k_add i l) <-> x = i \/ In x l.
Proof.
  unfold k_add. destruct (k_mem i l) eqn:E.
  - apply k_mem_iff in E. split; [auto|intros [->|H]; auto].
  - rewrite in_app_iff. cbn [In]. intuition auto.
Qed.
Lemma k_add_nodup i l : NoDup l -> NoDup (k_add i l).
Proof.
  intros H. unfold k_add. destruct (k_mem i l) eqn:E; [exact H|]. assert (N : ~ In i l) by (rewrite <- k_mem_iff; congruence).
  clear E. induction l as [|x l IH]; cbn [app]; [constructor; [auto|constructor]|]. apply NoDup_cons_iff in H. destruct H as [H1 H2]. cbn [In] in N. constructor; [|apply IH; tauto].
  rewrite in_app_iff. cbn [In]. intuition auto.
Qed.
Lemma add_fold_in ks : forall l x, In x (fold_left (fun l i => k_add i l) ks l) <-> In x ks \/ In x l.
Proof. induction ks as [|k ks IH]; intros l x; cbn [fold_left In]; [tauto|]. rewrite IH, k_add_in. intuition auto. Qed.
Lemma add_fold_nodup ks : forall l, NoDup l -> NoDup (fold_left (fun l i => k_add i l) ks l).
Proof. induction ks as [|k ks IH]; intros l H; cbn [fold_left]; [exact H|]. apply IH, k_add_nodup, H. Qed.

Lemma splits_ok D p : (0 < D)%nat -> (p <> 0)%N -> exists ss, gen_splits D p = Val ss /\ length ss = D /\ fold_right Nat.mul 1%nat ss = (2 ^ N.to_nat (N.log2 p))%nat /\ Forall (fun k => 1 <= k /\ exists e, k = 2 ^ e)%nat ss.
Proof.
  intros HD Hp. unfold gen_splits. destruct (N.eqb_spec p 0) as [|_]; [contradiction|]. eexists. split; [reflexivity|]. set (l := N.to_nat (N.log2 p)). clearbody l. clear p Hp.
  induction l as [|l IH].
  - cbn [seq fold_left]. split; [apply repeat_length|]. split; [clear; induction D as [|D IH]; [reflexivity|cbn [repeat fold_right]; rewrite IH; reflexivity]|].
    apply Forall_forall. intros x Hx. apply repeat_spec in Hx. subst. split; [lia|]. now exists 0%nat.
  - rewrite seq_S, fold_left_app. cbn [fold_left Nat.add]. set (r := fold_left _ (seq 0 l) (repeat 1%nat D)) in *. clearbody r. destruct IH as (L & P & F). set (j := (l mod D)%nat). assert (Hj : (j < length r)%nat) by (rewrite L; apply Nat.mod_upper_bound; lia). clearbody j.
    split; [now rewrite upd_length|].
    assert (G : forall r j, (j < length r)%nat -> fold_right Nat.mul 1%nat (upd r j (2 * nth j r 0)%nat) = (2 * fold_right Nat.mul 1 r)%nat).
    { clear. induction r as [|x r IH]; intros j Hj; cbn [length] in Hj; [lia|]. destruct j as [|j]; cbn [upd nth fold_right]; [lia|]. rewrite IH by lia. lia. }
    split; [rewrite G by exact Hj; rewrite P; cbn [Nat.pow]; lia|].
    rewrite Forall_forall in F. apply Forall_forall. intros x Hx. apply In_nth_error in Hx. destruct Hx as [m Hm]. destruct (Nat.eq_dec m j) as [->|Hne]; [rewrite nth_error_upd_eq in Hm by exact Hj|rewrite nth_error_upd_neq in Hm by congruence].
    + injection Hm as <-. destruct (nth_error_ex r j Hj) as [y Hy]. rewrite (nth_error_nth r j 0%nat Hy). destruct (F y (nth_error_In _ _ Hy)) as (F1 & e & Fe). split; [lia|]. exists (S e). cbn [Nat.pow]. lia.
    + apply F. eapply nth_error_In, Hm.
Qed.

Section K.
Variable D : nat.
Hypothesis HD : (N.of_nat D <= 30)%N.
Variable pts : points vec.
Notation Dn := (N.of_nat D).

Lemma inf_not_finite i : In i (inf_ids D) -> p_finite Dn i = false.
Proof using HD.
  intros H. apply (inf_iff D HD) in H. destruct (p_finite Dn i) eqn:E; [|reflexivity]. pose proof (pow_D_le Dn HD). assert (Hc : (2 ^ 30 < 2 ^ 64)%N) by reflexivity.
  apply (finite_iff D HD) in E; [contradiction|]. unfold is_inf_id in H. lia.
Qed.

Section Split.
Variable index : vec -> res nat.
Definition goes (i : N) (j : nat) : Prop := exists c, p_get Dn pts i = Val c /\ index c = Val j.
Lemma goes_fun i j k : goes i j -> goes i k -> j = k.
Proof using. intros (c & H1 & H2) (c' & H3 & H4). congruence. Qed.
Lemma k_split_ok : forall ids ss ss', k_split D pts index ids ss = Val ss' ->
  length ss' = length ss /\ (forall i, In i ids -> p_finite Dn i = true -> exists j, (j < length ss)%nat /\ goes i j) /\
  (forall j s, nth_error ss j = Some s -> exists s', nth_error ss' j = Some s' /\ k_cap s' = k_cap s /\ (NoDup (k_ids s) -> NoDup (k_ids s')) /\
     forall x, In x (k_ids s') <-> In x (k_ids s) \/ (In x ids /\ p_finite Dn x = true /\ goes x j)).
Proof using.
  induction ids as [|i ids IH]; intros ss ss' H; cbn [k_split] in H.
  - injection H as <-. split; [reflexivity|]. split; [intros i Hi; destruct Hi|]. intros j s Hs. exists s. cbn [In]. intuition auto.
  - destruct (p_finite Dn i) eqn:Ef.
    + destruct (p_get Dn pts i) as [c| |] eqn:Ec; try discriminate. cbn [rbind] in H. destruct (index c) as [j0| |] eqn:Ei; try discriminate. cbn [rbind] in H.
      unfold k_put in H. destruct (nth_error ss j0) as [s0|] eqn:E0; [|discriminate]. unfold k_insert in H. destruct (k_cap s0 =? 0)%N; [discriminate|]. cbn [rmap rbind] in H.
      destruct (IH _ _ H) as (L & G & Q). rewrite upd_length in *. assert (L0 := nth_error_lt _ _ _ E0). split; [exact L|]. split.
      * intros x [<-|Hx] Hf; [exists j0; split; [exact L0|]; exists c; auto|auto].
      * intros j s Hs. destruct (Nat.eq_dec j j0) as [->|Hne].
        -- destruct (Q j0 (mkk (k_cap s0) (k_add i (k_ids s0)))) as (s' & H1 & H2 & H3 & H4); [now apply nth_error_upd_eq|]. assert (s0 = s) by congruence. subst s0. exists s'. split; [exact H1|]. split; [exact H2|]. cbn [k_ids k_cap] in *.
           split; [intros N; apply H3, k_add_nodup, N|]. intros x. rewrite H4, k_add_in. cbn [In]. assert (goes i j0) by (exists c; auto). intuition (subst; auto).
        -- destruct (Q j s) as (s' & H1 & H2 & H3 & H4); [rewrite nth_error_upd_neq by congruence; exact Hs|]. exists s'. split; [exact H1|]. split; [exact H2|]. split; [exact H3|]. intros x. rewrite H4. cbn [In].
           assert (goes i j -> False) by (intros X; apply Hne, (goes_fun i); [exact X|exists c; auto]). intuition (subst; auto; try tauto).
    + destruct (IH _ _ H) as (L & G & Q). split; [exact L|]. split.
      * intros x [<-|Hx] Hf; [congruence|auto].
      * intros j s Hs. destruct (Q j s Hs) as (s' & H1 & H2 & H3 & H4). exists s'. split; [exact H1|]. split; [exact H2|]. split; [exact H3|]. intros x. rewrite H4. cbn [In]. intuition (subst; auto; try congruence).
Qed.
End Split.

(** What the leaves made from the ids [K] have to satisfy. *)
Definition leaves_ok (K : list N) (n : nat) (ls : list kleaf) : Prop :=
  length ls = n /\
  (forall i, p_finite Dn i = true -> In i K -> times i ls = 1%nat) /\
  (forall l i, In l ls -> In i (snd l) -> In i K \/ In i (inf_ids D)) /\
  (forall l i, In l ls -> In i (inf_ids D) -> In i (snd l)) /\
  (forall l, In l ls -> NoDup (snd l)) /\
  (forall l i c, In l ls -> In i (snd l) -> p_finite Dn i = true -> p_get Dn pts i = Val c -> in_box D (fst l) c).

Lemma st_loop_cover : forall ids s st, st_loop D pts true ids s = Val st -> forall d, ((st_min st d <= st_min s d)%R /\ (st_max s d <= st_max st d)%R) /\
  forall i c, In i ids -> p_finite Dn i = true -> p_get Dn pts i = Val c -> (st_min st d <= c d <= st_max st d)%R.
Proof using.
  induction ids as [|i ids IH]; intros s st H d; cbn [st_loop] in H.
  - injection H as <-. split; [lra|]. intros i c Hi. destruct Hi.
  - destruct (p_finite Dn i) eqn:Ef; cbn [orb negb] in H.
    + destruct (p_get Dn pts i) as [c0| |] eqn:Ec; try discriminate. cbn [rbind] in H. destruct (IH _ _ H d) as ((A & B) & C). cbn [st_add st_min st_max] in A, B. pose proof (Rmin_l (st_min s d) (c0 d)). pose proof (Rmin_r (st_min s d) (c0 d)). pose proof (Rmax_l (st_max s d) (c0 d)). pose proof (Rmax_r (st_max s d) (c0 d)).
      split; [lra|]. intros j c [<-|Hj] Hf Hc; [|now apply (C j)]. rewrite Ec in Hc. injection Hc as <-. lra.
    + destruct (IH _ _ H d) as (A & C). split; [exact A|]. intros j c [<-|Hj] Hf Hc; [congruence|now apply (C j)].
Qed.
Lemma times_app i a b : times i (a ++ b) = (times i a + times i b)%nat.
Proof using. unfold times. now rewrite filter_app, app_length. Qed.
Lemma times_none i ls : (forall l, In l ls -> ~ In i (snd l)) -> times i ls = 0%nat.
Proof using.
  intros H. unfold times. induction ls as [|l ls IH]; [reflexivity|]. cbn [filter]. destruct (in_dec N.eq_dec i (snd l)) as [X|_]; [destruct (H l (or_introl eq_refl) X)|]. apply IH. intros. apply H. now right.
Qed.

(** The children: a list of sets, every finite id in exactly one. *)
Lemma k_all_ok (f : kset -> res (list kleaf)) n : (forall s ls, NoDup (k_ids s) -> f s = Val ls -> leaves_ok (k_ids s) n ls) ->
  forall ss ls, (forall s, In s ss -> NoDup (k_ids s)) -> k_all f ss = Val ls ->
  length ls = (length ss * n)%nat /\
  (forall i, p_finite Dn i = true -> times i ls = length (filter (fun s => if in_dec N.eq_dec i (k_ids s) then true else false) ss)) /\
  (forall l i, In l ls -> In i (snd l) -> (exists s, In s ss /\ In i (k_ids s)) \/ In i (inf_ids D)) /\
  (forall l i, In l ls -> In i (inf_ids D) -> In i (snd l)) /\ (forall l, In l ls -> NoDup (snd l)) /\
  (forall l i c, In l ls -> In i (snd l) -> p_finite Dn i = true -> p_get Dn pts i = Val c -> in_box D (fst l) c).
Proof using HD.
  intros Hf. induction ss as [|s ss IH]; intros ls HN H; cbn [k_all] in H.
  - injection H as <-. split; [reflexivity|]. split; [reflexivity|]. split; [intros l i Hl; destruct Hl|]. split; [intros l i Hl; destruct Hl|]. split; [intros l Hl; destruct Hl|intros l i c Hl; destruct Hl].
  - destruct (f s) as [l1| |] eqn:E1; try discriminate. cbn [rbind] in H. destruct (k_all f ss) as [l2| |] eqn:E2; try discriminate. cbn [rmap] in H. injection H as <-.
    destruct (Hf s l1 (HN s (or_introl eq_refl)) E1) as (A1 & A2 & A3 & A4 & A5 & A6). destruct (IH l2 (fun s' Hs' => HN s' (or_intror Hs')) eq_refl) as (B1 & B2 & B3 & B4 & B5 & B6).
    split; [rewrite app_length, A1, B1; cbn [length]; lia|]. split.
    { intros i Hi. rewrite times_app, (B2 i Hi). cbn [filter]. destruct (in_dec N.eq_dec i (k_ids s)) as [X|X]; cbn [length].
      - rewrite (A2 i Hi X). lia.
      - rewrite times_none; [lia|]. intros l Hl Hil. destruct (A3 l i Hl Hil) as [Y|Y]; [contradiction|]. apply inf_not_finite in Y. congruence. }
    split. { intros l i Hl Hil. apply in_app_iff in Hl. destruct Hl as [Hl|Hl]; [destruct (A3 l i Hl Hil) as [Y|Y]; [left; exists s; split; [now left|exact Y]|now right]|].
      destruct (B3 l i Hl Hil) as [(s' & Y1 & Y2)|Y]; [left; exists s'; split; [now right|exact Y2]|now right]. }
    split. { intros l i Hl Hi. apply in_app_iff in Hl. destruct Hl; [now apply A4|now apply B4]. }
    split. { intros l Hl. apply in_app_iff in Hl. destruct Hl; [now apply A5|now apply B5]. }
    intros l i c Hl. apply in_app_iff in Hl. destruct Hl; [now apply A6|now apply B6].
Qed.

Lemma filter_one {A} (P : A -> bool) : forall l j a, nth_error l j = Some a -> P a = true -> (forall k b, nth_error l k = Some b -> P b = true -> k = j) -> length (filter P l) = 1%nat.
Proof using.
  clear. induction l as [|x l IH]; intros j a Hj Ha Hu; [destruct j; discriminate|]. cbn [filter]. destruct j as [|j].
  - injection Hj as ->. rewrite Ha. cbn [length]. f_equal. assert (E : filter P l = []); [|now rewrite E].
    destruct (filter P l) as [|y r] eqn:E; [reflexivity|]. assert (Hy : In y (filter P l)) by (rewrite E; now left). apply filter_In in Hy. destruct Hy as [Hy Py]. apply In_nth_error in Hy. destruct Hy as [k Hk]. specialize (Hu (S k) y Hk Py). discriminate.
  - destruct (P x) eqn:Ex; [specialize (Hu 0%nat x eq_refl Ex); discriminate|]. apply (IH j a Hj Ha). intros k b Hk Hb. specialize (Hu (S k) b Hk Hb). congruence.
Qed.

Variables tiny huge : R.
Lemma stats_cover ids st : stats_seq D pts tiny huge true ids = Val st -> forall d i c, In i ids -> p_finite Dn i = true -> p_get Dn pts i = Val c -> (st_min st d <= c d <= st_max st d)%R.
Proof using.
  unfold stats_seq. intros H d i c Hi Hf Hc. destruct (st_loop D pts true ids (st_empty tiny huge)) as [s| |] eqn:E; try discriminate. cbn [rmap] in H. injection H as <-. cbn [st_finish st_min st_max].
  destruct (st_loop_cover _ _ _ E d) as [_ C]. now apply (C i).
Qed.

Variables rf rp : R -> R.
Notation krec := (k_rec rf rp D pts tiny huge).
Lemma k_rec_ok : forall splits dim s ls, NoDup (k_ids s) -> krec splits dim s = Val ls -> leaves_ok (k_ids s) (fold_right Nat.mul 1%nat splits) ls.
Proof using HD.
  induction splits as [|p rest IH]; intros dim s ls HN H; cbn [k_rec] in H; destruct (stats_seq D pts tiny huge true (k_ids s)) as [st| |] eqn:Es; try discriminate; cbn [rbind] in H.
  - destruct (k_cap s =? 0)%N; [discriminate|]. injection H as <-. cbn [fold_right].
    set (L := fold_left _ (inf_ids D) (k_ids s)). assert (HL : forall x, In x L <-> In x (inf_ids D) \/ In x (k_ids s)) by (intros; apply add_fold_in).
    split; [reflexivity|]. split.
    { intros i Hf Hi. unfold times. cbn [filter snd]. destruct (in_dec N.eq_dec i L) as [_|X]; [reflexivity|]. exfalso. apply X, HL. now right. }
    split. { intros l i [<-|[]] Hi. cbn [snd] in Hi. apply HL in Hi. tauto. }
    split. { intros l i [<-|[]] Hi. cbn [snd]. apply HL. now left. }
    split. { intros l [<-|[]]. cbn [snd]. apply add_fold_nodup, HN. }
    intros l i c [<-|[]] Hi Hf Hc d _. cbn [snd] in Hi. apply HL in Hi. destruct Hi as [Hi|Hi]; [apply inf_not_finite in Hi; congruence|]. cbn [fst b_lo b_hi]. now apply (stats_cover (k_ids s) st Es d i c).
  - set (index := fun c : vec => k_index rf rp (st_min st (dim mod D)) (st_max st (dim mod D)) (c (dim mod D)%nat) p) in *. set (ss := repeat _ p) in *.
    destruct (k_split D pts index (k_ids s) ss) as [ss'| |] eqn:Ek; try discriminate. cbn [rbind] in H. destruct (k_split_ok index _ _ _ Ek) as (L & G & Q). assert (Lp : length ss = p) by apply repeat_length.
    assert (Q' : forall j s', nth_error ss' j = Some s' -> NoDup (k_ids s') /\ forall x, In x (k_ids s') <-> In x (k_ids s) /\ p_finite Dn x = true /\ goes index x j).
    { intros j s' Hj. assert (Lj := nth_error_lt _ _ _ Hj). destruct (nth_error_ex ss j) as [s0 H0]; [lia|]. destruct (Q j s0 H0) as (s1 & H1 & _ & H3 & H4). assert (s1 = s') by congruence. subst s1.
      assert (E0 : k_ids s0 = []) by (apply nth_error_In in H0; apply repeat_spec in H0; now subst s0). rewrite E0 in *. split; [apply H3; constructor|]. intros x. rewrite H4. cbn [In]. tauto. }
    destruct (k_all_ok (krec rest (S dim)) (fold_right Nat.mul 1%nat rest) (fun s0 ls0 N0 E0 => IH (S dim) s0 ls0 N0 E0) ss' ls) as (A1 & A2 & A3 & A4 & A5 & A6); [|exact H|].
    { intros s' Hs'. apply In_nth_error in Hs'. destruct Hs' as [j Hj]. apply (Q' j s' Hj). }
    split; [rewrite A1, L, Lp; cbn [fold_right]; reflexivity|]. split.
    { intros i Hf Hi. rewrite (A2 i Hf). destruct (G i Hi Hf) as (j & Lj & Hg). destruct (nth_error_ex ss' j) as [s' Hs']; [lia|]. apply (filter_one _ ss' j s' Hs').
      - destruct (in_dec N.eq_dec i (k_ids s')) as [_|X]; [reflexivity|]. exfalso. apply X, (Q' j s' Hs'). auto.
      - intros k b Hk Hb. destruct (in_dec N.eq_dec i (k_ids b)) as [X|]; [|discriminate]. apply (Q' k b Hk) in X. destruct X as (_ & _ & X). symmetry. eapply goes_fun; eassumption. }
    split. { intros l i Hl Hi. destruct (A3 l i Hl Hi) as [(s' & Hs' & X)|X]; [|now right]. apply In_nth_error in Hs'. destruct Hs' as [j Hj]. apply (Q' j s' Hj) in X. tauto. }
    auto.
Qed.
End K.

(** The index. *)
Lemma Int_part_range x a b : (IZR a <= x < IZR b)%R -> (a <= Int_part x < b)%Z.
Proof. intros H. destruct (base_Int_part x) as [H1 H2]. assert (A : (IZR a < IZR (Int_part x + 1))%R) by (rewrite plus_IZR; lra). assert (B : (IZR (Int_part x) < IZR b)%R) by lra. apply lt_IZR in A, B. lia. Qed.
Lemma to_int_small z : (0 <= z < 2 ^ 31)%Z -> to_int z = z.
Proof. intros H. unfold to_int. rewrite Z.mod_small by lia. destruct (Z.ltb_spec z (2 ^ 31)); [reflexivity|lia]. Qed.
Lemma k_index_in rf rp mn mx c p : rounding rf -> rounding rp -> (1 <= Z.of_nat p <= 2 ^ 20)%Z -> rf mn = mn -> rf mx = mx -> (mn <= c <= mx)%R -> (0 < rf (mx - mn))%R ->
  exists j, k_index rf rp mn mx c p = Val j /\ (j < p)%nat.
Proof.
  intros (M & X & U & L) (M' & X' & U' & L') Hp Hn Hx Hc Hd. unfold k_index. rewrite Hn, Hx. set (d := rf (mx - mn)%R) in *. unfold reqb. destruct (Req_EM_T d 0) as [E|_]; [lra|].
  assert (A0 : (0 <= rp (c - mn) / d)%R). { apply Rmult_le_pos; [rewrite <- (X' 0%Z ltac:(lia)); apply M'; lra|apply Rlt_le, Rinv_0_lt_compat; exact Hd]. }
  assert (A1 : (rp (c - mn) / d <= 4)%R). { apply (Rmult_le_reg_r d); [exact Hd|]. unfold Rdiv. rewrite Rmult_assoc, Rinv_l, Rmult_1_r by lra. assert (rp (c - mn) <= 2 * (c - mn))%R by (apply U'; lra). assert ((mx - mn <= 2 * d)%R) by exact (L _ Hd). lra. }
  set (q := (rp (c - mn) / d)%R) in *. clearbody q.
  assert (B : (0 <= rf (rp q) <= 4)%R).
  { pose proof (M _ _ (M' _ _ A0)) as B0. pose proof (M _ _ (M' _ _ A1)) as B1. rewrite (X' 0%Z), (X 0%Z) in B0 by lia. rewrite (X' 4%Z), (X 4%Z) in B1 by lia. lra. }
  rewrite INR_IZR_INZ, (X (Z.of_nat p)) by lia. set (pos := rf (rp q)) in *. clearbody pos.
  assert (P : (1 <= IZR (Z.of_nat p))%R) by (apply IZR_le; lia).
  assert (C : (0 <= rf (pos * IZR (Z.of_nat p)) <= IZR (4 * Z.of_nat p))%R).
  { assert (C0 : (0 <= pos * IZR (Z.of_nat p))%R) by nra. assert (C1 : (pos * IZR (Z.of_nat p) <= IZR (4 * Z.of_nat p))%R) by (rewrite mult_IZR; nra).
    apply M in C0, C1. rewrite (X 0%Z) in C0 by lia. rewrite (X (4 * Z.of_nat p)%Z) in C1 by lia. lra. }
  assert (Z0 : (0 <= Int_part (rf (pos * IZR (Z.of_nat p))%R) < 4 * Z.of_nat p + 1)%Z). { apply Int_part_range. rewrite plus_IZR. lra. }
  set (z := Int_part _) in *. clearbody z. destruct (Z.leb_spec 0 z) as [_|]; [|lia]. destruct (Z.ltb_spec z (2 ^ 64)) as [_|]; [|lia]. cbn [andb]. eexists. split; [reflexivity|].
  rewrite !to_int_small by lia. lia.
Qed.

(** Slab [j] of [p] equal slabs from [lo] to [hi], the last one closed. *)
Definition slab (p : nat) (lo hi : R) (j : nat) (c : R) : Prop :=
  (INR j <= (c - lo) / (hi - lo) * INR p < INR j + 1)%R \/ (S j = p /\ c = hi).
Lemma rounding_id : rounding (fun x => x).
Proof. split; [auto|]. split; [auto|]. split; intros; lra. Qed.
Lemma k_index_exact lo hi c p j : (1 <= Z.of_nat p <= 2 ^ 20)%Z -> (lo < hi)%R -> (lo <= c <= hi)%R -> k_index (fun x => x) (fun x => x) lo hi c p = Val j -> slab p lo hi j c.
Proof.
  intros Hp Hl Hc H. unfold k_index in H. unfold reqb in H. destruct (Req_EM_T (hi - lo) 0) as [E|_]; [lra|]. set (x := ((c - lo) / (hi - lo) * INR p)%R) in *.
  assert (Q : (0 <= (c - lo) / (hi - lo) <= 1)%R). { split; [apply Rmult_le_pos; [lra|apply Rlt_le, Rinv_0_lt_compat; lra]|]. apply (Rmult_le_reg_r (hi - lo)); [lra|]. unfold Rdiv. rewrite Rmult_assoc, Rinv_l by lra. lra. }
  assert (P : (1 <= INR p)%R) by (rewrite INR_IZR_INZ; apply IZR_le; lia). assert (X : (0 <= x <= INR p)%R) by (unfold x; nra).
  assert (Z0 : (0 <= Int_part x < Z.of_nat p + 1)%Z). { apply Int_part_range. rewrite plus_IZR, <- INR_IZR_INZ. lra. }
  destruct (base_Int_part x) as [I1 I2]. set (z := Int_part x) in *. destruct (Z.leb_spec 0 z) as [_|]; [|lia]. destruct (Z.ltb_spec z (2 ^ 64)) as [_|]; [|lia]. cbn [andb] in H. injection H as <-. rewrite !to_int_small by lia.
  destruct (Z.lt_ge_cases z (Z.of_nat p)) as [Y|Y].
  - left. fold x. rewrite Z.max_l, Z.min_l by lia. rewrite INR_IZR_INZ, Z2Nat.id by lia. lra.
  - right. assert (z = Z.of_nat p) by lia. split; [lia|]. assert (x = INR p) by (rewrite INR_IZR_INZ in *; subst z; replace (Int_part x) with (Z.of_nat p) in * by lia; lra).
    assert (E : ((c - lo) / (hi - lo) = 1)%R). { unfold x in *. apply (Rmult_eq_reg_r (INR p)); [|lra]. lra. }
    apply (f_equal (fun t => t * (hi - lo))%R) in E. unfold Rdiv in E. rewrite Rmult_assoc, Rinv_l in E by lra. lra.
Qed.
