(** When the k-way splitter returns. *)
From Coq Require Import Reals Lra Psatz.
From Verif Require Import Outcome ListUtil WordsModel LPSetModel SimplexModel PointModel PointProofs GeoModel GeoSpec GeoProofs PartModel PartProofs KWayModel KWayProofs.
Open Scope list_scope.
Import ListNotations.

Section K.
Variable D : nat.
Variable pts : points vec.
Notation Dn := (N.of_nat D).
(** The finite points have these coordinates. *)
Variable co : N -> vec.

(** In every group of points that has to be split there are at least as many points as parts, and they differ in the
    dimension to be split. *)
Fixpoint spread (splits : list nat) (dim : nat) (K : list N) : Prop :=
  match splits with
  | [] => True
  | p :: rest =>
      (p <= length K)%nat /\
      exists lo hi, (lo < hi)%R /\ (exists i, In i K /\ co i dim = lo) /\ (exists i, In i K /\ co i dim = hi) /\ (forall i, In i K -> lo <= co i dim <= hi)%R /\
        forall j G, (j < p)%nat -> NoDup G -> (forall i, In i G <-> In i K /\ slab p lo hi j (co i dim)) -> spread rest (S dim) G
  end.

Lemma k_split_total index : forall ids ss, (forall i, In i ids -> p_finite Dn i = true -> exists j, (j < length ss)%nat /\ goes D pts index i j) -> (forall s, In s ss -> k_cap s <> 0%N) ->
  exists ss', k_split D pts index ids ss = Val ss'.
Proof using.
  induction ids as [|i ids IH]; intros ss H C; cbn [k_split]; [eauto|]. destruct (p_finite Dn i) eqn:Ef.
  - destruct (H i (or_introl eq_refl) Ef) as (j & Lj & c & -> & Ej). cbn [rbind]. rewrite Ej. cbn [rbind]. unfold k_put. destruct (nth_error_ex ss j Lj) as [s Hs]. rewrite Hs. unfold k_insert.
    destruct (N.eqb_spec (k_cap s) 0) as [E|_]; [destruct (C s (nth_error_In _ _ Hs) E)|]. cbn [rmap rbind]. apply IH.
    + intros x Hx Hf. rewrite upd_length. apply H; [now right|exact Hf].
    + intros s' Hs'. apply In_nth_error in Hs'. destruct Hs' as [m Hm]. destruct (Nat.eq_dec m j) as [->|Hne].
      * rewrite nth_error_upd_eq in Hm by exact Lj. injection Hm as <-. cbn [k_cap]. apply C. eapply nth_error_In, Hs.
      * rewrite nth_error_upd_neq in Hm by congruence. apply C. eapply nth_error_In, Hm.
  - apply IH; [|exact C]. intros x Hx Hf. apply H; [now right|exact Hf].
Qed.
Lemma k_all_total f : forall ss, (forall s, In s ss -> exists ls, f s = Val ls) -> exists ls, k_all f ss = Val ls.
Proof using.
  induction ss as [|s ss IH]; intros H; cbn [k_all]; [eauto|]. destruct (H s (or_introl eq_refl)) as [l ->]. cbn [rbind]. destruct IH as [l2 ->]; [intros; apply H; now right|]. cbn [rmap]. eauto.
Qed.

Section T.
Variables tiny huge : R.
Lemma st_loop_val : forall ids s, (forall i, In i ids -> p_finite Dn i = true -> p_get Dn pts i = Val (co i)) -> exists st, st_loop D pts true ids s = Val st /\
  forall d, (forall i, In i ids -> p_finite Dn i = true -> st_min st d <= co i d <= st_max st d)%R /\
    (st_min st d = st_min s d \/ exists i, In i ids /\ p_finite Dn i = true /\ st_min st d = co i d) /\ (st_max st d = st_max s d \/ exists i, In i ids /\ p_finite Dn i = true /\ st_max st d = co i d) /\
    (st_min st d <= st_min s d)%R /\ (st_max s d <= st_max st d)%R.
Proof using.
  induction ids as [|i ids IH]; intros s H; cbn [st_loop].
  - exists s. split; [reflexivity|]. intros d. split; [intros i Hi; destruct Hi|]. split; [now left|]. split; [now left|]. lra.
  - destruct (p_finite Dn i) eqn:Ef; cbn [orb negb].
    + rewrite (H i (or_introl eq_refl) Ef). cbn [rbind]. destruct (IH (st_add s (co i))) as (st & E & Q); [intros; apply H; [now right|assumption]|]. exists st. split; [exact E|]. intros d. destruct (Q d) as (Q1 & Q2 & Q3 & Q4 & Q5). cbn [st_add st_min st_max] in *.
      pose proof (Rmin_l (st_min s d) (co i d)). pose proof (Rmin_r (st_min s d) (co i d)). pose proof (Rmax_l (st_max s d) (co i d)). pose proof (Rmax_r (st_max s d) (co i d)).
      split; [|split; [|split; [|split; lra]]].
      * intros x [<-|Hx] Hf; [lra|now apply Q1].
      * destruct Q2 as [Q2|(x & X1 & X2 & X3)]; [|right; exists x; repeat split; auto; now right]. unfold Rmin in Q2. destruct (Rle_dec (st_min s d) (co i d)); [now left|right; exists i; repeat split; auto; now left].
      * destruct Q3 as [Q3|(x & X1 & X2 & X3)]; [|right; exists x; repeat split; auto; now right]. unfold Rmax in Q3. destruct (Rle_dec (st_max s d) (co i d)); [right; exists i; repeat split; auto; now left|now left].
    + destruct (IH s) as (st & E & Q); [intros; apply H; [now right|assumption]|]. exists st. split; [exact E|]. intros d. destruct (Q d) as (Q1 & Q2 & Q3 & Q4). split; [|split; [|split; [|exact Q4]]].
      * intros x [<-|Hx] Hf; [congruence|now apply Q1].
      * destruct Q2 as [Q2|(x & X1 & X2 & X3)]; [now left|right; exists x; repeat split; auto; now right].
      * destruct Q3 as [Q3|(x & X1 & X2 & X3)]; [now left|right; exists x; repeat split; auto; now right].
Qed.
Definition fins (s : kset) : list N := filter (p_finite Dn) (k_ids s).
Lemma fins_length s : (length (fins s) <= length (k_ids s))%nat.
Proof using. clear - s. unfold fins. induction (k_ids s) as [|x l IH]; cbn [filter length]; [lia|destruct (p_finite Dn x); cbn [length]; lia]. Qed.
Lemma stats_val s : (forall i, In i (k_ids s) -> p_finite Dn i = true -> p_get Dn pts i = Val (co i)) -> exists st, stats_seq D pts tiny huge true (k_ids s) = Val st /\
  forall d lo hi, (exists i, In i (fins s) /\ co i d = lo) -> (exists i, In i (fins s) /\ co i d = hi) -> (forall i, In i (fins s) -> lo <= co i d <= hi)%R -> (tiny <= hi)%R -> (lo <= huge)%R -> st_min st d = lo /\ st_max st d = hi.
Proof using.
  intros H. unfold stats_seq. destruct (st_loop_val (k_ids s) (st_empty tiny huge) H) as (st & -> & Q). cbn [rmap]. eexists. split; [reflexivity|]. cbn [st_finish st_min st_max]. intros d lo hi (i & Hi & Ei) (j & Hj & Ej) B Ht Hh.
  destruct (Q d) as (Q1 & Q2 & Q3 & Q4 & Q5). cbn [st_empty st_min st_max] in *. apply filter_In in Hi, Hj. destruct (Q1 i (proj1 Hi) (proj2 Hi)) as [A1 _]. destruct (Q1 j (proj1 Hj) (proj2 Hj)) as [_ A2].
  split.
  - destruct Q2 as [Q2|(x & X1 & X2 & X3)]; [lra|]. assert (Hx : In x (fins s)) by (apply filter_In; auto). pose proof (B x Hx). lra.
  - destruct Q3 as [Q3|(x & X1 & X2 & X3)]; [lra|]. assert (Hx : In x (fins s)) by (apply filter_In; auto). pose proof (B x Hx). lra.
Qed.

Lemma k_rec_returns : forall splits dim s, Forall (fun p => 1 <= Z.of_nat p <= 2 ^ 20)%Z splits -> (dim + length splits <= D)%nat -> k_cap s <> 0%N -> NoDup (k_ids s) -> (forall i, In i (fins s) -> p_get Dn pts i = Val (co i)) ->
  (forall i d, In i (fins s) -> (d < D)%nat -> tiny <= co i d <= huge)%R -> spread splits dim (fins s) -> exists ls, k_rec (fun x => x) (fun x => x) D pts tiny huge splits dim s = Val ls.
Proof using.
  induction splits as [|p rest IH]; intros dim s Hp Hdim Hcap HN Hg Hb Hs; cbn [k_rec].
  - destruct (stats_val s) as (st & -> & _); [intros i Hi Hf; apply Hg, filter_In; auto|]. cbn [rbind]. destruct (N.eqb_spec (k_cap s) 0); [contradiction|]. eauto.
  - destruct (stats_val s) as (st & -> & Q); [intros i Hi Hf; apply Hg, filter_In; auto|]. cbn [rbind]. inversion Hp as [|? ? P1 P2]; subst. cbn [length] in Hdim.
    cbn [spread] in Hs. destruct Hs as (Hlen & lo & hi & Hl & Hlo & Hhi & Hr & Hsub). rewrite Nat.mod_small by lia.
    destruct (Q dim lo hi Hlo Hhi Hr) as [-> ->]; [destruct Hhi as (i & Hi & <-); apply (Hb i dim Hi); lia|destruct Hlo as (i & Hi & <-); apply (Hb i dim Hi); lia|].
    set (index := fun c : vec => k_index (fun x => x) (fun x => x) lo hi (c dim) p). set (cap0 := (N.of_nat (length (k_ids s)) / N.of_nat p)%N).
    assert (C0 : cap0 <> 0%N). { unfold cap0. intros E. apply N.div_small_iff in E; [|lia]. assert (length (fins s) <= length (k_ids s))%nat by apply fins_length. lia. }
    assert (G : forall i, In i (fins s) -> exists j, (j < p)%nat /\ index (co i) = Val j). { intros i Hi. destruct (k_index_in (fun x => x) (fun x => x) lo hi (co i dim) p rounding_id rounding_id P1 eq_refl eq_refl (Hr i Hi)) as (j & E & Lj); [lra|]. exists j. split; [exact Lj|exact E]. }
    destruct (k_split_total index (k_ids s) (repeat (mkk cap0 []) p)) as (ss' & Ek).
    { intros i Hi Hf. assert (Hi' : In i (fins s)) by (apply filter_In; auto). destruct (G i Hi') as (j & Lj & E). exists j. split; [now rewrite repeat_length|]. exists (co i). split; [now apply Hg|exact E]. }
    { intros s0 H0. apply repeat_spec in H0. subst s0. exact C0. }
    rewrite Ek. cbn [rbind]. destruct (k_split_ok D pts index _ _ _ Ek) as (L & _ & R). rewrite repeat_length in L.
    apply k_all_total. intros s' Hs'. apply In_nth_error in Hs'. destruct Hs' as [j Hj]. assert (Lj := nth_error_lt _ _ _ Hj). rewrite L in Lj.
    destruct (R j (mkk cap0 [])) as (s1 & H1 & H2 & H3 & H4); [now apply nth_error_repeat|]. assert (s1 = s') by congruence. subst s1. cbn [k_ids k_cap] in *.
    assert (N' : NoDup (k_ids s')) by (apply H3; constructor).
    assert (F : forall i, In i (fins s') <-> In i (fins s) /\ goes D pts index i j). { intros i. unfold fins. rewrite !filter_In, H4. cbn [In]. intuition auto. }
    apply IH; [exact P2|lia|congruence|exact N'| | |].
    + intros i Hi. apply F in Hi. now apply Hg.
    + intros i d Hi. apply F in Hi. now apply Hb.
    + apply (Hsub j); [exact Lj|apply NoDup_filter, N'|]. intros i. rewrite F. split.
      * intros (Hi & c & Hc & Ei). split; [exact Hi|]. rewrite (Hg i Hi) in Hc. injection Hc as <-. apply k_index_exact; [exact P1|exact Hl|now apply Hr|exact Ei].
      * intros (Hi & Hsl). split; [exact Hi|]. destruct (G i Hi) as (j' & Lj' & E). exists (co i). split; [now apply Hg|]. rewrite E. f_equal.
        pose proof (k_index_exact lo hi (co i dim) p j' P1 Hl (Hr i Hi) E) as Hsl'. pose proof (Hr i Hi) as Bi. clear - Hsl Hsl' Lj Lj' Hl Bi.
        assert (P : (1 <= INR p)%R) by (apply (le_INR 1); lia).
        assert (Eh : co i dim = hi -> ((co i dim - lo) / (hi - lo) * INR p = INR p)%R) by (intros ->; unfold Rdiv; rewrite Rinv_r by lra; ring).
        assert (T : forall a b : nat, (INR a < INR b + 1)%R -> (a <= b)%nat). { intros a b Hab. replace (INR b + 1)%R with (INR (S b)) in Hab by (rewrite S_INR; reflexivity). apply INR_lt in Hab. lia. }
        destruct Hsl as [[A1 A2]|[A1 A2]], Hsl' as [[B1 B2]|[B1 B2]].
        -- assert (j <= j')%nat by (apply T; lra). assert (j' <= j)%nat by (apply T; lra). lia.
        -- exfalso. rewrite (Eh B2) in *. assert (p <= j)%nat by (apply T; lra). lia.
        -- exfalso. rewrite (Eh A2) in *. assert (p <= j')%nat by (apply T; lra). lia.
        -- lia.
Qed.
End T.

(** Failures. *)
Section F.
Variables (rf rp : R -> R) (tiny huge : R).
Lemma k_split_first index : forall ids ss, (exists i, In i ids /\ p_finite Dn i = true) -> (forall i, In i ids -> p_finite Dn i = true -> exists c, p_get Dn pts i = Val c /\ index c = Undef) -> k_split D pts index ids ss = Undef.
Proof using.
  induction ids as [|i ids IH]; intros ss (x & Hx & Hf) H; [destruct Hx|]. cbn [k_split]. destruct (p_finite Dn i) eqn:Ef.
  - destruct (H i (or_introl eq_refl) Ef) as (c & -> & E). cbn [rbind]. rewrite E. reflexivity.
  - apply IH; [exists x; destruct Hx as [<-|Hx]; [congruence|auto]|]. intros y Hy. apply H. now right.
Qed.
(** All points have the same coordinate, not below the smallest positive number. *)
Lemma k_equal p rest dim s v : rf 0%R = 0%R -> (dim < D)%nat -> (exists i, In i (fins s)) -> (forall i, In i (fins s) -> p_get Dn pts i = Val (co i) /\ co i dim = v) -> (tiny <= v <= huge)%R ->
  k_rec rf rp D pts tiny huge (p :: rest) dim s = Undef.
Proof using.
  intros R0 Hd (i0 & H0) H Hv. cbn [k_rec]. destruct (stats_val tiny huge s) as (st & -> & Q); [intros i Hi Hf; apply H, filter_In; auto|]. cbn [rbind]. rewrite Nat.mod_small by exact Hd.
  destruct (Q dim v v) as [-> ->]; [exists i0; split; [exact H0|now apply H]..|intros i Hi; rewrite (proj2 (H i Hi)); lra|lra|lra|]. rewrite k_split_first; [reflexivity| |].
  - exists i0. apply filter_In in H0. exact H0.
  - intros i Hi Hf. assert (Hi' : In i (fins s)) by (apply filter_In; auto). exists (co i). split; [now apply H|]. unfold k_index. rewrite Rminus_eq_0, R0. unfold reqb. destruct (Req_EM_T 0 0); [reflexivity|lra].
Qed.
(** Fewer ids than parts: the tables have no cells. *)
Lemma k_few p rest dim s : (length (k_ids s) < p)%nat -> (exists i, In i (fins s)) -> forall ls, k_rec rf rp D pts tiny huge (p :: rest) dim s <> Val ls.
Proof using.
  clear co. intros Hl (i0 & H0) ls H. cbn [k_rec] in H. destruct (stats_seq D pts tiny huge true (k_ids s)) as [st| |]; try discriminate. cbn [rbind] in H.
  replace (N.of_nat (length (k_ids s)) / N.of_nat p)%N with 0%N in H by (symmetry; apply N.div_small; lia).
  set (index := fun c : vec => _) in H. assert (G : forall ids ss ss', (forall s, In s ss -> k_cap s = 0%N) -> In i0 ids -> k_split D pts index ids ss <> Val ss').
  { clear H. apply filter_In in H0. destruct H0 as [_ Hf]. induction ids as [|i ids IH]; intros ss ss' C Hi E; [destruct Hi|]. cbn [k_split] in E. destruct (p_finite Dn i) eqn:Ef.
    - destruct (p_get Dn pts i) as [c| |]; try discriminate. cbn [rbind] in E. destruct (index c) as [j| |]; try discriminate. cbn [rbind] in E. unfold k_put in E. destruct (nth_error ss j) as [s0|] eqn:E0; [|discriminate].
      unfold k_insert in E. rewrite (C s0 (nth_error_In _ _ E0)) in E. discriminate.
    - destruct Hi as [->|Hi]; [congruence|]. exact (IH ss ss' C Hi E). }
  apply filter_In in H0. destruct (k_split D pts index (k_ids s) (repeat (mkk 0 []) p)) as [ss'| |] eqn:E; try discriminate. apply (G _ _ _) in E; [exact E| |apply H0]. intros s0 Hs0. apply repeat_spec in Hs0. now subst.
Qed.
(** The smallest coordinate, rounded to float, is above one of the coordinates. *)
Lemma k_index_negative mn mx c p : (1 <= p)%nat -> (rf (rf mx - rf mn) > 0)%R -> (forall x, x < 0 -> rf x < 0)%R -> (forall x, x < 0 -> rp x < 0)%R -> (0 < rf (INR p))%R -> (c < rf mn)%R -> k_index rf rp mn mx c p = Undef.
Proof using.
  clear co pts D tiny huge. intros Hp Hd Nf Np Hi Hc. unfold k_index, reqb. destruct (Req_EM_T _ 0) as [E|_]; [lra|]. set (d := rf (rf mx - rf mn)%R) in *.
  assert (A : (rp (c - rf mn) / d < 0)%R). { assert (X : (rp (c - rf mn) < 0)%R) by (apply Np; lra). pose proof (Rinv_0_lt_compat d Hd). unfold Rdiv. nra. }
  apply Np, Nf in A. assert (B : (rf (rf (rp (rp (c - rf mn) / d)) * rf (INR p)) < 0)%R) by (apply Nf; nra).
  destruct (base_Int_part (rf (rf (rp (rp (c - rf mn) / d)) * rf (INR p)))) as [I1 _]. assert (I2 : (IZR (Int_part (rf (rf (rp (rp (c - rf mn) / d)) * rf (INR p)))) < IZR 0)%R) by lra. apply lt_IZR in I2.
  destruct (Z.leb_spec 0 (Int_part (rf (rf (rp (rp (c - rf mn) / d)) * rf (INR p))%R))); [lia|reflexivity].
Qed.
End F.
End K.
