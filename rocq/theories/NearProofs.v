From Coq Require Import Permutation.
From Verif Require Import Outcome ListUtil WordsModel BlockModel BlockProofs BlockIter BlockSpec SimplexModel PointModel CheckModel NearModel NearSpec.
Local Open Scope N_scope.

Lemma NoDup_app_l {B} : forall l1 l2 : list B, NoDup (l1 ++ l2) -> NoDup l1.
Proof.
  induction l1 as [|a l1 IH]; intros l2 H; [apply NoDup_nil|]. cbn [app] in H. inversion_clear H as [|? ? H1 H2]. apply NoDup_cons.
  - intros Ha. apply H1, in_or_app. now left.
  - eapply IH; eauto.
Qed.

Lemma made_bounds {A} (dflt : A) l : made dflt l -> exists lo up, ba_lower l = Val lo /\ ba_upper l = Val up /\ lo < up /\ up < 2 ^ 64 /\
  (exists a, holds l lo a) /\ (exists a, holds l (up - 1) a) /\ (forall i a, holds l i a -> lo <= i < up) /\ (0 < length l)%nat.
Proof.
  intros H. apply made_wf in H. destruct H as (H0 & _ & Hc). destruct l as [|b t]; [congruence|]. clear H0.
  destruct (nth_error_ex (b :: t) (length (b :: t) - 1)) as [e Ee]; [cbn [length]; lia|].
  exists (b_min b), (b_max e). split; [reflexivity|]. split; [unfold ba_upper; now rewrite Ee|].
  pose proof (chain_nth _ 0%nat b Hc eq_refl) as Bb. pose proof (chain_nth _ _ e Hc Ee) as Be.
  assert (L : forall k c, nth_error (b :: t) k = Some c -> b_min b <= b_min c /\ b_max c <= b_max e).
  { intros k c Ek. pose proof (chain_nth _ _ c Hc Ek) as Bc. assert (Hk : (k < length (b :: t))%nat) by (apply nth_error_Some; congruence). split.
    - destruct k as [|k]; [cbn in Ek; injection Ek as <-; lia|]. pose proof (chain_lt _ 0%nat (S k) b c Hc ltac:(lia) eq_refl Ek).
      unfold bok in *. lia.
    - destruct (Nat.eq_dec k (length (b :: t) - 1)) as [->|Hne]; [rewrite Ee in Ek; injection Ek as <-; lia|].
      pose proof (chain_lt _ k (length (b :: t) - 1)%nat c e Hc ltac:(lia) Ek Ee). unfold bok in *. lia. }
  assert (L0 := L 0%nat b eq_refl). unfold bok in *. split; [lia|]. split; [lia|]. split; [|split; [|split; [|cbn [length]; lia]]].
  - destruct (nth_error_ex (b_data b) 0) as [a Ea]; [lia|]. exists a, 0%nat, b. split; [reflexivity|]. split; [lia|].
    replace (b_min b - b_min b) with 0 by lia. exact Ea.
  - destruct (nth_error_ex (b_data e) (N.to_nat (b_max e - 1 - b_min e))) as [a Ea]; [lia|]. exists a, (length (b :: t) - 1)%nat, e. split; [exact Ee|]. split; [lia|exact Ea].
  - intros i a (k & c & Ek & Hi & _). specialize (L k c Ek). lia.
Qed.

Section Near.
Context {A W : Type}.
Variable D : N.
Variable ltb : W -> W -> bool.
Variable huge : W.
Variable insim : A -> list A -> res bool.
Variable dface : A -> list A -> res W.
Variable take : list (W * N) -> (W * N) * list (W * N).
Variable pts : points A.
Variable dflt : simplex.
Variable l : list (block simplex).
Variables lo up : N.
Variable p : A.
Variable start : N.
Notation s_insim := (s_insim D insim pts).
Notation s_dface := (s_dface D dface pts).
Notation enqueue := (enqueue D dface pts lo p).
Notation dist := (fun s d w => s_dface s d p = Val w).
Hypothesis Hup : up < 2 ^ 64.
Hypothesis Hin : forall i a, holds l i a -> lo <= i < up.

Definition marked (marks : list bool) (i : N) : Prop := nth_error marks (mark_idx lo i) = Some true.

Lemma idx_in i : lo <= i < up -> mark_idx lo i = N.to_nat (i - lo).
Proof using Hup. clear - Hup. intros H. unfold mark_idx. rewrite wrap_sub by lia. reflexivity. Qed.

Lemma marked_upd marks i j : lo <= i < up -> lo <= j < up -> length marks = N.to_nat (up - lo + 1) ->
  (marked (upd marks (mark_idx lo i) true) j <-> j = i \/ marked marks j).
Proof using Hup.
  clear - Hup.
  intros Hi Hj L. unfold marked. destruct (N.eq_dec j i) as [->|Hne].
  - rewrite nth_error_upd_eq by (rewrite idx_in by exact Hi; lia). tauto.
  - rewrite nth_error_upd_neq by (rewrite !idx_in by assumption; lia). tauto.
Qed.

Lemma enqueue_ok (s : simplex) : forall ds marks q,
  (forall d, In d ds -> exists n, nth_error (x_nbrs s) d = Some n /\ (s_finite n = true -> (exists t, holds l n t) /\ exists w, s_dface s d p = Val w)) ->
  length marks = N.to_nat (up - lo + 1) ->
  exists marks' new, enqueue s ds marks q = Val (marks', new ++ q) /\ length marks' = length marks /\
    (forall i, lo <= i < up -> (marked marks' i <-> In i (map snd new) \/ marked marks i)) /\
    NoDup (map snd new) /\ (forall w i, In (w, i) new -> ~ marked marks i /\ (exists t, holds l i t) /\ exists d, nth_error (x_nbrs s) d = Some i /\ s_finite i = true /\ s_dface s d p = Val w) /\
    (forall d n, In d ds -> nth_error (x_nbrs s) d = Some n -> s_finite n = true -> marked marks' n).
Proof.
  induction ds as [|d ds IH]; intros marks q H L; cbn [NearModel.enqueue].
  - exists marks, []. repeat split; auto; cbn; try tauto; try constructor; contradiction.
  - destruct (H d (or_introl eq_refl)) as (n & En & Hn). rewrite En.
    assert (Htl : forall d, In d ds -> exists n, nth_error (x_nbrs s) d = Some n /\ (s_finite n = true -> (exists t, holds l n t) /\ exists w, s_dface s d p = Val w)).
    { intros d' Hd'. apply H. now right. }
    destruct (s_finite n) eqn:Ef.
    + destruct (Hn eq_refl) as ((t & Ht) & w & Ew). pose proof (Hin n t Ht) as Hb.
      destruct (nth_error_ex marks (mark_idx lo n)) as [m Em]; [rewrite idx_in by exact Hb; lia|]. rewrite Em. destruct m.
      * destruct (IH marks q Htl L) as (marks' & new & E & L' & M & ND & O & Cl). exists marks', new. split; [exact E|].
        repeat (split; [assumption|]). intros d' n' [<-|Hd'] En' Hf'; [|eapply Cl; eauto].
        rewrite En in En'. injection En' as <-. apply M; [exact Hb|]. right. exact Em.
      * rewrite Ew. cbn [rbind].
        destruct (IH (upd marks (mark_idx lo n) true) ((w, n) :: q) Htl) as (marks' & new & E & L' & M & ND & O & Cl); [now rewrite upd_length|].
        exists marks', (new ++ [(w, n)]). rewrite E, <- app_assoc. cbn [app]. split; [reflexivity|]. rewrite upd_length in L'. split; [exact L'|].
        rewrite map_app. cbn [map snd]. split; [|split; [|split]].
        -- intros i Hi. rewrite (M i Hi), marked_upd by assumption. rewrite in_app_iff. cbn [In]. intuition.
        -- apply NoDup_app_intro; [exact ND|apply NoDup_cons; [intros Hf; destruct Hf|apply NoDup_nil]|]. intros x Hx [<-|[]]. apply in_map_iff in Hx.
           destruct Hx as ((w' & i') & Hs & Hx). cbn in Hs. subst i'. apply O in Hx. apply (proj1 Hx). apply marked_upd; auto.
        -- intros w' i' Hx. apply in_app_iff in Hx. destruct Hx as [Hx|[Hx|[]]].
           ++ destruct (O w' i' Hx) as (Hm & (t' & Ht') & Hd). split; [|split; [now exists t'|exact Hd]]. intros Hm'. apply Hm. apply marked_upd; auto. apply (Hin i' t' Ht').
           ++ injection Hx as <- <-. split; [unfold marked; congruence|]. split; [now exists t|]. exists d. auto.
        -- intros d' n' [<-|Hd'] En' Hf'; [|eapply Cl; eauto]. rewrite En in En'. injection En' as <-. apply M; [exact Hb|]. right. apply marked_upd; auto.
    + destruct (IH marks q Htl L) as (marks' & new & E & L' & M & ND & O & Cl). exists marks', new. split; [exact E|].
      repeat (split; [assumption|]). intros d' n' [<-|Hd'] En' Hf'; [|eapply Cl; eauto]. congruence.
Qed.

Hypothesis Hmade : made dflt l.
Hypothesis Hpq : pq_ok ltb take.
Hypothesis Hless : less_ok ltb.
Hypothesis Hreach : forall i, reach l start i -> exists s, holds l i s /\ length (x_nbrs s) = N.to_nat (D + 1) /\
  (exists b, s_insim s p = Val b) /\
  forall d n, nth_error (x_nbrs s) d = Some n -> s_finite n = true -> exists w, s_dface s d p = Val w.

Record inv (marks : list bool) (q log : list (W * N)) (minD : W) (minId : N) : Prop := {
  i_nodup : NoDup (map snd (log ++ q));
  i_len : length marks = N.to_nat (up - lo + 1);
  i_marks : forall i, lo <= i < up -> (marked marks i <-> In i (map snd (log ++ q)));
  i_reach : forall w j, In (w, j) (log ++ q) -> reach l start j /\ ((j = start /\ w = huge) \/ j <> start /\ over_face l start dist j w);
  i_closed : forall w i s n, In (w, i) log -> holds l i s -> In n (x_nbrs s) -> s_finite n = true -> In n (map snd (log ++ q));
  i_not : forall w i s, In (w, i) log -> holds l i s -> s_insim s p = Val false;
  i_min : (minD = huge /\ minId = p_inf D /\ forall w i, In (w, i) log -> ltb w huge = false) \/
    (exists i s, In (minD, i) log /\ holds l i s /\ minId = x_id s /\ ltb minD huge = true /\ forall w' j, In (w', j) log -> ltb w' minD = false);
  i_start : In start (map snd (log ++ q)) }.

Lemma ids_bound (g : list (W * N)) : NoDup (map snd g) -> (forall w j, In (w, j) g -> reach l start j) -> (length g <= N.to_nat (up - lo))%nat.
Proof.
  intros ND H. rewrite <- (map_length snd g).
  replace (N.to_nat (up - lo)) with (length (map (fun k => lo + N.of_nat k) (seq 0 (N.to_nat (up - lo))))) by now rewrite map_length, seq_length.
  apply NoDup_incl_length; [exact ND|]. intros j Hj. apply in_map_iff in Hj. destruct Hj as ((w & j') & Hs & Hj). cbn in Hs. subst j'.
  destruct (Hreach j (H w j Hj)) as (s & Hs & _). pose proof (Hin j s Hs). apply in_map_iff. exists (N.to_nat (j - lo)). split; [lia|].
  apply in_seq. lia.
Qed.

Lemma loop_ok : forall fuel marks q log minD minId hint, inv marks q log minD minId -> (hint < length l)%nat ->
  (N.to_nat (up - lo) < length log + fuel)%nat ->
  exists r log', near_loop D ltb insim dface take pts fuel l lo p marks q hint minD minId log = Val (Some (r, log')) /\
    NoDup (map snd log') /\ (forall w j, In (w, j) log' -> reach l start j /\ ((j = start /\ w = huge) \/ j <> start /\ over_face l start dist j w)) /\
    ((exists w i s pre, log' = pre ++ [(w, i)] /\ holds l i s /\ s_insim s p = Val true /\ r = x_id s /\
        forall w' j t, In (w', j) pre -> holds l j t -> s_insim t p = Val false) \/
     ((forall i, reach l start i -> In i (map snd log')) /\ (forall i s, reach l start i -> holds l i s -> s_insim s p = Val false) /\
      least_entry ltb huge (p_inf D) l log' r)).
Proof.
  induction fuel as [|fuel IH]; intros marks q log minD minId hint I Hh Hf.
  { exfalso. destruct I. rewrite map_app in i_nodup0. apply NoDup_app_l in i_nodup0.
    pose proof (ids_bound log i_nodup0 (fun w j Hj => proj1 (i_reach0 w j (in_or_app _ _ _ (or_introl Hj))))). lia. }
  cbn [near_loop]. destruct q as [|q0 qt] eqn:Eq.
  - exists minId, log. split; [reflexivity|]. destruct I. rewrite app_nil_r in *. split; [assumption|]. split; [assumption|]. right.
    assert (HA : forall i, reach l start i -> In i (map snd log)).
    { intros i Hi. induction Hi as [|i s n Hi IHi Hs Hn Hfn]; [assumption|]. apply in_map_iff in IHi. destruct IHi as ((w & i') & E & Hw).
      cbn in E. subst i'. eapply i_closed0; eauto. }
    split; [exact HA|]. split.
    + intros i s Hi Hs. apply HA in Hi. apply in_map_iff in Hi. destruct Hi as ((w & i') & E & Hw). cbn in E. subst i'. eapply i_not0; eauto.
    + destruct i_min0 as [(_ & -> & H)|(i & s & H)]; [left; auto|right]. exists minD, i, s. exact H.
  - rewrite <- Eq in *. destruct (Hpq q) as [Hp Hle]; [congruence|]. clear Eq. destruct (take q) as [[currD id] q'] eqn:Et. cbn [fst snd] in *.
    assert (PI : Permutation (log ++ q) ((log ++ [(currD, id)]) ++ q')).
    { rewrite <- app_assoc. cbn [app]. now apply Permutation_app_head. }
    assert (PS : Permutation (map snd (log ++ q)) (map snd ((log ++ [(currD, id)]) ++ q'))) by now apply Permutation_map.
    assert (SP : forall i, In i (map snd (log ++ q)) <-> In i (map snd (log ++ [(currD, id)])) \/ In i (map snd q')).
    { intros i. rewrite <- in_app_iff, <- map_app. split; apply Permutation_in; [exact PS|symmetry; exact PS]. }
    assert (Hid : In (currD, id) (log ++ q)). { eapply Permutation_in; [symmetry; exact PI|]. rewrite !in_app_iff. cbn. tauto. }
    destruct (i_reach _ _ _ _ _ I _ _ Hid) as [Rid Kid]. destruct (Hreach id Rid) as (s & Hs & Ln & (b & Eb) & Hd).
    destruct (made_at dflt l id s hint Hmade Hs Hh) as (h & Eat & Hh'). rewrite Eat. cbn [rbind]. rewrite Eb. cbn [rbind].
    assert (ND1 : NoDup (map snd (log ++ [(currD, id)]))).
    { pose proof (Permutation_NoDup PS (i_nodup _ _ _ _ _ I)) as X. rewrite map_app in X. now apply NoDup_app_l in X. }
    assert (RR : forall w j, In (w, j) (log ++ [(currD, id)]) -> reach l start j /\ ((j = start /\ w = huge) \/ j <> start /\ over_face l start dist j w)).
    { intros w j Hj. apply (i_reach _ _ _ _ _ I). eapply Permutation_in; [symmetry; exact PI|]. apply in_or_app. now left. }
    destruct b.
    + exists (x_id s), (log ++ [(currD, id)]). split; [reflexivity|]. split; [exact ND1|]. split; [exact RR|]. left.
      exists currD, id, s, log. split; [reflexivity|]. split; [exact Hs|]. split; [exact Eb|]. split; [reflexivity|].
      intros w' j t Hj Ht. eapply (i_not _ _ _ _ _ I); eauto.
    + destruct (enqueue_ok s (seq 0 (N.to_nat D + 1)) marks q') as (marks' & new & E & L' & M & ND & O & Cl).
      { intros d Hds. apply in_seq in Hds. destruct (nth_error_ex (x_nbrs s) d) as [n En]; [lia|]. exists n. split; [exact En|]. intros Hfn.
        split; [|eapply Hd; eauto]. destruct (Hreach n) as (t & Ht & _); [|now exists t].
        eapply reach_step; eauto. eapply nth_error_In; eauto. }
      { apply (i_len _ _ _ _ _ I). }
      assert (EM : exists minD' minId', (if ltb currD minD then (currD, x_id s) else (minD, minId)) = (minD', minId') /\
        ((minD' = huge /\ minId' = p_inf D /\ forall w i, In (w, i) (log ++ [(currD, id)]) -> ltb w huge = false) \/
         (exists i s, In (minD', i) (log ++ [(currD, id)]) /\ holds l i s /\ minId' = x_id s /\ ltb minD' huge = true /\
            forall w' j, In (w', j) (log ++ [(currD, id)]) -> ltb w' minD' = false))).
      { destruct Hless as [Hirr Htr]. destruct (ltb currD minD) eqn:El.
        - exists currD, (x_id s). split; [reflexivity|]. right. exists id, s. split; [apply in_or_app; right; now left|]. split; [exact Hs|]. split; [reflexivity|].
          destruct (i_min _ _ _ _ _ I) as [(-> & -> & H)|(i & t & H1 & H2 & H3 & H4 & H5)].
          + split; [exact El|]. intros w' j Hj. apply in_app_or in Hj. destruct Hj as [Hj|[Hj|[]]]; [|injection Hj as <- _; apply Hirr].
            destruct (ltb w' currD) eqn:Ew; [|reflexivity]. specialize (H w' j Hj). rewrite (Htr _ _ _ Ew El) in H. discriminate.
          + split; [eapply Htr; eauto|]. intros w' j Hj. apply in_app_or in Hj. destruct Hj as [Hj|[Hj|[]]]; [|injection Hj as <- _; apply Hirr].
            destruct (ltb w' currD) eqn:Ew; [|reflexivity]. specialize (H5 w' j Hj). rewrite (Htr _ _ _ Ew El) in H5. discriminate.
        - exists minD, minId. split; [reflexivity|]. destruct (i_min _ _ _ _ _ I) as [(-> & -> & H)|(i & t & H1 & H2 & H3 & H4 & H5)]; [left|right].
          + repeat split. intros w i Hi. apply in_app_or in Hi. destruct Hi as [Hi|[Hi|[]]]; [eauto|]. now injection Hi as <- _.
          + exists i, t. split; [apply in_or_app; now left|]. split; [exact H2|]. split; [exact H3|]. split; [exact H4|].
            intros w' j Hj. apply in_app_or in Hj. destruct Hj as [Hj|[Hj|[]]]; [eauto|]. now injection Hj as <- _. }
      destruct EM as (minD' & minId' & -> & HM). rewrite E. cbn [rbind].
      assert (In1 : forall i, lo <= i < up -> (marked marks' i <-> In i (map snd ((log ++ [(currD, id)]) ++ new ++ q')))).
      { intros i Hi. rewrite (M i Hi), (i_marks _ _ _ _ _ I i Hi), SP.
        rewrite (map_app snd (log ++ [(currD, id)]) (new ++ q')), in_app_iff, (map_app snd new q'), in_app_iff. tauto. }
      apply IH; [|exact Hh'|rewrite app_length; cbn [length]; lia].
      constructor.
      * apply (Permutation_NoDup (l := map snd new ++ map snd ((log ++ [(currD, id)]) ++ q'))).
        { rewrite <- map_app. apply Permutation_map. apply Permutation_app_swap_app. }
        apply NoDup_app_intro; [exact ND|apply (Permutation_NoDup PS), (i_nodup _ _ _ _ _ I)|].
        intros x Hx Hx'. apply in_map_iff in Hx. destruct Hx as ((w & x') & Ex & Hx). cbn in Ex. subst x'. destruct (O w x Hx) as (Hnm & (t & Ht) & _).
        apply Hnm. apply (i_marks _ _ _ _ _ I); [apply (Hin x t Ht)|]. eapply Permutation_in; [symmetry; exact PS|exact Hx'].
      * rewrite L'. apply (i_len _ _ _ _ _ I).
      * exact In1.
      * intros w j Hj. apply in_app_or in Hj. destruct Hj as [Hj|Hj]; [auto|]. apply in_app_or in Hj. destruct Hj as [Hj|Hj].
        -- destruct (O w j Hj) as (Hnm & (t & Ht) & d & En & Hfn & Ew). assert (reach l start j). { eapply reach_step; eauto. eapply nth_error_In; eauto. }
           split; [assumption|]. right. split; [|exists id, s, d; auto]. intros ->. apply Hnm, (i_marks _ _ _ _ _ I); [apply (Hin _ t Ht)|apply (i_start _ _ _ _ _ I)].
        -- apply (i_reach _ _ _ _ _ I). eapply Permutation_in; [symmetry; exact PI|]. apply in_or_app. now right.
      * intros w i t n Hi Ht Hn Hfn.
        assert (Rn : reach l start n). { exact (reach_step l start i t n (proj1 (RR w i Hi)) Ht Hn Hfn). }
        destruct (Hreach n Rn) as (u & Hu & _). pose proof (Hin n u Hu) as Hb. apply In1; [exact Hb|].
        apply in_app_or in Hi. destruct Hi as [Hi|[Hi|[]]].
        -- apply M; [exact Hb|]. right. apply (i_marks _ _ _ _ _ I); [exact Hb|]. eapply (i_closed _ _ _ _ _ I); eauto.
        -- injection Hi as <- <-. pose proof (made_fun dflt l id s t Hmade Hs Ht) as <-. apply In_nth_error in Hn. destruct Hn as (d & En).
           apply (Cl d n); auto. apply in_seq. assert (d < length (x_nbrs s))%nat by (apply nth_error_Some; congruence). lia.
      * intros w i t Hi Ht. apply in_app_or in Hi. destruct Hi as [Hi|[Hi|[]]]; [eapply (i_not _ _ _ _ _ I); eauto|].
        injection Hi as <- <-. now rewrite <- (made_fun dflt l id s t Hmade Hs Ht).
      * exact HM.
      * pose proof (i_start _ _ _ _ _ I) as Hst. apply (Permutation_in _ PS) in Hst. rewrite !map_app, !in_app_iff in *. tauto.
Qed.
End Near.

Lemma loop_more {A W} D ltb insim dface take (pts : points A) l lo p v : forall f mk q h md mi (g : list (W * N)) k,
  near_loop D ltb insim dface take pts f l lo p mk q h md mi g = Val v ->
  near_loop D ltb insim dface take pts (f + k) l lo p mk q h md mi g = Val v.
Proof.
  induction f as [|f IH]; intros mk q h md mi g k E; [discriminate|]. cbn [Nat.add near_loop] in *. destruct q as [|q0 qt]; [exact E|].
  destruct (take (q0 :: qt)) as [[cd id] q']. destruct (ba_at l id h) as [[[s h']|]| |]; cbn [rbind] in *; try exact E.
  destruct (s_insim D insim pts s p) as [[|]| |]; cbn [rbind] in *; try exact E. destruct (ltb cd md); cbn [rbind] in *;
  destruct (enqueue D dface pts lo p s (seq 0 (N.to_nat D + 1)) mk q') as [[mk' q'']| |]; cbn [rbind] in *; try exact E; now apply IH.
Qed.

Theorem near_ok {A W} D ltb (huge : W) insim dface take (pts : points A) dflt l p hintS :
  made dflt l -> (forall i s, holds l i s -> i < 2 ^ 63) -> pq_ok ltb take -> less_ok ltb -> (hintS <> s_inf -> exists s, holds l hintS s) ->
  exists start, starts_at l hintS start /\
  ((forall i, reach l start i -> exists s, holds l i s /\ length (x_nbrs s) = N.to_nat (D + 1) /\
      (exists b, s_insim D insim pts s p = Val b) /\
      forall d n, nth_error (x_nbrs s) d = Some n -> s_finite n = true -> exists w, s_dface D dface pts s d p = Val w) ->
   exists r log, returns (find_nearest D ltb huge insim dface take pts l p hintS) (Some (r, log)) /\
    NoDup (map snd log) /\
    (forall w j, In (w, j) log -> reach l start j /\ ((j = start /\ w = huge) \/ j <> start /\ over_face l start (fun s d w => s_dface D dface pts s d p = Val w) j w)) /\
    ((exists w i s pre, log = pre ++ [(w, i)] /\ holds l i s /\ s_insim D insim pts s p = Val true /\ r = x_id s /\
        forall w' j t, In (w', j) pre -> holds l j t -> s_insim D insim pts t p = Val false) \/
     ((forall i, reach l start i -> In i (map snd log)) /\ (forall i s, reach l start i -> holds l i s -> s_insim D insim pts s p = Val false) /\
      least_entry ltb huge (p_inf D) l log r))).
Proof.
  intros Hm H63 Hpq Hl Hs. destruct (made_bounds dflt l Hm) as (lo & up & Elo & Eup & Hlt & H64 & (a & Ha) & (a' & Ha') & Hin & Hlen).
  assert (Hst : exists start, (if hintS =? s_inf then lo else hintS) = start /\ (exists s, holds l start s) /\
    starts_at l hintS start).
  { eexists. split; [reflexivity|]. destruct (N.eqb_spec hintS s_inf) as [E|E].
    - split; [now exists a|]. split; [contradiction|]. intros _. split; [now exists a|]. intros i s Hi. apply (Hin i s Hi).
    - split; [auto|]. split; [reflexivity|contradiction]. }
  destruct Hst as (start & Est & (s0 & Hs0) & S1). exists start. split; [exact S1|]. intros Hr.
  pose proof (Hin start s0 Hs0) as Hb.
  set (marks := repeat false (N.to_nat (wrap 64 (up + 2 ^ 64 - lo + 1)))).
  assert (Lm : length marks = N.to_nat (up - lo + 1)).
  { pose proof (H63 _ _ Ha') as H63'. unfold marks. rewrite repeat_length. f_equal. replace (up + 2 ^ 64 - lo + 1) with ((up + 1) + 2 ^ 64 - lo) by lia. unfold wrap.
    replace (up + 1 + 2 ^ 64 - lo) with ((up + 1 - lo) + 1 * 2 ^ 64) by lia. rewrite N.mod_add by discriminate. rewrite N.mod_small by lia. lia. }
  assert (I : inv D ltb huge insim dface pts l lo up p start (upd marks (mark_idx lo start) true) [(huge, start)] [] huge (p_inf D)).
  { constructor; cbn [app map snd].
    - apply NoDup_cons; [intros Hf; destruct Hf|apply NoDup_nil].
    - now rewrite upd_length.
    - intros i Hi. rewrite (marked_upd lo up H64) by assumption. split.
      + intros [->|Hf]; [now left|]. unfold marked in Hf. apply nth_error_In, repeat_spec in Hf. discriminate.
      + intros [->|[]]. now left.
    - intros w j [E|[]]. injection E as <- <-. split; [constructor|]. now left.
    - intros ? ? ? ? [].
    - intros ? ? ? [].
    - left. repeat split. intros ? ? [].
    - now left. }
  assert (G : forall fuel, (N.to_nat (up - lo) < fuel)%nat -> find_nearest D ltb huge insim dface take pts l p hintS fuel =
     near_loop D ltb insim dface take pts fuel l lo p (upd marks (mark_idx lo start) true) [(huge, start)] 0 huge (p_inf D) []).
  { intros fuel _. unfold find_nearest. rewrite Elo, Eup. cbn [rbind]. rewrite Est. fold marks.
    destruct (nth_error_ex marks (mark_idx lo start)) as [m Em]; [rewrite (idx_in lo up H64) by assumption; lia|]. now rewrite Em. }
  assert (X := fun fuel Hf => loop_ok D ltb huge insim dface take pts dflt l lo up p start H64 Hin Hm Hpq Hl Hr fuel _ _ _ _ _ 0%nat I Hlen Hf).
  cbn [length Nat.add] in X.
  destruct (X (S (N.to_nat (up - lo))) ltac:(lia)) as (r & log & E & R).
  exists r, log. split; [|exact R]. exists (S (N.to_nat (up - lo))). intros m Hm'. rewrite G by lia.
  replace m with (S (N.to_nat (up - lo)) + (m - S (N.to_nat (up - lo))))%nat by lia. generalize (m - S (N.to_nat (up - lo)))%nat. intros k.
  now apply loop_more.
Qed.
