(** CyclePartitioner and ExtendPartitioner: the parallel distribution and what follows it (C34). *)
From Verif Require Import Outcome ListUtil WordsModel WordsProofs LPSetModel ProbeTheory LPSetProofs LPSetHistory LPSetIter SimplexModel PointModel PointProofs GeoModel GeoSpec GeoProofs
  Conc ConcSetModel ConcSetProofs ConcSetSpec PartModel PartSpec PartProofs PartConc.
From Coq Require Import Permutation.
Local Open Scope nat_scope.

Section D.
Variable D : nat.
Hypothesis HD : (N.of_nat D <= 30)%N.
Variable pts : points vec.
Variable st : stats.
Variable mult : nat -> N.
Notation Dn := (N.of_nat D).

Lemma table_ok n a : (1 <= n <= 2 ^ 63)%N -> cs_made 64 false (cs_new n a) /\ keys_of (s_arr (cs_new n a)) = [] /\ (n <= N.of_nat (length (s_arr (cs_new n a))))%N.
Proof.
  intros Hn. split; [apply new_made; [exact Hn|etransitivity; [apply Hn|discriminate]]|]. unfold cs_new. cbn [s_arr]. unfold alloc. rewrite keys_of_repeat0. split; [reflexivity|].
  rewrite repeat_length, N2Nat.id. apply (nextPow2_least 64 n); [discriminate|apply Hn|apply Hn].
Qed.

Section Two.
Variables (K : list N) (ignore : bool) (work : list (list N)) (k : nat).
Let ids := concat work.
Let n := N.of_nat (length ids).
Hypothesis Hk : k < D.
Hypothesis Hsame : forall i, In i ids <-> In i K.
Hypothesis Hw : forall i, In i K -> (0 < i < 2 ^ 64)%N.
Hypothesis Hc : covers D pts K st.
Hypothesis H1 : 1 <= length ids.
Hypothesis Hsm : small64 (4 * (length ids + Nat.pow 2 D)).
Notation rt := (route_id D pts (route1 D st k)).
Notation c0 := (pstart mult n work).

Lemma n_range : (1 <= n <= 2 ^ 63)%N.
Proof. subst n. destruct Hsm as [_ H]. lia. Qed.
Lemma ids_nz : ~ In 0%N ids.
Proof. intros H. apply Hsame, Hw in H. lia. Qed.
Lemma made_tables b s : nth_error (two_tables mult n) b = Some s -> cs_made 64 false s /\ keys_of (s_arr s) = [] /\ length ids <= length (s_arr s).
Proof.
  intros H. assert (E : exists a, s = cs_new n a).
  { destruct b as [|[|b]]; cbn [two_tables nth_error] in H; [injection H as <-; eauto|injection H as <-; eauto|destruct b; discriminate]. }
  destruct E as [a ->]. destruct (table_ok n a n_range) as [T1 [T2 T3]]. split; [exact T1|]. split; [exact T2|]. assert (En : N.of_nat (length ids) = n) by reflexivity. lia.
Qed.
Lemma ids_routes : routes D pts (route1 D st k) 2 (half_box st k) ids.
Proof. apply (route1_routes D HD pts st k ids Hk); [intros i Hi; exact (proj2 (Hw i (proj1 (Hsame i) Hi)))|]. exact (covers_same D pts st K ids Hsame Hc). Qed.
Lemma ids_route i : In i ids -> exists r, rt i = Val r /\ forall j, r = Some j -> j < length (two_tables mult n).
Proof.
  intros Hi. destruct (routes_id D HD pts _ _ _ ids i ids_routes Hi) as [[_ E]|[_ [c [j [_ [E [Hj _]]]]]]]; eexists; (split; [exact E|]); intros x Hx; [discriminate|]. injection Hx as <-. exact Hj.
Qed.

Lemma two_safe : safe (pstep rt) c0.
Proof. exact (pconc_safe rt (two_tables mult n) work ids (Permutation_refl _) ids_nz made_tables ids_route). Qed.
Lemma two_terminates : terminates (pstep rt) c0.
Proof. exact (pconc_terminates rt (two_tables mult n) work ids (Permutation_refl _) ids_nz made_tables ids_route). Qed.
Lemma two_progress c tr : exec (pstep rt) c0 c tr -> (exists c', cstep (pstep rt) c c') \/ pdone c.
Proof. exact (pconc_progress rt (two_tables mult n) work ids (Permutation_refl _) ids_nz made_tables ids_route c tr). Qed.

Lemma two_done c tr : exec (pstep rt) c0 c tr -> pdone c -> exists ps,
  returns (fun f => half_finish D st k f (c_sh c) ignore) ps /\ parts_of D pts K ignore (route1 D st k) 2 (half_box st k) ps /\
  (2 <= length ids -> ignore = false \/ (forall j, j < 2 -> length (filter (goes D pts (route1 D st k) j) (nodup N.eq_dec ids)) < length ids) -> parts_free ps).
Proof.
  intros H Hd. destruct (pconc_done rt (two_tables mult n) work ids (Permutation_refl _) ids_nz made_tables ids_route c tr H Hd) as [HL HP].
  cbn [two_tables length] in HL. destruct (c_sh c) as [|s0 [|s1 [|s2 tl]]]; try discriminate. cbn [half_finish].
  assert (HR : forall j s, nth_error [s0; s1] j = Some s -> repr 64 s (rev (filter (goes D pts (route1 D st k) j) ids)) /\ length ids <= cap s).
  { intros j s Hs. destruct (HP j s Hs) as [Hm [[t0 [Ht0 Hlen]] Hst]]. split; [|destruct (made_tables j t0 Ht0) as [_ [_ Hle]]; unfold cap; lia].
    split; [exact (made_wf 64 PartProofs.w64 false s Hm)|]. intros i. rewrite elem_In, <- in_rev, filter_In. fold (stored s i). rewrite Hst. unfold goes.
    split; intros [Ha Hb]; (split; [exact Ha|]).
    - rewrite Hb. apply Nat.eqb_refl.
    - destruct (rt i) as [[x|]| |]; try discriminate. apply Nat.eqb_eq in Hb. now subst x. }
  set (ps0 := [mkpart 0 s0 (half_box st k 0); mkpart 1 s1 (half_box st k 1)]).
  assert (H0 : forall j p, nth_error ps0 j = Some p -> j < 2 /\ exists s, nth_error [s0; s1] j = Some s /\ p = mkpart j s (half_box st k j)).
  { intros [|[|j]] p Hp; cbn [ps0 nth_error] in Hp; [injection Hp as <-; split; [lia|exists s0; auto]|injection Hp as <-; split; [lia|exists s1; auto]|destruct j; discriminate]. }
  destruct (add_inf_ok D HD ignore 2 (half_box st k) ps0 0 (fun j => rev (filter (goes D pts (route1 D st k) j) ids))) as [ps [E [R F]]].
  - split; [reflexivity|]. intros j p Hp. destruct (H0 j p Hp) as [_ [s [Hs ->]]]. cbn [pa_id pa_box pa_pts Nat.add]. split; [reflexivity|]. split; [reflexivity|]. now apply HR.
  - intros j _. apply (inf_small D HD). eapply (small_le 64 PartProofs.w64); [|exact Hsm]. rewrite rev_length.
    assert (length (filter (goes D pts (route1 D st k) j) ids) <= length ids) by (clear; induction ids as [|a t IH]; cbn [filter length]; [lia|destruct (goes _ _ _ j a); cbn [length]; lia]). lia.
  - exists ps. split; [exact E|]. split.
    + exists ids. split; [exact Hsame|]. split; [exact ids_routes|]. exact R.
    + intros H2 Hf. apply F.
      * intros p Hp. apply In_nth_error in Hp. destruct Hp as [j Hj]. destruct (H0 j p Hj) as [_ [s [Hs ->]]]. cbn [pa_pts]. destruct (HR j s Hs) as [_ Hle]. lia.
      * destruct Hf as [Hf|Hf]; [now left|right]. intros p Hp. apply In_nth_error in Hp. destruct Hp as [j Hj]. destruct (H0 j p Hj) as [Hj2 [s [Hs ->]]]. cbn [pa_pts].
        destruct (HR j s Hs) as [Hr Hle]. unfold free. rewrite (repr_items 64 s _ Hr). specialize (Hf j Hj2).
        assert (El : distinct (rev (filter (goes D pts (route1 D st k) j) ids)) <= length (filter (goes D pts (route1 D st k) j) (nodup N.eq_dec ids))); [|lia].
        apply NoDup_incl_length; [apply NoDup_nodup|]. intros x Hx. rewrite nodup_In in Hx. apply in_rev in Hx. apply filter_In in Hx. apply filter_In. rewrite nodup_In. exact Hx.
Qed.
(** One of the two tables takes every id and has exactly as many cells: lookups of other ids do not return. *)
Lemma two_full c tr e i : exec (pstep rt) c0 c tr -> pdone c -> NoDup ids -> n = (2 ^ e)%N ->
  (forall x, In x ids -> rt x = Val (Some 0)) -> (i <> 0)%N -> ~ In i K ->
  exists ps, (forall f, half_finish D st k f (c_sh c) true = Val ps) /\ diverges (fun f => part_of f ps i).
Proof.
  intros H Hd Hnd He Hall Hi HiK. destruct (pconc_done rt (two_tables mult n) work ids (Permutation_refl _) ids_nz made_tables ids_route c tr H Hd) as [HL HP].
  cbn [two_tables length] in HL. destruct (c_sh c) as [|s0 [|s1 [|s2 tl]]]; try discriminate. eexists. split; [intros f; cbn [half_finish add_inf rbind rmap]; reflexivity|].
  destruct (HP 0 s0 eq_refl) as [Hm [[t0 [Ht0 Hlen]] Hst]]. pose proof (made_wf 64 PartProofs.w64 false s0 Hm) as Hwf.
  assert (HR : repr 64 s0 ids).
  { split; [exact Hwf|]. intros x. rewrite elem_In. fold (stored s0 x). rewrite Hst. split; [tauto|]. intros Hx. split; [exact Hx|now apply Hall]. }
  assert (Hcap : s_items s0 = cap s0).
  { rewrite (repr_items 64 s0 _ HR). unfold distinct. rewrite nodup_fixed_point by exact Hnd. unfold cap. rewrite Hlen.
    cbn [two_tables nth_error] in Ht0. injection Ht0 as <-. unfold cs_new, alloc. cbn [s_arr]. rewrite repeat_length. rewrite He, nextPow2_idem; [|discriminate|].
    - rewrite <- He. subst n. now rewrite Nnat.Nat2N.id.
    - apply (N.pow_lt_mono_r_iff 2); [reflexivity|]. rewrite <- He. pose proof n_range. assert ((2 ^ 63 < 2 ^ 64)%N) by reflexivity. lia. }
  assert (Hdv : diverges (fun f => part_has f (mkpart 0 s0 (half_box st k 0)) i)).
  { unfold part_has. cbn [pa_pts]. apply (contains_full_diverges 64 PartProofs.w64); auto. intros Hx. apply HiK, Hsame, (proj2 HR). exact Hx. }
  intros f. cbn [part_of]. specialize (Hdv f). cbv beta in Hdv. cbn [pa_id pa_pts pa_box] in *. rewrite Hdv. reflexivity.
Qed.
End Two.

(** *** the dimension of ExtendPartitioner *)
Lemma extend_inv : forall m, let a := fold_left (fun a d => if rltb (fst a) (st_max st d - st_min st d)%R then ((st_max st d - st_min st d)%R, Some d) else a) (seq 0 m) (0%R, None) in
  match snd a with
  | Some k => k < m /\ fst a = (st_max st k - st_min st k)%R /\ (0 < fst a)%R /\ forall d, d < m -> (st_max st d - st_min st d <= fst a)%R
  | None => fst a = 0%R /\ forall d, d < m -> (st_max st d - st_min st d <= 0)%R
  end.
Proof.
  induction m as [|m IH]; cbv zeta.
  - split; [reflexivity|]. intros d Hd. lia.
  - rewrite seq_S, fold_left_app. cbn [Nat.add fold_left]. cbv zeta in IH. set (a := fold_left _ (seq 0 m) _) in *. clearbody a.
    destruct (rltb (fst a) (st_max st m - st_min st m)) eqn:E.
    + apply rltb_iff in E. cbn [fst snd]. split; [lia|]. split; [reflexivity|]. destruct (snd a) as [k|].
      * destruct IH as [_ [_ [I3 I4]]]. split; [apply (Rlt_trans _ _ _ I3 E)|]. intros d Hd. assert (Hd' : d < m \/ d = m) by lia. destruct Hd' as [Hd'| ->]; [|apply Rle_refl].
        apply (Rle_trans _ _ _ (I4 d Hd')). now left.
      * destruct IH as [I1 I2]. rewrite I1 in E. split; [exact E|]. intros d Hd. assert (Hd' : d < m \/ d = m) by lia. destruct Hd' as [Hd'| ->]; [|apply Rle_refl].
        apply (Rle_trans _ _ _ (I2 d Hd')). now left.
    + apply rltb_false in E. destruct (snd a) as [k|].
      * destruct IH as [I1 [I2 [I3 I4]]]. split; [lia|]. split; [exact I2|]. split; [exact I3|]. intros d Hd. assert (Hd' : d < m \/ d = m) by lia. destruct Hd' as [Hd'| ->]; auto.
      * destruct IH as [I1 I2]. split; [exact I1|]. intros d Hd. assert (Hd' : d < m \/ d = m) by lia. destruct Hd' as [Hd'| ->]; auto. now rewrite I1 in E.
Qed.
Lemma extend_some : (exists d, d < D /\ (st_min st d < st_max st d)%R) ->
  exists k, extend_dim D st = Some k /\ k < D /\ forall d, d < D -> (st_max st d - st_min st d <= st_max st k - st_min st k)%R.
Proof.
  intros [d [Hd Hlt]]. pose proof (extend_inv D) as H. cbv zeta in H. unfold extend_dim. destruct (snd _) as [k|].
  - destruct H as [A [B [_ C]]]. exists k. split; [reflexivity|]. split; [exact A|]. intros x Hx. rewrite <- B. now apply C.
  - exfalso. destruct H as [_ H]. specialize (H d Hd). lra.
Qed.
Lemma extend_lt k : extend_dim D st = Some k -> k < D.
Proof. intros E. pose proof (extend_inv D) as H. cbv zeta in H. unfold extend_dim in E. destruct (snd _) as [k'|]; [|discriminate]. injection E as <-. apply H. Qed.
Lemma extend_none : (forall d, d < D -> (st_max st d <= st_min st d)%R) -> extend_dim D st = None.
Proof.
  intros Hz. pose proof (extend_inv D) as H. cbv zeta in H. unfold extend_dim. destruct (snd _) as [k|]; [|reflexivity].
  exfalso. destruct H as [A [B [C _]]]. specialize (Hz k A). rewrite B in C. lra.
Qed.
Lemma cycle_dim_lt prov : D <> 0 -> cycle_dim D prov < D.
Proof. intros H. unfold cycle_dim. assert (N.of_nat D <> 0%N) by lia. pose proof (N.mod_lt (wrap 64 (prov + 2 ^ 64 - 1)) (N.of_nat D) H0). lia. Qed.
End D.
