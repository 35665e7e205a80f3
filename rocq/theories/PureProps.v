(** C87: the result of the pure CGAL triangulators. *)
From Coq Require Import Permutation Reals Lia.
From Verif Require Import Outcome ListUtil WordsModel BlockModel SimplexModel NbrModel NbrSpec PointModel PointProofs GeoModel GeoSpec MergeModel DelSpec TriSpec MeshSpec CheckModel CheckSpec CheckProofs
  SelfModel SelfSpec AgreeModel PureModel.
Local Open Scope nat_scope.

Lemma new_get dflt m m' i s : d_get (ba_new dflt m m') i = Some s -> s = dflt.
Proof.
  unfold d_get, ba_at, ba_new. destruct (ba_seek _ i 0) as [[h|]| |]; cbn [rbind]; try discriminate.
  destruct h as [|h]; [|now destruct h]. cbn [nth_error]. unfold blk_at, block_new. cbn [b_min b_max b_data].
  cbn [fst snd N.leb].
  destruct (m <=? i)%N; [|discriminate]. destruct (nth_error _ _) as [a|] eqn:E; [|discriminate]. intros H. injection H as <-. apply nth_error_In in E. now apply repeat_spec in E.
Qed.
Lemma pure_get dflt i s : d_get (d_arr (pure_dt dflt)) i = Some s -> s = dflt.
Proof. apply new_get. Qed.
Lemma pure_live dflt i s : x_id dflt = s_inf -> ~ live (d_get (d_arr (pure_dt dflt))) i s.
Proof. intros Hd (H & E & F). apply pure_get in H. subst. congruence. Qed.
Lemma pure_find dflt tab s : x_id dflt = s_inf -> find_equal (d_get (d_arr (pure_dt dflt))) tab s = None.
Proof.
  intros Hd. unfold find_equal. induction (bucket tab (x_fp s)) as [|i l IH]; [reflexivity|]. cbn [find].
  assert (Hh : has (d_get (d_arr (pure_dt dflt))) i = false).
  { unfold has. destruct (d_get _ i) as [t|] eqn:E; [|reflexivity]. apply pure_get in E. subst. now rewrite Hd. }
  rewrite Hh, Bool.andb_false_r. exact IH.
Qed.

Lemma no_points_used {A} D (q : points A) : (0 < D <= 30)%N -> pts_ok D q -> p_off q = 0%N -> check_points D q [] None = Val false.
Proof.
  intros HD Hq Hoff. pose proof Hq as (Hne & Hsz & Hinf). unfold check_points.
  assert (Hn : (0 < finite_size q)%N). { unfold finite_size. destruct (p_vec q); [congruence|]. cbn [length]. lia. }
  assert (Hp2 : (1 < 2 ^ D)%N) by (apply N.pow_gt_1; lia).
  assert (Hp64 : (2 ^ D < 2 ^ 64)%N) by (apply N.pow_lt_mono_r; lia).
  assert (He : p_eq D q [] = false).
  { unfold p_eq. cbn [length N.of_nat]. assert (E : (wrap 64 (p_size D q + 2 ^ 64 - 1) =? 0)%N = false); [|now rewrite E]. apply N.eqb_neq. unfold wrap.
    destruct (p_size_val D (proj2 HD) q Hq) as [E|E].
    - rewrite E. set (n := (finite_size q + 2 ^ D)%N) in *. assert (n <= 2 ^ 64)%N by lia. replace (n + 2 ^ 64 - 1)%N with ((n - 1) + 1 * 2 ^ 64)%N by lia. rewrite N.mod_add by discriminate. rewrite N.mod_small by lia. lia.
    - unfold p_size. rewrite (p_ninf_val D (proj2 HD)), E. vm_compute. discriminate. }
  rewrite He. unfold unused_among.
  assert (Hg : forall k, (k < N.to_nat (finite_size q)) -> exists a, p_get D q (N.of_nat k) = Val a /\ p_finite D (N.of_nat k) = true).
  { intros k Hk. assert (F : p_finite D (N.of_nat k) = true) by (apply (p_finite_spec D (proj2 HD)); lia). unfold p_get. rewrite F. unfold fin_idx. rewrite Hoff, N.sub_0_r. unfold wrap.
    replace (N.of_nat k + 2 ^ 64)%N with (N.of_nat k + 1 * 2 ^ 64)%N by lia. rewrite N.mod_add by discriminate. rewrite N.mod_small by lia. rewrite Nat2N.id.
    destruct (nth_error (p_vec q) k) as [a|] eqn:E; [now exists a|]. apply nth_error_None in E. unfold finite_size in Hk. lia. }
  set (f := fun i => rmap _ _).
  assert (Hc : forall m a, (a + m <= N.to_nat (finite_size q)) -> collect f (map N.of_nat (seq a m)) = Val (map N.of_nat (seq a m))).
  { induction m as [|m IH]; intros a Ha; [reflexivity|]. cbn [seq map collect]. destruct (Hg a ltac:(lia)) as (x & E1 & E2). unfold f at 1. rewrite E1, E2. cbn [rmap rbind negb andb]. rewrite IH by lia. reflexivity. }
  rewrite Hc by lia. cbn [rmap]. destruct (N.to_nat (finite_size q)) eqn:E; [lia|]. reflexivity.
Qed.

(** Whatever the points are: the result shows no simplex, and one is reported; a result that has to show one is wrong.  The check of the programs finishes and rejects it, for every
    reference triangulation. *)
Theorem C87_pure_refuted dflt : x_id dflt = s_inf ->
  (forall i s, ~ shown (pure_dt dflt) i s) /\ n_simplices (pure_dt dflt) = 1%N /\
  (forall over D co hgt S s, dt (N.to_nat D) co hgt S s -> ~ triangulation over D co hgt S (pure_dt dflt)) /\
  (forall over D orient insphere q real ls used tab ftab tab' ms rs chunks, (0 < D <= 30)%N -> pts_ok D q -> p_off q = 0%N ->
     verify_sees over (pure_dt dflt) ls used tab ftab -> cross_sees (pure_dt dflt) real tab' ms rs chunks ->
     self_check over D orient insphere (pure_dt dflt) real q ls used tab ftab tab' ms rs chunks = Val false).
Proof.
  intros Hd.
  assert (Hno : forall i s, ~ shown (pure_dt dflt) i s).
  { intros i s [(k & b & Hb & _ & Ha) E]. apply E. unfold pure_dt, ba_new in Hb. cbn [d_arr] in Hb. destruct k as [|k]; [|now destruct k]. cbn [nth_error] in Hb. injection Hb as <-.
    apply nth_error_In in Ha. unfold block_new in Ha. cbn [b_data] in Ha. apply repeat_spec in Ha. now subst. }
  split; [exact Hno|]. split; [reflexivity|]. split.
  { intros over D co hgt S s Hs T. destruct (tr_complete _ _ _ _ _ _ T s Hs) as (i & x & Hx & _). exact (Hno i x Hx). }
  intros over D orient insphere q real ls used tab ftab tab' ms rs chunks HD Hq Hoff (V1 & V2 & V3 & fe & V4 & V5) (C1 & C2 & C3 & C4).
  assert (El : forall l, enum (d_get (d_arr (pure_dt dflt))) l -> l = []).
  { intros [|s l] [_ H]; [reflexivity|]. exfalso. apply (pure_live dflt (x_id s) s Hd). apply H. now left. }
  apply El in V1, C1. subst ls ms. cbn [map] in V3. apply Permutation_sym, Permutation_nil in V3. subst tab.
  cbn in V4. injection V4 as <-. apply Permutation_sym, Permutation_nil in V5. subst ftab.
  assert (used = []). { destruct used as [|v u]; [reflexivity|]. destruct (proj1 (proj2 V2 v) (or_introl eq_refl)) as (c & s & Hs & _). now apply pure_live in Hs. } subst used.
  assert (Hp : check_points D q [] None = Val false) by (now apply no_points_used).
  unfold self_check, verify_of, verify. rewrite Hp. cbn [rbind]. unfold check_hull, check_dups, check_adj, check_circle. cbn [collect rmap rbind d_hull pure_dt].
  unfold cross_of, cross_check.
  assert (Hc : exists r, check_chunks (d_get (d_arr (pure_dt dflt))) (d_get (d_arr real)) tab' chunks = Val r).
  { clear C4. induction chunks as [|c l [r E]]; [now eexists|]. cbn [check_chunks]. assert (Ec : exists r, check_chunk (d_get (d_arr (pure_dt dflt))) (d_get (d_arr real)) tab' c = Val r).
    { destruct c as [|s c]; [now eexists|]. cbn [check_chunk]. rewrite pure_find by easy. now eexists. }
    destruct Ec as [[b m] Ec]. rewrite Ec. cbn [rbind]. rewrite E. destruct r. now eexists. }
  destruct Hc as [[b m] Hc]. rewrite Hc. reflexivity.
Qed.
Print Assumptions C87_pure_refuted.

(** Three points; the reference has one triangle. *)
Example C87_pure_ex : let dflt := mks s_inf [0; 0; 0]%N [0; 0; 0]%N 0 0 in let s := mks 1 [1; 2; 3]%N [s_inf; s_inf; s_inf] 7 0 in
  let q := mkpts (repeat (fun _ : nat => 0%R) 4) 0 (repeat (fun _ : nat => 0%R) 4) in let real := mkd (ba_new s 1 2) [] 0 in
  pts_ok 2 q /\ verify_sees (fun x => x) (pure_dt dflt) [] [] [] [] /\ cross_sees (pure_dt dflt) real [(7, 1)]%N [] [s] [[s]].
Proof.
  intros dflt s q real.
  assert (E0 : enum (d_get (d_arr (pure_dt dflt))) []). { split; [constructor|]. intros t. split; [intros []|]. intros H. now apply pure_live in H. }
  split; [|split].
  - split; [discriminate|]. split; [vm_compute; discriminate|reflexivity].
  - split; [exact E0|]. split; [|split; [reflexivity|exists []; split; reflexivity]]. split; [constructor|]. intros v. split; [intros []|]. intros (c & t & H & _). now apply pure_live in H.
  - split; [exact E0|]. split; [|split; reflexivity]. split; [repeat constructor; intros []|]. intros t. split.
    + intros [<-|[]]. split; [reflexivity|]. split; [reflexivity|discriminate].
    + intros (H & _). apply new_get in H. subst. now left.
Qed.
