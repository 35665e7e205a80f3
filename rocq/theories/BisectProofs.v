(** Proofs about the partitioners that split in two. *)
From Coq Require Import Reals Lia Lra List.
From Verif Require Import Outcome ListUtil WordsModel LPSetModel SimplexModel PointModel GeoModel GeoSpec GeoProofs GeoBox PointProofs PartModel PartProofs SampleModel KWayModel KWayProofs MakerModel MakerProofs AssignModel AssignProofs BisectModel BisectSpec.
Open Scope list_scope.
Import ListNotations.

(** ** Trees *)
Section T.
Context {C : Type}.
Implicit Types t : ptree C.
Lemma leaf_leaf ck ids p l : leaf_ids (PLeaf ck ids : ptree C) p l <-> p = [] /\ l = ids.
Proof. split; [intros (k & H); inversion H; auto|intros (-> & ->); exists ck; constructor]. Qed.
Lemma leaf_node ck (l r : ptree C) p x : leaf_ids (PNode ck l r) p x <-> exists b q, p = b :: q /\ leaf_ids (if b : bool then r else l) q x.
Proof.
  split; [intros (k & H); inversion H; subst; eexists; eexists; (split; [reflexivity|]); exists k; assumption|].
  intros (b & q & -> & k & H). exists k. destruct b; now constructor.
Qed.
Lemma leaf_set ck t p l : leaf_ids (set_ck ck t) p l <-> leaf_ids t p l.
Proof. destruct t; cbn [set_ck]; [now rewrite !leaf_leaf|now rewrite !leaf_node]. Qed.
Lemma divided_leaf fin ck ids : NoDup ids -> divided fin ids (PLeaf ck ids : ptree C).
Proof.
  intros H. split; [|intros p l Hl; apply leaf_leaf in Hl; destruct Hl as [-> ->]; auto]. intros i Hi Hf. exists [], ids. rewrite leaf_leaf. split; [auto|]. split; [exact Hi|]. intros p' l' Hl _. now apply leaf_leaf in Hl.
Qed.
Lemma divided_node fin ck ids il ir (l r : ptree C) : (forall i, In i ids -> fin i = true -> (In i il /\ ~ In i ir) \/ (In i ir /\ ~ In i il)) ->
  (forall i, In i il \/ In i ir -> In i ids \/ fin i = false) -> divided fin il l -> divided fin ir r -> divided fin ids (PNode ck l r).
Proof.
  intros H1 H2 [L1 L2] [R1 R2]. split.
  - intros i Hi Hf. destruct (H1 i Hi Hf) as [[A B]|[A B]].
    + destruct (L1 i A Hf) as (p & x & P1 & P2 & P3). exists (false :: p), x. split; [rewrite leaf_node; exists false, p; auto|]. split; [exact P2|]. intros p' l' Hl Hin. apply leaf_node in Hl. destruct Hl as ([|] & q & -> & Hl).
      * destruct (R2 q l' Hl) as [_ Q]. destruct (Q i Hin); [contradiction|congruence].
      * f_equal. eapply P3; eassumption.
    + destruct (R1 i A Hf) as (p & x & P1 & P2 & P3). exists (true :: p), x. split; [rewrite leaf_node; exists true, p; auto|]. split; [exact P2|]. intros p' l' Hl Hin. apply leaf_node in Hl. destruct Hl as ([|] & q & -> & Hl).
      * f_equal. eapply P3; eassumption.
      * destruct (L2 q l' Hl) as [_ Q]. destruct (Q i Hin); [contradiction|congruence].
  - intros p x Hl. apply leaf_node in Hl. destruct Hl as ([|] & q & -> & Hl); [destruct (R2 q x Hl) as [N Q]|destruct (L2 q x Hl) as [N Q]]; (split; [exact N|]; intros i Hi; destruct (Q i Hi) as [Y|Y]; [|now right]; apply H2; tauto).
Qed.
Lemma divided_set fin ids ck t : divided fin ids t -> divided fin ids (set_ck ck t).
Proof.
  intros [A B]. split; [|intros p l Hl; rewrite leaf_set in Hl; now apply (B p l)]. intros i Hi Hf. destruct (A i Hi Hf) as (p & l & P1 & P2 & P3). exists p, l. rewrite leaf_set. split; [exact P1|]. split; [exact P2|]. intros p' l' Hl. rewrite leaf_set in Hl. eauto.
Qed.
Lemma at_leaf t p u : at_path t p u -> forall q l, leaf_ids u q l -> leaf_ids t (p ++ q) l.
Proof. intros H. induction H; intros q x Hl; cbn [app]; [exact Hl|apply leaf_node; exists false; eauto|apply leaf_node; exists true; eauto]. Qed.
End T.

(** ** Samplings *)
Lemma get_ok {A} (l : list A) i : (i < length l)%nat -> exists a, get l i = Val a /\ nth_error l i = Some a.
Proof. intros H. destruct (nth_error_ex l i H) as [a E]. exists a. unfold get. now rewrite E. Qed.
Section G.
Variable sm : samp.
Hypothesis Hsm : samp_ok sm.
Variable cut : Z -> Z -> bool.
Lemma row_ok a is : (a < length (sm_part sm))%nat -> (forall i, In i is -> (i < length (g_adj (sm_g sm)))%nat) ->
  exists es, row_edges sm cut a is = Val es /\ forall x y, In (x, y) es <-> x = a /\ exists i pa pb, In i is /\ nth_error (g_adj (sm_g sm)) i = Some y /\ nth_error (sm_part sm) a = Some pa /\ nth_error (sm_part sm) y = Some pb /\ cut pa pb = true.
Proof using Hsm.
  intros Ha. destruct Hsm as (n & E1 & E2 & E3 & E4 & E5). induction is as [|i is IH]; intros H; cbn [row_edges].
  - exists []. split; [reflexivity|]. intros x y. split; [intros []|intros (_ & i & pa & pb & [] & _)].
  - destruct (get_ok (g_adj (sm_g sm)) i) as (b & -> & Hb); [apply H; now left|]. cbn [rbind]. destruct (get_ok (sm_part sm) a Ha) as (pa & -> & Hpa). cbn [rbind]. destruct (get_ok (sm_part sm) b) as (pb & -> & Hpb); [rewrite E1; apply E5; eapply nth_error_In, Hb|].
    cbn [rbind]. destruct IH as (es & -> & Q); [intros; apply H; now right|]. cbn [rmap]. eexists. split; [reflexivity|]. intros x y.
    assert (X : (x = a /\ exists i0 pa pb, In i0 (i :: is) /\ nth_error (g_adj (sm_g sm)) i0 = Some y /\ nth_error (sm_part sm) a = Some pa /\ nth_error (sm_part sm) y = Some pb /\ cut pa pb = true) <-> (x = a /\ y = b /\ cut pa pb = true) \/ In (x, y) es).
    { rewrite Q. split.
      - intros (-> & i0 & pa' & pb' & [<-|Hi] & A & B & Cc & Dd); [left|right; split; [reflexivity|]; exists i0, pa', pb'; auto]. assert (y = b) by congruence. subst y. assert (pa' = pa) by congruence. assert (pb' = pb) by congruence. subst. auto.
      - intros [(-> & -> & Hc)|(-> & i0 & pa' & pb' & A)]; (split; [reflexivity|]); [exists i, pa, pb; cbn [In]; auto|exists i0, pa', pb'; cbn [In]; tauto]. }
    rewrite X. destruct (cut pa pb); cbn [In]; [|intuition congruence]. split; [intros [A|A]; [injection A as <- <-; auto|auto]|intros [(-> & -> & _)|A]; auto].
Qed.
Lemma rows_ok : forall ns, (forall a, In a ns -> (a < length (sm_part sm))%nat) ->
  exists es, all_rows sm cut ns = Val es /\ forall x y, In (x, y) es <-> In x ns /\ edge_of sm x y /\ exists pa pb, nth_error (sm_part sm) x = Some pa /\ nth_error (sm_part sm) y = Some pb /\ cut pa pb = true.
Proof using Hsm.
  induction ns as [|a ns IH]; intros H; cbn [all_rows]; [exists []; split; [reflexivity|]; intros x y; split; [intros []|intros ([] & _)]|].
  destruct Hsm as (n & E1 & E2 & E3 & E4 & E5). assert (La := H a (or_introl eq_refl)). destruct (get_ok (g_rec (sm_g sm)) a) as (lo & -> & Hlo); [lia|]. cbn [rbind]. destruct (get_ok (g_rec (sm_g sm)) (S a)) as (hi & -> & Hhi); [lia|]. cbn [rbind].
  destruct (row_ok a (seq lo (hi - lo)) La) as (e1 & -> & Q1); [intros i Hi; apply in_seq in Hi; pose proof (E4 hi (nth_error_In _ _ Hhi)); lia|]. cbn [rbind]. destruct IH as (e2 & -> & Q2); [intros; apply H; now right|]. cbn [rmap]. eexists. split; [reflexivity|].
  intros x y. rewrite in_app_iff, Q1, Q2. cbn [In]. split.
  - intros [(-> & i & pa & pb & Hi & A & B & Cc & Dd)|(A & B)]; [|tauto]. split; [now left|]. split; [|eauto]. exists lo, hi, i. apply in_seq in Hi. repeat split; auto; lia.
  - intros ([<-|A] & B & Cc); [left|right; auto]. split; [reflexivity|]. destruct B as (lo' & hi' & i & B1 & B2 & B3 & B4). assert (lo' = lo) by congruence. assert (hi' = hi) by congruence. subst. destruct Cc as (pa & pb & C1 & C2 & C3). exists i, pa, pb. split; [apply in_seq; lia|auto].
Qed.
Lemma mids_ok : forall es, (forall x y, In (x, y) es -> (x < length (sm_pts sm))%nat /\ (y < length (sm_pts sm))%nat) ->
  exists ps, mid_points sm es = Val ps /\ (forall a b, In (a, b) es -> exists m x y, In m ps /\ nth_error (sm_pts sm) a = Some x /\ nth_error (sm_pts sm) b = Some y /\ forall d, m d = ((x d + y d) / 2)%R) /\
  forall m, In m ps -> exists a b x y, In (a, b) es /\ nth_error (sm_pts sm) a = Some x /\ nth_error (sm_pts sm) b = Some y /\ forall d, m d = ((x d + y d) / 2)%R.
Proof using.
  induction es as [|[a b] es IH]; intros H; cbn [mid_points]; [exists []; repeat split; [intros ? ? []|intros ? []]|].
  destruct (H a b (or_introl eq_refl)) as [La Lb]. destruct (get_ok _ _ La) as (x & -> & Hx). cbn [rbind]. destruct (get_ok _ _ Lb) as (y & -> & Hy). cbn [rbind]. destruct IH as (ps & -> & P1 & P2); [intros; apply H; now right|]. cbn [rmap]. eexists. split; [reflexivity|].
  assert (M : forall d, vscale (vplus x y) (1 / 2) d = ((x d + y d) / 2)%R) by (intros d; unfold vscale, vplus; lra). split.
  - intros a' b' [E|E]; [injection E as <- <-; exists (vscale (vplus x y) (1 / 2)), x, y; cbn [In]; auto|]. destruct (P1 a' b' E) as (m & x' & y' & Q & Q'). exists m, x', y'. split; [now right|exact Q'].
  - intros m [<-|Hm]; [exists a, b, x, y; cbn [In]; auto|]. destruct (P2 m Hm) as (a' & b' & x' & y' & Q & Q'). exists a', b', x', y'. split; [now right|exact Q'].
Qed.
(** The midpoints that the loops find. *)
Lemma cut_ok : exists es ps, cut_edges sm cut = Val es /\ mid_points sm es = Val ps /\ (forall m, In m ps -> cut_mid sm (fun a b => cut a b = true) m) /\
  forall m, cut_mid sm (fun a b => cut a b = true) m -> exists m', In m' ps /\ forall d, m' d = m d.
Proof using Hsm.
  pose proof Hsm as (n & E1 & E2 & E3 & E4 & E5). destruct (rows_ok (seq 0 (length (g_rec (sm_g sm)) - 1))) as (es & Ee & Qe); [intros a Ha; apply in_seq in Ha; lia|].
  assert (Le : forall x y, In (x, y) es -> (x < n)%nat /\ (y < n)%nat). { intros x y Hxy. apply Qe in Hxy. destruct Hxy as (A & _ & pa & pb & B1 & B2 & _). apply nth_error_lt in B1. apply nth_error_lt in B2. lia. }
  destruct (mids_ok es) as (ps & Ep & P1 & P2); [rewrite E2; exact Le|]. exists es, ps. split; [exact Ee|]. split; [exact Ep|]. split.
  - intros m Hm. destruct (P2 m Hm) as (a & b & x & y & A & B1 & B2 & B3). apply Qe in A. destruct A as (_ & A & pa & pb & A1 & A2 & A3). exists a, b, pa, pb, x, y. auto 10.
  - intros m (a & b & pa & pb & x & y & A & A1 & A2 & A3 & B1 & B2 & B3). destruct (P1 a b) as (m' & x' & y' & Q1 & Q2 & Q3 & Q4).
    { apply Qe. split; [apply in_seq; apply nth_error_lt in A1; lia|]. split; [exact A|eauto]. }
    assert (x' = x) by congruence. assert (y' = y) by congruence. subst. exists m'. split; [exact Q1|]. intros d. rewrite Q4, B3. reflexivity.
Qed.
End G.

(** ** Hyperplanes *)
Local Open Scope R_scope.
Lemma scalar_dot D a b : scalar D a b = dot D a b.
Proof. unfold scalar, dot. apply sum_loop_sumn. Qed.
Lemma sumn_plus D f g : sumn D (fun d => f d + g d) = sumn D f + sumn D g.
Proof. induction D as [|D IH]; cbn [sumn]; [lra|]. rewrite IH. lra. Qed.
Lemma sumn_scale D k f : sumn D (fun d => k * f d) = k * sumn D f.
Proof. induction D as [|D IH]; cbn [sumn]; [lra|]. rewrite IH. lra. Qed.
Lemma dot_vscale D a k b : dot D (vscale a k) b = k * dot D a b.
Proof. unfold dot. rewrite <- sumn_scale. apply sumn_ext. intros. unfold vscale. ring. Qed.
Lemma dot_neg D a b : dot D (vneg a) b = - dot D a b.
Proof. unfold vneg. rewrite dot_vscale. ring. Qed.
Lemma dot_minus D n x y : dot D n x - dot D n y = sumn D (fun d => n d * (x d - y d)).
Proof. unfold dot. replace (sumn D (fun d => n d * x d) - sumn D (fun d => n d * y d)) with (sumn D (fun d => n d * x d) + -1 * sumn D (fun d => n d * y d)) by ring. rewrite <- sumn_scale, <- sumn_plus. apply sumn_ext. intros. ring. Qed.
(** The Cauchy-Schwarz inequality for a unit vector. *)
Lemma unit_cs D n v : dot D n n = 1 -> dot D n v * dot D n v <= dot D v v.
Proof.
  intros H. assert (E : forall k, sumn D (fun d => (v d - k * n d) * (v d - k * n d)) = dot D v v + (-2 * k) * dot D n v + k * k * dot D n n).
  { intros k. unfold dot. rewrite <- !sumn_scale, <- !sumn_plus. apply sumn_ext. intros. ring. }
  assert (X : 0 <= sumn D (fun d => (v d - dot D n v * n d) * (v d - dot D n v * n d))) by (apply sumn_nonneg; intros; apply Rle_0_sqr).
  rewrite E, H in X. lra.
Qed.
Lemma ball_dist D n s c : dot D n n = 1 -> in_ball D s c -> - sp_r s <= dot D n c - dot D n (sp_c s) <= sp_r s.
Proof.
  intros H [Hr Hd]. rewrite dot_minus. pose proof (unit_cs D n (fun d => c d - sp_c s d) H) as X. unfold dot at 1 2 in X. set (k := sumn D (fun d => n d * (c d - sp_c s d))) in *.
  assert (E : dot D (fun d => c d - sp_c s d) (fun d => c d - sp_c s d) = dist2 D c (sp_c s)) by (unfold dot, dist2; apply sumn_ext; intros; ring). rewrite E in X.
  split; nra.
Qed.
Lemma plane_ok D o l : dot D o o <> 0 -> exists n k, h_plane D o l = Some (n, k) /\ dot D n n = 1 /\ forall c, exists q, 0 < q /\ h_dist D n k c = q * (dot D o c + l).
Proof.
  intros Ho. assert (P : 0 < dot D o o). { destruct (sumn_nonneg D (fun d => o d * o d)) as [H|H]; [intros; apply Rle_0_sqr|exact H|unfold dot in Ho; congruence]. }
  unfold h_plane, len2. rewrite scalar_dot. unfold reqb. destruct (Req_EM_T (dot D o o) 0) as [E|_]; [contradiction|]. set (q := sqrt (dot D o o)). assert (Hq : 0 < q) by now apply sqrt_lt_R0. assert (Qq : q * q = dot D o o) by (apply sqrt_sqrt; lra).
  assert (Q1 : 0 < 1 / q) by (unfold Rdiv; rewrite Rmult_1_l; now apply Rinv_0_lt_compat). assert (N : scalar D (vscale o (1 / q)) o = q) by (rewrite scalar_dot, dot_vscale, <- Qq; field; lra).
  eexists. eexists. split; [reflexivity|]. split.
  - rewrite dot_vscale. replace (dot D o (vscale o (1 / q))) with (dot D (vscale o (1 / q)) o) by (unfold dot; apply sumn_ext; intros; ring). rewrite <- scalar_dot, N. field. lra.
  - intros c. exists (1 / q). split; [exact Q1|]. rewrite N. unfold h_dist. rewrite scalar_dot, dot_vscale. field. lra.
Qed.

Section H.
Variable D : nat.
Variable pts : points vec.
Notation Dn := (N.of_nat D).
Notation fin := (p_finite Dn).
Variable co : N -> vec.
Lemma above_left n k c s : dot D n n = 1 -> h_above D (Some (n, k)) c = true -> in_ball D s c -> h_meets D (HPlane (h_left (Some (n, k)))) s = true.
Proof using.
  intros H A B. cbn [h_left h_meets h_above] in *. apply rltb_iff in A. apply rltb_iff. unfold h_dist in *. rewrite scalar_dot in *. pose proof (ball_dist D n s c H B). lra.
Qed.
Lemma below_right n k c s : dot D n n = 1 -> h_above D (Some (n, k)) c = false -> in_ball D s c -> h_meets D (HPlane (h_right (Some (n, k)))) s = true.
Proof using.
  intros H A B. cbn [h_right h_meets h_above] in *. apply rltb_false in A. apply rltb_iff. unfold h_dist in *. rewrite scalar_dot in *. rewrite dot_neg. pose proof (ball_dist D n s c H B). lra.
Qed.

Definition side (pl : plane) (i : N) : nat := if h_above D pl (co i) then 0%nat else 1%nat.
Lemma h_split_ok pl : forall ids ss, (forall i, In i ids -> p_get Dn pts i = Val (co i)) -> length ss = 2%nat -> (forall s, In s ss -> k_cap s <> 0%N) ->
  exists ss', h_split D pts pl ids ss = Val ss' /\ length ss' = 2%nat /\ (forall s, In s ss' -> k_cap s <> 0%N) /\
  (forall j s, nth_error ss j = Some s -> exists s', nth_error ss' j = Some s' /\ (NoDup (k_ids s) -> NoDup (k_ids s')) /\ forall x, In x (k_ids s') <-> In x (k_ids s) \/ (In x ids /\ side pl x = j)).
Proof using.
  induction ids as [|i ids IH]; intros ss Hg L Cc; cbn [h_split].
  - exists ss. split; [reflexivity|]. split; [exact L|]. split; [exact Cc|]. intros j s Hs. exists s. cbn [In]. intuition auto.
  - rewrite (Hg i (or_introl eq_refl)). cbn [rbind]. fold (side pl i). set (j0 := side pl i). assert (Hj0 : (j0 < 2)%nat) by (unfold j0, side; destruct (h_above D pl (co i)); lia).
    destruct (nth_error_ex ss j0) as [s0 H0]; [lia|]. unfold k_put. rewrite H0. unfold k_insert. destruct (N.eqb_spec (k_cap s0) 0) as [E|_]; [destruct (Cc s0 (nth_error_In _ _ H0) E)|]. cbn [rmap rbind].
    destruct (IH (upd ss j0 (mkk (k_cap s0) (k_add i (k_ids s0))))) as (ss' & E & L' & C' & Q); [intros; apply Hg; now right|now rewrite upd_length| |].
    { intros s Hs. apply In_nth_error in Hs. destruct Hs as [m Hm]. destruct (Nat.eq_dec m j0) as [->|Hne]; [rewrite nth_error_upd_eq in Hm by lia; injection Hm as <-; apply (Cc s0); eapply nth_error_In, H0|rewrite nth_error_upd_neq in Hm by congruence; apply Cc; eapply nth_error_In, Hm]. }
    exists ss'. split; [exact E|]. split; [exact L'|]. split; [exact C'|]. intros j s Hs. destruct (Nat.eq_dec j j0) as [->|Hne].
    + destruct (Q j0 (mkk (k_cap s0) (k_add i (k_ids s0)))) as (s' & H1 & H3 & H4); [apply nth_error_upd_eq; lia|]. assert (s0 = s) by congruence. subst s0. exists s'. split; [exact H1|]. cbn [k_ids] in *.
      split; [intros N; apply H3, k_add_nodup, N|]. intros x. rewrite H4, k_add_in. cbn [In]. unfold j0. intuition (subst; auto).
    + destruct (Q j s) as (s' & H1 & H3 & H4); [rewrite nth_error_upd_neq by congruence; exact Hs|]. exists s'. split; [exact H1|]. split; [exact H3|]. intros x. rewrite H4. cbn [In]. intuition (subst; auto; try congruence; try (exfalso; apply Hne; reflexivity)).
Qed.
(** One split: what the two sets hold. *)
Lemma h_halves pl ids : (2 <= length ids)%nat -> (forall i, In i ids -> p_get Dn pts i = Val (co i)) ->
  exists ss l r, h_split D pts pl ids (m_sets (length ids) 2) = Val ss /\ m_infs D ss = Val [l; r] /\ NoDup l /\ NoDup r /\
  (forall x, In x l <-> In x (inf_ids D) \/ (In x ids /\ h_above D pl (co x) = true)) /\ (forall x, In x r <-> In x (inf_ids D) \/ (In x ids /\ h_above D pl (co x) = false)).
Proof using.
  intros L Hg. set (c := (N.of_nat (length ids) / N.of_nat 2)%N). assert (Hc : c <> 0%N). { unfold c. change (N.of_nat 2) with 2%N. pose proof (N.div_str_pos (N.of_nat (length ids)) 2). lia. }
  destruct (h_split_ok pl ids (m_sets (length ids) 2) Hg eq_refl) as (ss & E & Ls & C' & Q).
  { intros s Hs. apply In_nth_error in Hs. destruct Hs as [j Hj]. apply m_sets_nth in Hj. destruct Hj as [-> _]. exact Hc. }
  destruct (m_infs_total D ss C') as [ls Els]. destruct (m_infs_ok D ss ls Els) as (L2 & Q2). destruct ls as [|l [|r [|z ls]]]; cbn [length] in L2; try lia. exists ss, l, r. split; [exact E|]. split; [exact Els|].
  destruct (Q 0%nat (mkk c []) eq_refl) as (s0 & A1 & A2 & A3). destruct (Q2 0%nat s0 A1) as (l' & B1 & _ & B2 & B3). cbn [nth_error] in B1. injection B1 as <-.
  destruct (Q 1%nat (mkk c []) eq_refl) as (s1 & D1 & D2 & D3). destruct (Q2 1%nat s1 D1) as (r' & E1 & _ & E2 & E3). cbn [nth_error] in E1. injection E1 as <-. cbn [k_ids] in *.
  split; [apply B2, A2, NoDup_nil|]. split; [apply E2, D2, NoDup_nil|]. split; intros x; [rewrite B3, A3|rewrite E3, D3]; unfold side; destruct (h_above D pl (co x)); cbn [In]; intuition congruence.
Qed.
End H.

Lemma two_in (l : list N) a b : In a l -> In b l -> a <> b -> (2 <= length l)%nat.
Proof. destruct l as [|x [|y l]]; cbn [In length]; intros A B N; [destruct A|destruct A as [A|[]], B as [B|[]]; congruence|lia]. Qed.
Lemma inf_two D l : (N.of_nat D <= 30)%N -> (0 < D)%nat -> incl (inf_ids D) l -> (2 <= length l)%nat.
Proof.
  intros HD HD0 H. pose proof (pow_D_le (N.of_nat D) HD) as P. assert (Q : (2 <= 2 ^ N.of_nat D)%N) by (change 2%N with (2 ^ 1)%N at 1; apply N.pow_le_mono_r; lia). assert (Hc : (2 ^ 30 < 2 ^ 64)%N) by reflexivity.
  apply (two_in l (2 ^ 64 - 1) (2 ^ 64 - 2)); [apply H, (inf_iff D HD)|apply H, (inf_iff D HD)|discriminate]; unfold is_inf_id; split; lia.
Qed.

Section M.
Variable D : nat.
Variable pts : points vec.
Notation Dn := (N.of_nat D).
Notation fin := (p_finite Dn).
Variable co : N -> vec.
Variable smp : list bool -> list N -> samp.
Variable svd : list vec -> vec * R.
Hypothesis HD : (Dn <= 30)%N.
Hypothesis HD0 : (0 < D)%nat.
Hypothesis Hsm : forall path ids, samp_ok (smp path ids).
Hypothesis Hinf : forall i, In i (inf_ids D) -> p_get Dn pts i = Val (co i).

Lemma h_find_ok path ids : exists ps, h_find D smp svd path ids = Val (h_plane D (fst (svd ps)) (snd (svd ps))) /\
  (forall m, In m ps -> cut_mid (smp path ids) (fun a b => a <> b) m) /\ forall m, cut_mid (smp path ids) (fun a b => a <> b) m -> exists m', In m' ps /\ forall d, m' d = m d.
Proof using Hsm.
  destruct (cut_ok (smp path ids) (Hsm path ids) (fun a b => negb (Z.eqb a b))) as (es & ps & E1 & E2 & P1 & P2). exists ps. unfold h_find. rewrite E1. cbn [rbind]. rewrite E2. cbn [rbind]. destruct (svd ps) as [o l]. split; [reflexivity|].
  assert (X : forall a b, negb (Z.eqb a b) = true <-> a <> b) by (intros a b; destruct (Z.eqb_spec a b); cbn [negb]; split; congruence). split.
  - intros m Hm. destruct (P1 m Hm) as (a & b & pa & pb & x & y & A & B & Cc & Dd & Ee). exists a, b, pa, pb, x, y. apply X in Dd. auto.
  - intros m (a & b & pa & pb & x & y & A & B & Cc & Dd & Ee). apply P2. exists a, b, pa, pb, x, y. apply X in Dd. auto.
Qed.

Lemma h_make_ok : forall k p path ids ck, (1 <= p)%N -> N.log2 p = N.of_nat k -> NoDup ids -> (2 <= length ids)%nat \/ k = 0%nat -> (forall i, In i ids -> p_get Dn pts i = Val (co i)) ->
  exists t, (forall f, (k < f)%nat -> h_make D pts smp svd f path ids ck p = Val t) /\ divided fin ids t /\ (forall q l, leaf_ids t q l -> length q = k) /\ (forall q, length q = k -> exists l, leaf_ids t q l) /\
  (incl (inf_ids D) ids \/ (0 < k)%nat -> forall q l, leaf_ids t q l -> incl (inf_ids D) l) /\ ck_of t = Some ck /\
  ((forall ps, dot D (fst (svd ps)) (fst (svd ps)) <> 0) -> covers D (h_meets D) fin co ck ids -> forall q u, at_path t q u -> exists c, ck_of u = Some c /\ forall q' l, leaf_ids u q' l -> covers D (h_meets D) fin co c l).
Proof using HD HD0 Hsm Hinf.
  induction k as [|k IH]; intros p path ids ck Hp Hl Hn Hlen Hg.
  - exists (PLeaf (Some ck) ids). split. { intros [|f] Hf; [lia|]. cbn [h_make]. destruct (N.ltb_spec 1 p) as [X|X]; [pose proof (N.log2_pos p X); lia|reflexivity]. }
    split; [now apply divided_leaf|]. split; [intros q l H; apply leaf_leaf in H; now destruct H as [-> _]|]. split; [intros [|b q] H; [exists ids; now rewrite leaf_leaf|discriminate]|]. split; [intros [H|H] q l Hql; [apply leaf_leaf in Hql; now destruct Hql as [_ ->]|lia]|]. split; [reflexivity|].
    intros _ Hc q u Hu. inversion Hu; subst. exists ck. split; [reflexivity|]. intros q' l H. apply leaf_leaf in H. now destruct H as [_ ->].
  - assert (H1 : (1 < p)%N). { destruct (N.ltb_spec 1 p) as [X|X]; [exact X|]. assert (p = 1)%N by lia. subst p. change (N.log2 1) with 0%N in Hl. lia. }
    assert (P2 : (1 <= p / 2)%N) by (apply N.div_le_lower_bound; lia). assert (L2 : N.log2 (p / 2) = N.of_nat k). { rewrite <- N.div2_div, N.div2_spec, N.log2_shiftr. lia. }
    destruct (h_find_ok path ids) as (ps & Ef & _). set (pl := h_plane D (fst (svd ps)) (snd (svd ps))) in *. destruct (h_halves D pts co pl ids) as (ss & il & ir & E1 & E2 & Nl & Nr & Ql & Qr); [lia|exact Hg|].
    assert (Il : incl (inf_ids D) il) by (intros x Hx; apply Ql; now left). assert (Ir : incl (inf_ids D) ir) by (intros x Hx; apply Qr; now left).
    destruct (IH (p / 2)%N (false :: path) il (HPlane (h_left pl)) P2 L2 Nl) as (lt & Fl & Dl & Al & Bl & Cl & Kl & Sl); [left; now apply inf_two with D|intros i Hi; apply Ql in Hi; destruct Hi as [Hi|[Hi _]]; auto|].
    destruct (IH (p / 2)%N (true :: path) ir (HPlane (h_right pl)) P2 L2 Nr) as (rt & Fr & Dr & Ar & Br & Cr & Kr & Sr); [left; now apply inf_two with D|intros i Hi; apply Qr in Hi; destruct Hi as [Hi|[Hi _]]; auto|].
    exists (PNode (Some ck) lt rt). assert (Dv : divided fin ids (PNode (Some ck) lt rt)).
    { apply divided_node with il ir; [| |exact Dl|exact Dr].
      - intros i Hi Hf. assert (Ni : ~ In i (inf_ids D)) by (intros X; apply (inf_not_finite D HD) in X; congruence). rewrite Ql, Qr. destruct (h_above D pl (co i)); [left|right]; (split; [auto|]; intros [X|[_ X]]; [contradiction|discriminate]).
      - intros i [Hi|Hi]; [apply Ql in Hi|apply Qr in Hi]; (destruct Hi as [Hi|[Hi _]]; [right; now apply (inf_not_finite D HD)|now left]). }
    split. { intros [|f] Hf; [lia|]. cbn [h_make]. destruct (N.ltb_spec 1 p) as [_|X]; [|lia]. rewrite Ef. cbn [rbind]. rewrite E1. cbn [rbind]. rewrite E2. cbn [rbind]. rewrite Fl by lia. cbn [rbind]. rewrite Fr by lia. reflexivity. }
    split; [exact Dv|]. split. { intros q l H. apply leaf_node in H. destruct H as ([|] & q' & -> & H); cbn [length]; f_equal; eauto. }
    split. { intros [|[|] q] H; try discriminate; cbn [length] in H; [destruct (Br q) as [l Hl']; [lia|]|destruct (Bl q) as [l Hl']; [lia|]]; exists l; rewrite leaf_node; [exists true, q|exists false, q]; auto. }
    split. { intros _ q l H. apply leaf_node in H. destruct H as ([|] & q' & -> & H); eauto. } split; [reflexivity|].
    intros Hz Hc. assert (Pl : exists n o, pl = Some (n, o) /\ dot D n n = 1) by (destruct (plane_ok D (fst (svd ps)) (snd (svd ps)) (Hz ps)) as (n & o & E & U & _); exists n, o; auto). destruct Pl as (n & o & Epl & Un). intros q u Hu. inversion Hu; subst.
    + exists ck. split; [reflexivity|]. intros q' l H i s Hi Hf Hb. destruct Dv as [_ Dv]. destruct (Dv q' l H) as [_ Q]. destruct (Q i Hi) as [Y|Y]; [|congruence]. now apply (Hc i s).
    + apply (Sl Hz) with p0; [|assumption]. intros i s Hi Hf Hb. apply Ql in Hi. destruct Hi as [Hi|[_ Hi]]; [apply (inf_not_finite D HD) in Hi; congruence|]. rewrite Epl in *. now apply above_left with (co i).
    + apply (Sr Hz) with p0; [|assumption]. intros i s Hi Hf Hb. apply Qr in Hi. destruct Hi as [Hi|[_ Hi]]; [apply (inf_not_finite D HD) in Hi; congruence|]. rewrite Epl in *. now apply below_right with (co i).
Qed.

(** Which ids go to which side of the first plane. *)
Lemma h_root f path ids ck p t : (1 < p)%N -> NoDup ids -> (2 <= length ids)%nat -> (forall i, In i ids -> p_get Dn pts i = Val (co i)) -> h_make D pts smp svd f path ids ck p = Val t ->
  exists ps lt rt, t = PNode (Some ck) lt rt /\ (forall m, In m ps -> cut_mid (smp path ids) (fun a b => a <> b) m) /\ (forall m, cut_mid (smp path ids) (fun a b => a <> b) m -> exists m', In m' ps /\ forall d, m' d = m d) /\
  let pl := h_plane D (fst (svd ps)) (snd (svd ps)) in ck_of lt = Some (HPlane (h_left pl)) /\ ck_of rt = Some (HPlane (h_right pl)) /\
  forall i, In i ids -> fin i = true -> ((exists q l, leaf_ids lt q l /\ In i l) <-> h_above D pl (co i) = true) /\ ((exists q l, leaf_ids rt q l /\ In i l) <-> h_above D pl (co i) = false).
Proof using HD HD0 Hsm Hinf.
  intros H1 Hn Hlen Hg E. destruct f as [|f]; [discriminate|]. cbn [h_make] in E. destruct (N.ltb_spec 1 p) as [_|X]; [|lia]. destruct (h_find_ok path ids) as (ps & Ef & M1 & M2). rewrite Ef in E. cbn [rbind] in E. exists ps. set (pl := h_plane D (fst (svd ps)) (snd (svd ps))) in *.
  destruct (h_halves D pts co pl ids Hlen Hg) as (ss & il & ir & E1 & E2 & Nl & Nr & Ql & Qr). rewrite E1 in E. cbn [rbind] in E. rewrite E2 in E. cbn [rbind] in E.
  assert (P2 : (1 <= p / 2)%N) by (apply N.div_le_lower_bound; lia). assert (L2 : N.log2 (p / 2) = N.of_nat (N.to_nat (N.log2 (p / 2)))) by lia.
  assert (Il : incl (inf_ids D) il) by (intros x Hx; apply Ql; now left). assert (Ir : incl (inf_ids D) ir) by (intros x Hx; apply Qr; now left).
  destruct (h_make_ok (N.to_nat (N.log2 (p / 2))) (p / 2) (false :: path) il (HPlane (h_left pl)) P2 L2 Nl) as (lt & Fl & [Dl Dl'] & _ & _ & _ & Kl & _); [left; now apply inf_two with D|intros i Hi; apply Ql in Hi; destruct Hi as [Hi|[Hi _]]; auto|].
  destruct (h_make_ok (N.to_nat (N.log2 (p / 2))) (p / 2) (true :: path) ir (HPlane (h_right pl)) P2 L2 Nr) as (rt & Fr & [Dr Dr'] & _ & _ & _ & Kr & _); [left; now apply inf_two with D|intros i Hi; apply Qr in Hi; destruct Hi as [Hi|[Hi _]]; auto|].
  assert (Mono : forall f k pa is c q u, h_make D pts smp svd f pa is c q = Val u -> (f <= k)%nat -> h_make D pts smp svd k pa is c q = Val u).
  { clear. induction f as [|f IH]; intros k pa is c q u H L; [discriminate|]. destruct k as [|k]; [lia|]. cbn [h_make] in *. destruct (1 <? q)%N; [|exact H]. destruct (h_find D smp svd pa is); try discriminate. cbn [rbind] in *. destruct (h_split _ _ _ _ _); try discriminate. cbn [rbind] in *. destruct (m_infs _ _) as [ls| |]; try discriminate. cbn [rbind] in *.
    destruct ls as [|l [|r [|z ls]]]; try discriminate. destruct (h_make _ _ _ _ f (false :: pa) l _ _) as [x| |] eqn:Ex; try discriminate. cbn [rbind] in H. rewrite (IH k _ _ _ _ _ Ex) by lia. cbn [rbind]. destruct (h_make _ _ _ _ f (true :: pa) r _ _) as [y| |] eqn:Ey; try discriminate. rewrite (IH k _ _ _ _ _ Ey) by lia. exact H. }
  destruct (h_make D pts smp svd f (false :: path) il (HPlane (h_left pl)) (p / 2)) as [x| |] eqn:Ex; try discriminate. cbn [rbind] in E. destruct (h_make D pts smp svd f (true :: path) ir (HPlane (h_right pl)) (p / 2)) as [y| |] eqn:Ey; try discriminate. cbn [rmap] in E. injection E as <-.
  set (k := (f + S (N.to_nat (N.log2 (p / 2))))%nat). assert (x = lt). { apply (Mono _ k) in Ex; [|lia]. rewrite Fl in Ex by lia. congruence. } assert (y = rt). { apply (Mono _ k) in Ey; [|lia]. rewrite Fr in Ey by lia. congruence. } subst x y.
  exists lt, rt. split; [reflexivity|]. split; [exact M1|]. split; [exact M2|]. cbv zeta. split; [exact Kl|]. split; [exact Kr|]. intros i Hi Hf. assert (Ni : ~ In i (inf_ids D)) by (intros X; apply (inf_not_finite D HD) in X; congruence). split; split.
  - intros (q & l & A & B). destruct (Dl' q l A) as [_ Q]. destruct (Q i B) as [Y|Y]; [|congruence]. apply Ql in Y. tauto.
  - intros A. destruct (Dl i) as (q & l & B & B' & _); [apply Ql; auto|exact Hf|eauto].
  - intros (q & l & A & B). destruct (Dr' q l A) as [_ Q]. destruct (Q i B) as [Y|Y]; [|congruence]. apply Qr in Y. tauto.
  - intros A. destruct (Dr i) as (q & l & B & B' & _); [apply Qr; auto|exact Hf|eauto].
Qed.
End M.
