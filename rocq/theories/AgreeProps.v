(** C83, C84: all triangulators give the same triangulation; and what they report as its number of simplices. *)
From Coq Require Import Permutation Reals Lra Classical.
From Verif Require Import GeoCirc Outcome ListUtil WordsModel BlockModel BlockSpec LPSetModel LPSetProofs LPSetHistory SimplexModel SimplexProofs NbrModel NbrSpec PointModel PointProofs GeoModel GeoSpec InfModel InfProofs MergeModel MergeProofs DelSpec DelGeo PlaceSpec DelPlace TriSpec MeshSpec MeshProofs
  StepModel StepEx PartModel TreeModel TreeSpec SplitModel SplitProofs DcModel DcSpec DcBase DcProofs DcEx TopSpec TopProofs TopRuns DcProps LbModel LbSpec LbProofs LbTrees LbTop LbProps SelfModel SelfSpec SelfProofs SelfProps AgreeModel AgreeSpec AgreeProofs.
Local Open Scope nat_scope.

(** ** C83: the result does not depend on the algorithm *)
(** CGAL alone, DCTriangulator and the load balanced one, with any splitter or partitioner, to any depth, with any schedule, give the same simplices, hull and
    neighbors, if CGAL breaks ties the same way in all calls. *)
Theorem C83_agree D tiny huge p c work q hgt d d' : D = 2 \/ D = 3 -> input D tiny huge p c -> (forall i, In i (concat work) <-> is_fin_id p i) -> ctor_points D tiny huge p work = Val q ->
  breaks D (co_of D q) hgt (id_keys (N.of_nat D) q) -> result D tiny huge q hgt d -> result D tiny huge q hgt d' -> agree d d'.
Proof.
  intros HD HI Hw Hq HB R R'. destruct (result_tri D tiny huge p c work q hgt d HD HI Hw Hq HB R) as [o T]. destruct (result_tri D tiny huge p c work q hgt d' HD HI Hw Hq HB R') as [o' T'].
  eapply (tri_agree o o'); [|eapply generic_general; [rewrite Nat2N.id; exact (proj2 HB)|intros v Hv; exact Hv]|exact T|exact T']. intros s. reflexivity.
Qed.
Print Assumptions C83_agree.
(** If no empty sphere has more than D + 1 of the points on it, it does not even matter how ties are broken. *)
Theorem C83_any D tiny huge p c work q hgt hgt' d d' : D = 2 \/ D = 3 -> input D tiny huge p c -> (forall i, In i (concat work) <-> is_fin_id p i) -> ctor_points D tiny huge p work = Val q ->
  breaks D (co_of D q) hgt (id_keys (N.of_nat D) q) -> breaks D (co_of D q) hgt' (id_keys (N.of_nat D) q) -> no_cosphere D (co_of D q) (id_keys (N.of_nat D) q) ->
  result D tiny huge q hgt d -> result D tiny huge q hgt' d' -> agree d d'.
Proof.
  intros HD HI Hw Hq HB HB' Hno R R'. destruct (result_tri D tiny huge p c work q hgt d HD HI Hw Hq HB R) as [o T]. destruct (result_tri D tiny huge p c work q hgt' d' HD HI Hw Hq HB' R') as [o' T'].
  destruct (top_ex D HD tiny huge p c HI work Hw q Hq) as [r F]. pose proof (tf_placed _ _ _ _ _ _ _ F) as Hpl. assert (HDN : (0 < N.of_nat D <= 30)%N) by lia.
  eapply (tri_agree o o'); [|eapply generic_general; [rewrite Nat2N.id; exact (proj2 HB')|intros v Hv; exact Hv]|exact T|exact T'].
  intros s. split; eapply (dt_any (N.of_nat D)); rewrite ?Nat2N.id; eauto.
Qed.
Print Assumptions C83_any.

(** The parabola of 600 points: the load balanced triangulator, DCTriangulator with another splitter, and CGAL alone. *)
Lemma lb_case : exists work q hgt cgal t l out takes, input 2 (1 / 1000) 1000000 g_pts g_c /\ (forall i, In i (concat work) <-> is_fin_id g_pts i) /\ ctor_points 2 (1 / 1000) 1000000 g_pts work = Val q /\
  breaks 2 (co_of 2 q) hgt (id_keys 2 q) /\ cgal_right 2 (co_of 2 q) hgt (id_keys 2 q) cgal /\ cgal_ends 2 (id_keys 2 q) (604 ^ 3) cgal /\
  (forall r, placed 2 (co_of 2 q) r (id_keys 2 q) -> (forall d, d < 2 -> (1 / 1000 <= r d)%R) -> tree_ok 2 (co_of 2 q) r box (box_ck 2) t (id_keys 2 q)) /\
  Leaves t l /\ (N.of_nat (4 * entries l) <= 2 ^ 63)%N /\ height t <= 42 /\
  lb_run (fun x => x) 2 (co_of 2 q) cgal (splits 2 q (1 / 1000) 1000000 Cycle) 1 box (fun b => b) (box_ck 2) true true [] t out takes /\
  drawn 1 takes /\ (1 + total takes < 2 ^ 64)%N /\ (N.of_nat (length takes) < 2 ^ 32)%N.
Proof.
  assert (Hsp : forall k, DWay = OneDim k -> k < 2) by discriminate. destruct (C73_ex DWay true true Hsp) as (work & q & hgt & ids & t & out & takes & HI & Hw & Hq & HB & Hc & He & Hids & Hb & Hr & Ht & H1 & H2).
  pose proof (old_filled 2 (or_introl eq_refl) _ _ _ _ HI work Hw q Hq DWay Hsp ids 5000 1 _ t Hids Hb (or_introl (le_n _))) as Hf.
  destruct (C73_old_partial 2 _ _ _ _ work q DWay ids 5000 1 _ t (or_introl eq_refl) HI Hw Hq Hsp Hids Hb Hf) as (Hok & l & HL & HE & Hh & _).
  assert (Hlen : length (id_keys 2 q) = 604) by (unfold ctor_points in Hq; destruct (stats_par _ _ _ _ _ _) as [st| |]; try discriminate Hq; injection Hq as <-; apply g_len).
  exists work, q, hgt, (g_cgal hgt (co_of 2 q)), t, l, out, takes. repeat (split; [assumption|]). split.
  { change (N.of_nat 2) with 2%N in HE. rewrite Hlen in HE. change (Nat.pow (Nat.pow 2 2) 1 * 604) with (4 * 604) in HE. clear - HE. lia. }
  split; [clear - Hh; lia|]. auto.
Qed.
Example C83_ex : exists work q hgt d1 d2 d3, input 2 (1 / 1000) 1000000 g_pts g_c /\ (forall i, In i (concat work) <-> is_fin_id g_pts i) /\ ctor_points 2 (1 / 1000) 1000000 g_pts work = Val q /\
  breaks 2 (co_of 2 q) hgt (id_keys 2 q) /\ result 2 (1 / 1000) 1000000 q hgt d1 /\ result 2 (1 / 1000) 1000000 q hgt d2 /\ result 2 (1 / 1000) 1000000 q hgt d3 /\ agree d1 d2 /\ agree d2 d3.
Proof.
  destruct lb_case as (work & q & hgt & cgal & t & l & d1 & takes & HI & Hw & Hq & HB & Hc & He & Hok & HL & Hsm & Hh & Hr & Ht & H1 & H2).
  destruct (C71_runs (fun x => x) 2 _ _ _ _ work q hgt _ (OneDim 1) 1 false (604 ^ 3) 5 (or_introl eq_refl) HI Hw Hq HB Hc He ltac:(intros k E; injection E as <-; lia) ltac:(lia) ltac:(reflexivity) ltac:(reflexivity)) as (d2 & takes2 & R1 & R2 & R3 & R4).
  destruct (C71_runs (fun x => x) 2 _ _ _ _ work q hgt _ Cycle 0 true (604 ^ 3) 7 (or_introl eq_refl) HI Hw Hq HB Hc He ltac:(discriminate) ltac:(lia) ltac:(reflexivity) ltac:(reflexivity)) as (d3 & takes3 & S1 & S2 & S3 & S4).
  assert (A1 : result 2 (1 / 1000) 1000000 q hgt d1) by (eapply re_lb; [exact Hc|exact Hok|exact HL|exact Hsm|exact Hh| |exact Hr|exact Ht|exact H1|exact H2]; lia).
  assert (A2 : result 2 (1 / 1000) 1000000 q hgt d2) by (eapply re_dc; [exact Hc| | |exact R1|exact R2|exact R3|exact R4]; [intros k E; injection E as <-; lia|lia]).
  assert (A3 : result 2 (1 / 1000) 1000000 q hgt d3).
  { inversion S1 as [? ? ? start last _ Hb|? ? ? ? ? ? ? ? ? ? ? Hx]; subst; [|discriminate Hx]. eapply re_cgal; [exact Hc|exact Hb|].
    apply (drawn_ok 7) in S2; [|exact S3|exact S4]. destruct S2 as (_ & S2 & _). exact (S2 (start, last) ltac:(now left)). }
  exists work, q, hgt, d1, d2, d3. repeat (split; [assumption|]). split; eapply (C83_agree 2 _ _ _ _ work q hgt); eauto.
Qed.

(** Points of a line are on a circle only if there are two. *)
Lemma line_circle a0 a1 b0 b1 v0 v1 c0 c1 r2 : ((a0 - c0) ^ 2 + (a1 - c1) ^ 2 = r2)%R -> ((b0 - c0) ^ 2 + (b1 - c1) ^ 2 = r2)%R -> ((v0 - c0) ^ 2 + (v1 - c1) ^ 2 = r2)%R ->
  ((b0 - a0) * (v1 - a1) - (b1 - a1) * (v0 - a0) = 0)%R -> (a0 <> b0 \/ a1 <> b1) -> (v0 = a0 /\ v1 = a1)%R \/ (v0 = b0 /\ v1 = b1)%R.
Proof.
  intros Ha Hb Hv Hx Hne. set (p0 := (b0 - a0)%R) in *. set (p1 := (b1 - a1)%R) in *. set (q0 := (v0 - a0)%R) in *. set (q1 := (v1 - a1)%R) in *. set (m0 := (a0 - c0)%R) in *. set (m1 := (a1 - c1)%R) in *.
  assert (P : (2 * (p0 * m0 + p1 * m1) + (p0 ^ 2 + p1 ^ 2) = 0)%R) by (unfold p0, p1, m0, m1 in *; nra). assert (Q : (2 * (q0 * m0 + q1 * m1) + (q0 ^ 2 + q1 ^ 2) = 0)%R) by (unfold q0, q1, m0, m1 in *; nra).
  set (n := (p0 ^ 2 + p1 ^ 2)%R) in *. set (k := (p0 * q0 + p1 * q1)%R).
  assert (Hn : (0 < n)%R) by (unfold n; destruct Hne as [H|H]; [assert (p0 <> 0)%R by (unfold p0; lra)|assert (p1 <> 0)%R by (unfold p1; lra)]; nra).
  assert (E0 : (n * q0 = k * p0)%R) by (unfold n, k; replace ((p0 * q0 + p1 * q1) * p0)%R with ((p0 ^ 2 + p1 ^ 2) * q0 + p1 * (p0 * q1 - p1 * q0))%R by ring; rewrite Hx; ring).
  assert (E1 : (n * q1 = k * p1)%R) by (unfold n, k; replace ((p0 * q0 + p1 * q1) * p1)%R with ((p0 ^ 2 + p1 ^ 2) * q1 - p0 * (p0 * q1 - p1 * q0))%R by ring; rewrite Hx; ring).
  assert (E2 : (q0 ^ 2 + q1 ^ 2 = k)%R).
  { apply (Rmult_eq_reg_l n); [|lra]. assert (n * (2 * (q0 * m0 + q1 * m1)) = - (k * n))%R; [|nra]. replace (n * (2 * (q0 * m0 + q1 * m1)))%R with (2 * ((n * q0) * m0 + (n * q1) * m1))%R by ring. rewrite E0, E1.
    replace (2 * (k * p0 * m0 + k * p1 * m1))%R with (k * (2 * (p0 * m0 + p1 * m1)))%R by ring. replace (2 * (p0 * m0 + p1 * m1))%R with (- n)%R by lra. ring. }
  assert (E3 : (n * k = k * k)%R) by (rewrite <- E2 at 1; replace (n * (q0 ^ 2 + q1 ^ 2))%R with ((n * q0) * q0 + (n * q1) * q1)%R by ring; rewrite E0, E1; unfold k; ring).
  assert (E4 : (k * (n - k) = 0)%R) by lra. apply Rmult_integral in E4 as [E4|E4]; [left|right].
  - rewrite E4 in E2. assert (q0 = 0 /\ q1 = 0)%R as [Z0 Z1] by (split; nra). unfold q0, q1 in *. lra.
  - assert (X : ((q0 - p0) ^ 2 + (q1 - p1) ^ 2 = 0)%R) by (replace ((q0 - p0) ^ 2 + (q1 - p1) ^ 2)%R with ((q0 ^ 2 + q1 ^ 2) - 2 * k + n)%R by (unfold k, n; ring); lra).
    assert (q0 - p0 = 0 /\ q1 - p1 = 0)%R as [Z0 Z1] by (split; nra). unfold q0, q1, p0, p1 in *. lra.
Qed.
(** A further point on the circumcircle can take the place of a vertex. *)
Lemma circle_swap co s c r2 u v : full 2 co s -> on_ball 2 co s c r2 -> In u s -> ~ In v s -> dist2 2 (co v) c = r2 -> (forall w, In w s -> (forall d, d < 2 -> co w d = co v d) -> w = v) ->
  full 2 co (v :: remove N.eq_dec u s).
Proof.
  intros Hf Hb Hu Hv Ev Hd. pose proof Hf as (Nd & Hl & L & HL).
  assert (Hne : (L u (co v) <> 0)%R).
  { intros Z. assert (exists a b, In a s /\ In b s /\ a <> b /\ a <> u /\ b <> u /\ forall w, In w s -> w <> u -> w = a \/ w = b) as (a & b & Ia & Ib & Nab & Nau & Nbu & Hall).
    { clear - Nd Hl Hu. destruct s as [|x [|y [|z [|? ?]]]]; try discriminate Hl. apply NoDup_cons_iff in Nd as [N1 Nd]. apply NoDup_cons_iff in Nd as [N2 _]. cbn [In] in *.
      destruct Hu as [<-|[<-|[<-|[]]]]; [exists y, z|exists x, z|exists x, y]; repeat split; auto; try (intros ->; tauto); intros w [<-|[<-|[<-|[]]]]; auto; congruence. }
    set (g := fun x : vec => ((co b 0%nat - co a 0%nat) * (x 1%nat - co a 1%nat) - (co b 1%nat - co a 1%nat) * (x 0%nat - co a 0%nat))%R).
    assert (Ga : affine 2 g).
    { exists (fun d => match d with O => (- (co b 1%nat - co a 1%nat))%R | _ => (co b 0%nat - co a 0%nat)%R end), (- (co b 0%nat - co a 0%nat) * co a 1%nat + (co b 1%nat - co a 1%nat) * co a 0%nat)%R. intros x. unfold g. cbn [sumn]. ring. }
    assert (G0 : forall w, In w s -> w <> u -> g (co w) = 0%R) by (intros w Hw Hwu; destruct (Hall w Hw Hwu) as [-> | ->]; unfold g; ring).
    pose proof (interp_one 2 co s L HL g (co v) u Ga Hu Nd G0) as E. rewrite Z, Rmult_0_l in E || rewrite Z, Rmult_0_r in E. unfold g in E.
    pose proof (Hb a Ia) as Ea. pose proof (Hb b Ib) as Eb. rewrite dist2_2 in Ea, Eb, Ev.
    assert (Hab : co a 0%nat <> co b 0%nat \/ co a 1%nat <> co b 1%nat).
    { apply NNPP. intros Hn. apply not_or_and in Hn as [A B]. apply NNPP in A. apply NNPP in B. apply Nab. apply (full_apart co s); auto. intros d Hd2. assert (H : d = 0 \/ d = 1) by lia. destruct H as [-> | ->]; auto. }
    destruct (line_circle _ _ _ _ _ _ _ _ _ Ea Eb Ev E Hab) as [[X Y]|[X Y]]; [apply Hv; rewrite <- (Hd a Ia)|apply Hv; rewrite <- (Hd b Ib)]; auto; intros d Hd2; (assert (H : d = 0 \/ d = 1) by lia; destruct H as [-> | ->]; auto). }
  destruct (full_swap 2 co (fun _ => 0%R) s L u v Nd Hl HL Hu Hne Hv) as (F1 & F2 & L' & F3 & _). split; [exact F1|]. split; [exact F2|]. exists L'. exact F3.
Qed.
Lemma tw_no_cosphere q : ctor_points 2 1 3 tw_pts [[1]; [2]]%N = Val q -> no_cosphere 2 (co_of 2 q) (id_keys 2 q).
Proof.
  intros Hq s c r2 v Hs Hf Hb He Hv Ev. destruct (in_dec N.eq_dec v s) as [|Hn]; [assumption|exfalso].
  destruct (top_ex 2 (or_introl eq_refl) _ _ _ _ tw_input _ tw_work q Hq) as [r T]. pose proof (tf_placed _ _ _ _ _ _ _ T) as Hpl. pose proof (tf_keys _ _ _ _ _ _ _ T) as K. change (N.of_nat 2) with 2%N in *. pose proof (tw_spread q Hq) as Sp. unfold spread in Sp. change (N.to_nat 2) with 2 in Sp.
  assert (Hd : forall w, In w s -> (forall d, d < 2 -> co_of 2 q w d = co_of 2 q v d) -> w = v) by (intros w Hw Hx; apply (pl_distinct _ _ _ _ Hpl); auto).
  destruct (p_finite 2 v) eqn:Fv; [exact (Sp s c r2 v Hs Hf Hb He Hv Fv Hn (eq_sym Ev))|].
  destruct (classic (exists u, In u s /\ p_finite 2 u = true)) as [(u & Hu & Fu)|Hno].
  - refine (Sp (v :: remove N.eq_dec u s) c r2 u _ (circle_swap _ s c r2 u v Hf Hb Hu Hn Ev Hd) _ He (Hs u Hu) Fu _ _).
    + intros w [<-|Hw]; [exact Hv|]. apply in_remove in Hw as [Hw _]. auto.
    + intros w [<-|Hw]; [exact Ev|]. apply in_remove in Hw as [Hw _]. auto.
    + intros [->|Hw]; [congruence|]. apply in_remove in Hw as [_ Hw]. congruence.
    + symmetry. exact (Hb u Hu).
  - assert (Hcor : forall w, In w (v :: s) -> exists b1 b2, co_of 2 q w 0%nat = (sgn b1 * r 0%nat)%R /\ co_of 2 q w 1%nat = (sgn b2 * r 1%nat)%R).
    { intros w Hw. assert (Hw' : In w (id_keys 2 q)) by (destruct Hw as [<-|Hw]; auto). assert (Fw : p_finite 2 w = false) by (destruct Hw as [<-|Hw]; [exact Fv|]; destruct (p_finite 2 w) eqn:E; [|reflexivity]; exfalso; eauto).
      pose proof (pl_corner _ _ _ _ Hpl w Hw' Fw) as Hc. change (N.to_nat 2) with 2 in Hc. rewrite (Hc 0), (Hc 1) by lia. unfold corner. exists (N.testbit w (N.of_nat 0)), (N.testbit w (N.of_nat 1)). unfold sgn. destruct (N.testbit w (N.of_nat 0)), (N.testbit w (N.of_nat 1)); split; ring. }
    assert (Hap : forall w w', In w (v :: s) -> In w' (v :: s) -> w <> w' -> co_of 2 q w 0%nat <> co_of 2 q w' 0%nat \/ co_of 2 q w 1%nat <> co_of 2 q w' 1%nat).
    { intros w w' Hw Hw' Hne. apply NNPP. intros H. apply not_or_and in H as [A B]. apply NNPP in A. apply NNPP in B. apply Hne. apply (pl_distinct _ _ _ _ Hpl); [destruct Hw as [<-|Hw]; auto|destruct Hw' as [<-|Hw']; auto|].
      intros d Hd2. change (N.to_nat 2) with 2 in Hd2. assert (X : d = 0 \/ d = 1) by lia. destruct X as [-> | ->]; auto. }
    assert (Hon : forall w, In w (v :: s) -> ((co_of 2 q w 0%nat - c 0%nat) ^ 2 + (co_of 2 q w 1%nat - c 1%nat) ^ 2 = r2)%R) by (intros w [<-|Hw]; [rewrite <- dist2_2; exact Ev|rewrite <- dist2_2; now apply Hb]).
    assert (F1 : is_fin_id tw_pts 1) by (apply tw_fin; auto). assert (F2 : is_fin_id tw_pts 2) by (apply tw_fin; auto).
    pose proof (tf_far _ _ _ _ _ _ _ T 0 2%N 1%N ltac:(lia) F2 F1) as Ra. pose proof (tf_far _ _ _ _ _ _ _ T 1 1%N 2%N ltac:(lia) F1 F2) as Rb. cbn in Ra, Rb.
    assert (E1 : (r2 <= (0 - c 0%nat) ^ 2 + (1 - c 1%nat) ^ 2)%R) by (pose proof (He 1%N ltac:(apply K; now left)) as H; rewrite dist2_2, (tf_fin _ _ _ _ _ _ _ T 1%N F1) in H; exact H).
    destruct Hf as (Nd & Hl & _). destruct s as [|x [|y [|z [|? ?]]]]; try discriminate Hl. clear Hs Hb He Hd Sp Hno.
    apply NoDup_cons_iff in Nd as [N1 Nd]. apply NoDup_cons_iff in Nd as [N2 _]. cbn [In] in *.
    pose proof (Hon v ltac:(auto)) as Ov. pose proof (Hon x ltac:(auto)) as Ox. pose proof (Hon y ltac:(auto)) as Oy. pose proof (Hon z ltac:(auto)) as Oz.
    pose proof (Hap v x ltac:(auto) ltac:(auto) ltac:(intros ->; tauto)) as A1. pose proof (Hap v y ltac:(auto) ltac:(auto) ltac:(intros ->; tauto)) as A2. pose proof (Hap v z ltac:(auto) ltac:(auto) ltac:(intros ->; tauto)) as A3.
    pose proof (Hap x y ltac:(auto) ltac:(auto) ltac:(intros ->; tauto)) as A4. pose proof (Hap x z ltac:(auto) ltac:(auto 6) ltac:(intros ->; tauto)) as A5. pose proof (Hap y z ltac:(auto) ltac:(auto 6) ltac:(intros ->; tauto)) as A6.
    destruct (Hcor v ltac:(auto)) as (v1 & w1 & V1 & W1). destruct (Hcor x ltac:(auto)) as (v2' & w2 & V2 & W2). destruct (Hcor y ltac:(auto)) as (v3 & w3 & V3 & W3). destruct (Hcor z ltac:(auto 6)) as (v4 & w4 & V4 & W4).
    rewrite V1, V2, V3, V4, W1, W2, W3, W4 in *. clear - A1 A2 A3 A4 A5 A6 Ov Ox Oy Oz E1 Ra Rb. set (a := r 0%nat) in *. set (b := r 1%nat) in *. set (x := c 0%nat) in *. set (y := c 1%nat) in *.
    assert (Hf : forall s s' : bool, (s = s') \/ s = negb s') by (intros [] []; auto).
    destruct v1, w1, v2', w2; try (exfalso; destruct A1 as [A1|A1]; now apply A1); destruct v3, w3; try (exfalso; destruct A2 as [A2|A2]; now apply A2); try (exfalso; destruct A4 as [A4|A4]; now apply A4);
      destruct v4, w4; try (exfalso; destruct A3 as [A3|A3]; now apply A3); try (exfalso; destruct A5 as [A5|A5]; now apply A5); try (exfalso; destruct A6 as [A6|A6]; now apply A6);
      unfold sgn in *; (assert (X : (a * x = 0)%R) by lra); (assert (Y : (b * y = 0)%R) by lra); apply Rmult_integral in X as [X|X]; apply Rmult_integral in Y as [Y|Y]; try lra; rewrite X, Y in *; nra.
Qed.
(** Two points, and any two ways to break ties: the number of simplices is the same, and so on. *)
Example C83_any_ex q : ctor_points 2 1 3 tw_pts [[1]; [2]]%N = Val q -> exists hgt hgt' d d', breaks 2 (co_of 2 q) hgt (id_keys 2 q) /\ breaks 2 (co_of 2 q) hgt' (id_keys 2 q) /\
  no_cosphere 2 (co_of 2 q) (id_keys 2 q) /\ result 2 1 3 q hgt d /\ result 2 1 3 q hgt' d' /\ agree d d'.
Proof.
  intros Hq. destruct (run_ex 1 3 tw_pts tw_c _ q tw_input tw_work Hq) as (hgt & cgal & d & takes & real & start & last & ls & used & tab & ftab & tab' & ms & rs & chunks & H1 & H2 & H3 & H4 & H5 & H6 & _).
  { rewrite (few_len 1 3 tw_pts tw_c _ q 2 tw_input Hq eq_refl). lia. }
  destruct (run_ex 1 3 tw_pts tw_c _ q tw_input tw_work Hq) as (hgt' & cgal' & d0 & takes' & real' & start' & last' & ls' & used' & tab1 & ftab1 & tab2 & ms' & rs' & chunks' & G1 & G2 & _ & _ & _ & _ & G7 & G8 & _).
  { rewrite (few_len 1 3 tw_pts tw_c _ q 2 tw_input Hq eq_refl). lia. }
  assert (A1 : result 2 1 3 q hgt d) by (eapply re_dc; [exact H2| | |exact H3|exact H4|exact H5|exact H6]; [discriminate|lia]).
  assert (A2 : result 2 1 3 q hgt' real') by (eapply re_cgal; [exact G2|exact G7|exact G8]).
  exists hgt, hgt', d, real'. split; [exact H1|]. split; [exact G1|]. split; [exact (tw_no_cosphere q Hq)|]. split; [exact A1|]. split; [exact A2|].
  exact (C83_any 2 1 3 tw_pts tw_c _ q hgt hgt' d real' (or_introl eq_refl) tw_input tw_work Hq H1 G1 (tw_no_cosphere q Hq) A1 A2).
Qed.

(** ** C84: the number of simplices that is reported *)
(** It is the number of ids that were taken from the counter for the base cases and the edges; at least the number of simplices, and more whenever there was a split. *)
Theorem C84_dc over D tiny huge p c work q hgt cgal sp depth par_edge c0 out takes : D = 2 \/ D = 3 -> input D tiny huge p c ->
  (forall i, In i (concat work) <-> is_fin_id p i) -> ctor_points D tiny huge p work = Val q ->
  let P := id_keys (N.of_nat D) q in
  breaks D (co_of D q) hgt P -> cgal_right (N.of_nat D) (co_of D q) hgt P cgal -> (forall k, sp = OneDim k -> k < D) -> depth <= 42 ->
  dc_run over (N.of_nat D) (co_of D q) cgal (splits D q tiny huge sp) depth par_edge [] P out takes ->
  drawn c0 takes -> (c0 + total takes < 2 ^ 64)%N -> (N.of_nat (length takes) < 2 ^ 32)%N ->
  n_simplices out = total takes /\ exists n, number out n /\ (n <= n_simplices out)%N /\ (0 < depth -> (500 < N.of_nat (length P))%N -> (n < n_simplices out)%N).
Proof.
  intros HD HI Hw Hq P HB Hc Hsp Hd Hr Ht H1 H2. pose proof (drawn_ok c0 takes Ht H1 H2) as Hk.
  pose proof (top_whole over D HD tiny huge p c HI work Hw q Hq hgt HB cgal Hc sp Hsp depth ltac:(lia) par_edge out takes Hr Hk) as Dn. destruct (done_number _ _ _ _ _ _ _ _ Dn Hk) as (E & n & N1 & N2 & N3).
  split; [exact E|]. rewrite E. exists n. split; [exact N1|]. split; [exact N2|]. intros Hd0 Hl. apply N3. eapply (run_split over (N.of_nat D) (co_of D q) cgal (splits D q tiny huge sp) depth par_edge P); eauto.
  intros ps Hs. destruct (top_ex D HD tiny huge p c HI work Hw q Hq) as [r F].
  destruct (splits_placed D HD tiny huge p c q sp Hsp r F [] P ps (tf_nodup _ _ _ _ _ _ _ F) (incl_refl _) (tf_placed _ _ _ _ _ _ _ F) Hl Hs) as [A _ _ _]. destruct (pd_some _ _ _ _ _ A) as (i & _ & Hi & _). lia.
Qed.
Print Assumptions C84_dc.
Theorem C84_lb over D tiny huge p c work q hgt cgal depth C cbox meets par_base par_edge (t : tree C) l c0 out takes : D = 2 \/ D = 3 -> input D tiny huge p c ->
  (forall i, In i (concat work) <-> is_fin_id p i) -> ctor_points D tiny huge p work = Val q ->
  let P := id_keys (N.of_nat D) q in
  breaks D (co_of D q) hgt P -> cgal_right (N.of_nat D) (co_of D q) hgt P cgal ->
  (forall r, placed (N.of_nat D) (co_of D q) r P -> (forall d, d < D -> (tiny <= r d)%R) -> tree_ok (N.of_nat D) (co_of D q) r C meets t P) ->
  Leaves t l -> (N.of_nat (4 * entries l) <= 2 ^ 63)%N -> height t <= 42 -> depth <= 42 ->
  lb_run over (N.of_nat D) (co_of D q) cgal (splits D q tiny huge Cycle) depth C cbox meets par_base par_edge [] t out takes ->
  drawn c0 takes -> (c0 + total takes < 2 ^ 64)%N -> (N.of_nat (length takes) < 2 ^ 32)%N ->
  n_simplices out = total takes /\ exists n, number out n /\ (n <= n_simplices out)%N /\ (forall k ch, t = Tnode (Some k) ch -> 2 <= length ch -> (n < n_simplices out)%N).
Proof.
  intros HD HI Hw Hq P HB Hc Hok HL Hsm Hh Hd Hr Ht H1 H2. pose proof (drawn_ok c0 takes Ht H1 H2) as Hk.
  assert (Hs : small 64 (4 * entries l)) by (split; [eapply N.le_trans; [exact Hsm|discriminate]|exact Hsm]).
  pose proof (lb_top_whole over D HD tiny huge p c HI work Hw q Hq hgt HB cgal Hc depth C cbox meets par_base par_edge t l 42 Hok HL Hs Hh Hd (le_n _) out takes Hr Hk) as Dn.
  destruct (done_number _ _ _ _ _ _ _ _ Dn Hk) as (E & n & N1 & N2 & N3). split; [exact E|]. rewrite E. exists n. split; [exact N1|]. split; [exact N2|]. intros k ch -> H2c. apply N3. eapply lb_split_takes; eauto.
Qed.
Print Assumptions C84_lb.
(** So it is not the number of simplices. *)
Theorem C84_number_refuted : ~ forall over D tiny huge p c work q hgt cgal sp depth par_edge c0 out takes, D = 2 \/ D = 3 -> input D tiny huge p c ->
  (forall i, In i (concat work) <-> is_fin_id p i) -> ctor_points D tiny huge p work = Val q ->
  breaks D (co_of D q) hgt (id_keys (N.of_nat D) q) -> cgal_right (N.of_nat D) (co_of D q) hgt (id_keys (N.of_nat D) q) cgal -> (forall k, sp = OneDim k -> k < D) -> depth <= 42 ->
  dc_run over (N.of_nat D) (co_of D q) cgal (splits D q tiny huge sp) depth par_edge [] (id_keys (N.of_nat D) q) out takes ->
  drawn c0 takes -> (c0 + total takes < 2 ^ 64)%N -> (N.of_nat (length takes) < 2 ^ 32)%N -> number out (n_simplices out).
Proof.
  intros H. destruct (C67_ex DWay ltac:(discriminate)) as (work & q & hgt & out & takes & HI & Hw & Hq & HB & Hc & _ & Hr & Ht & H1 & H2 & Hl). apply N.ltb_lt in Hl.
  assert (Hsp : forall k, DWay = OneDim k -> k < 2) by discriminate. assert (Hd : 1 <= 42) by lia.
  pose proof (H (fun x => x) 2 _ _ _ _ work q hgt _ DWay 1 true 1%N out takes (or_introl eq_refl) HI Hw Hq HB Hc Hsp Hd Hr Ht H1 H2) as Hn.
  destruct (C84_dc (fun x => x) 2 _ _ _ _ work q hgt _ DWay 1 true 1%N out takes (or_introl eq_refl) HI Hw Hq HB Hc Hsp Hd Hr Ht H1 H2) as (_ & n & N1 & _ & N3).
  rewrite (number_fun out _ _ N1 Hn) in N3. specialize (N3 ltac:(lia) Hl). exact (N.lt_irrefl _ N3).
Qed.
Print Assumptions C84_number_refuted.
(** The parabola of 600 points is split and more is reported. *)
Example C84_ex : exists work q hgt out takes n, ctor_points 2 (1 / 1000) 1000000 g_pts work = Val q /\
  dc_run (fun x => x) 2 (co_of 2 q) (g_cgal hgt (co_of 2 q)) (splits 2 q (1 / 1000) 1000000 DWay) 1 true [] (id_keys 2 q) out takes /\ number out n /\ (n < n_simplices out)%N.
Proof.
  destruct (C67_ex DWay ltac:(discriminate)) as (work & q & hgt & out & takes & HI & Hw & Hq & HB & Hc & _ & Hr & Ht & H1 & H2 & Hl). apply N.ltb_lt in Hl.
  destruct (C84_dc (fun x => x) 2 _ _ _ _ work q hgt _ DWay 1 true 1%N out takes (or_introl eq_refl) HI Hw Hq HB Hc ltac:(discriminate) ltac:(lia) Hr Ht H1 H2) as (_ & n & N1 & _ & N3).
  exists work, q, hgt, out, takes, n. split; [exact Hq|]. split; [exact Hr|]. split; [exact N1|]. exact (N3 ltac:(lia) Hl).
Qed.
(** The same for the load balanced one. *)
Example C84_lb_ex : exists work q hgt cgal (t : tree box) out takes n, ctor_points 2 (1 / 1000) 1000000 g_pts work = Val q /\ breaks 2 (co_of 2 q) hgt (id_keys 2 q) /\
  lb_run (fun x => x) 2 (co_of 2 q) cgal (splits 2 q (1 / 1000) 1000000 Cycle) 1 box (fun b => b) (box_ck 2) true true [] t out takes /\ number out n /\ (n <= n_simplices out)%N /\ n_simplices out = total takes.
Proof.
  destruct lb_case as (work & q & hgt & cgal & t & l & d1 & takes & HI & Hw & Hq & HB & Hc & He & Hok & HL & Hsm & Hh & Hr & Ht & H1 & H2).
  destruct (C84_lb (fun x => x) 2 _ _ _ _ work q hgt cgal 1 box (fun b => b) (box_ck 2) true true t l 1%N d1 takes (or_introl eq_refl) HI Hw Hq HB Hc Hok HL Hsm Hh ltac:(lia) Hr Ht H1 H2) as (E & n & N1 & N2 & _).
  exists work, q, hgt, cgal, t, d1, takes, n. repeat (split; [assumption|]). exact E.
Qed.
