(** The check of the programs decides whether there are ties. *)
From Coq Require Import Permutation Reals Lra Classical.
From Verif Require Import Outcome ListUtil WordsModel BlockModel BlockProofs BlockSpec SimplexModel SimplexProofs NbrModel NbrSpec PointModel PointProofs GeoModel GeoSpec GeoCirc GeoProofs DelSpec DelGeo PlaceSpec DelPlace MergeModel MergeSpec MergeProofs TriSpec
  StepBase MeshSpec MeshProofs DcHits CheckModel CheckSpec CheckProofs CheckProps TopSpec SelfModel SelfSpec.
Local Open Scope R_scope.

(** ** Ties *)
Section Ties.
Variable D : N.
Hypothesis HD : (0 < D <= 30)%N.
Variable over : N -> N.
Variables (co : N -> vec) (hgt : N -> R) (r : vec) (P : list N).
Hypothesis Hpl : placed D co r P.
Hypothesis HB : breaks (N.to_nat D) co hgt P.
Variable d : dsims.
Hypothesis T : triangulation over D co hgt P d.
Notation Dn := (N.to_nat D).
Notation dt := (dt Dn co hgt).

(** A sphere through the vertices of a Delaunay simplex, with a further point on it: a neighbor has its other vertex on it. *)
Lemma tie_next s c r2 v : dt P s -> on_ball Dn co s c r2 -> (forall w, In w P -> r2 <= dist2 Dn (co w) c) -> In v P -> ~ In v s -> dist2 Dn (co v) c = r2 ->
  exists e a, In e s /\ In a P /\ ~ In a s /\ dt P (a :: remove N.eq_dec e s) /\ dist2 Dn (co a) c = r2.
Proof.
  intros Hs Hb He Hv Hn Ed. pose proof Hs as (Hsub & (Nd & Hl & L & HL) & k & Hk & Hf).
  assert (Hneg : exists e, In e s /\ L e (co v) < 0).
  { apply NNPP. intros Hno. apply Hn. apply (in_vertex Dn co hgt P s L v (pl_distinct _ _ _ _ Hpl) (proj1 HB) Hs HL Hv). intros w Hw.
    destruct (Rle_lt_dec 0 (L w (co v))); [assumption|]. exfalso. apply Hno. eauto. }
  destruct Hneg as (e & He' & Lv). destruct (nbr_ex Dn co hgt P s L k e v Hs HL Hk Hf He' Hv Lv) as (a & k' & Ha & La & Has & Hdt & [Hk'a Hk'] & Hfr & _).
  exists e, a. split; [exact He'|]. split; [exact Ha|]. split; [exact Has|]. split; [exact Hdt|].
  destruct (Req_dec (dist2 Dn (co a) c) r2) as [E|Hne]; [exact E|exfalso]. assert (Hgt : r2 < dist2 Dn (co a) c) by (specialize (He a Ha); lra).
  destruct (full_swap Dn co hgt s L e v Nd Hl HL He' ltac:(lra) Hn) as (F1 & F2 & L' & F3 & _).
  assert (Fu : full Dn co (v :: remove N.eq_dec e s)) by (split; [exact F1|split; [exact F2|exists L'; exact F3]]).
  destruct (plane_ex Dn co hgt _ Fu) as [k2 [Hk2a Hk2]].
  assert (B2 : on_ball Dn co (v :: remove N.eq_dec e s) c r2) by (intros w [<-|Hw]; [exact Ed|]; apply remove_spec in Hw as [Hw _]; auto).
  assert (S2 : forall w, In w (v :: remove N.eq_dec e s) -> In w P) by (intros w [<-|Hw]; [exact Hv|]; apply remove_spec in Hw as [Hw _]; auto).
  destruct (proj1 HB _ k2 c r2 a S2 Fu (conj Hk2a Hk2) B2 Ha) as [Hlow _]. specialize (Hlow Hgt).
  set (g := fun x => k2 x - k' x). assert (Ga : affine Dn g) by (apply affine_sub; assumption).
  assert (G0 : forall w, In w s -> w <> e -> g (co w) = 0).
  { intros w Hw Hwe. unfold g. rewrite (Hk2 w), (Hk' w); [lra|right|right]; apply remove_spec; auto. }
  pose proof (interp_one Dn co s L HL g (co v) e Ga He' Nd G0) as Ev. pose proof (interp_one Dn co s L HL g (co a) e Ga He' Nd G0) as Ea.
  assert (Gv : 0 <= g (co v)) by (unfold g; rewrite (Hk2 v) by (now left); specialize (Hfr v Hv); lra).
  assert (Gan : g (co a) < 0) by (unfold g; rewrite (Hk' a) by (now left); lra). nra.
Qed.
(** There is a Delaunay simplex in the sphere. *)
Lemma tie_some s c r2 : (forall w, In w s -> In w P) -> full Dn co s -> on_ball Dn co s c r2 -> (forall w, In w P -> r2 <= dist2 Dn (co w) c) ->
  exists s', dt P s' /\ on_ball Dn co s' c r2.
Proof.
  intros Hs Fu Hb He. set (Q := filter (fun w => if Req_EM_T (dist2 Dn (co w) c) r2 then true else false) P).
  assert (HQ : forall w, In w Q <-> In w P /\ dist2 Dn (co w) c = r2).
  { intros w. unfold Q. rewrite filter_In. destruct (Req_EM_T (dist2 Dn (co w) c) r2); intuition congruence. }
  destruct (dt_ex Dn co hgt ltac:(lia) Q s) as [s' (S1 & S2 & k & S3 & S4)].
  - apply (generic_sub Dn co hgt P); [apply HB|]. intros w Hw. now apply HQ.
  - exact Fu.
  - intros w Hw. apply HQ. split; auto.
  - assert (B : on_ball Dn co s' c r2) by (intros w Hw; now apply HQ, S1).
    exists s'. split; [|exact B]. assert (S1' : forall w, In w s' -> In w P) by (intros w Hw; now apply HQ, S1). split; [exact S1'|]. split; [exact S2|]. exists k. split; [exact S3|].
    intros w Hw. destruct (Req_dec (dist2 Dn (co w) c) r2) as [E|Hne]; [apply S4, HQ; auto|]. pose proof (He w Hw) as Hle. destruct (proj1 HB s' k c r2 w S1' S2 S3 B Hw) as [H _]. apply Rlt_le, H. lra.
Qed.
Lemma tied_ties : tied D co P -> ~ no_ties D co d.
Proof.
  intros (s & c & r2 & v & Hs & Fu & Hb & He & Hinf & Hv & Hn & Ed) Hno. destruct (tie_some s c r2 Hs Fu Hb He) as (s' & Hdt & Hb').
  assert (Hv' : exists v', In v' P /\ ~ In v' s' /\ dist2 Dn (co v') c = r2).
  { apply NNPP. intros Hx. assert (Hi : incl (v :: s) s').
    { intros w Hw. destruct (in_dec N.eq_dec w s') as [|Hw']; [assumption|]. exfalso. apply Hx. exists w. split; [destruct Hw as [<-|Hw]; auto|]. split; [exact Hw'|]. destruct Hw as [<-|Hw]; auto. }
    destruct Fu as (Nd & Hl & _). pose proof Hdt as (_ & (_ & Hl' & _) & _). pose proof (NoDup_incl_length (NoDup_cons v Hn Nd) Hi) as Hle. cbn [length] in Hle. lia. }
  destruct Hv' as (v' & Hv' & Hn' & Ed'). destruct (tie_next s' c r2 v' Hdt Hb' He Hv' Hn' Ed') as (e & a & He' & Ha & Has & Hdt2 & Ea).
  destruct (tr_complete _ _ _ _ _ _ T _ Hdt) as (i & x & Hx & Sx). destruct (tr_complete _ _ _ _ _ _ T _ Hdt2) as (j & y & Hy & Sy).
  assert (Fa : p_finite D a = true).
  { destruct (p_finite D a) eqn:E; [reflexivity|]. specialize (Hinf a Ha E). lra. }
  assert (Hac : across x y a).
  { split; [apply Sy; now left|]. split; [intros H; apply Has, Sx, H|]. intros w Hw Hwa. apply Sy in Hw as [Hw|Hw]; [congruence|]. apply remove_spec in Hw as [Hw _]. now apply Sx. }
  assert (Hbx : on_ball Dn co (x_verts x) c r2) by (intros w Hw; apply Hb', Sx, Hw).
  pose proof (Hno i j x y a c r2 Hx Hy Hac Fa Hbx). lra.
Qed.
Lemma spread_no_ties : spread D co P -> no_ties D co d.
Proof.
  intros Hsp i j s t v c r2 Hs Ht (A1 & A2 & A3) Hf Hb. pose proof (tr_sound _ _ _ _ _ _ T i s Hs) as Hdt. destruct (dt_delaunay Dn co hgt P (x_verts s) (proj1 HB) Hdt) as (S1 & S2 & c' & r2' & S3 & S4).
  assert (Hv : In v P) by (destruct (tr_sound _ _ _ _ _ _ T j t Ht) as [H _]; auto).
  pose proof (S4 v Hv) as Hle. pose proof (Hsp (x_verts s) c' r2' v S1 S2 S3 S4 Hv Hf A2) as Hne.
  assert (Hu : forall w, dist2 Dn (co w) c - r2 = dist2 Dn (co w) c' - r2').
  { intros w. pose proof S2 as (_ & _ & L & HL). pose proof (interp_zero Dn co (x_verts s) L HL (fun x => (dist2 Dn x c - r2) - (dist2 Dn x c' - r2'))) as H. cbn beta in H.
    assert (G : dist2 Dn (co w) c - r2 - (dist2 Dn (co w) c' - r2') = 0); [|lra]. apply H.
    - exact (pow_diff Dn c r2 c' r2').
    - intros u Hu. rewrite (Hb u Hu), (S3 u Hu). lra. }
  specialize (Hu v). lra.
Qed.
End Ties.

(** ** inSphere *)
Lemma insph_ok D co orient insphere s v c r2 : D = 2%nat \/ D = 3%nat -> preds_exact D orient insphere -> full D co s -> on_ball D co s c r2 ->
  insph orient insphere (map co s) (co v) = false <-> r2 < dist2 D (co v) c.
Proof.
  intros HD [P2 P3] Hf Hb. pose proof Hf as (_ & Hl & _).
  assert (Hr : 0 <= r2) by (destruct s as [|w s]; [discriminate Hl|]; rewrite <- (Hb w ltac:(now left)); apply dist2_nonneg).
  set (t := mksph c (sqrt r2)).
  assert (Ht : forall x, In x (map co s) -> on_sphere D t x).
  { intros x Hx. apply in_map_iff in Hx as (u & <- & Hu). split; cbn [t sp_r sp_c]; [apply sqrt_pos|]. rewrite (Hb u Hu). now rewrite pow2_sqrt. }
  assert (Hi : in_ball D t (co v) <-> dist2 D (co v) c <= r2).
  { unfold in_ball, t. cbn [sp_r sp_c]. rewrite pow2_sqrt by exact Hr. pose proof (sqrt_pos r2). tauto. }
  assert (X : insph orient insphere (map co s) (co v) = true <-> in_ball D t (co v)).
  { unfold insph. destruct HD as [-> | ->].
    - destruct s as [|a [|b [|e [|]]]]; try discriminate Hl. pose proof (full_indep _ _ _ _ Hf) as Hin. cbn [map] in *. destruct (P2 eq_refl (co a) (co b) (co e) (co v)) as [E1 E2]. exact (in_sphere2_ok _ _ _ _ _ _ t Hin Ht E1 E2).
    - destruct s as [|a [|b [|e [|f [|]]]]]; try discriminate Hl. pose proof (full_indep _ _ _ _ Hf) as Hin. cbn [map] in *. destruct (P3 eq_refl (co a) (co b) (co e) (co f) (co v)) as [E1 E2]. exact (in_sphere3_ok _ _ _ _ _ _ _ t Hin Ht E1 E2). }
  rewrite Hi in X. split; intros H.
  - apply Rnot_le_lt. intros Hle. apply X in Hle. congruence.
  - destruct (insph orient insphere (map co s) (co v)); [|reflexivity]. pose proof (proj1 X eq_refl). lra.
Qed.

(** ** A triangulation as verify and crossCheck see it *)
Lemma sorted_same : forall a b : list N, sorted a -> sorted b -> same a b -> a = b.
Proof.
  intros a b Ha. revert b. induction Ha as [|x a Ha IH Hx]; intros b Hb E.
  - destruct b as [|y b]; [reflexivity|]. destruct (proj2 (E y)). now left.
  - destruct Hb as [|y b Hb Hy]; [destruct (proj1 (E x)); now left|]. rewrite Forall_forall in Hx, Hy.
    assert (x = y).
    { destruct (proj1 (E x) ltac:(now left)) as [|H1]; [congruence|]. destruct (proj2 (E y) ltac:(now left)) as [|H2]; [congruence|]. specialize (Hx y H2). specialize (Hy x H1). lia. }
    subst y. f_equal. apply IH; [exact Hb|]. intros v. split; intros Hv.
    + destruct (proj1 (E v) ltac:(now right)) as [<-|]; [|assumption]. specialize (Hx _ Hv). lia.
    + destruct (proj2 (E v) ltac:(now right)) as [<-|]; [|assumption]. specialize (Hy _ Hv). lia.
Qed.

Section See.
Variable D : N.
Hypothesis HD : (0 < D <= 30)%N.
Variable over : N -> N.
Variables (co : N -> vec) (hgt : N -> R) (r : vec) (P : list N).
Hypothesis Hpl : placed D co r P.
Hypothesis HB : breaks (N.to_nat D) co hgt P.
Notation Dn := (N.to_nat D).
Notation k := (Datatypes.S Dn).

Section One.
Variable d : dsims.
Hypothesis T : triangulation over D co hgt P d.
Notation get := (d_get (d_arr d)).
Let G : general Dn co hgt P. Proof. apply (generic_general Dn co hgt P P); [apply HB|auto]. Qed.

Lemma see_live c s : live get c s <-> shown d c s.
Proof.
  unfold live, shown. rewrite (d_get_holds _ _ _ (tr_wf _ _ _ _ _ _ T)). split.
  - intros (H1 & H2 & H3). split; [exact H1|congruence].
  - intros H. destruct (shown_id over D co hgt P d T c s H) as (H1 & H2 & _). destruct H. auto.
Qed.
Lemma see_tri : tri over k get.
Proof.
  split; [|split].
  - intros c s H. apply (d_get_holds _ _ _ (tr_wf _ _ _ _ _ _ T)) in H. destruct (tr_proper _ _ _ _ _ _ T c s H) as (_ & _ & [E|[E _]]); auto.
  - intros c s H. apply see_live in H. destruct (shown_id over D co hgt P d T c s H) as (_ & _ & (W1 & W2 & _) & _). split; [exact W2|]. split; [|exact W1]. exact (shown_len over D co hgt P d T c s H).
  - intros c s n H Hn Hf. apply see_live in H. apply In_nth_error in Hn as [j Hj]. destruct (tr_nbrs _ _ _ _ _ _ T c s j n H Hj) as [[E _]|[t [Ht _]]]; [contradiction|].
    exists t. split; [apply see_live in Ht; apply Ht|]. destruct (shown_id over D co hgt P d T n t Ht) as (_ & _ & (W1 & _) & _). exact W1.
Qed.
Lemma see_dups : no_dups get.
Proof. intros c s c' s' H H' E. apply see_live in H. apply see_live in H'. apply (tr_once _ _ _ _ _ _ T c c' s s' H H'). intros v. now rewrite E. Qed.
Lemma see_right : entries_right get.
Proof.
  intros c s n H. apply see_live in H. split.
  - intros [Hn Hf]. apply In_nth_error in Hn as [j Hj]. destruct (tr_nbrs _ _ _ _ _ _ T c s j n H Hj) as [[E _]|[t [Ht Ho]]]; [contradiction|]. exists t. split; [now apply see_live|]. now exists j.
  - intros (t & Ht & j & Ho). apply see_live in Ht. split.
    + eapply nth_error_In. exact (slot_is over D co hgt P d T G c s j n t H Ht Ho).
    + exact (proj1 (proj2 (shown_id over D co hgt P d T n t Ht))).
Qed.
Lemma see_infinite s : s_isfinite D s = false <-> exists v, In v (x_verts s) /\ p_finite D v = false.
Proof.
  unfold s_isfinite. split.
  - intros H. apply forallb_exists_false in H as (v & Hv & E). exists v. split; [now apply in_rev|exact E].
  - intros (v & Hv & E). destruct (forallb (p_finite D) (rev (x_verts s))) eqn:Ef; [|reflexivity]. rewrite forallb_forall in Ef. rewrite (Ef v) in E; [discriminate|]. now apply in_rev in Hv.
Qed.
Lemma see_hull : hull_right D get (d_hull d) /\ forall c, In c (d_hull d) -> exists s, get c = Some s.
Proof.
  split; [split|].
  - intros c s H E. apply see_live in H. apply see_infinite in E as (v & Hv & E). apply (tr_hull _ _ _ _ _ _ T). eauto.
  - intros c s H E. apply (tr_hull _ _ _ _ _ _ T) in H as (s' & v & Hs & Hv & Ev). apply see_live in Hs as [E' _]. assert (s' = s) by congruence. subst s'. apply see_infinite. eauto.
  - intros c H. apply (tr_hull _ _ _ _ _ _ T) in H as (s & v & Hs & _). apply see_live in Hs as [E _]. eauto.
Qed.
(** Neighbors and what is behind the face. *)
Lemma see_across i j s t v : shown d i s -> shown d j t -> across s t v -> joined s t.
Proof.
  intros Hs Ht (A1 & A2 & A3). pose proof (shown_len over D co hgt P d T i s Hs) as L1. pose proof (shown_len over D co hgt P d T j t Ht) as L2.
  destruct (tr_sound _ _ _ _ _ _ T i s Hs) as (_ & (N1 & _) & _). destruct (tr_sound _ _ _ _ _ _ T j t Ht) as (_ & (N2 & _) & _).
  set (f := remove N.eq_dec v (x_verts t)). assert (Hf : forall w, In w f <-> In w (x_verts t) /\ w <> v) by (intros w; apply remove_spec).
  assert (Lf : length f = Dn) by (pose proof (Permutation_length (remove_perm v (x_verts t) N2 A1)) as E; cbn [length] in E; fold f in E; lia).
  assert (Nf : NoDup f) by now apply remove_NoDup.
  assert (Hu : exists u, In u (x_verts s) /\ ~ In u f).
  { apply NNPP. intros Hx. assert (Hi : incl (x_verts s) f) by (intros w Hw; destruct (in_dec N.eq_dec w f); [assumption|exfalso; eauto]). pose proof (NoDup_incl_length N1 Hi). lia. }
  destruct Hu as (u & Hu & Huf). apply In_nth_error in Hu as [e He]. exists e, u. split; [exact He|]. intros w Hw. split.
  - intros Hwt -> . apply Huf, Hf. split; [exact Hwt|]. intros ->. apply A2. eapply nth_error_In; eauto.
  - intros Hne. destruct (in_dec N.eq_dec w f) as [Hin|Hni]; [now apply Hf|exfalso].
    assert (Hi : incl (w :: u :: f) (x_verts s)) by (intros z [<-|[<-|Hz]]; [exact Hw|eapply nth_error_In; eauto|apply Hf in Hz as [Hz1 Hz2]; auto]).
    assert (Nw : NoDup (w :: u :: f)) by (constructor; [intros [E|E]; [congruence|contradiction]|constructor; assumption]).
    pose proof (NoDup_incl_length Nw Hi) as Hle. cbn [length] in Hle. lia.
Qed.
Lemma joined_across i j s t v : shown d i s -> shown d j t -> joined s t -> In v (x_verts t) -> ~ In v (x_verts s) -> across s t v.
Proof.
  intros Hs Ht (e & u & He & Ho) Hv Hn. split; [exact Hv|]. split; [exact Hn|]. intros w Hw Hne. destruct (in_dec N.eq_dec w (x_verts s)) as [|Hws]; [assumption|exfalso].
  pose proof (shown_len over D co hgt P d T i s Hs) as L1. pose proof (shown_len over D co hgt P d T j t Ht) as L2. destruct (tr_sound _ _ _ _ _ _ T i s Hs) as (_ & (N1 & _) & _).
  pose proof (nth_error_In _ _ He) as Hu. pose proof (Permutation_length (remove_perm u (x_verts s) N1 Hu)) as E. cbn [length] in E.
  assert (Hi : incl (w :: v :: remove N.eq_dec u (x_verts s)) (x_verts t)) by (intros z [<-|[<-|Hz]]; [exact Hw|exact Hv|apply remove_spec in Hz as [Hz1 Hz2]; now apply Ho]).
  assert (Nw : NoDup (w :: v :: remove N.eq_dec u (x_verts s))).
  { constructor; [intros [E'|E']; [congruence|apply remove_spec in E' as [E' _]; contradiction]|]. constructor; [intros E'; apply remove_spec in E' as [E' _]; contradiction|now apply remove_NoDup]. }
  pose proof (NoDup_incl_length Nw Hi) as Hle. cbn [length] in Hle. lia.
Qed.
End One.

Lemma see_cross d d' tab ms rs chunks : triangulation over D co hgt P d -> triangulation over D co hgt P d' -> cross_sees d d' tab ms rs chunks ->
  exists cr, cross_of d d' tab ms rs chunks = Val cr /\ c_valid cr = true.
Proof.
  intros T T' (E1 & E2 & E3 & E4).
  destruct (C44_cross_same over k k _ _ ms rs tab chunks E1 E2 (see_tri d T) (see_tri d' T') (see_dups d T) (see_dups d' T') (see_right d T) (see_right d' T') E3 E4) as (cr & Ec & Hc).
  exists cr. split; [exact Ec|]. apply Hc.
  assert (X : forall a b, triangulation over D co hgt P a -> triangulation over D co hgt P b -> forall c s, live (d_get (d_arr a)) c s -> occurs (d_get (d_arr b)) s).
  { intros a b Ta Tb c s H. apply (see_live a Ta) in H. destruct (tr_complete _ _ _ _ _ _ Tb _ (tr_sound _ _ _ _ _ _ Ta c s H)) as (i & x & Hx & Sx). exists i, x. split; [now apply (see_live b Tb)|].
    apply sorted_same; [apply (shown_sorted over D co hgt P b Tb i x Hx)|apply (shown_sorted over D co hgt P a Ta c s H)|]. intros v. symmetry. apply Sx. }
  split; [exact (X d d' T T')|exact (X d' d T' T)].
Qed.

Section Verify.
Variables (orient : list vec -> R) (insphere : list vec -> vec -> R).
Hypothesis HD2 : Dn = 2%nat \/ Dn = 3%nat.
Hypothesis Hpred : preds_exact Dn orient insphere.
Variable q : points vec.
Hypothesis Hq : pts_ok D q.
Hypothesis Hoff : p_off q = 0%N.
Hypothesis Hsize : (finite_size q + 2 ^ D < 2 ^ 64)%N.
Hypothesis HP : forall v, In v P <-> is_id D q v.
Hypothesis Hget : forall v, In v P -> p_get D q v = Val (co v).
Variable d : dsims.
Hypothesis T : triangulation over D co hgt P d.
Notation get := (d_get (d_arr d)).

Lemma shown_in i s v : shown d i s -> In v (x_verts s) -> In v P.
Proof. intros H. destruct (tr_sound _ _ _ _ _ _ T i s H) as [S _]. auto. Qed.
Lemma see_outside i s v c r2 : shown d i s -> In v P -> on_ball Dn co (x_verts s) c r2 -> outside D (insph orient insphere) q s v <-> r2 < dist2 Dn (co v) c.
Proof.
  intros Hs Hv Hb. destruct (tr_sound _ _ _ _ _ _ T i s Hs) as (S1 & S2 & _). rewrite <- (insph_ok Dn co orient insphere (x_verts s) v c r2 HD2 Hpred S2 Hb).
  assert (F : Forall2 (fun w a => p_get D q w = Val a) (x_verts s) (map co (x_verts s))).
  { assert (X : forall l, (forall w, In w l -> In w P) -> Forall2 (fun w a => p_get D q w = Val a) l (map co l)) by (induction l as [|w l IH]; intros H; constructor; [apply Hget, H; now left|apply IH; intros; apply H; now right]). now apply X. }
  split.
  - intros (cs & a & F' & Ea & Ei). rewrite (corners_fun D q _ _ _ F' F) in Ei. rewrite (Hget v Hv) in Ea. injection Ea as <-. exact Ei.
  - intros Ei. exists (map co (x_verts s)), (co v). split; [exact F|]. split; [now apply Hget|exact Ei].
Qed.
Lemma see_circles : circles_empty D (insph orient insphere) q get <-> no_ties D co d.
Proof.
  split.
  - intros H i j s t v c r2 Hs Ht Ha Hf Hb. pose proof Ha as (A1 & A2 & A3). pose proof (see_across d T i j s t v Hs Ht Ha) as Hj.
    assert (Hn : In j (x_nbrs s) /\ j <> s_inf) by (apply (see_right d T i s j); [now apply (see_live d T)|]; exists t; split; [now apply (see_live d T)|exact Hj]).
    apply (see_outside i s v c r2 Hs (shown_in j t v Ht A1) Hb). apply (H i s j t v); try tauto; [now apply (see_live d T)|]. apply (see_live d T) in Ht. apply Ht.
  - intros H i s n t v Hs Hn Hf Et Hv Fv Hni. destruct (proj1 (see_right d T i s n Hs) (conj Hn Hf)) as (t' & Ht & Hj). assert (t' = t) by (destruct Ht; congruence). subst t'.
    apply (see_live d T) in Hs. apply (see_live d T) in Ht. destruct (tr_sound _ _ _ _ _ _ T i s Hs) as (_ & S2 & _). destruct (ball_ex Dn co (x_verts s) S2) as (c & r2 & Hb).
    apply (see_outside i s v c r2 Hs (shown_in n t v Ht Hv) Hb). exact (H i n s t v c r2 Hs Ht (joined_across d T i n s t v Hs Ht Hj Hv Hni) Fv Hb).
Qed.

Lemma see_verify ls used tab ftab : verify_sees over d ls used tab ftab ->
  exists vr, verify_of over D orient insphere d q ls used tab ftab = Val vr /\ (v_valid vr = true <-> no_ties D co d) /\ v_dups vr = [] /\ v_wrong vr = [] /\
    forall s v, In (s, v) (v_circle vr) <-> exists i j t c r2, shown d i s /\ shown d j t /\ across s t v /\ p_finite D v = true /\ on_ball Dn co (x_verts s) c r2 /\ dist2 Dn (co v) c <= r2.
Proof.
  intros (E1 & E2 & E3 & fe & E4 & E5). destruct see_hull with (d := d) as [H1 H2]; [exact T|].
  assert (Hk : verts_known D q get).
  { split.
    - intros c s v Hs Hv. apply HP. apply (see_live d T) in Hs. exact (shown_in c s v Hs Hv).
    - intros c s n t v Hs Hn Hf Et Hv. destruct (proj1 (see_right d T c s n Hs) (conj Hn Hf)) as (t' & Ht & _). assert (t' = t) by (destruct Ht; congruence). subst t'. apply HP. apply (see_live d T) in Ht. exact (shown_in n t v Ht Hv). }
  destruct (C44_verify over D (insph orient insphere) get k ls q used (d_hull d) None tab ftab fe (proj2 HD) ltac:(discriminate) (see_tri d T) E1 Hq Hk Hsize E2 H2 Hoff E3 E4 E5) as (vr & Ev & V1 & V2 & V3 & V4).
  assert (Hlive : forall s, In s ls <-> shown d (x_id s) s) by (intros s; rewrite (proj2 E1 s); apply (see_live d T)).
  exists vr. split; [exact Ev|]. split; [|split; [|split]].
  - rewrite V1, see_circles. split; [tauto|]. intros H. split.
    { left. intros v. rewrite <- HP. rewrite (proj2 E2 v). split.
      - intros (c & s & Hs & Hv). apply (see_live d T) in Hs. exact (shown_in c s v Hs Hv).
      - intros Hv. destruct (me_points _ _ _ _ _ (tri_mesh over D HD co hgt r P Hpl HB d T) v Hv) as (i & s & Hs & Hin). exists i, s. split; [now apply (see_live d T)|exact Hin]. }
    split; [exact H1|]. split; [exact (see_dups d T)|]. pose proof (see_right d T) as R.
    assert (Hsym : forall c s c' t, live get c s -> live get c' t -> joined s t -> joined t s).
    { intros c s c' t L L' J. apply (see_live d T) in L. apply (see_live d T) in L'. destruct (shown_sorted over D co hgt P d T c s L) as [A1 A2]. destruct (shown_sorted over D co hgt P d T c' t L') as [B1 B2].
      apply joined_sym; auto. now rewrite (shown_len over D co hgt P d T c s L), (shown_len over D co hgt P d T c' t L'). }
    split; [|split; [|exact H]].
    + intros c s c' t L L' J. split; [apply (R c s c' L); eauto|]. apply (R c' t c L'). exists s. split; [exact L|]. eapply Hsym; eauto.
    + intros c s c' t L L' _ J. split; intros Hin.
      * destruct (proj1 (R c s c' L)) as [t' [Lt Jt]]; [split; [exact Hin|apply L']|]. rewrite (live_uniq _ _ _ _ Lt L') in Jt. contradiction.
      * destruct (proj1 (R c' t c L')) as [s' [Ls Js]]; [split; [exact Hin|apply L]|]. rewrite (live_uniq _ _ _ _ Ls L) in Js. apply J. eapply Hsym; eauto.
  - destruct (v_dups vr) as [|[a b] l]; [reflexivity|exfalso]. destruct (proj1 (V2 a b) ltac:(now left)) as (Ia & Ib & E & Hne). apply Hne. apply Hlive in Ia. apply Hlive in Ib.
    apply (tr_once _ _ _ _ _ _ T _ _ a b Ia Ib). intros v. now rewrite E.
  - destruct (v_wrong vr) as [|[a b] l]; [reflexivity|exfalso]. destruct (proj1 (V3 a b) ltac:(now left)) as (Ia & Ib & _ & Hbad). apply (proj2 E1) in Ia. apply (proj2 E1) in Ib. pose proof (see_right d T) as R.
    assert (Hsym : forall s t, live get (x_id s) s -> live get (x_id t) t -> joined s t -> joined t s).
    { intros s t L L' J. apply (see_live d T) in L. apply (see_live d T) in L'. destruct (shown_sorted over D co hgt P d T _ s L) as [A1 A2]. destruct (shown_sorted over D co hgt P d T _ t L') as [B1 B2].
      apply joined_sym; auto. now rewrite (shown_len over D co hgt P d T _ s L), (shown_len over D co hgt P d T _ t L'). }
    destruct Hbad as [(J & [Hn|Hn])|(J & [Hn|Hn])].
    + apply Hn. apply (R (x_id a) a (x_id b) Ia). eauto.
    + apply Hn. apply (R (x_id b) b (x_id a) Ib). exists a. split; [exact Ia|]. now apply Hsym.
    + destruct (proj1 (R (x_id a) a (x_id b) Ia)) as [t' [Lt Jt]]; [split; [exact Hn|apply Ib]|]. rewrite (live_uniq _ _ _ _ Lt Ib) in Jt. contradiction.
    + destruct (proj1 (R (x_id b) b (x_id a) Ib)) as [t' [Lt Jt]]; [split; [exact Hn|apply Ia]|]. rewrite (live_uniq _ _ _ _ Lt Ia) in Jt. apply J. now apply Hsym.
  - intros s v. rewrite V4. split.
    + intros (Is & n & t & Hn & Hf & Et & Hv & Fv & Hni & cs & p & F & Ep & Ei). pose proof (proj1 (proj2 E1 s) Is) as Ls. destruct (proj1 (see_right d T _ s n Ls) (conj Hn Hf)) as (t' & Ht & Hj). assert (t' = t) by (destruct Ht; congruence). subst t'.
      apply (see_live d T) in Ls. apply (see_live d T) in Ht. destruct (tr_sound _ _ _ _ _ _ T _ s Ls) as (_ & S2 & _). destruct (ball_ex Dn co (x_verts s) S2) as (c & r2 & Hb).
      exists (x_id s), n, t, c, r2. split; [exact Ls|]. split; [exact Ht|]. split; [exact (joined_across d T _ n s t v Ls Ht Hj Hv Hni)|]. split; [exact Fv|]. split; [exact Hb|].
      apply Rnot_lt_le. intros Hlt. apply (see_outside _ s v c r2 Ls (shown_in n t v Ht Hv) Hb) in Hlt. destruct Hlt as (cs' & p' & F' & Ep' & Ei'). rewrite (corners_fun D q _ _ _ F F') in Ei. rewrite Ep in Ep'. injection Ep' as ->. congruence.
    + intros (i & j & t & c & r2 & Hs & Ht & Ha & Fv & Hb & Hle). pose proof (proj1 (shown_id over D co hgt P d T i s Hs)) as Ei. subst i. pose proof Ha as (A1 & A2 & _).
      pose proof (see_across d T _ j s t v Hs Ht Ha) as Hj. split; [now apply Hlive|]. pose proof (proj2 (see_live d T _ _) Hs) as Ls. pose proof (proj2 (see_live d T _ _) Ht) as Lt.
      destruct (proj2 (see_right d T _ s j Ls)) as [Hn Hf]; [eauto|]. exists j, t. split; [exact Hn|]. split; [exact Hf|]. split; [apply Lt|]. split; [exact A1|]. split; [exact Fv|]. split; [exact A2|].
      pose proof (shown_in j t v Ht A1) as Hv. pose proof (tr_sound _ _ _ _ _ _ T _ s Hs) as (S1 & S2 & _).
      assert (F : Forall2 (fun w a => p_get D q w = Val a) (x_verts s) (map co (x_verts s))).
      { assert (X : forall l, (forall w, In w l -> In w P) -> Forall2 (fun w a => p_get D q w = Val a) l (map co l)) by (induction l as [|w l IH]; intros H; constructor; [apply Hget, H; now left|apply IH; intros; apply H; now right]). now apply X. }
      exists (map co (x_verts s)), (co v). split; [exact F|]. split; [now apply Hget|]. destruct (insph orient insphere (map co (x_verts s)) (co v)) eqn:E; [reflexivity|].
      apply (insph_ok Dn co orient insphere (x_verts s) v c r2 HD2 Hpred S2 Hb) in E. lra.
Qed.
End Verify.
End See.
