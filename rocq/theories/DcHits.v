(** The test of circumspheres against boxes finds the partitions with a point in the sphere. *)
From Coq Require Import Classical.
From Verif Require Import Outcome ListUtil SimplexModel BlockModel GeoModel GeoSpec GeoProofs GeoCirc DelSpec DelGeo PlaceSpec DelPlace MergeModel TriSpec MeshSpec MeshProofs DcModel DcSpec.
Local Open Scope R_scope.

Lemma full_indep D co v0 vs : full D co (v0 :: vs) -> independent D (co v0) (map co vs).
Proof.
  intros (Hn & _ & L & HA & H1 & H0 & _) ws Ew Hz. inversion Hn as [|? ? Hv0 Hn']; subst.
  assert (Z : forall v, In v vs -> fold_right (fun wv a => fst wv * L v (snd wv) + a) 0 ws = 0).
  { intros v Hv. destruct (HA v ltac:(now right)) as (a & b & Ha).
    assert (E : fold_right (fun wv t => fst wv * (L v (snd wv) - L v (co v0)) + t) 0 ws = sumn D (fun d => a d * fold_right (fun wv t => fst wv * (snd wv d - co v0 d) + t) 0 ws)).
    { clear Ew Hz. induction ws as [|[w x] ws IH]; cbn [fold_right fst snd].
      - clear. induction D as [|n IHn]; cbn [sumn]; [reflexivity|]. rewrite <- IHn. ring.
      - rewrite IH, !Ha. rewrite (sumn_ext D (fun d => a d * (w * (x d - co v0 d) + fold_right (fun wv t => fst wv * (snd wv d - co v0 d) + t) 0 ws))
          (fun d => (w * (a d * x d) + (- w) * (a d * co v0 d)) + a d * fold_right (fun wv t => fst wv * (snd wv d - co v0 d) + t) 0 ws)) by (intros; ring).
        rewrite !sumn_add, !sumn_scale. ring. }
    rewrite (sumn_ext D _ (fun _ => 0)) in E by (intros d Hd; cbv beta; rewrite (Hz d Hd); ring).
    replace (sumn D (fun _ => 0)) with 0 in E by (clear; induction D; cbn [sumn]; lra).
    etransitivity; [|exact E]. clear E Ew Hz. induction ws as [|[w x] ws IH]; cbn [fold_right fst snd]; [reflexivity|]. rewrite IH. rewrite (H0 v v0); [ring|now right|now left|intros ->; contradiction]. }
  assert (G : forall us ws', map snd ws' = map co us -> NoDup us -> (forall v, In v us -> In v vs) -> (forall v, In v us -> fold_right (fun wv a => fst wv * L v (snd wv) + a) 0 ws' = 0) -> Forall (fun wv => fst wv = 0) ws').
  { clear Z Ew Hz. induction us as [|u us IH]; intros [|[w x] ws'] E N I Z; cbn in E; try discriminate; [constructor|]. injection E as -> E. inversion N as [|? ? Hu N']; subst.
    assert (Hw : w = 0).
    { specialize (Z u ltac:(now left)). cbn [fold_right fst snd] in Z. rewrite (H1 u ltac:(right; apply I; now left)) in Z.
      assert (Y : fold_right (fun wv a => fst wv * L u (snd wv) + a) 0 ws' = 0); [|lra].
      assert (I' : forall v, In v us -> In v vs /\ v <> u) by (intros v Hv; split; [apply I; now right|intros ->; contradiction]). pose proof (I u ltac:(now left)) as Iu. clear - E I' Iu H0. revert us E I'. induction ws' as [|[w x] ws' IH]; intros [|v us] E I'; cbn in E; try discriminate; [reflexivity|]. injection E as -> E.
      cbn [fold_right fst snd]. rewrite (IH us E) by (intros y Hy; apply I'; now right). destruct (I' v ltac:(now left)) as [A B]. rewrite (H0 u v); [ring| | |]; cbn; auto. }
    constructor; [exact Hw|]. apply (IH ws'); auto.
    - intros v Hv. apply I. now right.
    - intros v Hv. specialize (Z v ltac:(now right)). cbn [fold_right fst snd] in Z. rewrite Hw in Z. lra. }
  apply (G vs ws Ew Hn'); auto.
Qed.

Section Hits.
Variable over : N -> N.
Variable D : N.
Hypothesis HD : D = 2%N \/ D = 3%N.
Variable co : N -> vec.
Notation Dn := (N.to_nat D).

(** A simplex that is not flat has its circumsphere computed. *)
Lemma circum_of_ok s c r2 : full Dn co s -> on_ball Dn co s c r2 -> exists sp, circum_of D co s = Val sp /\ veq Dn c (sp_c sp) /\ 0 <= sp_r sp /\ sp_r sp ^ 2 = r2.
Proof.
  intros Hf Hb. pose proof Hf as (Hn & Hl & _).
  assert (Hr : 0 <= r2) by (destruct s as [|v s]; [cbn in Hl; lia|]; rewrite <- (Hb v ltac:(now left)); apply dist2_nonneg).
  set (t := mksph c (sqrt r2)).
  assert (Ht : forall v, In v (map co s) -> on_sphere Dn t v).
  { intros v Hv. apply in_map_iff in Hv. destruct Hv as (u & <- & Hu). split; cbn [t sp_r sp_c]; [apply sqrt_pos|]. rewrite (Hb u Hu). now rewrite pow2_sqrt. }
  assert (Hq : forall sp, sph_eq Dn t sp -> veq Dn c (sp_c sp) /\ 0 <= sp_r sp /\ sp_r sp ^ 2 = r2).
  { intros sp [E1 E2]. cbn [t sp_r sp_c] in E1, E2. split; [exact E1|]. rewrite <- E2. split; [apply sqrt_pos|]. now rewrite pow2_sqrt. }
  destruct HD as [-> | ->].
  - destruct s as [|a [|b [|d [|]]]]; try discriminate Hl. pose proof (full_indep _ _ _ _ Hf) as Hi. cbn [map] in *. destruct (circum2_ok _ _ _ Hi) as (sp & E & _ & U).
    exists sp. unfold circum_of. cbn [map N.eqb Pos.eqb]. split; [exact E|]. apply Hq, U, Ht.
  - destruct s as [|a [|b [|d [|e [|]]]]]; try discriminate Hl. pose proof (full_indep _ _ _ _ Hf) as Hi. cbn [map] in *. destruct (circum3_ok _ _ _ _ Hi) as (sp & E & _ & U).
    exists sp. unfold circum_of. cbn [map N.eqb Pos.eqb]. split; [exact E|]. apply Hq, U, Ht.
Qed.

Lemma box_hit_at b s c r2 p : full Dn co (x_verts s) -> on_ball Dn co (x_verts s) c r2 -> in_box Dn b p -> dist2 Dn p c <= r2 -> box_hit D co b s = true.
Proof.
  intros Hfu Hc Hb Hd. destruct (circum_of_ok (x_verts s) c r2 Hfu Hc) as (sp & E & Ev & Hr & Er). unfold box_hit. rewrite E. apply box_meets_spec.
  - intros d Hd'. specialize (Hb d Hd'). lra.
  - destruct HD as [-> | ->]; cbn; lia.
  - exists p. split; [exact Hb|]. split; [exact Hr|]. rewrite <- (dist2_veq Dn c (sp_c sp) p Ev). lra.
Qed.
Lemma box_finds hgt np pt tr bx : (forall i, (i < np)%nat -> triangulation over D co hgt (pt i) (tr i)) ->
  (forall i v, (i < np)%nat -> In v (pt i) -> p_finite D v = true -> in_box Dn (bx i) (co v)) -> finds D co np pt tr (fun i => box_hit D co (bx i)).
Proof.
  intros Ht Hb i j id x p c r2 Hi Hj _ Hx Hp Hf Hc Hd. destruct (tr_sound _ _ _ _ _ _ (Ht i Hi) id x Hx) as (_ & Hfu & _).
  exact (box_hit_at (bx j) x c r2 (co p) Hfu Hc (Hb j p Hj Hp Hf) Hd).
Qed.
Lemma box_reaches hgt r (ps : list (list N * box)) tr : (forall i, (i < length ps)%nat -> triangulation over D co hgt (pts_at ps i) (tr i)) ->
  (forall i, (i < length ps)%nat -> placed D co r (pts_at ps i) /\ breaks Dn co hgt (pts_at ps i)) ->
  beyond D co r ps -> hull_hit D (length ps) (pts_at ps) tr (fun i => box_hit D co (boxes_of ps i)).
Proof.
  intros Ht Hpl (i & j & u & p & Hi & Hj & Hij & Hu & Hfu & Hbox & Hp). pose proof (Ht i Hi) as T. destruct (Hpl i Hi) as [Pi Bi]. assert (HDb : (0 < D <= 30)%N) by (destruct HD as [-> | ->]; lia).
  destruct (tri_mesh over D HDb co hgt r (pts_at ps i) Pi Bi (tr i) T) as [_ _ Mp Mc _ _ _].
  assert (exists id x, shown (tr i) id x /\ in_hull Dn (map co (x_verts x)) p /\ exists v, In v (x_verts x) /\ p_finite D v = false) as (id & x & Hx & Hh & v & Hv & Hfv).
  { destruct Hp as [(Hbp & g & Ga & Gp & Gu)|(-> & g & Ga & (y & Gy) & Gz)].
    - destruct (Mc p Hbp) as (id & x & Hx & Hh). exists id, x. split; [exact Hx|]. split; [exact Hh|]. apply NNPP. intros Hno.
      destruct (tr_sound _ _ _ _ _ _ T id x Hx) as (Hin & (Hn & _ & L & HL) & _). pose proof (proj1 (hull_iff Dn co _ L p Hn HL) Hh) as Hpos.
      assert (0 <= g p); [|lra]. rewrite (interp Dn co (x_verts x) L HL g p Ga). apply lsum_nonneg. intros w Hw. apply Rmult_le_pos; [auto|]. apply Gu, filter_In. split; [auto|]. destruct (p_finite D w) eqn:E; [reflexivity|]. exfalso. eauto.
    - destruct (Mp u Hu) as (id & x & Hx & Hux). exists id, x. split; [exact Hx|]. destruct (tr_sound _ _ _ _ _ _ T id x Hx) as (Hin & (Hn & _ & L & HL) & _). split.
      + apply (hull_iff Dn co _ L _ Hn HL). intros w Hw. destruct HL as (_ & H1 & H2 & _). destruct (N.eq_dec w u) as [->|Hne]; [rewrite (H1 u Hux); lra|]. rewrite (H2 w u Hw Hux Hne). lra.
      + apply NNPP. intros Hno. apply Gy. apply (interp_zero Dn co (x_verts x) L HL g Ga). intros w Hw. apply Gz; [auto|]. destruct (p_finite D w) eqn:E; [reflexivity|]. exfalso. eauto. }
  exists i, j, u, id, x, v. repeat (split; [assumption|]). destruct (tr_sound _ _ _ _ _ _ T id x Hx) as (_ & Hfull & _). pose proof Hfull as (Hn & _ & L & HL). destruct (ball_ex Dn co _ Hfull) as (c & r2 & Hb).
  apply (box_hit_at _ x c r2 p Hfull Hb Hbox). pose proof (proj1 (hull_iff Dn co _ L p Hn HL) Hh) as Hpos. destruct (ball_convex Dn co (x_verts x) L c r2 p HL Hpos Hb) as [H|(w & Hw & E)]; [lra|].
  assert (E2 : dist2 Dn p c = dist2 Dn (co w) c) by (apply sumn_ext; intros d Hd; now rewrite (E d Hd)). rewrite E2, (Hb w Hw). lra.
Qed.
End Hits.
