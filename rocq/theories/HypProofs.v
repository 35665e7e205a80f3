(** The trees of HyperplaneBipartitioner keep the contract of LbSpec. *)
From Coq Require Import Classical Lra Lia.
From Verif Require Import Outcome ListUtil WordsModel LPSetModel SimplexModel PointModel GeoModel GeoSpec GeoProofs GeoBox AssignProofs DelSpec PlaceSpec DelPlace PartModel PartProofs TreeModel TreeSpec SplitModel LbModel LbSpec KWayModel KWayProofs KTree SampleModel MakerModel
  BisectModel BisectSpec BisectProofs HypSpec BinTree.
Local Open Scope nat_scope.

Lemma at_child {C} (t : ptree C) b ck l r q u : t = PNode ck l r -> at_path (if b : bool then r else l) q u -> at_path t (b :: q) u.
Proof. intros -> H. destruct b; now constructor. Qed.
Lemma ck_root {C} (t0 : ptree C) t : tree_of t0 t -> t_ck t = ck_of t0.
Proof. now destruct 1. Qed.

Section Hyp.
Variable D : nat.
Hypothesis HD : 0 < D <= 8.
Variable pts : points vec.
Variable co : N -> vec.
Variable r : vec.
Variable P : list N.
Variable smp : list bool -> list N -> samp.
Variable svd : list vec -> vec * R.
Notation DN := (N.of_nat D).
Notation fin v := (p_finite DN v = true).
Hypothesis Hsm : forall path ids, samp_ok (smp path ids).
Hypothesis Hpp : placed DN co r P.
Hypothesis Hget : forall v, In v P -> p_get DN pts v = Val (co v).
Notation meets := (fun k sp (s : simplex) => h_meets D k sp).
Notation make := (h_make D pts smp svd).

Let d30 : (DN <= 30)%N. Proof. lia. Qed.
Lemma inf_P v : In v (inf_ids D) -> In v P.
Proof. intros Hv. apply (pl_inf _ _ _ _ Hpp). now apply (inf_in D ltac:(lia)). Qed.
(** One call. *)
Lemma h_make_inv f path ids ck p t : NoDup ids -> (2 <= length ids) -> incl ids P -> make f path ids ck p = Val t ->
  t = PLeaf (Some ck) ids \/ exists f' o l il ir lt rt, let pl := h_plane D o l in t = PNode (Some ck) lt rt /\ f = Datatypes.S f' /\
    make f' (false :: path) il (HPlane (h_left pl)) (p / 2)%N = Val lt /\ make f' (true :: path) ir (HPlane (h_right pl)) (p / 2)%N = Val rt /\ NoDup il /\ NoDup ir /\
    (forall x, In x il <-> In x (inf_ids D) \/ (In x ids /\ h_above D pl (co x) = true)) /\ (forall x, In x ir <-> In x (inf_ids D) \/ (In x ids /\ h_above D pl (co x) = false)).
Proof.
  intros Hn L2 Hs E. destruct f as [|f]; [discriminate|]. cbn [h_make] in E. destruct (1 <? p)%N; [|left; congruence]. right. destruct (h_find_ok D smp svd Hsm path ids) as (ps & Ef & _). rewrite Ef in E. cbn [rbind] in E.
  destruct (svd ps) as [o l]. cbn [fst snd] in E. destruct (h_halves D pts co (h_plane D o l) ids L2) as (ss & il & ir & E1 & E2 & Nl & Nr & Ql & Qr); [intros i Hi; apply Hget, Hs, Hi|]. rewrite E1 in E. cbn [rbind] in E. rewrite E2 in E. cbn [rbind] in E.
  destruct (make f (false :: path) il _ _) as [lt| |] eqn:El; try discriminate. cbn [rbind] in E. destruct (make f (true :: path) ir _ _) as [rt| |] eqn:Er; try discriminate. cbn [rmap rbind] in E. injection E as <-.
  exists f, o, l, il, ir, lt, rt. cbv zeta. auto 12.
Qed.
Lemma h_make_in : forall f path ids ck p t, NoDup ids -> (2 <= length ids) -> incl ids P -> make f path ids ck p = Val t -> forall q l i, leaf_ids t q l -> In i l -> In i ids \/ In i (inf_ids D).
Proof.
  induction f as [|f IH]; intros path ids ck p t Hn L2 Hs E; [discriminate|]. destruct (h_make_inv _ _ _ _ _ _ Hn L2 Hs E) as [-> |(f' & o & l & il & ir & lt & rt & -> & X & E1 & E2 & Nl & Nr & Ql & Qr)]; intros q x i Hq Hi.
  - apply leaf_leaf in Hq as [_ ->]. now left.
  - injection X as <-. apply leaf_node in Hq as (b & q' & -> & Hq).
    assert (Il : incl (inf_ids D) il) by (intros y Hy; apply Ql; now left). assert (Ir : incl (inf_ids D) ir) by (intros y Hy; apply Qr; now left).
    assert (Sl : incl il P) by (intros y Hy; apply Ql in Hy as [Hy|[Hy _]]; [now apply inf_P|auto]). assert (Sr : incl ir P) by (intros y Hy; apply Qr in Hy as [Hy|[Hy _]]; [now apply inf_P|auto]).
    destruct b.
    + destruct (IH _ _ _ _ _ Nr (inf_two D ir d30 ltac:(lia) Ir) Sr E2 q' x i Hq Hi) as [H|H]; [apply Qr in H; tauto|now right].
    + destruct (IH _ _ _ _ _ Nl (inf_two D il d30 ltac:(lia) Il) Sl E1 q' x i Hq Hi) as [H|H]; [apply Ql in H; tauto|now right].
Qed.
Lemma h_make_ck f path ids ck p t : NoDup ids -> (2 <= length ids) -> incl ids P -> make f path ids ck p = Val t -> ck_of t = Some ck.
Proof. intros Hn L2 Hs E. destruct (h_make_inv _ _ _ _ _ _ Hn L2 Hs E) as [-> |(f' & o & l & il & ir & lt & rt & -> & _)]; reflexivity. Qed.

Lemma affine_dist n o : affine D (fun x => h_dist D n o x).
Proof. exists n, (- o)%R. intros x. unfold h_dist. rewrite scalar_dot. unfold dot. lra. Qed.
(** The checkers cover what is on their side, corners too. *)
Lemma left_covers n o p : dot D n n = 1%R -> h_above D (Some (n, o)) p = true -> LbSpec.covers DN co hck meets (HPlane (h_left (Some (n, o)))) p.
Proof. intros Hn Ha s sp _ _ H0 Hd. rewrite Nat2N.id in Hd. apply above_left with p; auto. split; auto. Qed.
Lemma right_covers n o p : dot D n n = 1%R -> h_above D (Some (n, o)) p = false -> LbSpec.covers DN co hck meets (HPlane (h_right (Some (n, o)))) p.
Proof. intros Hn Ha s sp _ _ H0 Hd. rewrite Nat2N.id in Hd. apply below_right with p; auto. split; auto. Qed.

Lemma in_r S v : placed DN co r S -> In v S -> forall d, d < D -> (Rabs (co v d) <= r d)%R.
Proof.
  intros Hp Hv d Hd. destruct (p_finite DN v) eqn:F; [apply (pl_box _ _ _ _ Hp); auto; now rewrite Nat2N.id|]. rewrite (pl_corner _ _ _ _ Hp v Hv F d) by now rewrite Nat2N.id.
  pose proof (pl_half _ _ _ _ Hp d ltac:(now rewrite Nat2N.id)). unfold corner. destruct (N.testbit v (N.of_nat d)); [|rewrite Rabs_Ropp]; rewrite Rabs_right; lra.
Qed.
Lemma hyp_ok : forall f path ids ck p t0 t S, make f path ids ck p = Val t0 -> tree_of t0 t -> NoDup ids -> 2 <= length ids -> incl ids P -> (forall v, In v S <-> In v ids) -> NoDup S -> placed DN co r S ->
  peopled DN t0 -> cutting D co P t0 -> tree_ok DN co r hck meets t S.
Proof.
  induction f as [|f IH]; intros path ids ck p t0 t S E Ht Hn L2 Hs Hin Hnd Hpl Hpe Hcu; [discriminate|]. pose proof (h_make_in _ _ _ _ _ _ Hn L2 Hs E) as Leaf.
  destruct (h_make_inv _ _ _ _ _ _ Hn L2 Hs E) as [-> |(f' & o & l & il & ir & lt & rt & -> & X & E1 & E2 & Nl & Nr & Ql & Qr)].
  - inversion Ht as [? s ? Hli|]; subst. apply tk_leaf. destruct Hli as (A1 & A2 & A3). split; [exact Hnd|]. split; [exact A2|]. intros v. rewrite Hin. apply A3.
  - injection X as <-. cbv zeta in *. inversion Ht as [|? ? ? lt' rt' Tl Tr]; subst.
    assert (Il : incl (inf_ids D) il) by (intros y Hy; apply Ql; now left). assert (Ir : incl (inf_ids D) ir) by (intros y Hy; apply Qr; now left).
    assert (Sl : incl il P) by (intros y Hy; apply Ql in Hy as [Hy|[Hy _]]; [now apply inf_P|auto]). assert (Sr : incl ir P) by (intros y Hy; apply Qr in Hy as [Hy|[Hy _]]; [now apply inf_P|auto]).
    pose proof (inf_two D il d30 ltac:(lia) Il) as Ll. pose proof (inf_two D ir d30 ltac:(lia) Ir) as Lr.
    pose proof (h_make_ck _ _ _ _ _ _ Nl Ll Sl E1) as Kl. pose proof (h_make_ck _ _ _ _ _ _ Nr Lr Sr E2) as Kr.
    destruct (Hcu [] (Some ck) lt rt (at_here _)) as (n & k & Kl' & (u & Hu & Gu) & w & Hw & Gw).
    assert (Epl : h_plane D o l = Some (n, k) /\ dot D n n = 1%R).
    { rewrite Kl in Kl'. assert (Hz : dot D o o <> 0%R). { intros Z. assert (Y : h_plane D o l = None). { unfold h_plane. assert (Z' : len2 D o = 0%R) by (unfold len2; now rewrite scalar_dot). rewrite Z'. unfold reqb. destruct (Req_EM_T 0 0) as [_|Ne]; [reflexivity|now elim Ne]. } rewrite Y in Kl'. discriminate. }
      destruct (plane_ok D o l Hz) as (n' & k' & Ep & Un & _). rewrite Ep in *. cbn [h_left] in Kl'. injection Kl' as -> Ek. split; [|exact Un]. replace k' with k by lra. reflexivity. }
    destruct Epl as [Epl Un]. rewrite Epl in *. clear Kl'.
    assert (NI : forall v, fin v -> ~ In v (inf_ids D)) by (intros v F Hv; pose proof (inf_not_finite D d30 v Hv); congruence).
    assert (Inf : forall v, In v S -> ~ fin v -> In v (inf_ids D)).
    { intros v Hv F. apply (inf_iff D d30). apply NNPP. intros Y. apply F. apply (finite_iff D d30); [exact (pl_small _ _ _ _ Hpl v Hv)|exact Y]. }
    assert (InS : forall v, In v (inf_ids D) -> In v S) by (intros v Hv; apply (pl_inf _ _ _ _ Hpl); now apply (inf_in D ltac:(lia))).
    set (side v := h_above D (Some (n, k)) (co v)).
    assert (HL : forall v, In v il <-> In v S /\ (fin v -> side v = true)).
    { intros v. rewrite Ql, Hin. split; [intros [H|[H1 H2]]; [split; [apply Hin; auto|intros F; now elim (NI v F)]|auto]|]. intros [H1 H2]. destruct (p_finite DN v) eqn:F; [right; auto|left; apply Inf; [now apply Hin|congruence]]. }
    assert (HR : forall v, In v ir <-> In v S /\ (fin v -> side v = false)).
    { intros v. rewrite Qr, Hin. split; [intros [H|[H1 H2]]; [split; [apply Hin; auto|intros F; now elim (NI v F)]|auto]|]. intros [H1 H2]. destruct (p_finite DN v) eqn:F; [right; auto|left; apply Inf; [now apply Hin|congruence]]. }
    assert (Pl : placed DN co r il) by (apply (placed_sub DN co r P il Hpp Sl); intros v Hv; apply Il; now apply (inf_in D ltac:(lia))).
    assert (Pr : placed DN co r ir) by (apply (placed_sub DN co r P ir Hpp Sr); intros v Hv; apply Ir; now apply (inf_in D ltac:(lia))).
    assert (Some1 : exists v, In v S /\ fin v).
    { destruct (Hpe [] _ _ _ (at_here _)) as (q' & x & i & A & B & F). exists i. split; [|exact F]. destruct (Leaf q' x i A B) as [H|H]; [now apply Hin|now elim (NI i F)]. }
    assert (Ab : forall v, side v = true <-> (0 < h_dist D n k (co v))%R) by (intros v; unfold side, h_above; apply rltb_iff).
    assert (Be : forall v, side v = false <-> (h_dist D n k (co v) <= 0)%R). { intros v. unfold side, h_above. rewrite rltb_false. reflexivity. }
    apply (bin_node D HD co r hck meets S il ir side (fun x => h_dist D n k x) Hpl Hnd HL HR (affine_dist n k)) with (kl := HPlane (h_left (Some (n, k)))) (kr := HPlane (h_right (Some (n, k)))).
    + left. intros v Hv Fv. destruct (side v) eqn:Es; [now apply Ab|now apply Be].
    + exact Some1.
    + apply (IH _ _ _ _ _ _ il E1 Tl Nl Ll Sl (fun v => iff_refl _) Nl Pl); intros q ck' l' r' Hq; [apply (Hpe (false :: q) ck' l' r')|apply (Hcu (false :: q) ck' l' r')]; now constructor.
    + apply (IH _ _ _ _ _ _ ir E2 Tr Nr Lr Sr (fun v => iff_refl _) Nr Pr); intros q ck' l' r' Hq; [apply (Hpe (true :: q) ck' l' r')|apply (Hcu (true :: q) ck' l' r')]; now constructor.
    + now rewrite (ck_root _ _ Tl).
    + now rewrite (ck_root _ _ Tr).
    + intros v Hv Fv Ev. now apply left_covers.
    + intros v Hv Fv Ev. now apply right_covers.
    + intros All. destruct Some1 as (v & Hv & Fv). exists v, (co u). split; [exact Hv|]. split; [exact Fv|]. assert (Du : (0 < h_dist D n k (co u))%R) by (unfold h_dist; rewrite scalar_dot; lra). split; [apply left_covers; [exact Un|]; now apply Ab|]. left. split; [exact (in_r P u Hpp Hu)|].
      apply (parted_neg D co (fun x => h_dist D n k x)); [apply affine_dist|intros x Hx; apply filter_In in Hx as [Hx Fx]; apply Be; auto|exact Du].
    + intros All. destruct Some1 as (v & Hv & Fv). exists v, (co w). split; [exact Hv|]. split; [exact Fv|]. assert (Dw : (h_dist D n k (co w) <= 0)%R) by (unfold h_dist; rewrite scalar_dot; lra). split; [apply right_covers; [exact Un|]; now apply Be|]. left. split; [exact (in_r P w Hpp Hw)|].
      apply (parted_pos D co (fun x => h_dist D n k x)); [apply affine_dist|intros x Hx; apply filter_In in Hx as [Hx Fx]; apply Ab; auto|exact Dw].
Qed.
End Hyp.
