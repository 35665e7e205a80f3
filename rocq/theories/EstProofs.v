(** Trees of BinaryBoxEstimatingSamplePartitioner keep the contract of LbSpec. *)
From Coq Require Import Classical Lra Lia Reals.
From Verif Require Import Outcome ListUtil LPSetModel LPSetHistory SimplexModel PointModel GeoModel GeoSpec GeoProofs GeoBox DelSpec PlaceSpec DelPlace TreeModel TreeSpec SplitModel SplitProofs LbModel LbSpec LbProofs LbTrees PartModel PartProofs KWayModel KWayProofs KTree SampProofs MakerModel BisectModel BisectSpec BisectProofs BisectBox HypSpec BinTree HypProofs.
Local Open Scope nat_scope.

Section Est.
Variable D : nat.
Hypothesis HD : 0 < D <= 8.
Variable pts : points vec.
Variable co : N -> vec.
Variable r : vec.
Variable P : list N.
Variable smp : list bool -> list N -> samp.
Variable srt : nat -> list vec -> list vec.
Variable cutoff : nat.
Notation DN := (N.of_nat D).
Notation fin v := (p_finite DN v = true).
Hypothesis Hsm : forall path ids, samp_ok (smp path ids).
Hypothesis Hfrom : forall path ids, drawn_from D co ids (smp path ids).
Hypothesis Hs : sorts srt.
Hypothesis Hcut : Nat.pow 2 D < cutoff.
Hypothesis Hpp : placed DN co r P.
Hypothesis Hfar : forall v d, In v P -> fin v -> d < D -> (co v d < r d)%R.
Hypothesis Hget : forall v, In v P -> fin v -> p_get DN pts v = Val (co v).
Notation make := (e_build D pts smp srt cutoff).

Lemma e30 : (DN <= 30)%N. Proof using HD. clear - HD. lia. Qed.
Lemma einf_P v : In v (inf_ids D) -> In v P.
Proof using HD Hpp. intros Hv. apply (pl_inf _ _ _ _ Hpp). apply (inf_in D ltac:(clear - HD; lia)). exact Hv. Qed.
(** A split of the points in the box [b] at [x]: in the box; if it is at its end, some point is there. *)
Definition at_split (b : box) (ids : list N) (d : nat) (x : R) : Prop := (b_lo b d <= x <= b_hi b d)%R /\ (x = b_hi b d -> exists u, In u ids /\ fin u /\ co u d = x).
Lemma mid_split b ids path ps d x : (forall i, In i ids -> fin i -> in_box D b (co i)) -> (exists i, In i ids /\ fin i) -> d < D -> (forall m, In m ps -> exists c, cut_mid (smp path ids) c m) -> (ps <> [] -> median d ps x) ->
  (ps = [] -> (x = (b_lo b 0%nat + b_hi b 0%nat) / 2)%R /\ d = 0) -> at_split b ids d x.
Proof using Hfrom.
  intros Hb (i0 & Hi0 & F0) Hd Hm M1 M2. destruct ps as [|p0 ps].
  - destruct (M2 eq_refl) as [-> ->]. specialize (Hb i0 Hi0 F0 0 Hd). split; [lra|]. intros E. exists i0. split; [exact Hi0|]. split; [exact F0|lra].
  - destruct (M1 ltac:(discriminate)) as (_ & _ & m & Hin & E). destruct (Hm m Hin) as (c & a & b' & pa & pb & x1 & y1 & _ & _ & _ & _ & A & B & Em). destruct (Hfrom path ids x1 (nth_error_In _ _ A)) as (i & Hi & Fi & Ei). destruct (Hfrom path ids y1 (nth_error_In _ _ B)) as (j & Hj & Fj & Ej).
    specialize (Em d). rewrite (Ei d Hd), (Ej d Hd), E in Em. pose proof (Hb i Hi Fi d Hd) as Bi. pose proof (Hb j Hj Fj d Hd) as Bj. split; [lra|]. intros X. exists i. split; [exact Hi|]. split; [exact Fi|lra].
Qed.
Lemma has_left b d x p : d < D -> in_box D b p -> (in_box D (fst (split_box b d x)) p <-> (p d <= x)%R).
Proof using.
  intros Hd Hb. cbn [split_box fst]. split.
  - intros H. specialize (H d Hd). cbn [b_lo b_hi] in H. unfold vset in H. rewrite Nat.eqb_refl in H. lra.
  - intros H i Hi. specialize (Hb i Hi). cbn [b_lo b_hi]. unfold vset. destruct (Nat.eqb_spec i d) as [->|_]; lra.
Qed.
Lemma has_right b d x p : d < D -> in_box D b p -> (x <= p d)%R -> in_box D (snd (split_box b d x)) p.
Proof using.
  intros Hd Hb H i Hi. specialize (Hb i Hi). cbn [split_box snd b_lo b_hi]. unfold vset. destruct (Nat.eqb_spec i d) as [->|_]; lra.
Qed.

Lemma e_build_inv rem path b ids t : NoDup ids -> incl ids P -> incl (inf_ids D) ids -> (forall i, In i ids -> fin i -> in_box D b (co i)) -> make rem path b ids = Val t ->
  t = PLeaf (Some b) ids \/ exists rem' d x il ir lt rt, t = PNode (Some b) lt rt /\ rem = Datatypes.S rem' /\ d < D /\ at_split b ids d x /\ make rem' (false :: path) (fst (split_box b d x)) il = Val lt /\ make rem' (true :: path) (snd (split_box b d x)) ir = Val rt /\
    NoDup il /\ NoDup ir /\ (exists u, In u ids /\ fin u) /\ (forall v, In v il <-> In v (inf_ids D) \/ (In v ids /\ fin v /\ (co v d <= x)%R)) /\ (forall v, In v ir <-> In v (inf_ids D) \/ (In v ids /\ fin v /\ (x < co v d)%R)).
Proof using HD Hsm Hfrom Hs Hcut Hpp Hfar Hget.
  intros Hn Hi Hinf Hb E. destruct rem as [|rem]; [left; cbn in E; now injection E as <-|]. cbn [e_build] in E. destruct (Nat.leb_spec cutoff (length ids)) as [Lc|_]; [|left; now injection E as <-]. right.
  assert (Some1 : exists u, In u ids /\ fin u).
  { apply NNPP. intros No. assert (Y : incl ids (inf_ids D)).
    { intros v Hv. apply (inf_iff D e30). apply NNPP. intros Z. apply No. exists v. split; [exact Hv|]. apply (finite_iff D e30); [exact (pl_small _ _ _ _ Hpp v (Hi v Hv))|exact Z]. }
    pose proof (NoDup_incl_length Hn Y) as L. pose proof (inf_length D e30) as L2. assert (L3 : length (inf_ids D) = Nat.pow 2 D) by (apply Nat2N.inj; rewrite L2, Nat2N.inj_pow; reflexivity). lia. }
  destruct (cut_ok (smp path ids) (Hsm path ids) (fun pa pb => Z.eqb 0 pa && negb (Z.eqb 0 pb))) as (es & ps & E1 & E2 & P1 & _). rewrite E1 in E. cbn [rbind] in E. rewrite E2 in E. cbn [rbind] in E.
  destruct (est_ok D srt Hs ltac:(lia) ps b) as (d & x & E3 & Hd & M1 & M2). rewrite E3 in E. cbn [rbind] in E.
  destruct (sep_ok D pts co (fst (split_box b d x)) ids [] [] (fun i Hi' => Hget i (Hi i Hi'))) as (il & ir & E4 & N1 & N2 & Q1 & Q2). rewrite E4 in E. cbn [rbind fst snd] in E. specialize (N1 (NoDup_nil _)). specialize (N2 (NoDup_nil _)).
  destruct (make rem (false :: path) (fst (split_box b d x)) (add_infs D il)) as [lt| |] eqn:El; try discriminate. cbn [rbind] in E. destruct (make rem (true :: path) (snd (split_box b d x)) (add_infs D ir)) as [rt| |] eqn:Er; try discriminate. cbn [rmap] in E. injection E as <-.
  exists rem, d, x, (add_infs D il), (add_infs D ir), lt, rt. split; [reflexivity|]. split; [reflexivity|]. split; [exact Hd|]. split.
  { apply (mid_split b ids path ps d x Hb Some1 Hd); auto. intros m Hm. eexists. now apply P1. }
  split; [exact El|]. split; [exact Er|]. split; [now apply add_fold_nodup|]. split; [now apply add_fold_nodup|]. split; [exact Some1|]. split; intros v; unfold add_infs.
  - rewrite add_fold_in, Q1. split; (intros [H|H]; [now left|right]); [destruct H as [[]|(A & B & C)]|right; destruct H as (A & B & C)]; (split; [exact A|]; split; [exact B|]; apply (has_left b d x (co v) Hd (Hb v A B)); exact C).
  - rewrite add_fold_in, Q2. split; (intros [H|H]; [now left|right]); [destruct H as [[]|(A & B & C)]|right; destruct H as (A & B & C)]; (split; [exact A|]; split; [exact B|]); pose proof (has_left b d x (co v) Hd (Hb v A B)) as Z.
    + apply Rnot_le_lt. intros Y. now apply C, Z.
    + intros Y. apply Z in Y. lra.
Qed.

Lemma est_tree_ok : forall rem path b ids t0 t S, make rem path b ids = Val t0 -> tree_of t0 t -> NoDup ids -> incl ids P -> incl (inf_ids D) ids -> (forall v, In v S <-> In v ids) -> NoDup S -> placed DN co r S ->
  (forall i, In i ids -> fin i -> in_box D b (co i)) -> (forall d, d < D -> (- r d <= b_lo b d)%R /\ (b_hi b d <= r d)%R) -> tree_ok DN co r box (box_ck DN) t S.
Proof using HD Hsm Hfrom Hs Hcut Hpp Hfar Hget.
  induction rem as [|rem IH]; intros path b ids t0 t S E Ht Hn Hi Hinf Hin Hnd Hpl Hb Hr; destruct (e_build_inv _ _ _ _ _ Hn Hi Hinf Hb E) as [-> |(f' & d & x & il & ir & lt & rt & -> & X & Hd & [Hx Hend] & E1 & E2 & Nl & Nr & Some0 & Ql & Qr)]; try discriminate.
  1, 2: inversion Ht as [? s ? Hli|]; subst; apply tk_leaf; destruct Hli as (A1 & A2 & A3); split; [exact Hnd|]; split; [exact A2|]; intros v; rewrite Hin; apply A3.
  injection X as <-. inversion Ht as [|? ? ? lt' rt' Tl Tr]; subst.
  assert (Il : incl (inf_ids D) il) by (intros y Hy; apply Ql; now left). assert (Ir : incl (inf_ids D) ir) by (intros y Hy; apply Qr; now left).
  assert (Sl : incl il P) by (intros y Hy; apply Ql in Hy as [Hy|[Hy _]]; [now apply einf_P|auto]). assert (Sr : incl ir P) by (intros y Hy; apply Qr in Hy as [Hy|[Hy _]]; [now apply einf_P|auto]).
  assert (NI : forall v, fin v -> ~ In v (inf_ids D)) by (intros v F Hv; pose proof (inf_not_finite D e30 v Hv); congruence).
  assert (Inf : forall v, In v S -> ~ fin v -> In v (inf_ids D)).
  { intros v Hv F. apply (inf_iff D e30). apply NNPP. intros Y. apply F. apply (finite_iff D e30); [exact (pl_small _ _ _ _ Hpl v Hv)|exact Y]. }
  set (side v := negb (rltb x (co v d))).
  assert (St : forall v, side v = true <-> (co v d <= x)%R) by (intros v; unfold side; rewrite Bool.negb_true_iff; apply rltb_false).
  assert (Sf : forall v, side v = false <-> (x < co v d)%R) by (intros v; unfold side; rewrite Bool.negb_false_iff; apply rltb_iff).
  assert (HL : forall v, In v il <-> In v S /\ (fin v -> side v = true)).
  { intros v. rewrite Ql, Hin. split; [intros [H|(H1 & H2 & H3)]; [split; [now apply Hinf|intros F; now elim (NI v F)]|split; [exact H1|intros _; now apply St]]|]. intros [H1 H2]. destruct (p_finite DN v) eqn:F; [right; split; [exact H1|]; split; [reflexivity|]; apply St; auto|left; apply Inf; [now apply Hin|congruence]]. }
  assert (HR : forall v, In v ir <-> In v S /\ (fin v -> side v = false)).
  { intros v. rewrite Qr, Hin. split; [intros [H|(H1 & H2 & H3)]; [split; [now apply Hinf|intros F; now elim (NI v F)]|split; [exact H1|intros _; now apply Sf]]|]. intros [H1 H2]. destruct (p_finite DN v) eqn:F; [right; split; [exact H1|]; split; [reflexivity|]; apply Sf; auto|left; apply Inf; [now apply Hin|congruence]]. }
  assert (Pl : placed DN co r il) by (apply (placed_sub DN co r P il Hpp Sl); intros v Hv; apply Il; now apply (inf_in D ltac:(lia))).
  assert (Pr : placed DN co r ir) by (apply (placed_sub DN co r P ir Hpp Sr); intros v Hv; apply Ir; now apply (inf_in D ltac:(lia))).
  assert (Hb' : forall v, In v S -> fin v -> in_box D b (co v)) by (intros v Hv F; apply Hb; [now apply Hin|exact F]).
  assert (Aff : affine D (fun z => z d - x)%R) by (now apply affine_le).
  assert (Cov : forall k p, in_box D k p -> LbSpec.covers DN co box (box_ck DN) k p) by (intros k p Hk; apply LbTrees.box_covers; rewrite Nat2N.id; [lia|exact Hk]).
  assert (Kl : ck_of lt = Some (fst (split_box b d x))). { destruct (e_build_ok D pts co smp srt e30 ltac:(lia) Hsm Hs cutoff rem (false :: path) (fst (split_box b d x)) il Nl (fun i Hi' => Hget i (Sl i Hi'))) as (lt2 & El & _ & _ & _ & K & _). rewrite E1 in El. injection El as <-. exact K. }
  assert (Kr : ck_of rt = Some (snd (split_box b d x))). { destruct (e_build_ok D pts co smp srt e30 ltac:(lia) Hsm Hs cutoff rem (true :: path) (snd (split_box b d x)) ir Nr (fun i Hi' => Hget i (Sr i Hi'))) as (rt2 & Er & _ & _ & _ & K & _). rewrite E2 in Er. injection Er as <-. exact K. }
  destruct Some0 as (u0 & Hu0 & F0). apply Hin in Hu0.
  apply (bin_node D HD co r box (box_ck DN) S il ir side (fun z => z d - x)%R Hpl Hnd HL HR Aff) with (kl := fst (split_box b d x)) (kr := snd (split_box b d x)).
  - right. intros v Hv Fv. destruct (side v) eqn:Es; [apply St in Es|apply Sf in Es]; lra.
  - eauto.
  - apply (IH (false :: path) (fst (split_box b d x)) il lt lt' il E1 Tl Nl Sl Il (fun v => iff_refl _) Nl Pl).
    + intros i Hi' F. apply HL in Hi' as [A B]. apply (has_left b d x (co i) Hd (Hb' i A F)). apply St. auto.
    + intros d' Hd'. destruct (Hr d' Hd') as [R1 R2]. cbn [split_box fst b_lo b_hi]. unfold vset. destruct (Nat.eqb_spec d' d) as [->|_]; lra.
  - apply (IH (true :: path) (snd (split_box b d x)) ir rt rt' ir E2 Tr Nr Sr Ir (fun v => iff_refl _) Nr Pr).
    + intros i Hi' F. apply HR in Hi' as [A B]. specialize (B F). apply Sf in B. apply (has_right b d x (co i) Hd (Hb' i A F)). lra.
    + intros d' Hd'. destruct (Hr d' Hd') as [R1 R2]. cbn [split_box snd b_lo b_hi]. unfold vset. destruct (Nat.eqb_spec d' d) as [->|_]; lra.
  - now rewrite (ck_root _ _ Tl).
  - now rewrite (ck_root _ _ Tr).
  - intros v Hv Fv Ev. apply Cov. apply (has_left b d x (co v) Hd (Hb' v Hv Fv)). now apply St.
  - intros v Hv Fv Ev. apply Cov. apply (has_right b d x (co v) Hd (Hb' v Hv Fv)). apply Sf in Ev. lra.
  - (* the left side is empty *)
    intros All. exists u0, (vset (co u0) d x). split; [exact Hu0|]. split; [exact F0|]. pose proof (Hb' u0 Hu0 F0) as B0.
    split; [apply Cov; intros i Hi'; specialize (B0 i Hi'); cbn [split_box fst b_lo b_hi]; unfold vset; destruct (Nat.eqb_spec i d) as [->|_]; lra|]. left. split.
    + intros i Hi'. unfold vset. destruct (Nat.eqb_spec i d) as [->|_]; [destruct (Hr d Hd); unfold Rabs; destruct Rcase_abs; lra|]. specialize (B0 i Hi'). destruct (Hr i Hi'). unfold Rabs; destruct Rcase_abs; lra.
    + apply (parted_pos D co (fun z => z d - x)%R); [exact Aff| |unfold vset; rewrite Nat.eqb_refl; lra]. intros u Hu. apply filter_In in Hu as [Hu Fu]. specialize (All u Hu Fu). apply Sf in All. lra.
  - (* the right side is empty *)
    intros All. destruct (Rlt_dec x (b_hi b d)) as [Lt|Ge].
    + exists u0, (vset (co u0) d (b_hi b d)). split; [exact Hu0|]. split; [exact F0|]. pose proof (Hb' u0 Hu0 F0) as B0.
      split; [apply Cov; intros i Hi'; specialize (B0 i Hi'); cbn [split_box snd b_lo b_hi]; unfold vset; destruct (Nat.eqb_spec i d) as [->|_]; lra|]. left. split.
      * intros i Hi'. unfold vset. destruct (Nat.eqb_spec i d) as [->|_]; [destruct (Hr d Hd); unfold Rabs; destruct Rcase_abs; lra|]. specialize (B0 i Hi'). destruct (Hr i Hi'). unfold Rabs; destruct Rcase_abs; lra.
      * apply (parted_neg D co (fun z => z d - x)%R); [exact Aff| |unfold vset; rewrite Nat.eqb_refl; lra]. intros u Hu. apply filter_In in Hu as [Hu Fu]. specialize (All u Hu Fu). apply St in All. lra.
    + assert (Ex : x = b_hi b d) by lra. destruct (Hend Ex) as (u & Hu & Fu & Eu). apply Hin in Hu. exists u, (co u). split; [exact Hu|]. split; [exact Fu|]. split; [apply Cov, has_right; [exact Hd|now apply Hb'|lra]|]. right. split; [reflexivity|].
      exists (fun z => x - z d)%R, r. split; [now apply affine_ge|]. split; [lra|]. split; [intros v Hv Fv; specialize (All v Hv Fv); apply St in All; lra|].
      assert (Rp : forall d', d' < D -> (0 < r d')%R) by (intros d' Hd'; apply (pl_half _ _ _ _ Hpl); now rewrite Nat2N.id). split; [intros d' Hd'; specialize (Rp d' Hd'); rewrite Rabs_right; lra|].
      pose proof (Hfar u d (Hi u (proj1 (Hin u) Hu)) Fu Hd). lra.
Qed.
Lemma est_in : forall rem path b ids t0, NoDup ids -> incl ids P -> incl (inf_ids D) ids -> (forall i, In i ids -> fin i -> in_box D b (co i)) -> make rem path b ids = Val t0 -> forall q l v, leaf_ids t0 q l -> In v l -> In v P.
Proof using HD Hsm Hfrom Hs Hcut Hpp Hfar Hget.
  induction rem as [|rem IH]; intros path b ids t0 Hn Hi Hinf Hb E q l v Hl Hv; destruct (e_build_inv _ _ _ _ _ Hn Hi Hinf Hb E) as [-> |(f' & d & x & il & ir & lt & rt & -> & X & Hd & _ & E1 & E2 & Nl & Nr & _ & Ql & Qr)]; try discriminate.
  1, 2: apply leaf_leaf in Hl as [_ ->]; auto.
  injection X as <-. apply leaf_node in Hl as (z & q' & -> & Hl). destruct z.
  - apply (IH (true :: path) (snd (split_box b d x)) ir rt Nr) with (q := q') (l := l); auto.
    + intros y Hy; apply Qr in Hy as [Hy|[Hy _]]; [now apply einf_P|auto].
    + intros y Hy; apply Qr; now left.
    + intros i Hy F. apply Qr in Hy as [Hy|(A & B & C)]; [pose proof (inf_not_finite D e30 i Hy); congruence|]. apply (has_right b d x (co i) Hd (Hb i A B)). lra.
  - apply (IH (false :: path) (fst (split_box b d x)) il lt Nl) with (q := q') (l := l); auto.
    + intros y Hy; apply Ql in Hy as [Hy|[Hy _]]; [now apply einf_P|auto].
    + intros y Hy; apply Ql; now left.
    + intros i Hy F. apply Ql in Hy as [Hy|(A & B & C)]; [pose proof (inf_not_finite D e30 i Hy); congruence|]. now apply (has_left b d x (co i) Hd (Hb i A B)).
Qed.
End Est.
