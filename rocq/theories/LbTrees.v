(** Trees of OldPartitionerPartitioner meet what the load balanced triangulator relies on. *)
From Coq Require Import Classical Lra.
From Verif Require Import Outcome ListUtil WordsModel WordsProofs LPSetModel LPSetProofs LPSetHistory SimplexModel PointModel PointProofs GeoModel GeoSpec GeoProofs Conc PartModel PartStats PartSpec PartProofs PartConc PartTop PartProps
  TreeModel TreeSpec TreeProofs DelSpec PlaceSpec DelPlace DcModel DcSpec SplitModel SplitProofs SplitEx LbModel LbSpec LbProofs.
Local Open Scope nat_scope.

Lemma lists_ex s K : repr 64 s K -> exists L, lists s L /\ forall v, In v L <-> In v K.
Proof. intros [Hw He]. exists (nodup N.eq_dec K). split; [split; [apply NoDup_nodup|]; split; [exact Hw|]|]; intros v; rewrite nodup_In; [apply He|reflexivity]. Qed.
Lemma lists_all (ps : list PartModel.part) : (forall p, In p ps -> exists K, repr 64 (pa_pts p) K) -> exists qs, Forall2 (fun p q => lists (pa_pts p) (fst q) /\ snd q = pa_box p) ps qs.
Proof.
  induction ps as [|p ps IH]; intros H; [exists []; constructor|]. destruct IH as [qs Hq]; [intros p' Hp'; apply H; now right|]. destruct (H p ltac:(now left)) as [K HK]. destruct (lists_ex _ _ HK) as [L [HL _]].
  exists ((L, pa_box p) :: qs). constructor; [now split|exact Hq].
Qed.
Lemma lists_len s S : lists s S -> set_size s = length S.
Proof. intros [Hn H]. unfold set_size. rewrite (repr_items 64 s S H). unfold ListUtil.distinct. now rewrite nodup_fixed_point. Qed.

(** A box finds the circumspheres with a point of the box in them. *)
Lemma box_covers D co b p : (0 < N.to_nat D) -> in_box (N.to_nat D) b p -> covers D co box (box_ck D) b p.
Proof.
  intros HD Hb s sp _ _ Hr Hd. unfold box_ck. apply box_meets_spec.
  - intros d Hd'. specialize (Hb d Hd'). lra.
  - exact HD.
  - exists p. split; [exact Hb|]. unfold in_ball. split; [exact Hr|exact Hd].
Qed.

Section Old.
Variable D : nat.
Hypothesis HD : 0 < D /\ D <= 8.
Variables (pts : points vec) (tiny huge : R) (co : N -> vec) (r : vec) (P : list N).
Notation DN := (N.of_nat D).
Notation fin v := (p_finite DN v = true).
Hypothesis HP : placed DN co r P.
Hypothesis Hnd : NoDup P.
Hypothesis Hlen : (N.of_nat (length P) <= 2 ^ 60)%N.
Hypothesis Hget : forall v, In v P -> fin v -> p_get DN pts v = Val (co v).
Hypothesis Hhuge : forall v k, In v P -> fin v -> k < D -> (co v k <= huge)%R.
Hypothesis Htiny : forall k, k < D -> (tiny <= r k)%R.
Variable sp : splitter.
Hypothesis Hsp : forall k, sp = OneDim k -> k < D.
Notation split_set := (split_set D pts tiny huge sp).
Notation built := (built D pts tiny huge sp).

Section Set_.
Variables (ids : lpset) (S : list N).
Hypothesis Hids : lists ids S.
Hypothesis Hs : incl S P.
Hypothesis Hp : placed DN co r S.
Lemma sub_len : (N.of_nat (length S) <= 2 ^ 60)%N.
Proof. pose proof (NoDup_incl_length (proj1 Hids) Hs). lia. Qed.
Lemma sub_get v : In v S -> fin v -> p_get DN pts v = Val (co v). Proof. intros Hv. apply Hget. now apply Hs. Qed.
Lemma sub_huge v k : In v S -> fin v -> k < D -> (co v k <= huge)%R. Proof. intros Hv. apply Hhuge. now apply Hs. Qed.

(** What a split gives, whatever the set is. *)
Lemma split_facts prov ps : split_set prov ids ps -> exists qs, Forall2 (fun p q => lists (pa_pts p) (fst q) /\ snd q = pa_box p) ps qs /\
  splits D pts tiny huge sp prov S qs /\ 2 <= length ps <= Nat.pow 2 D /\
  forall i p, nth_error ps i = Some p -> lists (pa_pts p) (pts_at qs i) /\ (forall v, In v (pts_at qs i) -> In v S) /\ placed DN co r (pts_at qs i).
Proof.
  intros (S' & work & st & mult & work' & Hids' & Hn & Hw & Est & Hn' & Hw' & Hpa).
  assert (Hsame : forall v, In v S' <-> In v S) by (intros v; rewrite <- (proj2 (proj2 Hids')); apply (proj2 (proj2 Hids))).
  assert (Ew : forall v, In v (concat work) <-> In v S) by (intros v; rewrite Hw; apply Hsame). assert (Ew' : forall v, In v (concat work') <-> In v S) by (intros v; rewrite Hw'; apply Hsame).
  pose proof (C35_covers D pts tiny huge S co work st (d30 D HD) (small_in D co r S Hp) (coords_in D HD pts co r S Hp sub_get) Ew Est) as Hcov.
  assert (H2 : 2 <= Nat.pow 2 D) by (change 2 with (Nat.pow 2 1) at 1; apply Nat.pow_le_mono_r; lia).
  assert (X : exists route m bx, 2 <= m <= Nat.pow 2 D /\ parts_of D pts S false route m bx ps).
  { destruct (parted_by_ok D HD pts tiny huge co r S Hp (proj1 Hids) sub_len sub_get sub_huge Htiny sp prov Hsp ids work' st mult Hids Hcov Hn' Ew' ps Hpa) as [H|[k [Hk H]]]; eexists _, _, _; (split; [|exact H]); lia. }
  destruct X as (route & m & bx & Hm & Hpo). pose proof Hpo as (l & Hl & Hr & Hlp & HR).
  destruct (lists_all ps) as [qs Hqs].
  { intros p Hpi. apply In_nth_error in Hpi as [i Ei]. destruct (HR i p Ei) as (_ & _ & H). eauto. }
  pose proof (SplitProofs.forall2_len _ _ _ Hqs) as Lq. exists qs. split; [exact Hqs|]. split.
  { exists ids, work, st, mult, work', ps. auto 10. }
  split; [lia|]. intros i p Ei. assert (Hi : i < length qs) by (rewrite <- Lq; apply nth_error_Some; congruence).
  destruct (part_at D HD pts tiny huge co r S Hp sub_get sub_huge Htiny route m bx ps qs Hpo Hqs i Hi) as (Hn1 & _ & Hmem).
  assert (Sub : forall v, In v (pts_at qs i) -> In v S) by (intros v Hv; apply Hmem in Hv as [Hv|[Hv _]]; [apply (pl_inf _ _ _ _ Hp v Hv)|exact Hv]).
  split; [|split; [exact Sub|]].
  - destruct (f2_at _ _ _ Hqs i p Ei) as (q & Eq & Hq & _). unfold pts_at. now rewrite (nth_error_nth qs i _ Eq).
  - apply (placed_sub DN co r S _ Hp Sub). intros v Hv. apply Hmem. now left.
Qed.
End Set_.

(** The leaves have points of the set only; there are not too many. *)
Lemma built_leaves cutoff rem prov b ids t : built cutoff rem prov b ids t -> forall S, lists ids S -> incl S P -> placed DN co r S ->
  (forall d s, leaf_at t d s -> exists L, lists s L /\ incl L S) /\ exists l, Leaves t l /\ entries l <= Nat.pow (Nat.pow 2 D) rem * length S.
Proof.
  induction 1 as [prov b ids|rem prov b ids ps Hc Hsp'|rem prov b ids ps ch Hc Hsp' Hl Hch IH]; intros S Hids Hs Hp.
  - split.
    + intros d s HL. inversion HL as [|? ? c d' ? Hin HL']; subst. destruct Hin as [<-|[]]. inversion HL'; subst. exists S. split; [exact Hids|apply incl_refl].
    + exists [(Some b, ids)]. split; [change [(Some b, ids)] with (concat [[(Some b, ids)]]); repeat constructor|]. unfold entries. cbn [map snd list_sum fold_right Nat.pow]. rewrite (lists_len ids S Hids). lia.
  - destruct (split_facts ids S Hids Hs Hp prov ps Hsp') as (qs & Hqs & _ & Hm & Hpt). split.
    + intros d s HL. inversion HL as [|? ? c d' ? Hin HL']; subst. apply in_map_iff in Hin as (p & <- & Hin). inversion HL'; subst. apply In_nth_error in Hin as [i Ei]. destruct (Hpt i p Ei) as (Hli & Sub & _). exists (pts_at qs i). split; [exact Hli|exact Sub].
    + exists (map (fun p => (Some (pa_box p), pa_pts p)) ps). split.
      * replace (map _ ps) with (concat (map (fun p => [(Some (pa_box p), pa_pts p)]) ps)) by (clear; induction ps as [|p ps IH]; cbn [map concat app]; [reflexivity|now rewrite IH]). constructor.
        clear. induction ps as [|p ps IH]; cbn [map]; constructor; [constructor|exact IH].
      * unfold entries. rewrite map_map. cbn [snd].
        assert (Hb : forall p, In p ps -> set_size (pa_pts p) <= length S).
        { intros p Hin. apply In_nth_error in Hin as [i Ei]. destruct (Hpt i p Ei) as (Hli & Sub & _). rewrite (lists_len _ _ Hli). apply NoDup_incl_length; [apply Hli|exact Sub]. }
        assert (Hsum : list_sum (map (fun p => set_size (pa_pts p)) ps) <= length ps * length S) by (clear - Hb; induction ps as [|p ps IH]; [apply Nat.le_refl|]; cbn [map length]; change (list_sum (?a :: ?l)) with (a + list_sum l); pose proof (Hb p ltac:(now left)); specialize (IH (fun q Hq => Hb q (or_intror Hq))); lia).
        cbn [Nat.pow]. assert (1 <= Nat.pow (Nat.pow 2 D) rem) by (pose proof (Nat.pow_nonzero (Nat.pow 2 D) rem (Nat.pow_nonzero 2 D ltac:(lia))); lia).
        eapply Nat.le_trans; [exact Hsum|]. apply Nat.mul_le_mono_r. rewrite <- (Nat.mul_1_r (length ps)). apply Nat.mul_le_mono; [apply Hm|assumption].
  - destruct (split_facts ids S Hids Hs Hp prov ps Hsp') as (qs & Hqs & _ & Hm & Hpt).
    assert (X : forall i c, nth_error ch i = Some c -> (forall d s, leaf_at c d s -> exists L, lists s L /\ incl L S) /\ exists l, Leaves c l /\ entries l <= Nat.pow (Nat.pow 2 D) rem * length S).
    { intros i c Ec. destruct (nth_error ps i) as [p|] eqn:Ep; [|apply nth_error_None in Ep; assert (i < length ch) by (apply nth_error_Some; congruence); lia].
      destruct (Hpt i p Ep) as (Hli & Sub & Hpl). destruct (IH i p c Ep Ec (pts_at qs i) Hli (fun v Hv => Hs v (Sub v Hv)) Hpl) as (A & l & B1 & B2). split; [intros d s HL; destruct (A d s HL) as (L & A1 & A2); exists L; split; [exact A1|]; intros v Hv; apply Sub, A2, Hv|].
      exists l. split; [exact B1|]. pose proof (NoDup_incl_length (proj1 Hli) Sub) as Hle. eapply Nat.le_trans; [exact B2|]. now apply Nat.mul_le_mono_l. }
    split.
    + intros d s HL. inversion HL as [|? ? c d' ? Hin HL']; subst. apply In_nth_error in Hin as [i Ei]. exact (proj1 (X i c Ei) d' s HL').
    + assert (Y : exists ls, Forall2 Leaves ch ls /\ entries (concat ls) <= length ch * (Nat.pow (Nat.pow 2 D) rem * length S)).
      { clear - X. assert (X' : forall c, In c ch -> exists l, Leaves c l /\ entries l <= Nat.pow (Nat.pow 2 D) rem * length S) by (intros c Hc; apply In_nth_error in Hc as [i Ei]; exact (proj2 (X i c Ei))). clear X.
        induction ch as [|c ch IH]; [exists []; split; [constructor|apply Nat.le_refl]|]. destruct IH as (ls & H1 & H2); [intros c' Hc'; apply X'; now right|]. destruct (X' c ltac:(now left)) as (l & A & B).
        exists (l :: ls). split; [now constructor|]. cbn [concat length]. rewrite (entries_app box), Nat.mul_succ_l. rewrite Nat.add_comm. now apply Nat.add_le_mono. }
      destruct Y as (ls & HF & HE). exists (concat ls). split; [now constructor|]. cbn [Nat.pow]. eapply Nat.le_trans; [exact HE|]. rewrite Hl. rewrite <- Nat.mul_assoc. apply Nat.mul_le_mono_r. apply Hm.
Qed.

Lemma below_trans {C} (u t w : tree C) : below u t -> below t w -> below u w.
Proof. intros H1 H2. induction H2 as [|t k ch c Hc _ IH]; [exact H1|]. apply (below_child u k ch c Hc). auto. Qed.
Lemma filled_child {C} k (ch : list (tree C)) c : filled DN (Tnode k ch) -> In c ch -> filled DN c.
Proof. intros H Hc k' ch' Hb. apply H. exact (below_child _ k ch c Hc Hb). Qed.

(** One level. *)
Lemma level_ok prov b ids ps ch S : lists ids S -> incl S P -> placed DN co r S -> split_set prov ids ps -> length ch = length ps -> (exists u, In u S /\ fin u) ->
  (forall i p c, nth_error ps i = Some p -> nth_error ch i = Some c -> t_ck c = Some (pa_box p)) ->
  (forall i p c L, nth_error ps i = Some p -> nth_error ch i = Some c -> lists (pa_pts p) L -> incl L P -> placed DN co r L -> tree_ok DN co r box (box_ck DN) c L) ->
  tree_ok DN co r box (box_ck DN) (Tnode (Some b) ch) S.
Proof.
  intros Hids Hs Hp Hsp' Hl Hu Hck Hok. destruct (split_facts ids S Hids Hs Hp prov ps Hsp') as (qs & Hqs & Hsl & Hm & Hpt).
  pose proof (SplitProofs.forall2_len _ _ _ Hqs) as Lq.
  destruct (splits_ok D HD pts tiny huge co r S Hp (proj1 Hids) (sub_len ids S Hids Hs) (sub_get S Hs) (sub_huge S Hs) Htiny sp prov Hsp Hu qs Hsl) as [So1 So2 So3 So4].
  assert (Hat : forall i c, nth_error ch i = Some c -> exists p, nth_error ps i = Some p /\ t_ck c = Some (pa_box p) /\ boxes_of qs i = pa_box p /\ i < length qs).
  { intros i c Ec. assert (Hi : i < length ch) by (apply nth_error_Some; congruence). destruct (nth_error ps i) as [p|] eqn:Ep; [|apply nth_error_None in Ep; lia]. exists p. split; [reflexivity|]. split; [exact (Hck i p c Ep Ec)|].
    destruct (f2_at _ _ _ Hqs i p Ep) as (q & Eq & _ & Hq). unfold boxes_of. rewrite (nth_error_nth qs i _ Eq). split; [exact Hq|lia]. }
  apply tk_node with (pt := pts_at qs).
  - lia.
  - apply Hids.
  - intros i c Ec. destruct (Hat i c Ec) as (p & Ep & _). destruct (Hpt i p Ep) as (Hli & Sub & Hpl). apply (Hok i p c); auto. intros v Hv. apply Hs, Sub, Hv.
  - replace (length ch) with (length qs) by lia. exact So1.
  - intros i c k v Ec Ek Hv Hf. destruct (Hat i c Ec) as (p & Ep & Ek' & Eb & Hi). rewrite Ek' in Ek. injection Ek as <-. rewrite <- Eb. apply box_covers; [lia|]. now apply So3.
  - replace (length ch) with (length qs) by lia. destruct So4 as [H|(i & j & u & p & Hi & Hj & Hne & Hin & Hf & Hbx & H)]; [now left|right].
    destruct (nth_error ch j) as [c|] eqn:Ec; [|apply nth_error_None in Ec; lia]. destruct (Hat j c Ec) as (p' & Ep & Ek & Eb & _).
    exists i, j, c, (pa_box p'), u, p. split; [lia|]. split; [exact Ec|]. split; [exact Ek|]. split; [exact Hne|]. split; [exact Hin|]. split; [exact Hf|]. split; [|destruct H as [H|H]; auto].
    rewrite <- Eb. apply box_covers; [lia|exact Hbx].
Qed.
Lemma built_ck cutoff rem prov b ids t : built cutoff rem prov b ids t -> t_ck t = Some b.
Proof. intros H. inversion H; reflexivity. Qed.
Lemma filled_here cutoff rem prov b ids k ch S : built cutoff rem prov b ids (Tnode k ch) -> lists ids S -> incl S P -> placed DN co r S -> filled DN (Tnode k ch) -> 2 <= length ch -> exists u, In u S /\ fin u.
Proof.
  intros Hb Hids Hs Hp Hf H2. destruct (Hf k ch (below_here _) H2) as (d & s & i & HL & Hz & Hh & Hfi). exists i. split; [|exact Hfi].
  destruct (built_leaves _ _ _ _ _ _ Hb S Hids Hs Hp) as (A & _). destruct (A d s HL) as (L & HL1 & HL2). apply HL2. exact (holds_set s L i (proj2 HL1) Hh Hz).
Qed.
(** Such a tree meets the contract. *)
Lemma built_ok cutoff rem prov b ids t : built cutoff rem prov b ids t -> filled DN t -> forall S, lists ids S -> incl S P -> placed DN co r S ->
  tree_ok DN co r box (box_ck DN) t S.
Proof.
  induction 1 as [prov b ids|rem prov b ids ps Hc Hsp'|rem prov b ids ps ch Hc Hsp' Hl Hch IH]; intros Hf S Hids Hs Hp.
  - now constructor.
  - pose proof (bt_last D pts tiny huge sp cutoff rem prov b ids ps Hc Hsp') as Hb. destruct (split_facts ids S Hids Hs Hp prov ps Hsp') as (_ & _ & _ & Hm & _).
    apply (level_ok prov b ids ps); auto.
    + apply map_length.
    + apply (filled_here _ _ _ _ _ _ _ S Hb); auto. rewrite map_length. lia.
    + intros i p c Ep Ec. rewrite nth_error_map, Ep in Ec. now injection Ec as <-.
    + intros i p c L Ep Ec HL _ _. rewrite nth_error_map, Ep in Ec. injection Ec as <-. now constructor.
  - pose proof (bt_more D pts tiny huge sp cutoff rem prov b ids ps ch Hc Hsp' Hl Hch) as Hb. destruct (split_facts ids S Hids Hs Hp prov ps Hsp') as (_ & _ & _ & Hm & _).
    apply (level_ok prov b ids ps); auto.
    + apply (filled_here _ _ _ _ _ _ _ S Hb); auto. lia.
    + intros i p c Ep Ec. exact (built_ck _ _ _ _ _ _ (Hch i p c Ep Ec)).
    + intros i p c L Ep Ec HL HLP HLp. apply (IH i p c Ep Ec); auto. apply (filled_child (Some b) ch); [exact Hf|]. exact (nth_error_In _ _ Ec).
Qed.
Lemma height_le (k : option box) ch n : (forall c, In c ch -> height c <= n) -> height (Tnode k ch) <= Datatypes.S n.
Proof.
  intros H. assert (X : forall l : list (tree box), (forall c, In c l -> height c <= n) -> (fix go (ch : list (tree box)) := match ch with [] => 0 | c :: q => Nat.max (height c) (go q) end) l <= n).
  { clear. induction l as [|x l IH]; intros H; [apply Nat.le_0_l|]. apply Nat.max_lub; [apply H; now left|]. apply IH. intros y Hy. apply H. now right. }
  specialize (X ch H). destruct ch as [|a [|c ch]]; [apply Nat.le_0_l|apply Nat.le_0_l|]. apply le_n_S. exact X.
Qed.
Lemma built_height cutoff rem prov b ids t : built cutoff rem prov b ids t -> height t <= rem.
Proof.
  induction 1 as [prov b ids|rem prov b ids ps Hc Hsp'|rem prov b ids ps ch Hc Hsp' Hl Hch IH].
  - apply Nat.le_refl.
  - apply height_le. intros c Hin. apply in_map_iff in Hin as (p & <- & _). apply Nat.le_0_l.
  - apply height_le. intros c Hin. apply In_nth_error in Hin as [i Ei]. destruct (nth_error ps i) as [p|] eqn:Ep; [|apply nth_error_None in Ep; assert (i < length ch) by (apply nth_error_Some; congruence); lia]. exact (IH i p c Ep Ei).
Qed.
Lemma width_le (k : option box) ch w : length ch <= w -> (forall c, In c ch -> width c <= w) -> width (Tnode k ch) <= w.
Proof. intros H1 H. cbn [width]. apply Nat.max_lub; [exact H1|]. clear H1. induction ch as [|c ch IH]; [apply Nat.le_0_l|]. apply Nat.max_lub; [apply H; now left|]. apply IH. intros y Hy. apply H. now right. Qed.
Lemma built_width cutoff rem prov b ids t : built cutoff rem prov b ids t -> forall S, lists ids S -> incl S P -> placed DN co r S -> width t <= Nat.pow 2 D.
Proof.
  assert (H1 : 1 <= Nat.pow 2 D) by (pose proof (Nat.pow_nonzero 2 D); lia).
  induction 1 as [prov b ids|rem prov b ids ps Hc Hsp'|rem prov b ids ps ch Hc Hsp' Hl Hch IH]; intros S Hids Hs Hp.
  - apply width_le; [exact H1|]. intros c [<-|[]]. cbn. lia.
  - destruct (split_facts ids S Hids Hs Hp prov ps Hsp') as (qs & Hqs & _ & Hm & Hpt). apply width_le; [rewrite map_length; apply Hm|]. intros c Hin. apply in_map_iff in Hin as (p & <- & _). cbn. lia.
  - destruct (split_facts ids S Hids Hs Hp prov ps Hsp') as (qs & Hqs & _ & Hm & Hpt). apply width_le; [rewrite Hl; apply Hm|]. intros c Hin. apply In_nth_error in Hin as [i Ei].
    destruct (nth_error ps i) as [p|] eqn:Ep; [|apply nth_error_None in Ep; assert (i < length ch) by (apply nth_error_Some; congruence); lia].
    destruct (Hpt i p Ep) as (Hli & Sub & Hpl). apply (IH i p c Ep Ei (pts_at qs i) Hli); [intros v Hv; apply Hs, Sub, Hv|exact Hpl].
Qed.

(** Finite points of the set are in the leaves. *)
Lemma built_has cutoff rem prov b ids t : built cutoff rem prov b ids t -> forall S u, lists ids S -> incl S P -> placed DN co r S -> In u S -> fin u -> exists d s, leaf_at t d s /\ u <> 0%N /\ has s u.
Proof.
  induction 1 as [prov b ids|rem prov b ids ps Hc Hsp'|rem prov b ids ps ch Hc Hsp' Hl Hch IH]; intros S u Hids Hs Hp Hu Hf.
  - exists 1, ids. split; [apply leaf_below with (c := Tleaf (Some b) ids); [now left|constructor]|]. split; [intros ->; exact (rep_nz ids S (proj2 Hids) Hu)|]. exact (holds_in ids S u (proj2 Hids) Hu).
  - destruct (split_facts ids S Hids Hs Hp prov ps Hsp') as (qs & Hqs & Hsl & Hm & Hpt).
    destruct (splits_ok D HD pts tiny huge co r S Hp (proj1 Hids) (sub_len ids S Hids Hs) (sub_get S Hs) (sub_huge S Hs) Htiny sp prov Hsp (ex_intro _ u (conj Hu Hf)) qs Hsl) as [So1 _ _ _].
    apply (pd_all _ _ _ _ _ So1) in Hu as (i & Hi & Hin). pose proof (SplitProofs.forall2_len _ _ _ Hqs) as Lq. destruct (nth_error ps i) as [p|] eqn:Ep; [|apply nth_error_None in Ep; lia]. destruct (Hpt i p Ep) as (Hli & _ & _).
    exists 1, (pa_pts p). split; [apply leaf_below with (c := Tleaf (Some (pa_box p)) (pa_pts p)); [apply in_map_iff; exists p; split; [reflexivity|exact (nth_error_In _ _ Ep)]|constructor]|].
    split; [intros ->; exact (rep_nz _ _ (proj2 Hli) Hin)|]. exact (holds_in _ _ u (proj2 Hli) Hin).
  - destruct (split_facts ids S Hids Hs Hp prov ps Hsp') as (qs & Hqs & Hsl & Hm & Hpt).
    destruct (splits_ok D HD pts tiny huge co r S Hp (proj1 Hids) (sub_len ids S Hids Hs) (sub_get S Hs) (sub_huge S Hs) Htiny sp prov Hsp (ex_intro _ u (conj Hu Hf)) qs Hsl) as [So1 _ _ _].
    apply (pd_all _ _ _ _ _ So1) in Hu as (i & Hi & Hin). pose proof (SplitProofs.forall2_len _ _ _ Hqs) as Lq. destruct (nth_error ps i) as [p|] eqn:Ep; [|apply nth_error_None in Ep; lia].
    destruct (nth_error ch i) as [c|] eqn:Ec; [|apply nth_error_None in Ec; lia]. destruct (Hpt i p Ep) as (Hli & Sub & Hpl).
    destruct (IH i p c Ep Ec (pts_at qs i) u Hli (fun v Hv => Hs v (Sub v Hv)) Hpl Hin Hf) as (d & s & A & B). exists (Datatypes.S d), s. split; [|exact B]. exact (leaf_below _ ch c d s (nth_error_In _ _ Ec) A).
Qed.
(** One level of splits: only the root can be empty. *)
Lemma filled_one cutoff rem prov b ids t S : built cutoff rem prov b ids t -> lists ids S -> incl S P -> placed DN co r S -> (exists u, In u S /\ fin u) -> rem <= 1 \/ set_size ids <= cutoff -> filled DN t.
Proof.
  intros Hb Hids Hs Hp (u & Hu & Hf) Hr. destruct (built_has _ _ _ _ _ _ Hb S u Hids Hs Hp Hu Hf) as (d & s & HL & Hz & Hh). intros k ch Hbl H2. exists d, s, u. split; [|auto]. replace (Tnode k ch) with t; [exact HL|].
  inversion Hb as [prov' b' ids' |rem' prov' b' ids' ps Hc Hsp'|rem' prov' b' ids' ps ch' Hc Hsp' Hl Hch]; subst.
  - inversion Hbl as [|? ? ? c Hin Hbl']; subst; [reflexivity|]. destruct Hin as [<-|[]]. inversion Hbl'.
  - inversion Hbl as [|? ? ? c Hin Hbl']; subst; [reflexivity|]. apply in_map_iff in Hin as (p & <- & _). inversion Hbl'.
  - inversion Hbl as [|? ? ? c Hin Hbl']; subst; [reflexivity|]. exfalso. apply In_nth_error in Hin as [i Ei]. destruct (nth_error ps i) as [p|] eqn:Ep; [|apply nth_error_None in Ep; assert (i < length ch') by (apply nth_error_Some; congruence); lia].
    assert (Hr0 : rem' = 0) by lia. subst rem'. specialize (Hch i p c Ep Ei). inversion Hch; subst. inversion Hbl' as [|? ? ? c Hin Hbl'']; subst; [cbn in H2; lia|]. destruct Hin as [<-|[]]. inversion Hbl''.
Qed.
(** ExtendPartitioner does not split sets without finite points: there is no dimension. *)
Lemma extend_fin prov ids S ps : sp = Extend -> (tiny <= huge)%R -> lists ids S -> incl S P -> placed DN co r S -> split_set prov ids ps -> exists u, In u S /\ fin u.
Proof.
  intros Ee Hth Hids Hs Hp (S' & work & st & mult & work' & Hids' & Hn & Hw & Est & Hn' & Hw' & Hpa). rewrite Ee in Hpa. cbn [parted_by] in Hpa. destruct Hpa as (k & Ek & _).
  assert (Hsame : forall v, In v S' <-> In v S) by (intros v; rewrite <- (proj2 (proj2 Hids')); apply (proj2 (proj2 Hids))).
  apply NNPP. intros Hno. assert (Hno' : forall v, In v (concat work) -> counted D true v = true -> False).
  { intros v Hv Hc. apply Hno. exists v. split; [apply Hsame, Hw, Hv|]. unfold counted in Hc. now rewrite Bool.orb_false_r in Hc. }
  destruct (par_tight D pts tiny huge true co work) as [s [Es T]]; [intros i Hi Hc; destruct (Hno' i Hi Hc)|]. rewrite Est in Es. injection Es as ->.
  rewrite (extend_none D (d30 D HD) _ (fun _ => 0%N)) in Ek; [discriminate|]. intros d Hd. destruct T as [T1 T2]. cbn [st_finish st_max st_min].
  assert (A : (huge <= st_min s d)%R) by (apply T1; split; [apply Rle_refl|]; intros i Hi Hc; destruct (Hno' i Hi Hc)).
  assert (B : (st_max s d <= tiny)%R) by (apply T2; split; [apply Rle_refl|]; intros i Hi Hc; destruct (Hno' i Hi Hc)). lra.
Qed.
Lemma filled_extend cutoff rem prov b ids t : sp = Extend -> (tiny <= huge)%R -> built cutoff rem prov b ids t -> forall S, lists ids S -> incl S P -> placed DN co r S -> filled DN t.
Proof.
  intros Ee Hth. pose proof (fun prov ids S ps => extend_fin prov ids S ps Ee Hth) as Hex. clear Ee. induction 1 as [prov b ids|rem prov b ids ps Hc Hsp'|rem prov b ids ps ch Hc Hsp' Hl Hch IH]; intros S Hids Hs Hp k ch' Hbl H2.
  - inversion Hbl as [|? ? ? c Hin Hbl']; subst; [cbn in H2; lia|]. destruct Hin as [<-|[]]. inversion Hbl'.
  - destruct (Hex prov ids S ps Hids Hs Hp Hsp') as (u & Hu & Hf). pose proof (bt_last D pts tiny huge sp cutoff rem prov b ids ps Hc Hsp') as Hb.
    destruct (built_has _ _ _ _ _ _ Hb S u Hids Hs Hp Hu Hf) as (d & s & HL & Hz & Hh). inversion Hbl as [|? ? ? c Hin Hbl']; subst; [exists d, s, u; auto|]. apply in_map_iff in Hin as (p & <- & _). inversion Hbl'.
  - destruct (Hex prov ids S ps Hids Hs Hp Hsp') as (u & Hu & Hf). pose proof (bt_more D pts tiny huge sp cutoff rem prov b ids ps ch Hc Hsp' Hl Hch) as Hb.
    destruct (built_has _ _ _ _ _ _ Hb S u Hids Hs Hp Hu Hf) as (d & s & HL & Hz & Hh). inversion Hbl as [|? ? ? c Hin Hbl']; subst; [exists d, s, u; auto|].
    apply In_nth_error in Hin as [i Ei]. destruct (nth_error ps i) as [p|] eqn:Ep; [|apply nth_error_None in Ep; assert (i < length ch) by (apply nth_error_Some; congruence); lia].
    destruct (split_facts ids S Hids Hs Hp prov ps Hsp') as (qs & _ & _ & _ & Hpt). destruct (Hpt i p Ep) as (Hli & Sub & Hpl).
    apply (IH i p c Ep Ei (pts_at qs i) Hli (fun v Hv => Hs v (Sub v Hv)) Hpl k ch' Hbl' H2).
Qed.
(** There are such trees. *)
Lemma split_set_ex prov ids S : lists ids S -> incl S P -> placed DN co r S -> (exists u, In u S /\ fin u) ->
  (sp = Extend -> exists u v, In u S /\ In v S /\ fin u /\ fin v /\ u <> v) -> exists ps, split_set prov ids ps.
Proof.
  intros Hids Hs Hp Hu H2. assert (Ew : forall i, In i (concat [S]) <-> In i S) by (intros i; cbn [concat]; now rewrite app_nil_r).
  destruct (C35_stats_partial D pts tiny huge S co [S] (d30 D HD) (small_in D co r S Hp) (coords_in D HD pts co r S Hp (sub_get S Hs)) Ew) as [st [Est _]].
  pose proof (stats_right D HD pts tiny huge co r S Hp Hu (sub_get S Hs) (sub_huge S Hs) Htiny [S] st Ew Est) as Hst.
  pose proof (C35_covers D pts tiny huge S co [S] st (d30 D HD) (small_in D co r S Hp) (coords_in D HD pts co r S Hp (sub_get S Hs)) Ew Est) as Hcov.
  assert (Hn : NoDup (concat [S])) by (cbn [concat]; rewrite app_nil_r; apply Hids).
  destruct (parted_by_ex D HD pts tiny huge co r S Hp (proj1 Hids) (sub_len ids S Hids Hs) (sub_get S Hs) (sub_huge S Hs) Htiny sp prov Hsp ids [S] st (fun _ => 0%N) Hids Hst Hcov Hn Ew H2) as [ps Hps].
  exists ps, S, [S], st, (fun _ => 0%N), [S]. auto 10.
Qed.
Lemma built_ex cutoff rem prov b ids S : lists ids S -> incl S P -> placed DN co r S -> (exists u, In u S /\ fin u) ->
  (sp = Extend -> exists u v, In u S /\ In v S /\ fin u /\ fin v /\ u <> v) -> set_size ids <= cutoff -> exists t, built cutoff (Datatypes.S rem) prov b ids t.
Proof. intros Hids Hs Hp Hu H2 Hc. destruct (split_set_ex prov ids S Hids Hs Hp Hu H2) as [ps Hps]. eexists. exact (bt_last D pts tiny huge sp cutoff rem prov b ids ps Hc Hps). Qed.
End Old.
