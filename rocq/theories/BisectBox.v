(** Proofs about the box estimating and the nearest sample bipartitioners. *)
From Coq Require Import Reals Lia Lra List Sorted Permutation.
From Verif Require Import Outcome ListUtil WordsModel LPSetModel SimplexModel PointModel GeoModel GeoSpec GeoProofs GeoBox PointProofs PartModel PartProofs SampleModel KWayModel KWayProofs MakerModel MakerProofs AssignModel AssignProofs BisectModel BisectSpec BisectProofs.
Open Scope list_scope.
Import ListNotations.
Local Open Scope R_scope.

(** [x] is a median of the coordinates [d] of [l]. *)
Definition median (d : nat) (l : list vec) (x : R) : Prop :=
  (length (filter (fun v => rltb (v d) x) l) <= length l / 2)%nat /\ (length (filter (fun v => rltb x (v d)) l) <= length l / 2)%nat /\ exists v, In v l /\ v d = x.
Definition sorts (srt : nat -> list vec -> list vec) : Prop := forall d l, Permutation l (srt d l) /\ StronglySorted (fun a b => a d <= b d) (srt d l).

Lemma filter_none {A} (f : A -> bool) l : (forall x, In x l -> f x = false) -> filter f l = [].
Proof. induction l as [|a l IH]; intros H; [reflexivity|]. cbn [filter]. rewrite (H a) by now left. apply IH. intros; apply H; now right. Qed.
Lemma filter_le {A} (f : A -> bool) l : (length (filter f l) <= length l)%nat.
Proof. induction l as [|a l IH]; cbn [filter length]; [lia|]. destruct (f a); cbn [length]; lia. Qed.
Lemma filter_perm {A} (f : A -> bool) l l' : Permutation l l' -> length (filter f l) = length (filter f l').
Proof. intros H. induction H; cbn [filter]; [reflexivity|destruct (f x); cbn [length]; lia|destruct (f x), (f y); reflexivity|lia]. Qed.
Lemma sorted_split {A} (R : A -> A -> Prop) l1 x l2 : StronglySorted R (l1 ++ x :: l2) -> (forall y, In y l1 -> R y x) /\ forall y, In y l2 -> R x y.
Proof.
  induction l1 as [|a l1 IH]; cbn [app]; intros H; inversion H as [|? ? S F]; subst.
  - split; [intros y []|]. intros y Hy. rewrite Forall_forall in F. auto.
  - destruct (IH S) as [A1 A2]. split; [|exact A2]. intros y [<-|Hy]; [|auto]. rewrite Forall_forall in F. apply F, in_app_iff. right. now left.
Qed.
Lemma median_sorted d l l' v : Permutation l l' -> StronglySorted (fun a b => a d <= b d) l' -> nth_error l' (length l / 2) = Some v -> median d l (v d).
Proof.
  intros P S H. destruct (nth_error_split _ _ H) as (l1 & l2 & -> & L1). destruct (sorted_split _ _ _ _ S) as [A1 A2]. pose proof (Permutation_length P) as L. rewrite app_length in L. cbn [length] in L.
  unfold median. rewrite !(filter_perm _ _ _ P). rewrite !filter_app. cbn [filter].
  assert (Z : rltb (v d) (v d) = false) by (apply rltb_false; lra). rewrite Z. rewrite (filter_none (fun w => rltb (w d) (v d)) l2) by (intros y Hy; apply rltb_false; auto). rewrite (filter_none (fun w => rltb (v d) (w d)) l1) by (intros y Hy; apply rltb_false; auto).
  rewrite app_nil_r. cbn [app]. unfold vec in *. split; [pose proof (filter_le (fun w => rltb (w d) (v d)) l1); lia|]. split; [pose proof (filter_le (fun w => rltb (v d) (w d)) l2); pose proof (Nat.div_mod_eq (length l) 2); pose proof (Nat.mod_upper_bound (length l) 2); lia|].
  exists v. split; [|reflexivity]. apply (Permutation_in v (Permutation_sym P)). apply in_app_iff. right. now left.
Qed.

Section E.
Variable D : nat.
Variable srt : nat -> list vec -> list vec.
Hypothesis Hs : sorts srt.
Lemma est_loop_ok mid : forall ds l, (mid < length l)%nat -> exists q, est_loop D srt mid l ds = Val q /\ length (fst q) = length ds /\ length (snd q) = length ds /\
  forall j d x, nth_error ds j = Some d -> nth_error (fst q) j = Some x -> mid = (length l / 2)%nat -> median d l x.
Proof using Hs.
  induction ds as [|d ds IH]; intros l Hl; cbn [est_loop].
  - eexists. split; [reflexivity|]. cbn [fst snd length]. split; [reflexivity|]. split; [reflexivity|]. intros [|j] d x H; discriminate.
  - destruct (Hs d l) as [P S]. pose proof (Permutation_length P) as L. destruct (get_ok (srt d l) mid) as (v & -> & Hv); [lia|]. cbn [rbind]. destruct (IH (srt d l)) as (q & -> & L1 & L2 & Q); [lia|]. cbn [rmap]. eexists. split; [reflexivity|]. cbn [fst snd length].
    split; [lia|]. split; [lia|]. intros [|j] e x Hd Hx Hm; cbn [nth_error] in *.
    + injection Hd as <-. injection Hx as <-. rewrite Hm in Hv. eapply median_sorted; eassumption.
    + assert (M : median e (srt d l) x) by (eapply Q; [exact Hd|exact Hx|now rewrite <- L]). unfold median in *. rewrite !(filter_perm _ _ _ P), L. destruct M as (A & B & v' & C1 & C2). split; [exact A|]. split; [exact B|]. exists v'. split; [|exact C2]. apply (Permutation_in _ (Permutation_sym P)), C1.
Qed.
Hypothesis HD0 : (0 < D)%nat.
Lemma est_ok l b : exists d x, est_boxes D srt l b = Val (split_box b d x) /\ (d < D)%nat /\ (l <> [] -> median d l x) /\ (l = [] -> x = (b_lo b 0%nat + b_hi b 0%nat) / 2 /\ d = 0%nat).
Proof using Hs HD0.
  unfold est_boxes. destruct l as [|v l]; [exists 0%nat, ((b_lo b 0%nat + b_hi b 0%nat) / 2); split; [reflexivity|]; split; [exact HD0|]; split; [congruence|auto]|].
  set (l0 := v :: l). destruct (est_loop_ok (length l0 / 2) (seq 0 D) l0) as (q & -> & L1 & L2 & Q); [apply Nat.div_lt; cbn [length l0]; lia|]. cbn [rbind]. rewrite seq_length in *.
  destruct (min_idx_spec (snd q)) as [M _]; [intros X; rewrite X in L2; cbn in L2; lia|]. destruct (get_ok (fst q) (min_idx (snd q))) as (x & -> & Hx); [lia|]. cbn [rbind]. exists (min_idx (snd q)), x. split; [reflexivity|]. split; [lia|]. split; [|discriminate]. intros _. eapply Q; [|exact Hx|reflexivity].
  rewrite (nth_error_nth' (seq 0 D) 0%nat) by (rewrite seq_length; lia). now rewrite seq_nth by lia.
Qed.
End E.

Section S.
Variable D : nat.
Variable pts : points vec.
Notation Dn := (N.of_nat D).
Notation fin := (p_finite Dn).
Variable co : N -> vec.
Lemma sep_ok b : forall ids l r, (forall i, In i ids -> fin i = true -> p_get Dn pts i = Val (co i)) -> exists l' r', e_sep D pts b ids l r = Val (l', r') /\ (NoDup l -> NoDup l') /\ (NoDup r -> NoDup r') /\
  (forall x, In x l' <-> In x l \/ (In x ids /\ fin x = true /\ in_box D b (co x))) /\ (forall x, In x r' <-> In x r \/ (In x ids /\ fin x = true /\ ~ in_box D b (co x))).
Proof using.
  induction ids as [|i ids IH]; intros l r Hg; cbn [e_sep].
  - exists l, r. split; [reflexivity|]. cbn [In]. split; [auto|]. split; [auto|]. split; intros x; tauto.
  - destruct (fin i) eqn:Ef.
    + rewrite (Hg i (or_introl eq_refl) Ef). cbn [rbind]. destruct (box_has D b (co i)) eqn:Eb.
      * apply box_has_spec in Eb. destruct (IH (k_add i l) r) as (l' & r' & E & N1 & N2 & Q1 & Q2); [intros; apply Hg; [now right|assumption]|]. exists l', r'. split; [exact E|]. split; [intros N; apply N1, k_add_nodup, N|]. split; [exact N2|]. cbn [In]. split; intros x; [rewrite Q1, k_add_in|rewrite Q2]; intuition (subst; auto; try contradiction).
      * assert (Nb : ~ in_box D b (co i)) by (intros X; apply box_has_spec in X; congruence). destruct (IH l (k_add i r)) as (l' & r' & E & N1 & N2 & Q1 & Q2); [intros; apply Hg; [now right|assumption]|]. exists l', r'. split; [exact E|]. split; [exact N1|]. split; [intros N; apply N2, k_add_nodup, N|]. cbn [In]. split; intros x; [rewrite Q1|rewrite Q2, k_add_in]; intuition (subst; auto; try contradiction).
    + destruct (IH l r) as (l' & r' & E & N1 & N2 & Q1 & Q2); [intros; apply Hg; [now right|assumption]|]. exists l', r'. split; [exact E|]. split; [exact N1|]. split; [exact N2|]. cbn [In]. split; intros x; [rewrite Q1|rewrite Q2]; intuition (subst; auto; try congruence).
Qed.
(** Whatever the place of the cut, a point of the box that is not in the left part is in the right one. *)
Lemma split_rest b d x p : (d < D)%nat -> in_box D b p -> ~ in_box D (fst (split_box b d x)) p -> in_box D (snd (split_box b d x)) p.
Proof using.
  intros Hd H N. destruct (Rle_dec (p d) x) as [L|L].
  - destruct N. intros i Hi. specialize (H i Hi). cbn [split_box fst b_lo b_hi]. destruct (Nat.eq_dec i d) as [->|Ne]; [rewrite vset_same; lra|rewrite vset_other by exact Ne; lra].
  - intros i Hi. specialize (H i Hi). cbn [split_box snd b_lo b_hi]. destruct (Nat.eq_dec i d) as [->|Ne]; [rewrite vset_same; lra|rewrite vset_other by exact Ne; lra].
Qed.
Lemma box_covers b i s : (0 < D)%nat -> in_box D b (co i) -> in_ball D s (co i) -> box_meets D b s = true.
Proof using.
  intros H0 Hb Hs. apply box_meets_spec; [|exact H0|exists (co i); auto]. intros d Hd. specialize (Hb d Hd). lra.
Qed.
Variable smp : list bool -> list N -> samp.
Variable srt : nat -> list vec -> list vec.
Hypothesis HD : (Dn <= 30)%N.
Hypothesis HD0 : (0 < D)%nat.
Hypothesis Hsm : forall path ids, samp_ok (smp path ids).
Hypothesis Hs : sorts srt.
Variable cutoff : nat.
Definition boxed (b : box) (ids : list N) : Prop := forall i, In i ids -> fin i = true -> in_box D b (co i).
Lemma e_build_ok : forall rem path b ids, NoDup ids -> (forall i, In i ids -> fin i = true -> p_get Dn pts i = Val (co i)) ->
  exists t, e_build D pts smp srt cutoff rem path b ids = Val t /\ divided fin ids t /\ (forall q l, leaf_ids t q l -> (length q <= rem)%nat /\ (length q = rem \/ (length l < cutoff)%nat)) /\
  (forall q l, leaf_ids t q l -> q <> [] \/ incl (inf_ids D) ids -> incl (inf_ids D) l) /\ ck_of t = Some b /\
  (boxed b ids -> forall q u, at_path t q u -> exists bx, ck_of u = Some bx /\ forall q' l, leaf_ids u q' l -> boxed bx l) /\
  (forall q ck l r, at_path t q (PNode (Some ck) l r) -> exists d x, (d < D)%nat /\ ck_of l = Some (fst (split_box ck d x)) /\ ck_of r = Some (snd (split_box ck d x))).
Proof using HD HD0 Hsm Hs.
  induction rem as [|rem IH]; intros path b ids Hn Hg.
  - exists (PLeaf (Some b) ids). cbn [e_build]. split; [reflexivity|]. split; [now apply divided_leaf|]. split; [intros q l H; apply leaf_leaf in H; destruct H as [-> ->]; cbn [length]; lia|]. split; [intros q l H [X|X]; apply leaf_leaf in H; destruct H as [-> ->]; [congruence|exact X]|]. split; [reflexivity|].
    split; [intros Hb q u Hu; inversion Hu; subst; exists b; split; [reflexivity|]; intros q' l H; apply leaf_leaf in H; now destruct H as [_ ->]|intros q ck l r H; inversion H].
  - cbn [e_build]. destruct (Nat.leb_spec cutoff (length ids)) as [Lc|Lc].
    + destruct (cut_ok (smp path ids) (Hsm path ids) (fun pa pb => Z.eqb 0 pa && negb (Z.eqb 0 pb))) as (es & ps & -> & E2 & _). cbn [rbind]. rewrite E2. cbn [rbind]. destruct (est_ok D srt Hs HD0 ps b) as (d & x & -> & Hd & _). cbn [rbind].
      set (bl := fst (split_box b d x)). set (br := snd (split_box b d x)). destruct (sep_ok bl ids [] [] Hg) as (il & ir & -> & N1 & N2 & Q1 & Q2). cbn [rbind fst snd]. specialize (N1 (NoDup_nil _)). specialize (N2 (NoDup_nil _)).
      assert (A1 : forall y, In y (add_infs D il) <-> In y (inf_ids D) \/ In y il) by (intros; apply add_fold_in). assert (A2 : forall y, In y (add_infs D ir) <-> In y (inf_ids D) \/ In y ir) by (intros; apply add_fold_in).
      assert (F : forall i, fin i = true -> ~ In i (inf_ids D)) by (intros i Hf X; apply (inf_not_finite D HD) in X; congruence).
      destruct (IH (false :: path) bl (add_infs D il)) as (lt & -> & Dl & Ll & Il & Kl & Bl & Sl); [now apply add_fold_nodup|intros i Hi Hf; apply A1 in Hi; destruct Hi as [Hi|Hi]; [destruct (F i Hf Hi)|]; apply Q1 in Hi; destruct Hi as [[]|(Hi & _)]; auto|]. cbn [rbind].
      destruct (IH (true :: path) br (add_infs D ir)) as (rt & -> & Dr & Lr & Ir & Kr & Br & Sr); [now apply add_fold_nodup|intros i Hi Hf; apply A2 in Hi; destruct Hi as [Hi|Hi]; [destruct (F i Hf Hi)|]; apply Q2 in Hi; destruct Hi as [[]|(Hi & _)]; auto|]. cbn [rmap].
      exists (PNode (Some b) lt rt). split; [reflexivity|]. assert (Dv : divided fin ids (PNode (Some b) lt rt)).
      { apply divided_node with (add_infs D il) (add_infs D ir); [| |exact Dl|exact Dr].
        - intros i Hi Hf. rewrite A1, A2, Q1, Q2. cbn [In]. pose proof (F i Hf). destruct (box_has D bl (co i)) eqn:Eb; [apply box_has_spec in Eb; left|assert (~ in_box D bl (co i)) by (intros X; apply box_has_spec in X; congruence); right]; tauto.
        - intros i [Hi|Hi]; [rewrite A1, Q1 in Hi|rewrite A2, Q2 in Hi]; cbn [In] in Hi; (destruct Hi as [Hi|[[]|(Hi & _)]]; [right; now apply (inf_not_finite D HD)|now left]). }
      split; [exact Dv|]. split. { intros q l H. apply leaf_node in H. destruct H as ([|] & q' & -> & H); cbn [length]; [destruct (Lr q' l H) as [X [Y|Y]]|destruct (Ll q' l H) as [X [Y|Y]]]; lia. }
      split. { intros q l H _. apply leaf_node in H. destruct H as ([|] & q' & -> & H); [apply (Ir q' l H)|apply (Il q' l H)]; right; intros y Hy; [apply A2|apply A1]; now left. }
      split; [reflexivity|]. split.
      * intros Hb q u Hu. inversion Hu; subst.
        -- exists b. split; [reflexivity|]. intros q' l H i Hi Hf. destruct Dv as [_ Dv]. destruct (Dv q' l H) as [_ Q]. destruct (Q i Hi) as [Y|Y]; [now apply Hb|congruence].
        -- apply Bl with p; [|assumption]. intros i Hi Hf. apply A1 in Hi. destruct Hi as [Hi|Hi]; [destruct (F i Hf Hi)|]. apply Q1 in Hi. destruct Hi as [[]|Hi]. tauto.
        -- apply Br with p; [|assumption]. intros i Hi Hf. apply A2 in Hi. destruct Hi as [Hi|Hi]; [destruct (F i Hf Hi)|]. apply Q2 in Hi. destruct Hi as [[]|(Hi & _ & Nb)]. apply split_rest; auto.
      * intros q ck l r H. inversion H; subst; [exists d, x; auto|eapply Sl; eassumption|eapply Sr; eassumption].
    + exists (PLeaf (Some b) ids). split; [reflexivity|]. split; [now apply divided_leaf|]. split; [intros q l H; apply leaf_leaf in H; destruct H as [-> ->]; cbn [length]; lia|]. split; [intros q l H [X|X]; apply leaf_leaf in H; destruct H as [-> ->]; [congruence|exact X]|]. split; [reflexivity|].
      split; [intros Hb q u Hu; inversion Hu; subst; exists b; split; [reflexivity|]; intros q' l H; apply leaf_leaf in H; now destruct H as [_ ->]|intros q ck l r H; inversion H].
Qed.
(** The first split. *)
Lemma e_root rem path b ids ck lt rt : e_build D pts smp srt cutoff rem path b ids = Val (PNode ck lt rt) -> NoDup ids -> (forall i, In i ids -> fin i = true -> p_get Dn pts i = Val (co i)) ->
  exists ps d x, (forall m, In m ps -> cut_mid (smp path ids) (fun a b => a = 0%Z /\ b <> 0%Z) m) /\ (forall m, cut_mid (smp path ids) (fun a b => a = 0%Z /\ b <> 0%Z) m -> exists m', In m' ps /\ forall d, m' d = m d) /\
  (d < D)%nat /\ (ps <> [] -> median d ps x) /\ (ps = [] -> x = (b_lo b 0%nat + b_hi b 0%nat) / 2 /\ d = 0%nat) /\ ck_of lt = Some (fst (split_box b d x)) /\ ck_of rt = Some (snd (split_box b d x)) /\
  forall i, In i ids -> fin i = true -> ((exists q l, leaf_ids lt q l /\ In i l) <-> in_box D (fst (split_box b d x)) (co i)).
Proof using HD HD0 Hsm Hs.
  intros E Hn Hg. destruct rem as [|rem]; [discriminate|]. cbn [e_build] in E. destruct (cutoff <=? length ids)%nat; [|discriminate].
  destruct (cut_ok (smp path ids) (Hsm path ids) (fun pa pb => Z.eqb 0 pa && negb (Z.eqb 0 pb))) as (es & ps & E1 & E2 & P1 & P2). rewrite E1 in E. cbn [rbind] in E. rewrite E2 in E. cbn [rbind] in E. destruct (est_ok D srt Hs HD0 ps b) as (d & x & E3 & Hd & M1 & M2). rewrite E3 in E. cbn [rbind] in E.
  destruct (sep_ok (fst (split_box b d x)) ids [] [] Hg) as (il & ir & E4 & N1 & N2 & Q1 & Q2). rewrite E4 in E. cbn [rbind fst snd] in E. specialize (N1 (NoDup_nil _)). specialize (N2 (NoDup_nil _)).
  assert (A1 : forall y, In y (add_infs D il) <-> In y (inf_ids D) \/ In y il) by (intros; apply add_fold_in). assert (A2 : forall y, In y (add_infs D ir) <-> In y (inf_ids D) \/ In y ir) by (intros; apply add_fold_in).
  assert (F : forall i, fin i = true -> ~ In i (inf_ids D)) by (intros i Hf X; apply (inf_not_finite D HD) in X; congruence).
  destruct (e_build_ok rem (false :: path) (fst (split_box b d x)) (add_infs D il)) as (lt' & El & [Dl Dl'] & _ & _ & Kl & _); [now apply add_fold_nodup|intros i Hi Hf; apply A1 in Hi; destruct Hi as [Hi|Hi]; [destruct (F i Hf Hi)|]; apply Q1 in Hi; destruct Hi as [[]|(Hi & _)]; auto|]. unfold split_box in *. cbn [fst snd] in *. rewrite El in E. cbn [rbind] in E.
  destruct (e_build_ok rem (true :: path) (mkbox (vset (b_lo b) d x) (b_hi b)) (add_infs D ir)) as (rt' & Er & _ & _ & _ & Kr & _); [now apply add_fold_nodup|intros i Hi Hf; apply A2 in Hi; destruct Hi as [Hi|Hi]; [destruct (F i Hf Hi)|]; apply Q2 in Hi; destruct Hi as [[]|(Hi & _)]; auto|]. rewrite Er in E. cbn [rmap] in E. injection E as _ <- <-.
  assert (X : forall a c : Z, (Z.eqb 0 a && negb (Z.eqb 0 c))%bool = true <-> a = 0%Z /\ c <> 0%Z) by (intros a c; destruct (Z.eqb_spec 0 a); destruct (Z.eqb_spec 0 c); cbn [andb negb]; split; try discriminate; intuition congruence).
  exists ps, d, x. split; [|split; [|split; [exact Hd|split; [exact M1|split; [exact M2|split; [exact Kl|split; [exact Kr|]]]]]]].
  - intros m Hm. destruct (P1 m Hm) as (a & c & pa & pb & u & y & A & B & Cc & Dd & Ee). exists a, c, pa, pb, u, y. apply X in Dd. auto.
  - intros m (a & c & pa & pb & u & y & A & B & Cc & Dd & Ee). apply P2. exists a, c, pa, pb, u, y. apply X in Dd. auto.
  - intros i Hi Hf. pose proof (F i Hf) as Ni. split.
    + intros (q & l & A & B). destruct (Dl' q l A) as [_ Q]. destruct (Q i B) as [Y|Y]; [|congruence]. apply A1 in Y. destruct Y as [Y|Y]; [contradiction|]. apply Q1 in Y. destruct Y as [[]|Y]. tauto.
    + intros A. destruct (Dl i) as (q & l & B & B' & _); [apply A1; right; apply Q1; auto|exact Hf|eauto].
Qed.
End S.

Section N.
Variable D : nat.
Notation Dn := (N.of_nat D).
Notation fin := (p_finite Dn).
Variable keeps : bool.
Variable part : list bool -> N -> res nat.
Hypothesis HD : (Dn <= 30)%N.
Hypothesis HD0 : (0 < D)%nat.
Variable cutoff : nat.
Lemma at_set {C} ck (t u : ptree C) q : at_path (set_ck ck t) q u -> (q = [] /\ u = set_ck ck t) \/ (q <> [] /\ at_path t q u).
Proof using. intros H. destruct t; cbn [set_ck] in H; inversion H; subst; [left; auto|left; auto|right; split; [discriminate|now constructor]..]. Qed.
Lemma ck_set {C} ck (t : ptree C) : ck_of (set_ck ck t) = ck.
Proof using. destruct t; reflexivity. Qed.
Lemma n_make_ok : forall k p path own ids, (1 <= p)%N -> N.log2 p = N.of_nat k -> NoDup ids -> (2 <= length ids)%nat \/ (1 <= cutoff)%nat \/ k = 0%nat -> (forall pa i, In i ids -> fin i = true -> exists j, (j < 2)%nat /\ part pa i = Val j) ->
  exists t, (forall f, (k < f)%nat -> n_make D keeps part f cutoff path own ids p = Val t) /\ divided fin ids t /\ (forall q l, leaf_ids t q l -> (length q <= k)%nat /\ (length q = k \/ (length l <= cutoff)%nat)) /\
  (forall q l, leaf_ids t q l -> q <> [] \/ incl (inf_ids D) ids -> incl (inf_ids D) l) /\
  (forall q u c, at_path t q u -> ck_of u = Some c -> match q with
     | [] => c = NBox
     | [b] => exists j, c = NMade path j (if keeps then Some own else None)
     | _ => exists pa j, c = NMade pa j (if keeps then Some (OLocal (skipn 1 pa)) else None) end) /\
  (forall q u, at_path t q u -> q <> [] -> ck_of u <> None) /\ (forall ck l r, t = PNode ck l r -> ck = None).
Proof using HD HD0.
  induction k as [|k IH]; intros p path own ids Hp Hl Hn Hlen Hpart.
  - exists (PLeaf (Some NBox) ids). split. { intros [|f] Hf; [lia|]. cbn [n_make]. destruct (N.ltb_spec 1 p) as [X|X]; [pose proof (N.log2_pos p X); lia|reflexivity]. }
    split; [now apply divided_leaf|]. split; [intros q l H; apply leaf_leaf in H; destruct H as [-> ->]; cbn [length]; lia|]. split; [intros q l H [X|X]; apply leaf_leaf in H; destruct H as [-> ->]; [congruence|exact X]|].
    split; [intros q u c H Hc; inversion H; subst; cbn [ck_of] in Hc; congruence|]. split; [intros q u H Hq; inversion H; congruence|discriminate].
  - assert (H1 : (1 < p)%N). { destruct (N.ltb_spec 1 p) as [X|X]; [exact X|]. assert (p = 1)%N by lia. subst p. change (N.log2 1) with 0%N in Hl. lia. }
    assert (P2 : (1 <= p / 2)%N) by (apply N.div_le_lower_bound; lia). assert (L2 : N.log2 (p / 2) = N.of_nat k). { rewrite <- N.div2_div, N.div2_spec, N.log2_shiftr. lia. }
    destruct (Nat.ltb_spec cutoff (length ids)) as [Lc|Lc].
    + destruct (m_ids_total D (part path) ids 2) as [ls El]; [lia|intros i Hi Hf; now apply Hpart|]. destruct (m_ids_ok D (part path) ids 2 ls El) as (L & _ & Q). destruct ls as [|il [|ir [|z ls]]]; cbn [length] in L; try lia.
      destruct (Q 0%nat il eq_refl) as [Nl Ql]. destruct (Q 1%nat ir eq_refl) as [Nr Qr]. assert (F : forall i, fin i = true -> ~ In i (inf_ids D)) by (intros i Hf X; apply (inf_not_finite D HD) in X; congruence).
      assert (Il : incl (inf_ids D) il) by (intros x Hx; apply Ql; now left). assert (Ir : incl (inf_ids D) ir) by (intros x Hx; apply Qr; now left).
      destruct (IH (p / 2)%N (false :: path) (OLocal path) il P2 L2 Nl) as (lt & Fl & Dl & Ll & IIl & Kl & Cl & Tl); [left; now apply inf_two with D|intros pa i Hi Hf; apply Ql in Hi; destruct Hi as [Hi|(Hi & _)]; [destruct (F i Hf Hi)|now apply Hpart]|].
      destruct (IH (p / 2)%N (true :: path) (OLocal path) ir P2 L2 Nr) as (rt & Fr & Dr & Lr & IIr & Kr & Cr & Tr); [left; now apply inf_two with D|intros pa i Hi Hf; apply Qr in Hi; destruct Hi as [Hi|(Hi & _)]; [destruct (F i Hf Hi)|now apply Hpart]|].
      set (h := if keeps then Some own else None). exists (PNode None (set_ck (Some (NMade path 0 h)) lt) (set_ck (Some (NMade path 1 h)) rt)).
      split. { intros [|f] Hf; [lia|]. cbn [n_make]. destruct (N.ltb_spec 1 p) as [_|X]; [|lia]. destruct (Nat.ltb_spec cutoff (length ids)) as [_|X]; [|lia]. cbn [andb]. rewrite El. cbn [rbind]. rewrite Fl by lia. cbn [rbind]. rewrite Fr by lia. reflexivity. }
      split. { apply divided_node with il ir; [| |now apply divided_set|now apply divided_set].
        - intros i Hi Hf. destruct (Hpart path i Hi Hf) as (j & Hj & Ej). rewrite Ql, Qr, Ej. pose proof (F i Hf). destruct j as [|[|j]]; [left|right|lia]; (split; [auto|]; intros [X|(_ & _ & X)]; [contradiction|discriminate]).
        - intros i [Hi|Hi]; [apply Ql in Hi|apply Qr in Hi]; (destruct Hi as [Hi|(Hi & _)]; [right; now apply (inf_not_finite D HD)|now left]). }
      split. { intros q l H. apply leaf_node in H. destruct H as ([|] & q' & -> & H); rewrite leaf_set in H; cbn [length]; [destruct (Lr q' l H) as [X [Y|Y]]|destruct (Ll q' l H) as [X [Y|Y]]]; lia. }
      split. { intros q l H _. apply leaf_node in H. destruct H as ([|] & q' & -> & H); rewrite leaf_set in H; [apply (IIr q' l H)|apply (IIl q' l H)]; now right. }
      split. { intros q u c H Hc. inversion H as [|ck l r q' u' H' Eq|ck l r q' u' H' Eq]; subst; [discriminate| |]; apply at_set in H'; (destruct H' as [[-> ->]|[Hq H']]; [rewrite ck_set in Hc; injection Hc as <-; eauto|]).
        - specialize (Kl q' u c H' Hc). destruct q' as [|b [|b' q']]; [congruence|destruct Kl as [j ->]; exists (false :: path), j; reflexivity|exact Kl].
        - specialize (Kr q' u c H' Hc). destruct q' as [|b [|b' q']]; [congruence|destruct Kr as [j ->]; exists (true :: path), j; reflexivity|exact Kr]. }
      split. { intros q u H Hq. inversion H as [|ck l r q' u' H' Eq|ck l r q' u' H' Eq]; subst; [congruence| |]; apply at_set in H'; (destruct H' as [[-> ->]|[Hq' H']]; [rewrite ck_set; discriminate|eauto]). }
      intros ck l r E. congruence.
    + exists (PLeaf (Some NBox) ids). split. { intros [|f] Hf; [lia|]. cbn [n_make]. destruct (Nat.ltb_spec cutoff (length ids)) as [X|_]; [lia|]. now rewrite andb_false_r. }
      split; [now apply divided_leaf|]. split; [intros q l H; apply leaf_leaf in H; destruct H as [-> ->]; cbn [length]; lia|]. split; [intros q l H [X|X]; apply leaf_leaf in H; destruct H as [-> ->]; [congruence|exact X]|].
      split; [intros q u c H Hc; inversion H; subst; cbn [ck_of] in Hc; congruence|]. split; [intros q u H Hq; inversion H; congruence|discriminate].
Qed.
End N.
