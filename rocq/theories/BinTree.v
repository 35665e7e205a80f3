(** Nodes with two children, parted by a hyperplane, keep the contract of LbSpec. *)
From Coq Require Import Classical Lra Lia.
From Verif Require Import Outcome ListUtil LPSetModel LPSetHistory SimplexModel GeoModel GeoSpec DelSpec PlaceSpec TreeModel TreeSpec SplitModel SplitProofs LbModel LbSpec LbProofs LbTrees PartModel KWayProofs KTree SampProofs BisectModel BisectSpec BisectProofs HypSpec.
Local Open Scope nat_scope.

Section Bin.
Variable D : nat.
Hypothesis HD : 0 < D <= 8.
Variable co : N -> vec.
Variable r : vec.
Variable C : Type.
Variable meets : C -> sphere -> simplex -> bool.
Notation DN := (N.of_nat D).
Notation fin v := (p_finite DN v = true).
Notation cover := (LbSpec.covers DN co C meets).

(** Points of the side where [h] is positive and a point of the other one. *)
Lemma parted_pos h (l : list N) p : affine D h -> (forall u, In u l -> (0 < h (co u))%R) -> (h p <= 0)%R -> parted D co l p.
Proof.
  intros Ha Hl Hp. destruct (least_above (fun u => h (co u)) 0 l Hl) as (m & M1 & M2). exists (fun x => h x - m)%R. split.
  - destruct Ha as (a & b & E). exists a, (b - m)%R. intros x. rewrite E. ring.
  - split; [lra|]. intros u Hu. specialize (M2 u Hu). cbv beta in M2. lra.
Qed.
Lemma parted_neg h (l : list N) p : affine D h -> (forall u, In u l -> (h (co u) <= 0)%R) -> (0 < h p)%R -> parted D co l p.
Proof.
  intros Ha Hl Hp. exists (fun x => - h x)%R. split.
  - destruct Ha as (a & b & E). exists (fun d => - a d)%R, (- b)%R. intros x. rewrite E. assert (X : sumn D (fun d => - a d * x d)%R = (- sumn D (fun d => a d * x d))%R) by (clear; induction D as [|n IH]; cbn [sumn]; lra). rewrite X. ring.
  - split; [lra|]. intros u Hu. specialize (Hl u Hu). lra.
Qed.

Variables (S L Q : list N) (side : N -> bool) (h : vec -> R).
Hypothesis Hp : placed DN co r S.
Hypothesis Hnd : NoDup S.
Hypothesis HL : forall v, In v L <-> In v S /\ (fin v -> side v = true).
Hypothesis HR : forall v, In v Q <-> In v S /\ (fin v -> side v = false).
Hypothesis Hh : affine D h.
Hypothesis Hsep : (forall v, In v S -> fin v -> if side v then (0 < h (co v))%R else (h (co v) <= 0)%R) \/ (forall v, In v S -> fin v -> if side v then (h (co v) <= 0)%R else (0 < h (co v))%R).
Hypothesis Hsome : exists u, In u S /\ fin u.
(** The checker of an empty side reaches beyond the points of the other one. *)
Definition beyond (k : C) : Prop := exists u p, In u S /\ fin u /\ cover k p /\
  ((forall d, d < D -> (Rabs (p d) <= r d)%R) /\ parted D co (filter (p_finite DN) S) p \/
   p = co u /\ exists g y, affine D g /\ g (co u) = 0%R /\ (forall v, In v S -> fin v -> (0 <= g (co v))%R) /\ (forall d, d < D -> (Rabs (y d) <= r d)%R) /\ (g y < 0)%R).
Lemma bin_node k kl kr lt rt : tree_ok DN co r C meets lt L -> tree_ok DN co r C meets rt Q -> t_ck lt = Some kl -> t_ck rt = Some kr ->
  (forall v, In v S -> fin v -> side v = true -> cover kl (co v)) -> (forall v, In v S -> fin v -> side v = false -> cover kr (co v)) ->
  ((forall v, In v S -> fin v -> side v = false) -> beyond kl) -> ((forall v, In v S -> fin v -> side v = true) -> beyond kr) ->
  tree_ok DN co r C meets (Tnode (Some k) [lt; rt]) S.
Proof.
  intros Tl Tr Kl Kr Cl Cr Bl Br. set (pt i := match i with 0 => L | _ => Q end).
  assert (Two : forall i, i < 2 -> i = 0 \/ i = 1) by lia.
  assert (Inf : forall v, (p_inf DN <= v < 2 ^ 64)%N -> In v S /\ ~ fin v).
  { intros v Hv. split; [now apply (pl_inf _ _ _ _ Hp)|]. intros F. apply (inf_in D ltac:(lia)) in Hv. pose proof (inf_not_finite D ltac:(lia) v Hv). congruence. }
  assert (Sub : forall i, parted D co (filter (p_finite DN) S) i -> forall j, parted D co (filter (p_finite DN) (pt j)) i).
  { intros p (g & A & B & Z) j. exists g. split; [exact A|]. split; [exact B|]. intros u Hu. apply Z. rewrite filter_In in *. split; [|apply Hu]. destruct j; [apply HL|apply HR]; apply Hu. }
  apply tk_node with (pt := pt).
  - cbn. lia.
  - exact Hnd.
  - intros [|[|i]] c E; cbn [nth_error] in E; try (destruct i; discriminate); injection E as <-; assumption.
  - cbn [length]. constructor.
    + intros v. split.
      * intros Hv. destruct (p_finite DN v) eqn:F; [|exists 0; split; [lia|]; cbn [pt]; apply HL; split; [exact Hv|congruence]]. destruct (side v) eqn:E; [exists 0|exists 1]; (split; [lia|]; cbn [pt]); [apply HL|apply HR]; auto.
      * intros (i & Hi & Hv). destruct (Two i Hi) as [-> | ->]; cbn [pt] in Hv; [apply HL in Hv|apply HR in Hv]; tauto.
    + intros i j v Hi Hj Hvi Hvj F. destruct (Two i Hi) as [-> | ->], (Two j Hj) as [-> | ->]; try reflexivity; exfalso; cbn [pt] in *; [apply HL in Hvi; apply HR in Hvj; destruct Hvi as [_ X], Hvj as [_ Y]|apply HR in Hvi; apply HL in Hvj; destruct Hvi as [_ X], Hvj as [_ Y]]; specialize (X F); specialize (Y F); congruence.
    + intros i v Hi Hv. destruct (Inf v Hv) as [I1 I2]. destruct (Two i Hi) as [-> | ->]; cbn [pt]; [apply HL|apply HR]; (split; [exact I1|]; intros F; now elim I2).
    + destruct Hsome as (u & Hu & Fu). destruct (side u) eqn:E; [exists 0, u|exists 1, u]; (split; [lia|]; split; [|exact Fu]; cbn [pt]); [apply HL|apply HR]; auto.
    + intros i j v Hi Hj Hij Hv Fv. rewrite Nat2N.id. destruct (Two i Hi) as [-> | ->], (Two j Hj) as [-> | ->]; try congruence; cbn [pt] in *.
      * apply HR in Hv as [Hv Ev]. specialize (Ev Fv). destruct Hsep as [Z|Z]; pose proof (Z v Hv Fv) as Qv; rewrite Ev in Qv; [apply (parted_pos h)|apply (parted_neg h)]; try exact Hh; try exact Qv; intros u Hu; apply filter_In in Hu as [Hu Fu]; apply HL in Hu as [Hu Eu]; specialize (Z u Hu Fu); now rewrite (Eu Fu) in Z.
      * apply HL in Hv as [Hv Ev]. specialize (Ev Fv). destruct Hsep as [Z|Z]; pose proof (Z v Hv Fv) as Qv; rewrite Ev in Qv; [apply (parted_neg h)|apply (parted_pos h)]; try exact Hh; try exact Qv; intros u Hu; apply filter_In in Hu as [Hu Fu]; apply HR in Hu as [Hu Eu]; specialize (Z u Hu Fu); now rewrite (Eu Fu) in Z.
  - intros [|[|i]] c k' v E Ek Hv Fv; cbn [nth_error] in E; try (destruct i; discriminate); injection E as <-; cbn [pt] in Hv.
    + assert (k' = kl) by congruence. subst k'. apply HL in Hv as [Hv Ev]. auto.
    + assert (k' = kr) by congruence. subst k'. apply HR in Hv as [Hv Ev]. auto.
  - destruct (classic (exists v, In v S /\ fin v /\ side v = true)) as [(u & Hu & Fu & Eu)|No1]; [destruct (classic (exists v, In v S /\ fin v /\ side v = false)) as [(v & Hv & Fv & Ev)|No2]|].
    + left. exists 0, 1, u, v. cbn [length pt]. split; [lia|]. split; [lia|]. split; [lia|]. split; [apply HL; auto|]. split; [exact Fu|]. split; [apply HR; auto|exact Fv].
    + right. assert (All : forall v, In v S -> fin v -> side v = true) by (intros v Hv Fv; destruct (side v) eqn:E; [reflexivity|]; exfalso; eauto).
      destruct (Br All) as (w & p & Hw & Fw & Hc & H). exists 0, 1, rt, kr, w, p. cbn [length nth_error pt]. rewrite Nat2N.id. split; [lia|]. split; [reflexivity|]. split; [exact Kr|]. split; [lia|]. split; [apply HL; auto|]. split; [exact Fw|]. split; [exact Hc|].
      destruct H as [[H1 H2]|(E & g & y & H)]; [left|right; right]; [split; [exact H1|exact (Sub p H2 0)]|]. split; [exact E|]. exists g, y. destruct H as (A1 & A2 & A3 & A4). split; [exact A1|]. split; [exact A2|]. split; [|exact A4]. intros v Hv. apply HL in Hv as [Hv _]. auto.
    + right. assert (All : forall v, In v S -> fin v -> side v = false) by (intros v Hv Fv; destruct (side v) eqn:E; [|reflexivity]; exfalso; eauto).
      destruct (Bl All) as (w & p & Hw & Fw & Hc & H). exists 1, 0, lt, kl, w, p. cbn [length nth_error pt]. rewrite Nat2N.id. split; [lia|]. split; [reflexivity|]. split; [exact Kl|]. split; [lia|]. split; [apply HR; auto|]. split; [exact Fw|]. split; [exact Hc|].
      destruct H as [[H1 H2]|(E & g & y & H)]; [left|right; right]; [split; [exact H1|exact (Sub p H2 1)]|]. split; [exact E|]. exists g, y. destruct H as (A1 & A2 & A3 & A4). split; [exact A1|]. split; [exact A2|]. split; [|exact A4]. intros v Hv. apply HR in Hv as [Hv _]. auto.
Qed.
End Bin.

(** The size of such a tree. *)
Lemma bin_size {C} (t0 : ptree C) t P : tree_of t0 t -> forall k, (forall q l, leaf_ids t0 q l -> length q <= k /\ NoDup l /\ incl l P) ->
  exists l, Leaves t l /\ entries l <= Nat.pow 2 k * length P /\ height t <= k /\ width t <= 2.
Proof.
  induction 1 as [ck s ids Hs|ck l r l' r' _ IHl _ IHr]; intros k Hk.
  - exists [(ck, s)]. split; [constructor|]. split; [|cbn [height width]; lia]. destruct (Hk [] ids ltac:(now apply leaf_leaf)) as (_ & H1 & H2). change (entries [(ck, s)]) with (set_size s + 0). rewrite (lists_len s ids Hs). pose proof (NoDup_incl_length H1 H2). pose proof (Nat.pow_nonzero 2 k ltac:(lia)). nia.
  - destruct k as [|k].
    { exfalso. destruct (some_leaf l) as (q & x & Hq). destruct (Hk (false :: q) x) as [X _]; [apply leaf_node; exists false, q; auto|]. cbn in X. lia. }
    destruct (IHl k) as (a & A1 & A2 & A3 & A4). { intros q x Hq. destruct (Hk (false :: q) x) as [X Y]; [apply leaf_node; exists false, q; auto|]. cbn [length] in X. split; [lia|exact Y]. }
    destruct (IHr k) as (b & B1 & B2 & B3 & B4). { intros q x Hq. destruct (Hk (true :: q) x) as [X Y]; [apply leaf_node; exists true, q; auto|]. cbn [length] in X. split; [lia|exact Y]. }
    exists (a ++ b). split; [replace (a ++ b) with (concat [a; b]) by (cbn [concat]; now rewrite app_nil_r); constructor; repeat constructor; assumption|]. split; [|split; [cbn [height]; lia|cbn [width length]; lia]].
    unfold entries in *. rewrite map_app, list_sum_app. cbn [Nat.pow]. nia.
Qed.
