(** Proofs about the trees of the sample partitioners. *)
From Coq Require Import Lra Classical.
From Verif Require Import Outcome ListUtil WordsModel LPSetModel LPSetProofs LPSetHistory LPSetIter SimplexModel PointModel PointProofs GeoModel GeoSpec GeoProofs PartModel PartProofs KWayModel KWayProofs Pool MakerModel MakerProofs AssignModel AssignProofs
  TreeModel TreeSpec DelSpec DelGeo PlaceSpec SplitModel SplitProofs GeoBox LbProofs LbModel LbSpec LbTrees KTree StepEx SampModel.
Local Open Scope nat_scope.

(** ** Calm executions exist: the first thread goes on until it is done *)
Section Calm.
Variable D : nat.
Variable pts : points vec.
Definition at_head (p : pool bsh btask) : Prop := forall t, In t (tl (p_tasks p)) -> is_put t = false.
Lemma head_calm p : at_head p -> calm p.
Proof.
  intros H. unfold calm. destruct (p_tasks p) as [|t l] eqn:E; [cbn; lia|]. unfold at_head in H. rewrite E in H. cbn [tl] in H.
  assert (X : filter is_put l = []). { clear E. induction l as [|x l IH]; [reflexivity|]. cbn [filter]. rewrite (H x ltac:(now left)). apply IH. intros y Hy. apply H. now right. }
  cbn [filter]. rewrite X. destruct (is_put t); cbn; lia.
Qed.
Lemma b_next sh t sh' next : b_step D pts sh t = TStep sh' next -> length next <= 1.
Proof.
  destruct t as [j todo pc]. unfold b_step. cbn [b_part b_todo b_pc]. destruct todo as [|i r]; [intros H; injection H as <- <-; cbn; lia|]. destruct pc as [| |v].
  - destruct (p_get _ _ _); try discriminate. destruct (nth_error (s_words sh) _); try discriminate. destruct (nth_error (s_box sh) _); try discriminate. destruct (N.testbit _ _); [destruct o; try discriminate|]; intros H; injection H as <- <-; cbn; lia.
  - destruct (nth_error _ _); try discriminate. intros H; injection H as <- <-; cbn; lia.
  - destruct (Nat.ltb _ _); try discriminate. intros H; injection H as <- <-; cbn; lia.
Qed.
Variable co : N -> vec.
Variable ls : list (list N).
Hypothesis Hget : forall l i, In l ls -> In i l -> p_get (N.of_nat D) pts i = Val (co i).
Lemma start_head : at_head (b_start ls).
Proof using.
  intros t Ht. assert (Hi : In t (p_tasks (b_start ls))) by (destruct (p_tasks (b_start ls)); [destruct Ht|now right]). cbn [b_start p_tasks] in Hi. apply in_map_iff in Hi as (jl & <- & _). reflexivity.
Qed.
Lemma calm_ends : exists b, cexec D pts calm (b_start ls) b /\ p_tasks b = [].
Proof using Hget.
  apply NNPP. intros Hno. set (a := b_start ls). pose (nx := head_next (b_step D pts)).
  assert (Q : forall n, cexec D pts calm a (Nat.iter n nx a) /\ at_head (Nat.iter n nx a) /\ pstep (b_step D pts) (Nat.iter n nx a) (Nat.iter (Datatypes.S n) nx a)).
  { assert (St : forall b, cexec D pts calm a b -> at_head b -> at_head (nx b) /\ pstep (b_step D pts) b (nx b)).
    { intros b E I. unfold nx, head_next. destruct (p_tasks b) as [|t l] eqn:Et; [destruct Hno; eauto|].
      destruct (b_step D pts (p_sh b) t) as [sh' next|] eqn:Es; [|destruct (boxes_safe D pts ls co Hget b t (cexec_exec D pts _ _ _ E)); [rewrite Et; now left|exact Es]]. split; [|exists [], t, l, sh', next; auto].
      intros x Hx. cbn [p_tasks] in Hx. apply b_next in Es. apply I. rewrite Et. cbn [tl]. destruct next as [|y [|z next]]; cbn [app tl length] in *; [destruct l; [destruct Hx|now right]|exact Hx|lia]. }
    induction n as [|n (E & I & S')].
    - assert (E0 : cexec D pts calm a a) by (apply ce_start, head_calm, start_head). split; [exact E0|]. split; [exact start_head|]. now apply St; [|exact start_head].
    - destruct (St _ E I) as [I1 _]. change (Nat.iter (Datatypes.S n) nx a) with (nx (Nat.iter n nx a)) in *. assert (E1 : cexec D pts calm a (nx (Nat.iter n nx a))) by (eapply ce_step; [exact E|exact S'|now apply head_calm]).
      split; [exact E1|]. split; [exact I1|]. now apply (St _ E1 I1). }
  apply (boxes_term D pts ls (fun n => Nat.iter n nx a) eq_refl). intros n. now apply Q.
Qed.
End Calm.

(** ** The first least entry *)
Lemma min_go_first : forall ds m x i pre, m < i -> length pre = i -> nth m pre 0%R = x -> (forall j, j < m -> (x < nth j pre 0)%R) -> (forall j, m <= j < i -> (x <= nth j pre 0)%R) ->
  forall j, j < min_go m x i ds -> (nth (min_go m x i ds) (pre ++ ds) 0 < nth j (pre ++ ds) 0)%R.
Proof.
  induction ds as [|d r IH]; intros m x i pre Hm Hl Hx H1 H2 j Hj; cbn [min_go] in *.
  - rewrite app_nil_r. rewrite Hx. now apply H1.
  - assert (A : pre ++ d :: r = (pre ++ [d]) ++ r) by now rewrite <- app_assoc. rewrite A in *. assert (L : length (pre ++ [d]) = Datatypes.S i) by (rewrite app_length; cbn; lia).
    assert (N1 : forall j, j < i -> nth j (pre ++ [d]) 0%R = nth j pre 0%R) by (intros; apply app_nth1; lia). assert (N2 : nth i (pre ++ [d]) 0%R = d) by (rewrite app_nth2 by lia; now replace (i - length pre) with 0 by lia).
    destruct (rltb d x) eqn:E.
    + apply rltb_iff in E. apply (IH i d (Datatypes.S i)); [lia|exact L|exact N2| | |exact Hj].
      * intros j' Hj'. rewrite N1 by lia. destruct (Nat.lt_ge_cases j' m); [specialize (H1 j' H)|specialize (H2 j' ltac:(lia))]; lra.
      * intros j' Hj'. replace j' with i by lia. rewrite N2. lra.
    + apply rltb_false in E. apply (IH m x (Datatypes.S i)); [lia|exact L|rewrite N1 by lia; exact Hx| | |exact Hj].
      * intros j' Hj'. rewrite N1 by lia. now apply H1.
      * intros j' Hj'. destruct (Nat.eq_dec j' i) as [->|]; [rewrite N2; lra|]. rewrite N1 by lia. apply H2. lia.
Qed.
Lemma min_idx_first ds j : j < min_idx ds -> (nth (min_idx ds) ds 0 < nth j ds 0)%R.
Proof.
  destruct ds as [|d r]; [cbn; lia|]. cbn [min_idx]. intros Hj. apply (min_go_first r 0 d 1 [d]); auto; [intros; lia|]. intros j' Hj'. replace j' with 0 by lia. cbn. lra.
Qed.

(** ** The bisectors of the centres part their cells *)
Section Center.
Variable D : nat.
Variable cs : list vec.
Notation near c := (a_center D cs c).
Lemma near_le c i x y : nth_error cs i = Some x -> nth_error cs (near c) = Some y -> (dist2 D y c <= dist2 D x c)%R /\ (i < near c -> (dist2 D y c < dist2 D x c)%R).
Proof.
  intros Hx Hy. unfold a_center in *. set (ds := map (fun x => len2 D (vminus x c)) cs) in *.
  assert (Nx : forall i x, nth_error cs i = Some x -> nth i ds 0%R = dist2 D x c). { intros i' x' H. unfold ds. rewrite <- (len2_minus D x' c). apply nth_error_nth. now apply (map_nth_error (fun x => len2 D (vminus x c))). }
  split.
  - destruct (min_idx_spec ds) as [_ M]; [intros E; unfold ds in E; destruct cs; [destruct i|]; discriminate|]. rewrite <- (Nx _ _ Hx), <- (Nx _ _ Hy). apply M. apply nth_In. unfold ds. rewrite map_length. apply nth_error_Some. congruence.
  - intros Hi. rewrite <- (Nx _ _ Hx), <- (Nx _ _ Hy). now apply min_idx_first.
Qed.
Lemma bisector x y : affine D (fun c => dist2 D y c - dist2 D x c)%R.
Proof using.
  exists (fun d => 2 * (x d - y d))%R, (sumn D (fun d => y d * y d - x d * x d)%R). intros c. unfold dist2. rewrite <- sumn_add.
  assert (A : forall f g, (sumn D f - sumn D g = sumn D (fun d => f d - g d))%R) by (intros f g; induction D as [|n IH]; cbn [sumn]; lra). rewrite A. apply sumn_ext. intros d _. ring.
Qed.
Lemma least_above (f : N -> R) c : forall l, (forall u, In u l -> (c < f u)%R) -> exists m, (c < m)%R /\ forall u, In u l -> (m <= f u)%R.
Proof using.
  induction l as [|u l IH]; intros H; [exists (c + 1)%R; split; [lra|intros ? []]|]. destruct IH as (m & M1 & M2); [intros; apply H; now right|]. pose proof (H u ltac:(now left)).
  exists (Rmin m (f u)). split; [now apply Rmin_glb_lt|]. intros w [<-|Hw]; [apply Rmin_r|]. eapply Rle_trans; [apply Rmin_l|auto].
Qed.
Lemma cells_parted (co : N -> vec) (P : list N) i v : i < length cs -> near (co v) < length cs -> near (co v) <> i ->
  exists g, affine D g /\ (g (co v) < 0)%R /\ forall u, In u P -> near (co u) = i -> (0 <= g (co u))%R.
Proof.
  intros Hi Hj Hij. set (j := near (co v)) in *. destruct (nth_error_ex cs i Hi) as [x Hx]. destruct (nth_error_ex cs j Hj) as [y Hy].
  destruct (Nat.lt_ge_cases i j) as [H|H].
  - exists (fun c => dist2 D y c - dist2 D x c)%R. split; [apply bisector|]. destruct (near_le (co v) i x y Hx Hy) as [_ A]. specialize (A H). split; [lra|]. intros u _ Hu.
    destruct (near_le (co u) j y x Hy) as [B _]; [now rewrite Hu|]. lra.
  - destruct (least_above (fun u => dist2 D y (co u) - dist2 D x (co u))%R 0 (filter (fun u => Nat.eqb (near (co u)) i) P)) as (m & M1 & M2).
    { intros u Hu. apply filter_In in Hu as [_ Hu]. apply Nat.eqb_eq in Hu. destruct (near_le (co u) j y x Hy) as [_ B]; [now rewrite Hu|]. rewrite Hu in B. specialize (B ltac:(lia)). lra. }
    exists (fun c => (dist2 D y c - dist2 D x c) - m)%R. split.
    + destruct (bisector x y) as (a & b & Hab). exists a, (b - m)%R. intros c. rewrite Hab. ring.
    + destruct (near_le (co v) i x y Hx Hy) as [A _]. split; [lra|]. intros u Hu Eu. specialize (M2 u). rewrite filter_In, Nat.eqb_eq in M2. specialize (M2 (conj Hu Eu)). cbv beta in M2. lra.
Qed.
End Center.

(** ** Trees with one level of leaves *)
Lemma flat_size (P : list N) b ls t : (forall l, In l ls -> NoDup (snd l) /\ incl (snd l) P) -> kway_tree b ls t ->
  exists l, Leaves t l /\ entries l <= length ls * length P /\ height t <= 1 /\ width t <= length ls.
Proof.
  intros X (ch & -> & Fch).
  assert (Y : exists q, Forall2 Leaves ch q /\ entries (concat q) <= length ls * length P /\ forall c, In c ch -> height c <= 0 /\ width c <= 0).
  { clear - Fch X. induction Fch as [|l c ls ch (s0 & -> & Hli) F IH]; [exists []; split; [constructor|]; split; [apply Nat.le_refl|intros c Hc; destruct Hc]|]. destruct IH as (q & Q1 & Q2 & Q3); [intros; apply X; now right|].
    exists ([(Some (fst l), s0)] :: q). split; [constructor; [constructor|exact Q1]|]. split; [|intros c [<-|Hc]; [split; apply Nat.le_refl|now apply Q3]]. cbn [concat length app]. change (entries (?a :: ?l)) with (set_size (snd a) + entries l). cbn [snd]. rewrite (lists_len s0 (snd l) Hli). destruct (X l ltac:(now left)) as [X1 X2].
    pose proof (NoDup_incl_length X1 X2). lia. }
  destruct Y as (q & Q1 & Q2 & Q3). exists (concat q). split; [now constructor|]. split; [exact Q2|]. split; [apply height_le; intros c Hc; now apply Q3|].
  assert (Lch : length ls = length ch) by exact (SplitProofs.forall2_len _ _ _ Fch). rewrite Lch. apply width_le; [apply Nat.le_refl|]. intros c Hc. destruct (Q3 c Hc). lia.
Qed.

Section Maker.
Variable D : nat.
Hypothesis HD : 0 < D <= 8.
Variable pts : points vec.
Variable co : N -> vec.
Variable P : list N.
Variable r : vec.
Notation DN := (N.of_nat D).
Notation fin v := (p_finite DN v = true).
Hypothesis Hp : placed DN co r P.
Hypothesis Hnd : NoDup P.
Hypothesis Hget : forall v, In v P -> fin v -> p_get DN pts v = Val (co v).
Variable part : N -> res nat.
Variables (ids : list N) (k : nat) (b : box) (ls : list (list N)) (fn : pool bsh btask) (t : tree box).
Hypothesis Hids : forall v, In v ids <-> In v P.
Hypothesis Ht : maker_tree D pts part ids k b ls fn t.

Lemma maker_leaves : exists rs bs, length rs = k /\ length bs = k /\ s_box (p_sh fn) = map Some bs /\ kway_tree b (combine bs rs) t /\ length ls = k /\
  (forall j l, nth_error rs j = Some l -> NoDup l /\ forall v, In v l <-> In v P /\ (fin v -> part v = Val j)) /\
  (forall j l, nth_error ls j = Some l -> forall v, In v l <-> In v P /\ fin v /\ part v = Val j) /\ (forall v, In v P -> fin v -> exists j, j < k /\ part v = Val j).
Proof using HD Hp Hids Ht Hget.
  destruct Ht as (rs & bs & Hm & Ll & Hls & He & Hf & Hb & Hk). destruct (m_ids_ok D part ids k rs Hm) as (Lr & Q1 & Q2).
  assert (D30 : (DN <= 30)%N) by lia.
  assert (R : forall j l, nth_error rs j = Some l -> NoDup l /\ forall v, In v l <-> In v P /\ (fin v -> part v = Val j)).
  { intros j l Hl. destruct (Q2 j l Hl) as [N1 N2]. split; [exact N1|]. intros v. rewrite N2. split.
    - intros [Hv|(H1 & H2 & H3)]; [|split; [now apply Hids|auto]]. pose proof (inf_not_finite D D30 v Hv) as X. split; [|intros F; congruence]. apply (pl_inf _ _ _ _ Hp). now apply (inf_in D ltac:(lia)).
    - intros [Hv Hpv]. destruct (p_finite DN v) eqn:F; [right; split; [now apply Hids|auto]|left].
      apply NNPP. intros Hno. rewrite (inf_iff D D30) in Hno. apply (finite_iff D D30) in Hno; [congruence|]. exact (pl_small _ _ _ _ Hp v Hv). }
  assert (L : forall j l, nth_error ls j = Some l -> forall v, In v l <-> In v P /\ fin v /\ part v = Val j).
  { intros j l Hl v. destruct (nth_error_ex rs j) as [l' Hl']; [rewrite Lr, <- Ll; apply nth_error_Some; congruence|]. rewrite (Hls j l l' Hl Hl' v). destruct (R j l' Hl') as [_ R2]. rewrite R2. tauto. }
  assert (Lb : length bs = k).
  { assert (G : forall l i, In l ls -> In i l -> p_get DN pts i = Val (co i)). { intros l i Hl Hi. apply In_nth_error in Hl as [j Hl]. apply (L j l Hl) in Hi as (H1 & H2 & _). auto. }
    destruct (boxes_end D pts ls co G fn He Hf) as [X _]. rewrite Hb, map_length in X. congruence. }
  exists rs, bs. repeat (split; [assumption|]). intros v Hv Fv. destruct (Q1 v (proj2 (Hids v) Hv) Fv) as (j & Hj & E). eauto.
Qed.

Lemma maker_size : exists l, Leaves t l /\ entries l <= k * length P /\ height t <= 1 /\ width t <= k.
Proof using HD Hp Hids Ht Hget.
  destruct maker_leaves as (rs & bs & Lr & Lb & _ & Hk & _ & R & _ & _). assert (Lc : length (combine bs rs) = k) by (rewrite combine_length; lia).
  destruct (flat_size P b (combine bs rs) t) as (l & H); [|exact Hk|exists l; now rewrite Lc in H].
  intros [bx l] Hl. apply in_combine_r in Hl. apply In_nth_error in Hl as [j Hl]. destruct (R j l Hl) as [R1 R2]. split; [exact R1|]. intros v Hv. now apply R2.
Qed.

(** Every partition has a finite point; hyperplanes part them; and the threads do not race. *)
Hypothesis Hk0 : 0 < k.
Hypothesis Hcalm : cexec D pts calm (b_start ls) fn.
Hypothesis Hfull : forall j, j < k -> exists v, In v P /\ fin v /\ part v = Val j.
Hypothesis Hsep : forall i j v, i < k -> j < k -> i <> j -> In v P -> fin v -> part v = Val j ->
  exists g, affine D g /\ (g (co v) < 0)%R /\ forall u, In u P -> fin u -> part u = Val i -> (0 <= g (co u))%R.
Lemma maker_ok : tree_ok DN co r box (box_ck DN) t P.
Proof using HD Hp Hnd Hget Hids Ht Hk0 Hcalm Hfull Hsep.
  destruct maker_leaves as (rs & bs & Lr & Lb & Eb & (ch & -> & Fch) & Ll & R & L & Tot).
  assert (G : forall l i, In l ls -> In i l -> p_get DN pts i = Val (co i)). { intros l i Hl Hi. apply In_nth_error in Hl as [j Hl]. apply (L j l Hl) in Hi as (H1 & H2 & _). auto. }
  assert (Hf : p_tasks fn = []) by now destruct Ht as (? & ? & _ & _ & _ & _ & X & _).
  assert (Bx : forall j l bx, nth_error ls j = Some l -> nth_error bs j = Some bx -> forall i, In i l -> in_box D bx (co i)).
  { intros j l bx Hl Hb i Hi. pose proof (boxes_calm D pts ls co G fn Hcalm Hf j l Hl) as E. rewrite Eb in E. rewrite (map_nth_error Some j bs Hb) in E. injection E as E. destruct (bounding_spec D (map co l)) as (bx' & E' & _ & B1 & _); [intros X; destruct l; [destruct Hi|discriminate]|].
    assert (bx' = bx) by congruence. subst bx'. apply B1. now apply in_map. }
  assert (Lch : length ch = k). { pose proof (SplitProofs.forall2_len _ _ _ Fch) as X. assert (length (combine bs rs) = k) by (rewrite combine_length; lia). unfold kleaf in *. lia. }
  set (pt i := nth i rs []).
  assert (Hpt : forall i l, nth_error rs i = Some l -> pt i = l) by (intros i l Hl; unfold pt; now apply nth_error_nth).
  assert (Mem : forall i v, i < k -> In v (pt i) <-> In v P /\ (fin v -> part v = Val i)) by (intros i v Hi; destruct (nth_error_ex rs i) as [l Hl]; [lia|]; rewrite (Hpt i l Hl); now apply R).
  assert (At : forall i c, nth_error ch i = Some c -> i < k /\ exists bx l s, nth_error bs i = Some bx /\ nth_error rs i = Some l /\ c = Tleaf (Some bx) s /\ lists s l).
  { intros i c Hc. assert (Hi : i < k) by (rewrite <- Lch; apply nth_error_Some; congruence). split; [exact Hi|]. destruct (nth_error_ex bs i) as [bx Hb]; [lia|]. destruct (nth_error_ex rs i) as [l Hl]; [lia|]. exists bx, l.
    assert (Hcb : nth_error (combine bs rs) i = Some (bx, l)).
    { clear - Hb Hl. revert rs i Hb Hl. induction bs as [|x bs IH]; intros [|y rs] [|i] Hb Hl; cbn in *; try discriminate; [congruence|auto]. }
    destruct (f2_at _ _ _ Fch i (bx, l) Hcb) as (c' & Ec & s0 & E & Hli). exists s0. cbn [fst snd] in *. split; [exact Hb|]. split; [exact Hl|]. split; [congruence|exact Hli]. }
  assert (Inf : forall v, (p_inf DN <= v < 2 ^ 64)%N -> In v P /\ p_finite DN v = false).
  { intros v Hv. split; [now apply (pl_inf _ _ _ _ Hp)|]. destruct (p_finite DN v) eqn:F; [|reflexivity]. exfalso. apply (inf_in D ltac:(lia)) in Hv. pose proof (inf_not_finite D ltac:(lia) v Hv). congruence. }
  assert (Un : forall v i j : nat, Val v = Val i -> Val v = Val j -> i = j) by (intros; congruence).
  destruct (Nat.eq_dec k 1) as [K1|K1].
  - destruct ch as [|c [|? ?]]; cbn [length] in Lch; try lia. destruct (At 0 c eq_refl) as (_ & bx & l & s & Hb & Hl & -> & L1 & L2 & L3). apply tk_one. split; [exact Hnd|]. split; [exact L2|]. intros v. assert (Same : In v P <-> In v l).
    { destruct (R 0 l Hl) as [_ R2]. rewrite R2. split; [intros Hv; split; [exact Hv|]|tauto]. intros Fv. destruct (Tot v Hv Fv) as (j & Hj & E). now replace 0 with j by lia. }
    rewrite Same. apply L3.
  - apply tk_node with (pt := pt).
    + lia.
    + exact Hnd.
    + intros i c Hc. destruct (At i c Hc) as (Hi & bx & l & s & Hb & Hl & -> & Hli). rewrite (Hpt i l Hl). now constructor.
    + rewrite Lch. constructor.
      * intros v. split.
        -- intros Hv. destruct (p_finite DN v) eqn:Fv; [destruct (Tot v Hv Fv) as (j & Hj & E); exists j; split; [exact Hj|]; apply Mem; auto|]. exists 0. split; [lia|]. apply Mem; [lia|]. split; [exact Hv|congruence].
        -- intros (i & Hi & Hv). apply Mem in Hv; [|exact Hi]. tauto.
      * intros i j v Hi Hj Hvi Hvj Fv. apply Mem in Hvi; [|exact Hi]. apply Mem in Hvj; [|exact Hj]. destruct Hvi as [_ E1], Hvj as [_ E2]. specialize (E1 Fv). specialize (E2 Fv). congruence.
      * intros i v Hi Hv. destruct (Inf v Hv) as [I1 I2]. apply Mem; [exact Hi|]. split; [exact I1|congruence].
      * destruct (Hfull 0 Hk0) as (u & H1 & H2 & H3). exists 0, u. split; [exact Hk0|]. split; [apply Mem; auto|exact H2].
      * intros i j v Hi Hj Hij Hv Fv. rewrite Nat2N.id. apply Mem in Hv; [|exact Hj]. destruct Hv as [Hv Ev]. destruct (Hsep i j v Hi Hj Hij Hv Fv (Ev Fv)) as (g & G1 & G2 & G3). exists g. split; [exact G1|]. split; [exact G2|].
        intros u Hu. apply filter_In in Hu as [Hu Fu]. apply Mem in Hu; [|exact Hi]. destruct Hu as [Hu Eu]. auto.
    + intros i c k' v Hc Hck Hv Fv. destruct (At i c Hc) as (Hi & bx & l & s & Hb & Hl & -> & Hli). cbn [t_ck] in Hck. injection Hck as <-. apply Mem in Hv; [|exact Hi]. destruct Hv as [Hv Ev]. apply box_covers; rewrite Nat2N.id; [lia|].
      destruct (nth_error_ex ls i) as [l' Hl']; [lia|]. apply (Bx i l' bx Hl' Hb). apply (L i l' Hl'). auto.
    + left. destruct (Hfull 0 Hk0) as (u & H1 & H2 & H3). destruct (Hfull 1 ltac:(lia)) as (v & H4 & H5 & H6). rewrite Lch. exists 0, 1, u, v. split; [lia|]. split; [lia|]. split; [lia|]. split; [apply Mem; [lia|auto]|]. split; [exact H2|]. split; [apply Mem; [lia|auto]|exact H5].
Qed.
End Maker.

Section Exists.
Variable D : nat.
Hypothesis HD : 0 < D <= 8.
Variable pts : points vec.
Variable co : N -> vec.
Variable P : list N.
Variable r : vec.
Notation DN := (N.of_nat D).
Notation fin v := (p_finite DN v = true).
Hypothesis Hp : placed DN co r P.
Hypothesis Hnd : NoDup P.
Hypothesis Hget : forall v, In v P -> fin v -> p_get DN pts v = Val (co v).
Hypothesis Hz : ~ In 0%N P.
Hypothesis Hsm : small 64 (4 * (length P + 4)).
Variable part : N -> res nat.
Variables (k : nat) (b : box).
Hypothesis Hk : 0 < k <= length P.
Hypothesis Hpart : forall v, In v P -> fin v -> exists j, j < k /\ part v = Val j.
Hypothesis Hfull : forall j, j < k -> exists v, In v P /\ fin v /\ part v = Val j.
(** There is such a tree. *)
Lemma maker_ex : (forall ls, (forall l, In l ls -> NoDup (snd l) /\ ~ In 0%N (snd l) /\ small 64 (4 * (length (snd l) + 4))) -> exists t, kway_tree b ls t) ->
  exists ls fn t, maker_tree D pts part P k b ls fn t /\ cexec D pts calm (b_start ls) fn.
Proof using HD Hp Hnd Hget Hz Hsm Hk Hpart Hfull.
  intros Tr. assert (D30 : (DN <= 30)%N) by lia. destruct (m_ids_total D part P k Hk Hpart) as [rs Hm]. destruct (m_ids_ok D part P k rs Hm) as (Lr & Q1 & Q2).
  assert (Fi : forall v, In v (inf_ids D) -> p_finite DN v = false) by (intros v Hv; destruct (p_finite DN v) eqn:F; [|reflexivity]; pose proof (inf_not_finite D D30 v Hv); congruence).
  set (ls := map (filter (p_finite DN)) rs).
  assert (L : forall j l, nth_error ls j = Some l -> forall v, In v l <-> In v P /\ fin v /\ part v = Val j).
  { intros j l Hl v. unfold ls in Hl. destruct (nth_error_ex rs j) as [l' Hl']; [rewrite <- (map_length (filter (p_finite DN)) rs); apply nth_error_Some; congruence|]. rewrite (map_nth_error (filter (p_finite DN)) j rs Hl') in Hl. injection Hl as <-.
    rewrite filter_In. destruct (Q2 j l' Hl') as [_ X]. rewrite X. split; [intros [[H|(H1 & H2 & H3)] F]; [apply Fi in H; congruence|auto]|intros (H1 & H2 & H3); auto]. }
  assert (G : forall l i, In l ls -> In i l -> p_get DN pts i = Val (co i)). { intros l i Hl Hi. apply In_nth_error in Hl as [j Hl]. apply (L j l Hl) in Hi as (H1 & H2 & _). auto. }
  destruct (calm_ends D pts co ls G) as (fn & Hc & Hf). pose proof (cexec_exec D pts _ _ _ Hc) as He. destruct (boxes_end D pts ls co G fn He Hf) as [Lb Bx].
  assert (Lls : length ls = k) by (unfold ls; rewrite map_length; exact Lr).
  assert (B : exists bs, s_box (p_sh fn) = map Some bs).
  { assert (All : forall j, j < length (s_box (p_sh fn)) -> exists bx, nth_error (s_box (p_sh fn)) j = Some (Some bx)).
    { intros j Hj. destruct (nth_error_ex ls j) as [l Hl]; [lia|]. rewrite (boxes_calm D pts ls co G fn Hc Hf j l Hl). destruct (Hfull j ltac:(lia)) as (v & H1 & H2 & H3). assert (Hv : In v l) by (apply (L j l Hl); auto).
      destruct (bounding_spec D (map co l)) as (bx & E & _); [intros X; destruct l; [destruct Hv|discriminate]|]. exists bx. now rewrite E. }
    clear - All. induction (s_box (p_sh fn)) as [|o l IH]; [exists []; reflexivity|]. destruct (All 0 ltac:(cbn; lia)) as [bx E]. cbn in E. injection E as ->. destruct IH as [bs ->]; [intros j Hj; apply (All (Datatypes.S j)); cbn; lia|]. now exists (bx :: bs). }
  destruct B as [bs Eb]. assert (Lbs : length bs = k) by (rewrite <- Lls, <- Lb, Eb; now rewrite map_length).
  destruct (Tr (combine bs rs)) as [t Ht].
  { intros [bx l] Hl. apply in_combine_r in Hl. cbn [snd]. apply In_nth_error in Hl as [j Hl]. destruct (Q2 j l Hl) as [N1 N2]. assert (Inc : incl l P).
    { intros v Hv. apply N2 in Hv as [Hv|(H & _)]; [|exact H]. apply (pl_inf _ _ _ _ Hp). now apply (inf_in D ltac:(lia)). }
    split; [exact N1|]. split; [intros H0; exact (Hz (Inc _ H0))|]. pose proof (NoDup_incl_length N1 Inc) as Hle. clear - Hle Hsm. destruct Hsm as [S1 S2]. split; lia. }
  exists ls, fn, t. split; [|exact Hc]. exists rs, bs. split; [exact Hm|]. split; [exact Lls|]. split; [|auto].
  intros j l l' Hl Hl' i. rewrite (L j l Hl i). destruct (Q2 j l' Hl') as [_ X]. rewrite X. split; [intros (H1 & H2 & H3); auto|intros [[H|(H1 & H2 & H3)] F]; [apply Fi in H; congruence|auto]].
Qed.
End Exists.
