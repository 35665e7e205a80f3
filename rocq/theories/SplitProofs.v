(** The partitioners give what DCTriangulator needs of a splitter. *)
From Verif Require Import Outcome ListUtil WordsModel WordsProofs LPSetModel ProbeTheory LPSetProofs LPSetHistory LPSetIter SimplexModel PointModel PointProofs GeoModel GeoSpec GeoProofs
  Conc ConcSetModel ConcSetProofs ConcSetSpec PartModel PartStats PartSpec PartProofs PartConc PartTop PartProps DelSpec PlaceSpec DcModel DcSpec SplitModel.
From Coq Require Import Classical Lra.
Notation sumn := GeoSpec.sumn.
Local Open Scope nat_scope.

(** ** Cells cut by hyperplanes of constant coordinate *)
Lemma affine_ge D k m : k < D -> affine D (fun x => m - x k)%R.
Proof.
  intros Hk. exists (fun d => if Nat.eqb d k then -1 else 0)%R, m. intros x.
  assert (E : forall n, sumn n (fun d => (if Nat.eqb d k then -1 else 0) * x d)%R = if Nat.ltb k n then (- x k)%R else 0%R).
  { induction n as [|n IH]; [reflexivity|]. cbn [GeoSpec.sumn]. rewrite IH. destruct (Nat.eqb_spec n k) as [->|Hne].
    - rewrite (proj2 (Nat.ltb_lt k (S k)) ltac:(lia)), (proj2 (Nat.ltb_ge k k) ltac:(lia)). lra.
    - destruct (Nat.ltb_spec k n), (Nat.ltb_spec k (S n)); try lia; lra. }
  rewrite E, (proj2 (Nat.ltb_lt k D) Hk). lra.
Qed.
Lemma affine_le D k m : k < D -> affine D (fun x => x k - m)%R.
Proof.
  intros Hk. destruct (affine_ge D k m Hk) as [a [b H]]. exists (fun d => - a d)%R, (- b)%R. intros x. specialize (H x).
  assert (E : sumn D (fun d => - a d * x d)%R = (- sumn D (fun d => a d * x d))%R).
  { clear. induction D as [|n IH]; cbn [GeoSpec.sumn]; [lra|]. rewrite IH. lra. }
  rewrite E. lra.
Qed.
(** The lowest value of a coordinate, if there is one at all. *)
Lemma lowest (co : N -> vec) k m l : (forall u, In u l -> m < co u k)%R -> exists m', (m < m')%R /\ forall u, In u l -> (m' <= co u k)%R.
Proof.
  induction l as [|a l IH]; intros H; [exists (m + 1)%R; split; [lra|easy]|].
  destruct IH as [m' [H1 H2]]; [intros u Hu; apply H; now right|]. exists (Rmin m' (co a k)). pose proof (H a (or_introl eq_refl)).
  split; [now apply Rmin_glb_lt|]. intros u [->|Hu]; [apply Rmin_r|]. eapply Rle_trans; [apply Rmin_l|auto].
Qed.

(** Statistics that are right for the points [S]. *)
Record stats_for (D : N) (co : N -> vec) (r : vec) (S : list N) (st : stats) : Prop := mksf {
  sf_low : forall k, k < N.to_nat D -> exists u, In u S /\ p_finite D u = true /\ co u k = st_min st k;
  sf_in : forall v k, In v S -> p_finite D v = true -> k < N.to_nat D -> (st_min st k <= co v k <= st_max st k)%R;
  sf_mid : forall k, st_mid st k = ((st_min st k + st_max st k) / 2)%R;
  sf_max : forall k, k < N.to_nat D -> (st_max st k <= r k)%R }.

Section Core.
Variables (D : N) (co : N -> vec) (r : vec) (S : list N) (st : stats).
Hypothesis HP : placed D co r S.
Hypothesis HS : stats_for D co r S st.
Variable qs : list (list N * box).
Variable route : N -> nat.
Notation Dn := (N.to_nat D).
Notation np := (length qs).
Notation fin v := (p_finite D v = true).
Hypothesis Hmem : forall i v, i < np -> In v (pts_at qs i) <-> (p_inf D <= v < 2 ^ 64)%N \/ (In v S /\ fin v /\ route v = i).
Hypothesis Hroute : forall v, In v S -> fin v -> route v < np.
Hypothesis Hnd : forall i, i < np -> NoDup (pts_at qs i).
Hypothesis Hbox : forall v, In v S -> fin v -> in_box Dn (boxes_of qs (route v)) (co v).
Hypothesis Hinf : forall v, (p_inf D <= v < 2 ^ 64)%N -> p_finite D v = false.
Hypothesis Hninf : forall v, In v S -> p_finite D v = false -> (p_inf D <= v)%N.
(** Different cells are on different sides of the middle in some dimension. *)
Hypothesis Hcells : forall u v, In u S -> In v S -> fin u -> fin v -> route u <> route v ->
  exists k, k < Dn /\ (forall w, In w S -> fin w -> route w = route u -> rltb (st_mid st k) (co w k) = rltb (st_mid st k) (co u k)) /\
    rltb (st_mid st k) (co v k) <> rltb (st_mid st k) (co u k).
(** Each cell below the middle in dimension [k] has one above. *)
Variable k : nat.
Hypothesis Hk : k < Dn.
Hypothesis Hnext : forall u, In u S -> fin u -> (co u k <= st_mid st k)%R -> exists j, j < np /\ j <> route u /\
  (forall w, In w S -> fin w -> route w = route u -> (co w k <= st_mid st k)%R) /\
  b_lo (boxes_of qs j) k = st_mid st k /\ b_hi (boxes_of qs j) k = st_max st k /\
  forall d, d < Dn -> d <> k -> b_lo (boxes_of qs j) d = b_lo (boxes_of qs (route u)) d /\ b_hi (boxes_of qs j) d = b_hi (boxes_of qs (route u)) d.

Lemma mem_fin i v : i < np -> fin v -> In v (pts_at qs i) -> In v S /\ route v = i.
Proof. intros Hi Hf H. apply (Hmem i v Hi) in H. destruct H as [H|[H1 [_ H2]]]; [|auto]. rewrite (Hinf v H) in Hf. discriminate. Qed.

Lemma core_parted i j v : i < np -> j < np -> i <> j -> In v (pts_at qs j) -> fin v -> parted Dn co (filter (p_finite D) (pts_at qs i)) (co v).
Proof.
  intros Hi Hj Hne Hv Hf. destruct (mem_fin j v Hj Hf Hv) as [HvS Ev].
  destruct (filter (p_finite D) (pts_at qs i)) as [|u t] eqn:El.
  - exists (fun _ => -1)%R. split; [|split; [lra|easy]]. exists (fun _ => 0%R), (-1)%R. intros x. assert (E : forall n, sumn n (fun d => 0 * x d)%R = 0%R) by (induction n as [|n IH]; cbn [GeoSpec.sumn]; [reflexivity|rewrite IH; lra]). rewrite E. lra.
  - rewrite <- El. assert (Hu : In u (filter (p_finite D) (pts_at qs i))) by (rewrite El; now left). apply filter_In in Hu. destruct Hu as [Hu Hfu].
    destruct (mem_fin i u Hi Hfu Hu) as [HuS Eu].
    destruct (Hcells u v HuS HvS Hfu Hf) as [d [Hd [H1 H2]]]; [congruence|].
    assert (H1' : forall w, In w (filter (p_finite D) (pts_at qs i)) -> rltb (st_mid st d) (co w d) = rltb (st_mid st d) (co u d)).
    { intros w Hw. apply filter_In in Hw. destruct Hw as [Hw Hfw]. destruct (mem_fin i w Hi Hfw Hw) as [HwS Ew]. apply H1; auto. congruence. }
    destruct (rltb (st_mid st d) (co u d)) eqn:E.
    + destruct (lowest co d (st_mid st d) (filter (p_finite D) (pts_at qs i))) as [m' [Hm1 Hm2]]; [intros w Hw; apply rltb_iff; auto|].
      exists (fun x => x d - m')%R. split; [now apply affine_le|]. split; [|intros w Hw; specialize (Hm2 w Hw); lra].
      assert (rltb (st_mid st d) (co v d) = false) as E2 by (destruct (rltb (st_mid st d) (co v d)); congruence). apply rltb_false in E2. lra.
    + exists (fun x => st_mid st d - x d)%R. split; [now apply affine_ge|]. split.
      * assert (rltb (st_mid st d) (co v d) = true) as E2 by (destruct (rltb (st_mid st d) (co v d)); congruence). apply rltb_iff in E2. lra.
      * intros w Hw. specialize (H1' w Hw). apply rltb_false in H1'. lra.
Qed.

Lemma core_meet : two_filled D np (pts_at qs) \/ beyond D co r qs.
Proof.
  destruct (classic (two_filled D np (pts_at qs))) as [H|Hn]; [now left|right].
  destruct (sf_low _ _ _ _ _ HS k Hk) as [u [HuS [Hfu Eu]]]. pose proof (sf_in _ _ _ _ _ HS u k HuS Hfu Hk) as Hmm. pose proof (sf_mid _ _ _ _ _ HS k) as Emid.
  destruct (Hnext u HuS Hfu) as [j [Hj [Hne [Hall [Elo [Ehi Esame]]]]]]; [lra|].
  assert (Hsame : forall w, In w S -> fin w -> route w = route u).
  { intros w Hw Hfw. destruct (Nat.eq_dec (route w) (route u)) as [E|E]; [exact E|]. exfalso. apply Hn. exists (route w), (route u), w, u.
    split; [now apply Hroute|]. split; [now apply Hroute|]. split; [exact E|]. split; [apply Hmem; [now apply Hroute|right; auto]|]. split; [exact Hfw|]. split; [apply Hmem; [now apply Hroute|right; auto]|exact Hfu]. }
  assert (Hub := Hbox u HuS Hfu).
  destruct (Rlt_or_le (st_min st k) (st_max st k)) as [Hlt|Hge].
  - set (p := fun d => if Nat.eqb d k then st_max st k else co u d). exists (route u), j, u, p.
    split; [now apply Hroute|]. split; [exact Hj|]. split; [congruence|]. split; [apply Hmem; [now apply Hroute|right; auto]|]. split; [exact Hfu|]. split; [|left; split].
    + intros d Hd. unfold p. destruct (Nat.eqb_spec d k) as [->|Hdk]; [rewrite Elo, Ehi; lra|]. destruct (Esame d Hd Hdk) as [-> ->]. now apply Hub.
    + intros d Hd. unfold p. destruct (Nat.eqb_spec d k) as [->|Hdk]; [|now apply (pl_box _ _ _ _ HP)].
      pose proof (pl_box _ _ _ _ HP u k HuS Hfu Hd) as Hb. pose proof (sf_max _ _ _ _ _ HS k Hd) as Hx. apply Rabs_le. unfold Rabs in Hb. destruct (Rcase_abs (co u k)); lra.
    + exists (fun x => st_mid st k - x k)%R. split; [now apply affine_ge|]. split; [unfold p; rewrite Nat.eqb_refl; lra|].
      intros w Hw. apply filter_In in Hw. destruct Hw as [Hw Hfw]. destruct (mem_fin _ w (Hroute u HuS Hfu) Hfw Hw) as [HwS Ew]. specialize (Hall w HwS Hfw Ew). lra.
  - exists (route u), j, u, (co u).
    split; [now apply Hroute|]. split; [exact Hj|]. split; [congruence|]. split; [apply Hmem; [now apply Hroute|right; auto]|]. split; [exact Hfu|]. split; [|right; split; [reflexivity|]].
    + intros d Hd. destruct (Nat.eq_dec d k) as [->|Hdk]; [rewrite Elo, Ehi; lra|]. destruct (Esame d Hd Hdk) as [-> ->]. now apply Hub.
    + exists (fun x => x k - st_mid st k)%R. split; [now apply affine_le|]. split; [exists (fun _ => st_mid st k + 1)%R; lra|].
      intros w Hw Hfw. destruct (mem_fin _ w (Hroute u HuS Hfu) Hfw Hw) as [HwS _]. pose proof (sf_in _ _ _ _ _ HS w k HwS Hfw Hk). lra.
Qed.

Lemma core_ok : split_ok D co r S qs.
Proof.
  destruct (sf_low _ _ _ _ _ HS k Hk) as [u [HuS [Hfu Eu]]].
  constructor.
  - constructor.
    + intros v. split.
      * intros Hv. destruct (p_finite D v) eqn:Ef; [exists (route v); split; [now apply Hroute|]; apply Hmem; [now apply Hroute|right; auto]|].
        exists (route u). split; [now apply Hroute|]. apply Hmem; [now apply Hroute|left]. split; [now apply Hninf|exact (pl_small _ _ _ _ HP v Hv)].
      * intros [i [Hi Hv]]. apply (Hmem i v Hi) in Hv. destruct Hv as [Hv|[Hv _]]; [exact (pl_inf _ _ _ _ HP v Hv)|exact Hv].
    + intros i j v Hi Hj Hv Hv' Hf. destruct (mem_fin i v Hi Hf Hv), (mem_fin j v Hj Hf Hv'). congruence.
    + intros i v Hi Hv. apply Hmem; [exact Hi|now left].
    + exists (route u), u. split; [now apply Hroute|]. split; [apply Hmem; [now apply Hroute|right; auto]|exact Hfu].
    + exact core_parted.
  - exact Hnd.
  - intros i v Hi Hv Hf. destruct (mem_fin i v Hi Hf Hv) as [HvS <-]. now apply Hbox.
  - exact core_meet.
Qed.
End Core.

Lemma forall2_len {A B} (R : A -> B -> Prop) l l' : Forall2 R l l' -> length l = length l'.
Proof. induction 1; cbn [length]; congruence. Qed.

Lemma forall2_nth {A B} (R : A -> B -> Prop) l l' i a b : Forall2 R l l' -> nth_error l i = Some a -> nth_error l' i = Some b -> R a b.
Proof.
  intros H. revert i. induction H as [|x y t t' Hxy _ IH]; intros [|i] Ea Eb; cbn [nth_error] in *; try discriminate; [congruence|exact (IH i Ea Eb)].
Qed.

(** ** The statistics *)
Section Parts.
Variable D : nat.
Hypothesis HD : 0 < D /\ D <= 8.
Variables (pts : points vec) (tiny huge : R) (co : N -> vec) (r : vec) (S : list N).
Notation DN := (N.of_nat D).
Notation fin v := (p_finite DN v = true).
Hypothesis HP : placed DN co r S.
Hypothesis HS : NoDup S.
Hypothesis Hmany : exists u, In u S /\ fin u.
Hypothesis Hget : forall v, In v S -> fin v -> p_get DN pts v = Val (co v).
Hypothesis Hhuge : forall v k, In v S -> fin v -> k < D -> (co v k <= huge)%R.
Hypothesis Htiny : forall k, k < D -> (tiny <= r k)%R.

Lemma d30 : (DN <= 30)%N. Proof. clear - HD. lia. Qed.
Lemma small_in v : In v S -> (v < 2 ^ 64)%N. Proof. apply (pl_small _ _ _ _ HP). Qed.
Lemma fin_inf v : In v S -> fin v <-> ~ is_inf_id DN v. Proof. intros Hv. apply (finite_iff D d30), small_in, Hv. Qed.
Lemma coords_in : coords_are D pts S co. Proof. intros v [Hv Hi]. apply Hget; [exact Hv|]. now apply fin_inf. Qed.

Lemma few_inf l : NoDup l -> incl l S -> 256 < length l -> exists u, In u l /\ fin u.
Proof.
  intros Hn Hi Hl. apply NNPP. intros H. assert (Hall : incl l (inf_ids D)).
  { intros v Hv. apply (inf_iff D d30). apply NNPP. intros Hv'. apply H. exists v. split; [exact Hv|]. now apply fin_inf; [apply Hi|]. }
  pose proof (NoDup_incl_length Hn Hall) as Hle. pose proof (inf_length D) as E. assert (Hp : (2 ^ DN <= 2 ^ 8)%N) by (apply N.pow_le_mono_r; lia). change (2 ^ 8)%N with 256%N in Hp. lia.
Qed.
Lemma nodup_rm u (l : list N) : NoDup l -> NoDup (remove N.eq_dec u l).
Proof.
  induction l as [|a l IH]; intros H; cbn [remove]; [exact H|]. inversion H as [|? ? Ha Hl]; subst. destruct (N.eq_dec u a); [auto|]. constructor; [|auto].
  intros Hx. apply in_remove in Hx. tauto.
Qed.
Lemma two_fin : 500 < length S -> exists u v, In u S /\ In v S /\ fin u /\ fin v /\ u <> v.
Proof.
  intros Hl. destruct (few_inf S HS (fun v H => H)) as [u [Hu Hf]]; [lia|].
  destruct (few_inf (remove N.eq_dec u S)) as [v [Hv Hfv]].
  - now apply nodup_rm.
  - intros x Hx. apply in_remove in Hx. apply Hx.
  - assert (Hle : forall l, NoDup l -> length l <= Datatypes.S (length (remove N.eq_dec u l))).
    { clear. induction l as [|a l IH]; intros H; cbn [remove length]; [lia|]. inversion H as [|? ? Ha Hl]; subst. destruct (N.eq_dec u a) as [->|]; [|cbn [length]; specialize (IH Hl); lia].
      rewrite (notin_remove N.eq_dec l a Ha). lia. }
    specialize (Hle S HS). lia.
  - apply in_remove in Hv. destruct Hv as [Hv Hne]. exists u, v. repeat split; auto.
Qed.

Lemma stats_right work st : (forall i, In i (concat work) <-> In i S) -> stats_par D pts tiny huge true work = Val st -> stats_for DN co r S st.
Proof.
  intros Hw E. destruct (C35_stats_partial D pts tiny huge S co work d30 small_in coords_in Hw) as [s [Es [Smin [_ Smid]]]]. rewrite E in Es. injection Es as <-.
  pose proof (C35_covers D pts tiny huge S co work st d30 small_in coords_in Hw E) as Hcov.
  destruct Hmany as [u [Hu Hfu]].
  constructor; [..|exact Smid|]; rewrite ?Nat2N.id.
  - intros k Hk. destruct (least_ex (map co (filter (p_finite DN) S)) k) as [m [[x [Hx Ex]] Hm]].
    { intros H. assert (Hin : In (co u) (map co (filter (p_finite DN) S))) by (apply in_map, filter_In; auto). rewrite H in Hin. exact Hin. }
    apply in_map_iff in Hx. destruct Hx as [v [<- Hv]]. apply filter_In in Hv. destruct Hv as [Hv Hfv]. exists v. split; [exact Hv|]. split; [exact Hfv|].
    rewrite Ex. symmetry. apply Smin; [|rewrite <- Ex; now apply Hhuge]. split.
    + exists v. split; [|exact Ex]. split; [exact Hv|]. now apply fin_inf.
    + intros i [Hi Hni]. apply Hm, in_map, filter_In. split; [exact Hi|]. now apply fin_inf.
  - intros v k Hv Hf Hk. destruct (Hcov v Hv (proj1 (fin_inf v Hv) Hf)) as [c [Ec Hc]]. rewrite (Hget v Hv Hf) in Ec. injection Ec as <-. now apply Hc.
  - intros k Hk. destruct (par_tight D pts tiny huge true co work) as [s [Es T]].
    { intros i Hi Hc. apply Hw in Hi. apply Hget; [exact Hi|]. unfold counted in Hc. now rewrite Bool.orb_false_r in Hc. }
    rewrite E in Es. injection Es as ->. cbn [st_finish st_max]. destruct T as [_ T]. apply (T k). split; [now apply Htiny|]. intros i Hi Hc. apply Hw in Hi.
    unfold counted in Hc. rewrite Bool.orb_false_r in Hc. pose proof (pl_box _ _ _ _ HP i k Hi Hc ltac:(rewrite Nat2N.id; exact Hk)) as Hb. unfold Rabs in Hb. destruct (Rcase_abs (co i k)); lra.
Qed.

(** ** From parts to partitions *)
Section From.
Variable st : stats.
Hypothesis Hst : stats_for DN co r S st.
Variables (route : vec -> res nat) (m : nat) (bx : nat -> box) (ps : list PartModel.part) (qs : list (list N * box)).
Hypothesis Hparts : parts_of D pts S false route m bx ps.
Hypothesis Hqs : Forall2 (fun p q => lists (pa_pts p) (fst q) /\ snd q = pa_box p) ps qs.
Definition rt (v : N) : nat := match route (co v) with Val j => j | _ => 0 end.

Lemma part_at i : i < length qs -> NoDup (pts_at qs i) /\ boxes_of qs i = bx i /\
  forall v, In v (pts_at qs i) <-> (p_inf DN <= v < 2 ^ 64)%N \/ (In v S /\ fin v /\ rt v = i).
Proof.
  intros Hi. destruct Hparts as [l [Hl [Hr [Hlen HR]]]].
  destruct (nth_error ps i) as [p|] eqn:Ep; [|apply nth_error_None in Ep; apply forall2_len in Hqs; lia].
  assert (Hq : exists q, nth_error qs i = Some q) by (destruct (nth_error qs i) as [q|] eqn:E; [eauto|apply nth_error_None in E; lia]). destruct Hq as [q Eq].
  assert (H2 : lists (pa_pts p) (fst q) /\ snd q = pa_box p).
  { exact (forall2_nth _ _ _ i p q Hqs Ep Eq). }
  destruct H2 as [[Hn [_ Hrp]] Hb]. destruct (HR i p Ep) as [_ [Hbx [_ Hrep]]].
  unfold pts_at, boxes_of. rewrite (nth_error_nth qs i _ Eq). split; [exact Hn|]. split; [congruence|].
  intros v. rewrite <- Hrp, Hrep, (final_in D d30). rewrite Hl.
  assert (Einf : is_inf_id DN v <-> (p_inf DN <= v < 2 ^ 64)%N).
  { unfold is_inf_id. rewrite p_inf_val by (pose proof d30; lia). reflexivity. }
  rewrite <- Einf. split; (intros [H|H]; [left; tauto|]); destruct H as [HvS H].
  - right. split; [exact HvS|]. unfold goes, route_id in H. destruct (p_finite DN v) eqn:Ef; [|discriminate]. rewrite (Hget v HvS Ef) in H. cbn [rbind] in H. unfold rt. destruct (route (co v)) as [j| |]; try discriminate. apply Nat.eqb_eq in H. auto.
  - destruct H as [Hf Hj]. right. split; [exact HvS|]. apply Hl in HvS. destruct (Hr v HvS) as [_ H]. apply Hl in HvS. destruct (H (proj1 (fin_inf v HvS) Hf)) as [c [j [Ec [Ej _]]]]. rewrite (Hget v HvS Hf) in Ec. injection Ec as <-.
    unfold goes, route_id. rewrite Hf, (Hget v HvS Hf). cbn [rbind]. unfold rt in Hj. rewrite Ej in *. apply Nat.eqb_eq. exact Hj.
Qed.
Lemma len_qs : length qs = m.
Proof. destruct Hparts as [l [_ [_ [Hlen _]]]]. apply forall2_len in Hqs. lia. Qed.
Lemma rt_ok v : In v S -> fin v -> route (co v) = Val (rt v) /\ rt v < m /\ in_box D (bx (rt v)) (co v).
Proof.
  intros Hv Hf. destruct Hparts as [l [Hl [Hr _]]]. destruct (Hr v (proj2 (Hl v) Hv)) as [_ H]. destruct (H (proj1 (fin_inf v Hv) Hf)) as [c [j [Ec [Ej Hj]]]].
  rewrite (Hget v Hv Hf) in Ec. injection Ec as <-. unfold rt. rewrite Ej. auto.
Qed.
Lemma inf_not v : (p_inf DN <= v < 2 ^ 64)%N -> p_finite DN v = false.
Proof.
  intros H. destruct (p_finite DN v) eqn:E; [|reflexivity]. exfalso. apply (finite_iff D d30) in E; [|lia]. apply E. unfold is_inf_id. rewrite p_inf_val in H by (pose proof d30; lia). exact H.
Qed.
Lemma not_inf v : In v S -> p_finite DN v = false -> (p_inf DN <= v)%N.
Proof.
  intros Hv E. assert (Hi : is_inf_id DN v) by (apply NNPP; intros H; apply fin_inf in H; [congruence|exact Hv]). unfold is_inf_id in Hi. rewrite p_inf_val by (pose proof d30; lia). lia.
Qed.

Lemma parts_split k : k < D ->
  (forall u v, In u S -> In v S -> fin u -> fin v -> rt u <> rt v -> exists d, d < D /\
    (forall w, In w S -> fin w -> rt w = rt u -> rltb (st_mid st d) (co w d) = rltb (st_mid st d) (co u d)) /\ rltb (st_mid st d) (co v d) <> rltb (st_mid st d) (co u d)) ->
  (forall u, In u S -> fin u -> (co u k <= st_mid st k)%R -> exists j, j < m /\ j <> rt u /\
    (forall w, In w S -> fin w -> rt w = rt u -> (co w k <= st_mid st k)%R) /\ b_lo (bx j) k = st_mid st k /\ b_hi (bx j) k = st_max st k /\
    forall d, d < D -> d <> k -> b_lo (bx j) d = b_lo (bx (rt u)) d /\ b_hi (bx j) d = b_hi (bx (rt u)) d) ->
  split_ok DN co r S qs.
Proof.
  intros Hk Hc Hn. apply (core_ok DN co r S st HP Hst qs rt) with (k := k); rewrite ?Nat2N.id, ?len_qs.
  - intros i v Hi. apply part_at. now rewrite len_qs.
  - intros v Hv Hf. now apply rt_ok.
  - intros i Hi. apply part_at. now rewrite len_qs.
  - intros v Hv Hf. destruct (rt_ok v Hv Hf) as [_ [H1 H2]]. destruct (part_at (rt v)) as [_ [-> _]]; [now rewrite len_qs|exact H2].
  - exact inf_not.
  - exact not_inf.
  - exact Hc.
  - exact Hk.
  - intros u Hu Hf Hle. destruct (Hn u Hu Hf Hle) as [j [Hj [H1 [H2 H3]]]]. destruct (rt_ok u Hu Hf) as [_ [Hu1 _]]. exists j.
    destruct (part_at (rt u)) as [_ [-> _]]; [now rewrite len_qs|]. destruct (part_at j) as [_ [-> _]]; [now rewrite len_qs|]. auto.
Qed.
End From.

Lemma testbit_high n d : n < Nat.pow 2 D -> D <= d -> Nat.testbit n d = false.
Proof. intros H Hd. rewrite Nat.testbit_eqb, Nat.div_small; [reflexivity|]. eapply Nat.lt_le_trans; [exact H|]. apply Nat.pow_le_mono_r; lia. Qed.

(** ** The four splitters *)
Section Each.
Variable st : stats.
Hypothesis Hst : stats_for DN co r S st.

Lemma d_way_split ps qs : parts_of D pts S false (routed D st) (Nat.pow 2 D) (d_box st) ps ->
  Forall2 (fun p q => lists (pa_pts p) (fst q) /\ snd q = pa_box p) ps qs -> split_ok DN co r S qs.
Proof.
  intros Hp Hq. pose proof (rt_ok (routed D st) _ _ ps Hp) as Hrt.
  assert (Hbit : forall v d, d < D -> Nat.testbit (rt (routed D st) v) d = rltb (st_mid st d) (co v d)).
  { intros v d Hd. unfold rt, routed. apply (routed_spec D d30 st (co v) D); exact Hd. }
  apply (parts_split st Hst _ _ _ ps qs Hp Hq 0); [apply HD| |].
  - intros u v Hu Hv Hfu Hfv Hne. apply NNPP. intros H. apply Hne. apply Nat.bits_inj. intros d.
    destruct (Nat.lt_ge_cases d D) as [Hd|Hd].
    + rewrite !Hbit by exact Hd. destruct (Bool.bool_dec (rltb (st_mid st d) (co u d)) (rltb (st_mid st d) (co v d))) as [E|E]; [exact E|].
      exfalso. apply H. exists d. split; [exact Hd|]. split; [intros w _ _ Ew; rewrite <- !Hbit by exact Hd; now rewrite Ew|congruence].
    + rewrite !(testbit_high _ d); [reflexivity|apply Hrt; assumption|exact Hd|apply Hrt; assumption|exact Hd].
  - intros u Hu Hf Hle. set (n := rt (routed D st) u). assert (E0 : Nat.testbit n 0 = false) by (unfold n; rewrite Hbit by apply HD; now apply rltb_false).
    rewrite Nat.bit0_odd in E0. assert (Hev : Nat.even n = true) by (rewrite <- Nat.negb_odd, E0; reflexivity). apply Nat.even_spec in Hev. destruct Hev as [q Eq].
    assert (Hlt : n < Nat.pow 2 D) by (apply Hrt; assumption). exists (2 * q + 1).
    assert (Hpow : Nat.pow 2 D = 2 * Nat.pow 2 (D - 1)) by (rewrite <- Nat.pow_succ_r'; f_equal; lia).
    split; [rewrite Hpow in *; lia|]. split; [lia|]. split; [|split; [|split]].
    + intros w Hw Hfw Ew. apply rltb_false. rewrite <- Hbit by apply HD. fold n in Ew. rewrite Ew, Nat.bit0_odd. exact E0.
    + cbn [d_box b_lo]. now rewrite Nat.testbit_odd_0.
    + cbn [d_box b_hi]. now rewrite Nat.testbit_odd_0.
    + intros d Hd Hd0. destruct d as [|d]; [congruence|]. cbn [d_box b_lo b_hi]. rewrite Eq, Nat.testbit_odd_succ, Nat.testbit_even_succ by lia. auto.
Qed.

Lemma half_split k ps qs : k < D -> parts_of D pts S false (route1 D st k) 2 (half_box st k) ps ->
  Forall2 (fun p q => lists (pa_pts p) (fst q) /\ snd q = pa_box p) ps qs -> split_ok DN co r S qs.
Proof.
  intros Hk Hp Hq.
  assert (Hrt : forall v, rt (route1 D st k) v = if rltb (st_mid st k) (co v k) then 1 else 0) by (intros v; unfold rt, route1; now rewrite (proj2 (Nat.ltb_lt k D) Hk)).
  apply (parts_split st Hst _ _ _ ps qs Hp Hq k Hk).
  - intros u v Hu Hv Hfu Hfv Hne. rewrite !Hrt in Hne. exists k. split; [exact Hk|]. split.
    + intros w _ _ Ew. rewrite !Hrt in Ew. destruct (rltb (st_mid st k) (co w k)), (rltb (st_mid st k) (co u k)); auto; discriminate.
    + intros E. apply Hne. now rewrite E.
  - intros u Hu Hf Hle. assert (E0 : rltb (st_mid st k) (co u k) = false) by (now apply rltb_false). exists 1. rewrite Hrt, E0.
    split; [lia|]. split; [lia|]. split; [|split; [|split]].
    + intros w _ _ Ew. rewrite Hrt in Ew. apply rltb_false. now destruct (rltb (st_mid st k) (co w k)).
    + unfold half_box. cbn [Nat.eqb b_lo]. now rewrite Nat.eqb_refl.
    + unfold half_box. cbn [Nat.eqb b_hi]. reflexivity.
    + intros d Hd Hdk. unfold half_box. cbn [Nat.eqb b_lo b_hi]. now rewrite (proj2 (Nat.eqb_neq d k) Hdk).
Qed.
End Each.
End Parts.
