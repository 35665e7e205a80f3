(** The merge of triangulations along an edge is the triangulation of all points. *)
From Coq Require Import Permutation Classical Lra.
From Verif Require Import Outcome ListUtil WordsModel BlockModel BlockProofs BlockSpec SimplexModel SimplexProofs PointProofs Pool NbrModel NbrSpec NbrProofs MergeModel MergeSpec MergeProofs MergeUpdate GeoModel GeoSpec DelSpec DelGeo DelMerge StepModel TriSpec StepBase.
Local Open Scope nat_scope.

(** ** Faces *)
Section Face.
Variable D : nat.
Variable co : N -> vec.
Variable hgt : N -> R.
Notation dt := (dt D co hgt).
Notation general := (general D co hgt).

(** The vertex beyond a face. *)
Lemma beyond (s t : simplex) k v : NoDup (x_verts s) -> NoDup (x_verts t) -> length (x_verts s) = length (x_verts t) -> opposite s k t -> nth_error (x_verts s) k = Some v ->
  exists a, In a (x_verts t) /\ ~ In a (x_verts s).
Proof.
  intros Ns Nt L [v' [Ev H]] Ev'. assert (v' = v) by congruence. subst v'. apply NNPP. intros Hno. apply nth_error_In in Ev'.
  assert (I : incl (x_verts t) (remove N.eq_dec v (x_verts s))).
  { intros w Hw. assert (In w (x_verts s)) by (apply NNPP; intros Hn; apply Hno; eauto). apply in_in_remove; [|assumption]. intros ->. apply H in Hw; [congruence|assumption]. }
  pose proof (NoDup_incl_length Nt I) as Hle. pose proof (remove_length_lt N.eq_dec (x_verts s) v Ev'). lia.
Qed.
Lemma opp_swap (s t : simplex) k v a : nth_error (x_verts s) k = Some v -> ~ In a (x_verts s) -> same (a :: remove N.eq_dec v (x_verts s)) (x_verts t) -> opposite s k t.
Proof.
  intros Ev Ha H. exists v. split; [exact Ev|]. intros w Hw. rewrite <- (H w). cbn [In]. split.
  - intros [->|Hr]; [contradiction|]. apply in_remove in Hr. tauto.
  - intros Hne. right. now apply in_in_remove.
Qed.
(** The vertex beyond the face lies on the other side. *)
Lemma opp_side S (s t : simplex) k : general S -> dt S (x_verts s) -> dt S (x_verts t) -> opposite s k t ->
  exists v L a, nth_error (x_verts s) k = Some v /\ coords D co (x_verts s) L /\ In a (x_verts t) /\ ~ In a (x_verts s) /\ (L v (co a) < 0)%R.
Proof.
  intros G Hs Ht Ho. pose proof Hs as (_ & (Ns & Ls & L & HL) & _). pose proof Ht as (_ & (Nt & Lt & _) & _). pose proof Ho as [v [Ev H]].
  destruct (beyond s t k v Ns Nt ltac:(congruence) Ho Ev) as [a [Ha Ha']]. exists v, L, a. split; [exact Ev|]. split; [exact HL|]. split; [exact Ha|]. split; [exact Ha'|].
  apply (side_one D co hgt S (x_verts s) (x_verts t) v L a G Hs HL); auto; [eapply nth_error_In; eauto|]. intros w Hw Hne. now apply H.
Qed.

Variable fin : N -> bool.
Variable np : nat.
Variable pt : nat -> list N.
Variable all : list N.
Hypothesis Hdiv : division D co hgt fin np pt all.

(** Not all vertices are infinite. *)
Lemma some_fin S s : outer D co hgt fin S -> dt S s -> exists v, In v s /\ fin v = true.
Proof.
  intros Ho Hs. destruct (Ho s Hs) as (g & Ga & G0 & _ & q & _ & Gq). apply NNPP. intros Hno. destruct Hs as (_ & (_ & _ & L & HL) & _).
  assert (Z : g (co q) = 0%R); [|lra]. apply (interp_zero D co s L HL g Ga). intros w Hw. apply G0; [exact Hw|]. destruct (fin w) eqn:E; [|reflexivity]. exfalso. eauto.
Qed.
(** Nor all of a face with simplices on both sides. *)
Lemma face_fin (s t : simplex) k v : dt all (x_verts s) -> dt all (x_verts t) -> opposite s k t -> nth_error (x_verts s) k = Some v -> exists w, In w (x_verts s) /\ w <> v /\ fin w = true.
Proof.
  intros Hs Ht Ho Ev. destruct (opp_side all s t k (dv_gen _ _ _ _ _ _ _ Hdiv) Hs Ht Ho) as (v' & L & a & Ev' & HL & Ha & Ha' & Hlt). assert (v' = v) by congruence. subst v'.
  destruct (dv_outer _ _ _ _ _ _ _ Hdiv (x_verts s) Hs) as (g & Ga & G0 & Gp & q & Hq & Gq). apply NNPP. intros Hno. pose proof Hs as (Hin & (Ns & _) & _). pose proof (nth_error_In _ _ Ev) as Hv.
  assert (E : forall x, g x = (L v x * g (co v))%R).
  { intros x. apply (interp_one D co (x_verts s) L HL g x v Ga Hv Ns). intros w Hw Hne. apply G0; [exact Hw|]. destruct (fin w) eqn:Ef; [|reflexivity]. exfalso. eauto. }
  assert (Pv : (0 <= g (co v))%R) by auto. destruct Ht as (Hint & _). pose proof (Gp a (Hint a Ha)) as Pa. rewrite E in Pa, Gq.
  destruct (Rle_lt_or_eq_dec _ _ Pv) as [Hv0|Hv0]; [nra|]. rewrite <- Hv0 in Gq. lra.
Qed.
(** A face without a simplex beyond it in a set with the infinite points has none among all points. *)
Lemma none_beyond S (s t : simplex) k v : (forall u, In u S -> In u all) -> (forall u, In u all -> fin u = false -> In u S) ->
  dt S (x_verts s) -> dt all (x_verts s) -> dt all (x_verts t) -> opposite s k t -> nth_error (x_verts s) k = Some v ->
  exists a, ~ In a (x_verts s) /\ dt S (a :: remove N.eq_dec v (x_verts s)).
Proof.
  intros Hsub Hinf HS Hs Ht Ho Ev. destruct (opp_side all s t k (dv_gen _ _ _ _ _ _ _ Hdiv) Hs Ht Ho) as (v' & L & a & Ev' & HL & Ha & Ha' & Hlt). assert (v' = v) by congruence. subst v'.
  pose proof HS as (_ & _ & kk & Hk & Hf). pose proof (nth_error_In _ _ Ev) as Hv.
  assert (X : exists u, In u S /\ (L v (co u) < 0)%R).
  { apply NNPP. intros Hno. assert (0 <= L v (co a))%R; [|lra]. apply (dv_hull _ _ _ _ _ _ _ Hdiv a); [destruct Ht; auto|destruct HL; auto|]. intros u Hu. apply filter_In in Hu as [Hu Hfu].
    destruct (Rle_lt_dec 0 (L v (co u))) as [|C]; [assumption|]. exfalso. apply Hno. exists u. split; [|exact C]. apply Hinf; [exact Hu|]. now destruct (fin u). }
  destruct X as (u & Hu & Hlu). destruct (nbr_ex D co hgt S (x_verts s) L kk v u HS HL Hk Hf Hv Hu Hlu) as (b & k' & _ & _ & Hb & Hdt & _). eauto.
Qed.
(** A simplex beyond a face in a subset gives one among all points. *)
Lemma some_beyond S (s t : simplex) k v : (forall u, In u S -> In u all) -> general S -> dt S (x_verts s) -> dt S (x_verts t) -> dt all (x_verts s) -> opposite s k t -> nth_error (x_verts s) k = Some v ->
  exists a, ~ In a (x_verts s) /\ dt all (a :: remove N.eq_dec v (x_verts s)).
Proof.
  intros Hsub G HS HT Hs Ho Ev. destruct (opp_side S s t k G HS HT Ho) as (v' & L & a & Ev' & HL & Ha & Ha' & Hlt). assert (v' = v) by congruence. subst v'.
  pose proof Hs as (_ & _ & kk & Hk & Hf). pose proof (nth_error_In _ _ Ev) as Hv. assert (Haa : In a all) by (apply Hsub; destruct HT; auto).
  destruct (nbr_ex D co hgt all (x_verts s) L kk v a Hs HL Hk Hf Hv Haa Hlt) as (b & k' & _ & _ & Hb & Hdt & _). eauto.
Qed.
End Face.

Section Join.
Variable over : N -> N.
Variable D : N.
Hypothesis HD : (D <= 30)%N.
Variable co : N -> vec.
Variable hgt : N -> R.
Notation Dn := (N.to_nat D).
Notation fin := (p_finite D).
Notation dt := (dt Dn co hgt).
Notation general := (general Dn co hgt).
Notation tri := (triangulation over D co hgt).
Variable parts : list part.
Notation np := (length parts).
(** The points of a partition. *)
Definition points_of (parts : list part) (i : nat) : list N := snd (nth i parts (0, [])).
Notation pt := (points_of parts).
Hypothesis Hnum : forall k id pts, nth_error parts k = Some (id, pts) -> id = k.
Variable all : list N.
Hypothesis Hdiv : division Dn co hgt fin np pt all.
Variable ps : list dsims.
Hypothesis Hlen : length ps = np.
Hypothesis Hnp : 0 < np.
Hypothesis Htri : forall i, i < np -> tri (pt i) (p_at ps i).
Variables edge W : list N.
Hypothesis Hedge : edge_ok D co hgt np pt all (p_at ps) edge W.
Variable edgeDT : dsims.
Hypothesis Hw : tri W edgeDT.
Hypothesis Hgw : general W.
Hypothesis Hwo : outer Dn co hgt fin W.
Hypothesis Hapart : ForallOrdPairs no_shared (edgeDT :: ps).
Hypothesis Hblocks : (N.of_nat (blocks (edgeDT :: ps)) < 2 ^ 32)%N.
Hypothesis Hroom : forall i, i < np -> (d_mark (p_at ps i) + 4 < 256)%N.
Hypothesis Hroom' : (d_mark edgeDT + 2 < 256)%N.

Lemma parts_in id pts : In (id, pts) parts <-> id < np /\ pts = pt id.
Proof.
  unfold points_of. split.
  - intros H. destruct (In_nth_error parts _ H) as [k Ek]. pose proof (Hnum k id pts Ek). subst id. split; [apply (nth_error_Some parts k); intros C; rewrite C in Ek; discriminate|].
    now rewrite (nth_error_nth parts k (0, []) Ek).
  - intros [H ->]. destruct (nth_error parts id) as [[j q]|] eqn:E; [|apply nth_error_None in E; lia]. pose proof (Hnum id j q E). subst j.
    rewrite (nth_error_nth parts id (0, []) E). cbn [snd]. eapply nth_error_In; eauto.
Qed.
Lemma one_part s : in_one_part parts s <-> single np pt (x_verts s).
Proof.
  split.
  - intros (id & pts & H & Hv). apply parts_in in H as [H ->]. exists id. auto.
  - intros (i & Hi & Hv). exists i, (pt i). split; [apply parts_in; auto|exact Hv].
Qed.
Lemma stored_at i s : stored ps i s <-> exists k, k < np /\ holds (d_arr (p_at ps k)) i s.
Proof.
  split.
  - intros [p [Hp Hs]]. apply (In_nth _ _ no_d) in Hp as [k [Hk Ek]]. exists k. split; [lia|]. unfold p_at. now rewrite Ek.
  - intros [k [Hk Hs]]. exists (p_at ps k). split; [|exact Hs]. apply nth_In. lia.
Qed.
Lemma part_all k v : k < np -> In v (pt k) -> In v all.
Proof. intros Hk Hv. apply (dv_all _ _ _ _ _ _ _ Hdiv). eauto. Qed.
Lemma W_all v : In v W -> In v all.
Proof.
  intros Hv. apply (eo_points _ _ _ _ _ _ _ _ _ Hedge) in Hv as [[H _]|(i & e & x & Hi & _ & Hx & Hv)]; [exact H|]. apply (part_all i); [exact Hi|].
  destruct (tr_sound _ _ _ _ _ _ (Htri i Hi) e x Hx) as (H & _). auto.
Qed.
Lemma W_inf v : In v all -> fin v = false -> In v W.
Proof. intros H H'. apply (eo_points _ _ _ _ _ _ _ _ _ Hedge). auto. Qed.

Lemma j_input : merge_input over D parts ps edge edgeDT.
Proof.
  constructor.
  - exact HD.
  - intros E. rewrite E in Hlen. cbn in Hlen. lia.
  - intros p [<-|Hp]; [split; [exact (tr_wf _ _ _ _ _ _ Hw)|exact (tr_proper _ _ _ _ _ _ Hw)]|].
    apply (In_nth _ _ no_d) in Hp as [k [Hk Ek]]. rewrite Hlen in Hk. pose proof (Htri k Hk) as T. unfold p_at in T. rewrite Ek in T. split; [exact (tr_wf _ _ _ _ _ _ T)|exact (tr_proper _ _ _ _ _ _ T)].
  - exact Hapart.
  - exact Hblocks.
  - split; [exact Hnum|]. split.
    + intros id pts id' pts' v H1 H2 Hv Hv' Hf. apply parts_in in H1 as [H1 ->]. apply parts_in in H2 as [H2 ->]. exact (dv_one _ _ _ _ _ _ _ Hdiv id id' v H1 H2 Hv Hv' Hf).
    + intros id pts id' pts' v H1 H2 Hf Hv. apply parts_in in H1 as [H1 ->]. apply parts_in in H2 as [H2 ->]. apply (dv_inf _ _ _ _ _ _ _ Hdiv v id' (part_all id v H1 Hv) Hf H2).
  - intros e He. destruct (eo_stored _ _ _ _ _ _ _ _ _ Hedge e He) as (i & x & Hi & Hx & Hid). exists x. split; [apply stored_at; eauto|exact Hid].
  - intros i s v r Hs Hid Ev. assert (Hv : In v all).
    { apply W_all. destruct (tr_sound _ _ _ _ _ _ Hw i s (conj Hs Hid)) as (H & _). apply H. rewrite Ev. now left. }
    apply (dv_all _ _ _ _ _ _ _ Hdiv) in Hv as [k [Hk Hv]]. exists k, (pt k). split; [apply parts_in; auto|exact Hv].
Qed.
Notation Hin := j_input.

(** The edge as sets of vertices. *)
Definition edge_v (k : nat) (s : list N) : Prop := k < np /\ dt (pt k) s /\ exists e x, In e edge /\ shown (p_at ps k) e x /\ same s (x_verts x).
Lemma edge_v_below i j s k p : i < np -> j < np -> i <> j -> dt (pt i) s -> In p (pt j) -> fin p = true -> through Dn co hgt s k -> (hgt p <= k (co p))%R -> edge_v i s.
Proof.
  intros Hi Hj Hij Hs Hp Hf Hk Hle. split; [exact Hi|]. split; [exact Hs|]. destruct (tr_complete _ _ _ _ _ _ (Htri i Hi) s Hs) as (e & x & Hx & Hsm). exists e, x. split; [|auto].
  apply (eo_below _ _ _ _ _ _ _ _ _ Hedge i j e x k p Hi Hj Hij Hx Hp Hf); [|exact Hle]. destruct Hk as [Ha Hk]. split; [exact Ha|]. intros v Hv. apply Hk. now apply Hsm.
Qed.
Lemma edge_v_points v : In v W <-> (In v all /\ fin v = false) \/ exists i s, edge_v i s /\ In v s.
Proof.
  rewrite (eo_points _ _ _ _ _ _ _ _ _ Hedge v). split; (intros [H|H]; [now left|right]).
  - destruct H as (i & e & x & Hi & He & Hx & Hv). exists i, (x_verts x). split; [|exact Hv]. split; [exact Hi|]. split; [exact (tr_sound _ _ _ _ _ _ (Htri i Hi) e x Hx)|].
    exists e, x. split; [exact He|]. split; [exact Hx|]. intros w. reflexivity.
  - destruct H as (i & s' & (Hi & _ & e & x & He & Hx & Hsm) & Hv). exists i, e, x. split; [exact Hi|]. split; [exact He|]. split; [exact Hx|]. now apply Hsm.
Qed.
Lemma w_some i j p : i < np -> j < np -> i <> j -> outer Dn co hgt fin (pt i) -> In p (pt j) -> fin p = true -> exists v, In v W /\ fin v = true.
Proof. exact (DelMerge.edge_some Dn co hgt fin np pt all Hdiv edge_v edge_v_below W edge_v_points i j p). Qed.
Lemma merged_v s : ((exists i, i < np /\ dt (pt i) s /\ ~ edge_v i s) \/ (dt W s /\ (~ single np pt s \/ exists i s', edge_v i s' /\ same s s'))) <-> dt all s.
Proof.
  apply (merged Dn co hgt fin np pt all Hdiv edge_v); [|exact edge_v_below|exact edge_v_points|exact Hwo]. intros i s' (H1 & H2 & _). auto.
Qed.

Variables (m : dsims) (inserted : list N) (table : list (N * N)) (marks : N -> N).
Hypothesis R : merge_run over D parts ps edge edgeDT m inserted table marks.
Notation get := (d_get (d_arr m)).
Notation live := (live get).
(** The simplices that stay, and those that are taken from the triangulation of the edge. *)
Definition stays (k : nat) (i : N) (s : simplex) : Prop := k < np /\ shown (p_at ps k) i s /\ ~ In i edge.
Definition taken (i : N) (s : simplex) : Prop := shown edgeDT i s /\ wanted parts ps edge s.
Lemma live_cases i s : live i s <-> (exists k, stays k i s) \/ taken i s.
Proof.
  rewrite (live_iff over D parts ps edge edgeDT Hin m inserted table marks R). rewrite stored_at. unfold stays, taken, shown. split.
  - intros [([k [Hk H]] & H1 & H2)|(H & H1 & H2)]; [left; exists k; auto|right; auto].
  - intros [(k & Hk & [H H1] & H2)|([H H1] & H2)]; [left; eauto|right; auto].
Qed.
Lemma stored_shown k i x : k < np -> shown (p_at ps k) i x -> stored ps i x.
Proof. intros Hk [H _]. apply stored_at. eauto. Qed.
Lemma one_home k k' i x y : k < np -> k' < np -> shown (p_at ps k) i x -> shown (p_at ps k') i y -> x = y.
Proof. intros Hk Hk' Hx Hy. exact (stored_fun over D parts ps edge edgeDT Hin i x y (stored_shown k i x Hk Hx) (stored_shown k' i y Hk' Hy)). Qed.
Lemma not_both k i x y : k < np -> shown (p_at ps k) i x -> shown edgeDT i y -> False.
Proof. intros Hk Hx [Hy _]. eapply (stored_apart over D parts ps edge edgeDT Hin); [eapply stored_shown; eauto|exact Hy]. Qed.
Lemma stays_not k i s : stays k i s -> ~ edge_v k (x_verts s).
Proof.
  intros (Hk & Hs & Hn) (_ & _ & e & x & He & Hx & Hsm). apply Hn. destruct (shown_same _ _ _ _ _ _ (Htri k Hk) i e s x Hs Hx Hsm) as [-> _]. exact He.
Qed.
Lemma live_dt i s : live i s -> dt all (x_verts s).
Proof.
  intros H. apply merged_v. apply live_cases in H as [[k H]|[Hs Hwt]].
  - left. exists k. pose proof H as (Hk & Hs & _). split; [exact Hk|]. split; [exact (tr_sound _ _ _ _ _ _ (Htri k Hk) i s Hs)|]. eapply stays_not; eauto.
  - right. split; [exact (tr_sound _ _ _ _ _ _ Hw i s Hs)|]. destruct Hwt as [H|(e & t & He & Ht & E)]; [left; now rewrite <- one_part|right].
    destruct (eo_stored _ _ _ _ _ _ _ _ _ Hedge e He) as (k & x & Hk & Hx). assert (t = x) by (eapply (stored_fun over D parts ps edge edgeDT Hin); [exact Ht|eapply stored_shown; eauto]). subst t.
    exists k, (x_verts x). rewrite E. split; [|intros w; reflexivity]. rewrite <- E. split; [exact Hk|]. split; [exact (tr_sound _ _ _ _ _ _ (Htri k Hk) e x Hx)|]. exists e, x. split; [exact He|]. split; [exact Hx|].
    intros w; reflexivity.
Qed.
Lemma live_shape i s : live i s -> x_id s = i /\ i <> s_inf /\ well over s /\ length (x_verts s) = Datatypes.S Dn /\ length (x_nbrs s) = Datatypes.S Dn.
Proof.
  intros H. pose proof (proj1 (live_cases i s) H) as [(k & Hk & Hs & _)|[Hs _]].
  - destruct (shown_id _ _ _ _ _ _ (Htri k Hk) i s Hs) as (H1 & H2 & H3 & _). repeat split; auto; try apply H3; [exact (shown_len _ _ _ _ _ _ (Htri k Hk) i s Hs)|]. rewrite (tr_slots _ _ _ _ _ _ (Htri k Hk) i s Hs). lia.
  - destruct (shown_id _ _ _ _ _ _ Hw i s Hs) as (H1 & H2 & H3 & _). repeat split; auto; try apply H3; [exact (shown_len _ _ _ _ _ _ Hw i s Hs)|]. rewrite (tr_slots _ _ _ _ _ _ Hw i s Hs). lia.
Qed.
Lemma live_sorted i s : live i s -> sorted (x_verts s) /\ x_verts s <> [].
Proof. intros H. destruct (live_shape i s H) as (_ & _ & (_ & H1 & H2 & _) & _). auto. Qed.
Lemma live_complete s : dt all s -> exists i x, live i x /\ same s (x_verts x).
Proof.
  intros Hs. apply merged_v in Hs as [(k & Hk & Hs & Hn)|[Hs Hwt]].
  - destruct (tr_complete _ _ _ _ _ _ (Htri k Hk) s Hs) as (i & x & Hx & Hsm). exists i, x. split; [|exact Hsm]. apply live_cases. left. exists k. split; [exact Hk|]. split; [exact Hx|].
    intros He. apply Hn. split; [exact Hk|]. split; [exact Hs|]. eauto.
  - destruct (tr_complete _ _ _ _ _ _ Hw s Hs) as (i & x & Hx & Hsm). exists i, x. split; [|exact Hsm]. apply live_cases. right. split; [exact Hx|]. destruct Hwt as [H|(k & s' & (Hk & _ & e & y & He & Hy & Hsy) & Hs')].
    + left. rewrite one_part. intros (k & Hk & Hv). apply H. exists k. split; [exact Hk|]. intros v Hv'. apply Hv. now apply Hsm.
    + right. exists e, y. split; [exact He|]. split; [eapply stored_shown; eauto|]. apply (sorted_set_eq over).
      * exact (proj1 (shown_sorted _ _ _ _ _ _ (Htri k Hk) e y Hy)).
      * exact (proj1 (shown_sorted _ _ _ _ _ _ Hw i x Hx)).
      * intros v. rewrite <- (Hsy v), <- (Hs' v). apply Hsm.
Qed.
(** A Delaunay simplex of all points lies in one partition at most. *)
Lemma part_uniq s k k' : dt all s -> k < np -> k' < np -> (forall v, In v s -> In v (pt k)) -> (forall v, In v s -> In v (pt k')) -> k = k'.
Proof.
  intros Hs Hk Hk' H H'. destruct (some_fin Dn co hgt fin all s (dv_outer _ _ _ _ _ _ _ Hdiv) Hs) as (v & Hv & Hf). exact (dv_one _ _ _ _ _ _ _ Hdiv k k' v Hk Hk' (H v Hv) (H' v Hv) Hf).
Qed.
Lemma stays_in k i s : stays k i s -> forall v, In v (x_verts s) -> In v (pt k).
Proof. intros (Hk & Hs & _). destruct (tr_sound _ _ _ _ _ _ (Htri k Hk) i s Hs) as (H & _). exact H. Qed.
Lemma stays_taken k i s j t : stays k i s -> taken j t -> same (x_verts s) (x_verts t) -> False.
Proof.
  intros Hs Ht Hsm. assert (Hl : live i s) by (apply live_cases; eauto). pose proof (live_dt i s Hl) as Hd. pose proof Hs as (Hk & Hx & Hn). destruct Ht as [Ht [H|(e & u & He & Hu & E)]].
  - apply H, one_part. exists k. split; [exact Hk|]. intros v Hv. apply (stays_in k i s Hs). now apply Hsm.
  - destruct (eo_stored _ _ _ _ _ _ _ _ _ Hedge e He) as (k' & x & Hk' & Hx'). assert (u = x) by (eapply (stored_fun over D parts ps edge edgeDT Hin); [exact Hu|eapply stored_shown; eauto]). subst u.
    assert (k = k').
    { apply (part_uniq (x_verts s)); auto; [eapply stays_in; eauto|]. intros v Hv. destruct (tr_sound _ _ _ _ _ _ (Htri k' Hk') e x Hx') as (H & _). apply H. rewrite E. now apply Hsm. }
    subst k'. apply Hn. rewrite (tr_once _ _ _ _ _ _ (Htri k Hk) i e s x Hx Hx'); [exact He|]. rewrite E. exact Hsm.
Qed.
Lemma live_once i j s t : live i s -> live j t -> same (x_verts s) (x_verts t) -> i = j.
Proof.
  intros Hs Ht Hsm. pose proof (live_dt i s Hs) as Hd. apply live_cases in Hs, Ht. destruct Hs as [[k Hs]|Hs], Ht as [[k' Ht]|Ht].
  - assert (k = k').
    { apply (part_uniq (x_verts s)); auto; [apply Hs|apply Ht|eapply stays_in; eauto|]. intros v Hv. eapply stays_in; [exact Ht|]. now apply Hsm. }
    subst k'. destruct Hs as (Hk & Hs & _), Ht as (_ & Ht & _). exact (tr_once _ _ _ _ _ _ (Htri k Hk) i j s t Hs Ht Hsm).
  - exfalso. eapply stays_taken; eauto.
  - exfalso. apply (stays_taken k' j t i s Ht Hs). intros v. symmetry. apply Hsm.
  - exact (tr_once _ _ _ _ _ _ Hw i j s t (proj1 Hs) (proj1 Ht) Hsm).
Qed.
Lemma live_fun i s t : live i s -> live i t -> s = t.
Proof. intros (H1 & _) (H2 & _). congruence. Qed.
Lemma one_opp i s k j j' t t' : live i s -> live j t -> live j' t' -> opposite s k t -> opposite s k t' -> j = j'.
Proof.
  intros Hs Ht Ht' H H'. apply (live_once j j' t t' Ht Ht'). apply (opp_same D co hgt all s t t' k); auto; try (eapply live_dt; eauto). exact (dv_gen _ _ _ _ _ _ _ Hdiv).
Qed.
Lemma j_one_each : one_each get.
Proof. intros i s d c c' Hs (_ & t & Ht & Ho) (_ & t' & Ht' & Ho'). exact (one_opp i s d c c' t t' Hs Ht Ht' Ho Ho'). Qed.

Notation nbr0 := (cell_nbr (d_arr m)).
Lemma nbr0_at i s d n : live i s -> nth_error (x_nbrs s) d = Some n -> nbr0 i d = n.
Proof. intros (E & _) En. unfold cell_nbr. rewrite E. now apply nth_error_nth. Qed.
Lemma live_slot i s d : live i s -> d < length (x_verts s) -> exists n, nth_error (x_nbrs s) d = Some n /\ nbr0 i d = n.
Proof. intros H Hd. destruct (live_shape i s H) as (_ & _ & _ & L1 & L2). destruct (nth_error_ex (x_nbrs s) d) as [n En]; [lia|]. exists n. split; [exact En|]. eapply nbr0_at; eauto. Qed.
Lemma live_opp_sym i s k j t : live i s -> live j t -> opposite s k t -> exists k', opposite t k' s.
Proof.
  intros Hs Ht Ho. destruct (live_sorted i s Hs) as [S1 _]. destruct (live_sorted j t Ht) as [S2 N2]. apply (opp_sym s k t S1 S2 N2); [|exact Ho].
  destruct (live_shape i s Hs) as (_ & _ & _ & -> & _). destruct (live_shape j t Ht) as (_ & _ & _ & -> & _). reflexivity.
Qed.
(** A live simplex with an id of a partition stays; with one of the edge triangulation it is taken. *)
Lemma live_in_part k n x t : k < np -> shown (p_at ps k) n x -> live n t -> x = t /\ ~ In n edge.
Proof.
  intros Hk Hx Ht. apply live_cases in Ht as [(k' & Hk' & Ht & Hn)|[Ht _]]; [|exfalso; eapply not_both; eauto]. split; [eapply one_home with (k := k) (k' := k'); eauto|exact Hn].
Qed.
Lemma live_in_edge n x t : shown edgeDT n x -> live n t -> x = t.
Proof. intros Hx Ht. apply live_cases in Ht as [(k' & Hk' & Ht & _)|[Ht _]]; [exfalso; eapply not_both; eauto|]. exact (shown_fun _ _ _ _ _ _ Hw n x t Hx Ht). Qed.

Lemma j_old_right : old_right get nbr0.
Proof.
  intros i s d t e Hs Hd Ht Ho. destruct (live_slot i s d Hs Hd) as [n [En E]]. rewrite E in *.
  assert (Hni : n <> s_inf) by (destruct (live_shape n t Ht) as (_ & H & _); exact H).
  assert (X : exists d', opposite t d' s /\ nth_error (x_nbrs t) d' = Some i /\ opposite s d t).
  { pose proof (proj1 (live_cases i s) Hs) as [(k & Hk & Hx & _)|[Hx _]].
    - destruct (tr_nbrs _ _ _ _ _ _ (Htri k Hk) i s d n Hx En) as [[C _]|(t' & Ht' & Ho')]; [contradiction|]. destruct (live_in_part k n t' t Hk Ht' Ht) as [-> _].
      destruct (mutual _ _ _ _ _ _ (Htri k Hk) (dv_gens _ _ _ _ _ _ _ Hdiv k Hk) i s d n t Hx Ht' Ho') as (k' & H1 & H2). eauto.
    - destruct (tr_nbrs _ _ _ _ _ _ Hw i s d n Hx En) as [[C _]|(t' & Ht' & Ho')]; [contradiction|]. pose proof (live_in_edge n t' t Ht' Ht) as ->.
      destruct (mutual _ _ _ _ _ _ Hw Hgw i s d n t Hx Ht' Ho') as (k' & H1 & H2). eauto. }
  destruct X as (d' & H1 & H2 & H3). split; [exact H3|]. exists d'. split; [eapply opposite_lt; eauto|]. eapply nbr0_at; eauto.
Qed.

Variable tbl : N -> list N.
Hypothesis Htbl : forall h c, In c (tbl h) <-> In (h, c) table.
Variable order : list N.
Hypothesis Hord : Permutation order inserted.
Notation visited := (visited over get tbl nbr0 order).
Notation listed := (listed over tbl).
Lemma pmark p : In p ps -> (d_mark p + 2 < 256)%N /\ (d_mark p + 4 < 256)%N.
Proof. intros Hp. apply (In_nth _ _ no_d) in Hp as [k [Hk Ek]]. rewrite Hlen in Hk. pose proof (Hroom k Hk) as H. unfold p_at in H. rewrite Ek in H. lia. Qed.
Lemma taken_visited i s : taken i s -> visited i.
Proof.
  intros [[H1 H2] H3]. apply visited_given. eapply Permutation_in; [symmetry; exact Hord|]. apply (run_inserted over D parts ps edge edgeDT Hin m inserted table marks R). eauto.
Qed.
Lemma taken_listed i s d : taken i s -> d < length (x_verts s) -> listed s d i.
Proof.
  intros [[H1 H2] H3] Hd. destruct (face_def over s d Hd) as [h Eh]. exists h. split; [exact Eh|]. apply Htbl.
  apply (run_table over D parts ps edge edgeDT Hin m inserted table marks R (fun p Hp => proj1 (pmark p Hp))). right. exists s, d. auto.
Qed.
(** A neighbor of an edge simplex is listed. *)
Lemma next_listed k i s d n t : stays k i s -> shown (p_at ps k) n t -> In n edge -> opposite s d t -> forall d', d' < length (x_verts s) -> listed s d' i.
Proof.
  intros (Hk & Hs & Hn) Ht He Ho d' Hd'. destruct (mutual _ _ _ _ _ _ (Htri k Hk) (dv_gens _ _ _ _ _ _ _ Hdiv k Hk) i s d n t Hs Ht Ho) as (k' & _ & En).
  destruct (face_def over s d' Hd') as [h Eh]. exists h. split; [exact Eh|]. apply Htbl. apply (run_table over D parts ps edge edgeDT Hin m inserted table marks R (fun p Hp => proj1 (pmark p Hp))). left. split.
  - exists n, t. split; [exact He|]. split; [eapply stored_shown; eauto|]. split; [eapply nth_error_In; eauto|]. split; [|exact Hn]. apply (shown_id _ _ _ _ _ _ (Htri k Hk) i s Hs).
  - exists s, d'. split; [eapply stored_shown; eauto|]. auto.
Qed.
Lemma listed_sym i s d j t d' c : live i s -> live j t -> opposite s d t -> opposite t d' s -> listed t d' c -> listed s d c.
Proof.
  intros Hs Ht Ho Ho' [h [Eh Hc]]. exists h. split; [|exact Hc]. destruct (live_shape i s Hs) as (_ & _ & (F1 & S1 & _) & _). destruct (live_shape j t Ht) as (_ & _ & (F2 & S2 & _) & _).
  rewrite (opposite_face over s d t d' S1 S2 F1 F2 Ho Ho'). exact Eh.
Qed.
(** Neighbors that stay are of one partition. *)
Lemma stays_same k i s d k' j t : stays k i s -> stays k' j t -> opposite s d t -> k = k'.
Proof.
  intros Hs Ht Ho. assert (Ls : live i s) by (apply live_cases; eauto). assert (Lt : live j t) by (apply live_cases; eauto). pose proof Ho as [v [Ev H]].
  destruct (face_fin Dn co hgt fin np pt all Hdiv s t d v (live_dt i s Ls) (live_dt j t Lt) Ho Ev) as (w & Hw' & Hne & Hf).
  apply (dv_one _ _ _ _ _ _ _ Hdiv k k' w); [apply Hs|apply Ht|eapply stays_in; eauto|eapply stays_in; [exact Ht|]; now apply H|exact Hf].
Qed.
(** Where a simplex has no neighbor in its partition it has none at all. *)
Lemma stays_none k i s d j t : stays k i s -> (forall n u, shown (p_at ps k) n u -> ~ opposite s d u) -> live j t -> opposite s d t -> False.
Proof.
  intros Hs Hno Ht Ho. assert (Ls : live i s) by (apply live_cases; eauto). pose proof Ho as [v [Ev _]]. pose proof Hs as (Hk & Hx & _).
  destruct (none_beyond Dn co hgt fin np pt all Hdiv (pt k) s t d v) as (a & Ha & Hd); auto.
  - intros u. now apply part_all.
  - intros u Hu Hf. exact (dv_inf _ _ _ _ _ _ _ Hdiv u k Hu Hf Hk).
  - exact (tr_sound _ _ _ _ _ _ (Htri k Hk) i s Hx).
  - eapply live_dt; eauto.
  - eapply live_dt; eauto.
  - destruct (tr_complete _ _ _ _ _ _ (Htri k Hk) _ Hd) as (n & u & Hu & Hsm). apply (Hno n u Hu). eapply opp_swap; eauto.
Qed.
(** A simplex that stays is listed for a simplex taken beyond its face. *)
Lemma stays_listed k i s d j t d' : stays k i s -> taken j t -> opposite s d t -> opposite t d' s -> listed t d' i.
Proof.
  intros Hs Ht Ho Ho'. assert (Ls : live i s) by (apply live_cases; eauto). assert (Lt : live j t) by (apply live_cases; auto). pose proof Hs as (Hk & Hx & _).
  destruct (live_slot i s d Ls (opposite_lt _ _ _ Ho)) as [n [En _]]. apply (listed_sym j t d' i s d); auto.
  destruct (tr_nbrs _ _ _ _ _ _ (Htri k Hk) i s d n Hx En) as [[_ Hno]|(u & Hu & Hou)]; [exfalso; eapply stays_none; eauto|].
  destruct (in_dec N.eq_dec n edge) as [He|He]; [eapply next_listed; eauto; eapply opposite_lt; eauto|].
  assert (Lu : live n u) by (apply live_cases; left; exists k; split; auto). exfalso. pose proof (one_opp i s d n j u t Ls Lu Lt Hou Ho). subst n. destruct Ht as [Ht _]. eapply not_both; eauto.
Qed.
Lemma stays_visited k i s d n u j t : stays k i s -> shown (p_at ps k) n u -> opposite s d u -> In n edge -> taken j t -> opposite s d t -> visited i.
Proof.
  intros Hs Hu Hou He Ht Ho. assert (Ls : live i s) by (apply live_cases; eauto). assert (Lt : live j t) by (apply live_cases; auto). pose proof Hs as (Hk & Hx & _).
  destruct (live_opp_sym i s d j t Ls Lt Ho) as [d' Ho']. apply (visited_found over get tbl nbr0 order j t d'); auto.
  - eapply taken_visited; eauto.
  - intros (t' & y & e & Lt' & Ly & Hoe). assert (t' = t) by (eapply live_fun; eauto). subst t'. destruct (j_old_right j t d' y e Lt (opposite_lt _ _ _ Ho') Ly Hoe) as [Hoy _].
    pose proof (one_opp j t d' (nbr0 j d') i y s Lt Ly Ls Hoy Ho') as E. destruct (live_slot j t d' Lt (opposite_lt _ _ _ Ho')) as [n' [En' E']].
    rewrite <- E', E in En'. destruct Ht as [Ht _]. destruct (tr_nbrs _ _ _ _ _ _ Hw j t d' i Ht En') as [[C _]|(z & Hz & _)].
    + destruct (live_shape i s Ls) as (_ & H & _). contradiction.
    + eapply not_both; eauto.
  - eapply stays_listed; eauto.
  - eapply opposite_fits; eauto.
Qed.

Variable sh : ush.
Hypothesis Hu : pexec (u_step over get tbl (d_mark m)) (u_start nbr0 marks order) (mkp sh []).
Lemma j_room : (d_mark m + 2 < 256)%N.
Proof. eapply (out_room over D parts ps edge edgeDT Hin m inserted table marks R); eauto; intros p Hp; apply (pmark p Hp). Qed.
Lemma j_marks id : (marks id <= d_mark m)%N.
Proof. apply (run_marks over D parts ps edge edgeDT Hin m inserted table marks R (fun p Hp => proj1 (pmark p Hp)) id). Qed.
Lemma j_given id : In id order -> exists s, live id s.
Proof. intros H. apply (inserted_live over D parts ps edge edgeDT Hin m inserted table marks R). eapply Permutation_in; eauto. Qed.
Lemma j_nbr i s d : live i s -> d < length (x_verts s) ->
  (u_nbr sh i d = s_inf /\ forall j t, live j t -> ~ opposite s d t) \/ exists t, live (u_nbr sh i d) t /\ opposite s d t.
Proof.
  intros Hs Hd. destruct (u_result over get tbl (d_mark m) nbr0 marks order (out_sorted over D parts ps edge edgeDT Hin m inserted table marks R) j_given j_room j_marks sh Hu) as [R1 R2].
  destruct (classic (visited i)) as [Hv|Hv].
  - destruct (R1 i s d Hv Hs Hd) as [[(s' & t & e & Ls & Lt & Ho) E]|[(_ & _ & _ & t & Lt & Ho)|(Hng & E & Hno)]].
    + right. exists t. assert (s' = s) by (eapply live_fun; eauto). subst s'. destruct (j_old_right i s d t e Hs Hd Lt Ho) as [H _]. rewrite E. auto.
    + right. eauto.
    + left. split; [exact E|]. intros j t Lt Ho. apply (Hno j); [|eapply opposite_fits; eauto]. destruct (live_opp_sym i s d j t Hs Lt Ho) as [d' Ho'].
      pose proof (proj1 (live_cases j t) Lt) as [[k Ht]|Ht]; [|apply (listed_sym i s d j t d'); auto; apply taken_listed; [exact Ht|eapply opposite_lt; eauto]].
      pose proof (proj1 (live_cases i s) Hs) as [[k' Hs']|Hs'].
      * exfalso. pose proof (stays_same k' i s d k j t Hs' Ht Ho). subst k'. destruct Hs' as (Hk & Hx & _), Ht as (_ & Hy & _).
        pose proof (slot_is _ _ _ _ _ _ (Htri k Hk) (dv_gens _ _ _ _ _ _ _ Hdiv k Hk) i s d j t Hx Hy Ho) as En. apply Hng. exists s, t, d. split; [exact Hs|].
        rewrite (nbr0_at i s d j Hs En). auto.
      * apply (stays_listed k j t d' i s d); auto.
  - rewrite (R2 i d Hv). pose proof (proj1 (live_cases i s) Hs) as [[k Hs']|Hs']; [|exfalso; apply Hv; eapply taken_visited; eauto].
    destruct (live_slot i s d Hs Hd) as [n [En ->]]. pose proof Hs' as (Hk & Hx & Hn).
    destruct (tr_nbrs _ _ _ _ _ _ (Htri k Hk) i s d n Hx En) as [[-> Hno]|(u & Hu' & Ho)].
    + left. split; [reflexivity|]. intros j t Lt Ho. exact (stays_none k i s d j t Hs' Hno Lt Ho).
    + right. exists u. split; [|exact Ho]. apply live_cases. left. exists k. split; [exact Hk|]. split; [exact Hu'|]. intros He. apply Hv.
      pose proof Ho as [v [Ev _]]. destruct (some_beyond Dn co hgt all (pt k) s u d v) as (a & Ha & Hdt); auto.
      * intros w. now apply part_all.
      * exact (dv_gens _ _ _ _ _ _ _ Hdiv k Hk).
      * exact (tr_sound _ _ _ _ _ _ (Htri k Hk) i s Hx).
      * exact (tr_sound _ _ _ _ _ _ (Htri k Hk) n u Hu').
      * eapply live_dt; eauto.
      * destruct (live_complete _ Hdt) as (j & t & Lt & Hsm). assert (Hot : opposite s d t) by (eapply opp_swap; eauto).
        pose proof (proj1 (live_cases j t) Lt) as [[k' Ht]|Ht]; [|eapply stays_visited; eauto].
        exfalso. pose proof (stays_same k i s d k' j t Hs' Ht Hot). subst k'. destruct Ht as (_ & Ht & Hnj).
        pose proof (slot_is _ _ _ _ _ _ (Htri k Hk) (dv_gens _ _ _ _ _ _ _ Hdiv k Hk) i s d j t Hx Ht Hot) as En'. assert (j = n) by congruence. subst j. contradiction.
Qed.

Variable cells : list (block simplex).
Hypothesis Hcells : rewritten (fun i s => with_mark (u_marks sh i) (with_nbrs (u_nbr sh i) s)) (d_arr m) cells.
Notation out := (mkd cells (d_hull m) (ud_mark (d_mark m))).
Notation made_of i x := (with_mark (u_marks sh i) (with_nbrs (u_nbr sh i) x)).
Lemma m_wf : wf (d_arr m).
Proof. exact (out_wf over D parts ps edge edgeDT Hin m inserted table marks R). Qed.
Lemma out_shown i y : shown out i y <-> exists x, live i x /\ y = made_of i x.
Proof.
  destruct (rewritten_spec _ _ _ m_wf Hcells) as (_ & _ & Hc). unfold shown. cbn [d_arr]. rewrite Hc. split.
  - intros [[x [Hx ->]] Hi]. exists x. split; [|reflexivity]. cbn [with_mark with_nbrs x_id] in Hi. apply (live_iff over D parts ps edge edgeDT Hin m inserted table marks R).
    apply (run_content over D parts ps edge edgeDT Hin m inserted table marks R). auto.
  - intros [x [Hx ->]]. apply (live_iff over D parts ps edge edgeDT Hin m inserted table marks R) in Hx. apply (run_content over D parts ps edge edgeDT Hin m inserted table marks R) in Hx as [H1 H2].
    split; [eauto|exact H2].
Qed.
Lemma join_tri : tri all out.
Proof.
  destruct (rewritten_spec _ _ _ m_wf Hcells) as (Wc & _ & Hc). constructor.
  - exact Wc.
  - intros i y Hy. cbn [d_arr] in Hy. apply Hc in Hy as [x [Hx ->]]. apply (get_holds over D parts ps edge edgeDT Hin m inserted table marks R) in Hx.
    destruct (out_well over D parts ps edge edgeDT Hin m inserted table marks R i x Hx) as [H1 H2]. split; [exact H1|]. split; [|exact H2]. cbn [with_mark x_mark d_mark].
    replace (ud_mark (d_mark m)) with (d_mark m + 2)%N by (pose proof j_room; unfold ud_mark, wrap; symmetry; apply N.mod_small; lia).
    exact (u_marks_le over get tbl (d_mark m) nbr0 marks order (out_sorted over D parts ps edge edgeDT Hin m inserted table marks R) j_given j_room j_marks sh Hu i).
  - intros i y Hy. apply out_shown in Hy as [x [Hx ->]]. exact (live_dt i x Hx).
  - intros s Hs. destruct (live_complete s Hs) as (i & x & Hx & Hsm). exists i, (made_of i x). split; [apply out_shown; eauto|exact Hsm].
  - intros i j s t Hs Ht Hsm. apply out_shown in Hs as [x [Hx ->]]. apply out_shown in Ht as [y [Hy ->]]. exact (live_once i j x y Hx Hy Hsm).
  - intros i. cbn [d_hull]. rewrite (run_hull over D parts ps edge edgeDT Hin m inserted table marks R i). split.
    + intros [[[p [Hp Hi]] Hn]|(s & v & Hs & Hid & Hwt & Hv)].
      * apply (In_nth _ _ no_d) in Hp as [k [Hk Ek]]. rewrite Hlen in Hk. pose proof (Htri k Hk) as T. unfold p_at in T. rewrite Ek in T. apply (tr_hull _ _ _ _ _ _ T) in Hi as (s & v & Hs & Hv).
        exists (made_of i s), v. split; [|exact Hv]. apply out_shown. exists s. split; [|reflexivity]. apply live_cases. left. exists k. split; [exact Hk|]. split; [unfold p_at; now rewrite Ek|exact Hn].
      * exists (made_of i s), v. split; [|exact Hv]. apply out_shown. exists s. split; [|reflexivity]. apply live_cases. right. split; [split; assumption|exact Hwt].
    + intros (y & v & Hy & Hv). apply out_shown in Hy as [x [Hx ->]]. apply live_cases in Hx as [(k & Hk & Hx & Hn)|[[Hx Hid] Hwt]].
      * left. split; [|exact Hn]. exists (p_at ps k). split; [apply nth_In; lia|]. apply (tr_hull _ _ _ _ _ _ (Htri k Hk)). exists x, v. auto.
      * right. exists x, v. auto.
  - intros i y Hy. apply out_shown in Hy as [x [Hx ->]]. cbn [with_mark with_nbrs x_nbrs]. rewrite map_length, seq_length. destruct (live_shape i x Hx) as (_ & _ & _ & _ & ->). lia.
  - intros i y k n Hy En. apply out_shown in Hy as [x [Hx ->]]. cbn [with_mark with_nbrs x_nbrs] in En. destruct (live_shape i x Hx) as (_ & _ & _ & L1 & L2).
    assert (Hk : k < length (x_verts x)) by (assert (H : nth_error (map (u_nbr sh i) (seq 0 (length (x_nbrs x)))) k <> None) by congruence; apply nth_error_Some in H; rewrite map_length, seq_length in H; lia).
    assert (Es : nth_error (seq 0 (length (x_nbrs x))) k = Some k) by (rewrite (nth_error_nth' _ 0); [rewrite seq_nth; [reflexivity|lia]|rewrite seq_length; lia]).
    rewrite (map_nth_error (u_nbr sh i) k _ Es) in En. injection En as <-.
    destruct (j_nbr i x k Hx Hk) as [[E Hno]|(t & Ht & Ho)]; [left|right].
    + split; [exact E|]. intros j z Hz Ho. apply out_shown in Hz as [t [Ht ->]]. exact (Hno j t Ht Ho).
    + exists (made_of (u_nbr sh i k) t). split; [apply out_shown; eauto|exact Ho].
Qed.
End Join.
