(** getEdge finds an edge to merge along. *)
From Coq Require Import Permutation Classical.
From Verif Require Import Outcome ListUtil WordsModel BlockModel BlockProofs BlockSpec SimplexModel SimplexProofs PointProofs Pool EdgeModel EdgeSpec EdgeProofs MergeModel MergeSpec MergeProofs NbrSpec NbrProofs GeoModel GeoSpec DelSpec DelGeo DelMerge StepModel TriSpec StepBase.
Local Open Scope nat_scope.

Section Edge.
Variable over : N -> N.
Variable D : N.
Hypothesis HD : (D <= 30)%N.
Variable co : N -> vec.
Variable hgt : N -> R.
Notation Dn := (N.to_nat D).
Notation fin := (p_finite D).
Notation dt := (dt Dn co hgt).
Notation tri := (triangulation over D co hgt).
Lemma p_finite_lt v : (v < 2 ^ 64)%N -> p_finite D v = true <-> (v < p_inf D)%N.
Proof. intros Hv. rewrite (p_inf_val D HD). now apply p_finite_spec. Qed.
Variable np : nat.
Variable pt : nat -> list N.
Variable all : list N.
Hypothesis Hdiv : division Dn co hgt fin np pt all.
Hypothesis Hnp : 0 < np.
Hypothesis Hinf : forall v, (p_inf D <= v < 2 ^ 64)%N -> In v all.
Hypothesis Hsmall : forall v, In v all -> (v < 2 ^ 64)%N.
Variable hits : nat -> simplex -> bool.
Variable ps : list dsims.
Hypothesis Hlen : length ps = np.
Hypothesis Htri : forall i, i < np -> tri (pt i) (p_at ps i).
Hypothesis Hapart : forall i j, i < np -> j < np -> i <> j -> no_shared (p_at ps i) (p_at ps j).
Hypothesis Hhits : finds D co np pt (p_at ps) hits.
Hypothesis Hmark : forall i, i < np -> (d_mark (p_at ps i) + 2 < 256)%N.

Notation hull := (fun p => d_hull (p_at ps p)).
Notation mark0 := (fun p => d_mark (p_at ps p)).

Lemma get_iff i e x : i < np -> p_get ps i e = Some x <-> holds (d_arr (p_at ps i)) e x.
Proof. intros Hi. unfold p_get. apply d_get_holds. exact (tr_wf _ _ _ _ _ _ (Htri i Hi)). Qed.
Lemma get_shown i e x : i < np -> p_get ps i e = Some x -> x_id x = e -> shown (p_at ps i) e x.
Proof. intros Hi Hg He. apply get_iff in Hg; [|exact Hi]. split; [exact Hg|]. destruct (tr_proper _ _ _ _ _ _ (Htri i Hi) e x Hg) as [H _]. congruence. Qed.
Lemma e_linked : linked np (p_get ps) hull.
Proof.
  split.
  - intros i e Hi He _. apply (tr_hull _ _ _ _ _ _ (Htri i Hi)) in He as [s [v [Hs _]]]. exists s. split; [apply get_iff; [exact Hi|apply Hs]|]. apply (shown_id _ _ _ _ _ _ (Htri i Hi) e s Hs).
  - intros i e s n Hi Hg He Hn Hf. pose proof (get_shown i e s Hi Hg He) as Hs. apply In_nth_error in Hn as [k En].
    destruct (tr_nbrs _ _ _ _ _ _ (Htri i Hi) e s k n Hs En) as [[-> _]|[t [Ht _]]]; [contradiction|]. exists t. split; [apply get_iff; [exact Hi|apply Ht]|].
    apply (shown_id _ _ _ _ _ _ (Htri i Hi) n t Ht).
Qed.
Lemma e_start_marks i e : i < np -> (p_marks ps i e <= d_mark (p_at ps i))%N.
Proof.
  intros Hi. unfold p_marks. destruct (p_get ps i e) as [s|] eqn:E; [|lia]. apply get_iff in E; [|exact Hi]. destruct (tr_proper _ _ _ _ _ _ (Htri i Hi) e s E) as [_ [H _]]. exact H.
Qed.
Notation on_edge := (on_edge np (p_get ps) hull hits).
Notation reached := (reached np (p_get ps) hull hits).

(** A simplex below which or at whose height a point of another partition lies is found. *)
Lemma below_on i j e x k p : i < np -> j < np -> i <> j -> shown (p_at ps i) e x -> In p (pt j) -> fin p = true ->
  through Dn co hgt (x_verts x) k -> (hgt p <= k (co p))%R -> on_edge i e x.
Proof.
  intros Hi Hj Hij Hx Hp Hpf Ht Hle. pose proof (Htri i Hi) as T. pose proof (dv_gens _ _ _ _ _ _ _ Hdiv i Hi) as G. pose proof (tr_sound _ _ _ _ _ _ T e x Hx) as Hdt.
  assert (Hcr : forall e' x' c r2, shown (p_at ps i) e' x' -> on_ball Dn co (x_verts x') c r2 -> (dist2 Dn (co p) c <= r2)%R -> crosses np hits i x').
  { intros e' x' c r2 Hs' Hb Hd. exists j. split; [exact Hj|]. split; [congruence|]. exact (Hhits i j e' x' p c r2 Hi Hj Hij Hs' Hp Hpf Hb Hd). }
  assert (Hg : forall e' x', shown (p_at ps i) e' x' -> p_get ps i e' = Some x') by (intros e' x' [H _]; apply get_iff; assumption).
  assert (Hr : exists e' x', shown (p_at ps i) e' x' /\ same (x_verts x) (x_verts x') /\ reached i e').
  { apply (reach Dn co hgt fin np pt all Hdiv i j p (fun s => exists e' x', shown (p_at ps i) e' x' /\ same s (x_verts x') /\ reached i e')) with (k := k); auto.
    - intros s Hs [u [Hu Hfu]]. destruct (shown_ex _ _ _ _ _ _ T s Hs) as [e' [x' [Hx' Hsm]]]. exists e', x'. split; [exact Hx'|]. split; [exact Hsm|]. apply reached_hull.
      + apply (tr_hull _ _ _ _ _ _ T). exists x', u. split; [exact Hx'|]. split; [now apply Hsm|exact Hfu].
      + apply (shown_id _ _ _ _ _ _ T e' x' Hx').
    - intros s s' d a c r2 Hs Hs' Es Hd Ha Hb Hdist (e' & x' & Hx' & Hsm & Hre). destruct (shown_ex _ _ _ _ _ _ T s Hs) as [e2 [x2 [Hx2 Hsm2]]]. exists e2, x2. split; [exact Hx2|]. split; [exact Hsm2|].
      assert (Hin : forall w, In w (x_verts x') <-> w = a \/ (In w s /\ w <> d)).
      { intros w. rewrite <- (Hsm w), Es. cbn [In]. split; [intros [->|H]; [now left|right; now apply in_remove in H]|intros [->|[H1 H2]]; [now left|right; now apply in_in_remove]]. }
      destruct (In_nth_error (x_verts x') a) as [k' Ek]; [apply Hin; now left|].
      assert (Ho : opposite x' k' x2).
      { exists a. split; [exact Ek|]. intros w Hw. rewrite <- (Hsm2 w). apply Hin in Hw. split; [intros H ->; contradiction|]. intros Hne. destruct Hw as [|[H _]]; [contradiction|exact H]. }
      pose proof (slot_is _ _ _ _ _ _ T G e' x' k' e2 x2 Hx' Hx2 Ho) as En. apply (reached_next np (p_get ps) hull hits i e' x' e2 Hre (Hg _ _ Hx')).
      + apply (Hcr e' x' c r2 Hx'); [|exact Hdist]. intros v Hv. apply Hb. now apply Hsm.
      + eapply nth_error_In; eauto.
      + apply (shown_id _ _ _ _ _ _ T e2 x2 Hx2). }
  destruct Hr as (e' & x' & Hx' & Hsm & Hre). destruct (shown_same _ _ _ _ _ _ T e e' x x' Hx Hx' Hsm) as [<- <-]. split; [exact Hi|]. split; [exact Hre|]. split; [auto|].
  assert (Hpa : In p all) by (apply (dv_all _ _ _ _ _ _ _ Hdiv); eauto). destruct (below_ball Dn co hgt fin np pt all Hdiv i (x_verts x) k p Hi Hdt Hpa Ht Hle) as (c & r2 & Hb & Hdist). eapply Hcr; eauto.
Qed.

Variables ps' : list dsims.
Variables edge W : list N.
Hypothesis R : edge_run D hits ps ps' edge W.

Lemma edge_run_ok : length ps' = np /\
  (forall i, i < np -> tri (pt i) (p_at ps' i) /\ d_mark (p_at ps' i) = (d_mark (p_at ps i) + 2)%N /\ length (d_arr (p_at ps' i)) = length (d_arr (p_at ps i)) /\
     forall e, (exists x, holds (d_arr (p_at ps' i)) e x) <-> exists x, holds (d_arr (p_at ps i)) e x) /\
  edge_ok D co hgt np pt all (p_at ps') edge W /\ NoDup edge /\ NoDup W.
Proof.
  destruct R as [sh Hex Hl Hps Hne Hedge Hnw HW]. rewrite Hlen in *.
  destruct (e_result D HD np (p_get ps) hull mark0 hits (p_marks ps) e_linked Hmark e_start_marks sh Hex) as [R1 R2].
  pose proof (e_marks_le D HD np (p_get ps) hull mark0 hits (p_marks ps) e_linked Hmark e_start_marks sh Hex) as R3.
  assert (M : forall i, i < np -> d_mark (p_at ps' i) = (d_mark (p_at ps i) + 2)%N) by (intros i Hi; destruct (Hps i Hi) as [_ [_ ->]]; exact (d_val D HD np mark0 hits (p_marks ps) Hmark e_start_marks i Hi)).
  assert (TM : forall i, i < np -> tri (pt i) (p_at ps' i) /\ forall e y, shown (p_at ps' i) e y <-> exists x, shown (p_at ps i) e x /\ y = with_mark (e_marks sh i e) x).
  { intros i Hi. destruct (Hps i Hi) as [H1 [H2 _]]. apply (tri_marks over D co hgt (pt i) (p_at ps i) (p_at ps' i) (e_marks sh i) (Htri i Hi) H1 H2). intros e. rewrite (M i Hi). exact (R3 i e Hi). }
  split; [lia|]. split; [|split; [|split; [exact Hne|exact Hnw]]].
  - intros i Hi. split; [apply TM, Hi|]. split; [now apply M|]. destruct (Hps i Hi) as [H1 _]. destruct (rewritten_spec _ _ _ (tr_wf _ _ _ _ _ _ (Htri i Hi)) H1) as [_ [L Hc]].
    split; [exact L|]. intros e. split; [intros [y Hy]; apply Hc in Hy as [x [Hx _]]; eauto|intros [x Hx]; eexists; apply Hc; eauto].
  - assert (On : forall i e x, on_edge i e x -> shown (p_at ps i) e x).
    { intros i e x (Hi & Hr & Hg & _). destruct (reached_live np (p_get ps) hull hits e_linked i e Hi Hr) as [s [Es Ei]]. assert (s = x) by congruence. subst s. now apply get_shown. }
    constructor.
    + intros e He. apply Hedge, R1 in He as [i [s Hon]]. exists i, (with_mark (e_marks sh i e) s). pose proof (proj1 Hon) as Hi. split; [exact Hi|]. apply TM; [exact Hi|]. exists s. split; [now apply On|reflexivity].
    + intros i j e y k p Hi Hj Hij Hy Hp Hpf Ht Hle. apply TM in Hy as [x [Hx ->]]; [|exact Hi]. apply Hedge, R1. exists i, x. eapply below_on; eauto.
    + intros v. rewrite HW, R2. split.
      * intros [[_ Hv]|(i & e & s & Hon & Hv)]; [left|right].
        -- split; [now apply Hinf|]. destruct (p_finite D v) eqn:E; [|reflexivity]. apply (p_finite_lt) in E; lia.
        -- pose proof (proj1 Hon) as Hi. exists i, e, (with_mark (e_marks sh i e) s). split; [exact Hi|]. split; [apply Hedge, R1; eauto|]. split; [|exact Hv]. apply TM; [exact Hi|]. exists s. split; [now apply On|reflexivity].
      * intros [[Hv Hf]|(i & e & y & Hi & He & Hy & Hv)]; [left|right].
        -- split; [exact Hnp|]. pose proof (Hsmall v Hv). split; [|assumption]. destruct (N.le_gt_cases (p_inf D) v) as [|Hlt]; [assumption|]. apply (p_finite_lt) in Hlt; [congruence|assumption].
        -- apply TM in Hy as [x [Hx ->]]; [|exact Hi]. apply Hedge, R1 in He as [i' [s Hon]]. assert (i' = i).
           { destruct (Nat.eq_dec i' i) as [|Hne']; [assumption|]. exfalso. pose proof (proj1 Hon) as Hi'. destruct (On i' e s Hon) as [Hs _]. destruct Hx as [Hx _]. exact (Hapart i' i Hi' Hi Hne' e s x Hs Hx). }
           subst i'. assert (s = x) by (eapply (shown_fun _ _ _ _ _ _ (Htri i Hi)); eauto). subst s. exists i, e, x. split; [exact Hon|exact Hv].
Qed.
(** The vertices of a border simplex that meets another partition are on the edge. *)
Lemma hull_vertices i j id x v : i < np -> j < np -> i <> j -> shown (p_at ps i) id x -> In v (x_verts x) -> p_finite D v = false -> hits j x = true -> forall w, In w (x_verts x) -> In w W.
Proof.
  intros Hi Hj Hij Hx Hv Hf Hh w Hw. destruct R as [sh Hex Hl Hps Hne Hedge Hnw HW]. rewrite Hlen in *.
  destruct (e_result D HD np (p_get ps) hull mark0 hits (p_marks ps) e_linked Hmark e_start_marks sh Hex) as [R1 R2].
  apply HW, R2. right. exists i, id, x. split; [|exact Hw]. split; [exact Hi|]. split; [|split].
  - apply reached_hull; [|apply (shown_id _ _ _ _ _ _ (Htri i Hi) id x Hx)]. apply (tr_hull _ _ _ _ _ _ (Htri i Hi)). eauto.
  - apply get_iff; [exact Hi|apply Hx].
  - exists j. auto.
Qed.
End Edge.
