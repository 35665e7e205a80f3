(** What one level of divide and conquer keeps, however the points are divided: the simplices of the partitions that are not on the edge. *)
From Coq Require Import Permutation Classical Lra.
From Verif Require Import Outcome ListUtil WordsModel BlockModel BlockProofs BlockSpec SimplexModel Pool EdgeModel EdgeSpec EdgeProofs NbrModel NbrSpec MergeModel MergeSpec MergeProofs MergeUpdate GeoModel GeoSpec DelSpec DelGeo PlaceSpec DelPlace StepModel TriSpec StepBase StepEdge StepJoin StepProofs StepPlaced DcModel DcSpec DcBase DcProofs StepEx.
Local Open Scope nat_scope.

Section Keep.
Variable over : N -> N.
Variable D : N.
Hypothesis HD : D = 2%N \/ D = 3%N.
Variable co : N -> vec.
Variable hgt : N -> R.
Variable r : vec.
Variable S : list N.
Hypothesis Hpl : placed D co r S.
Variable parts : list (list N * box).
Notation np := (length parts).
Notation pt := (pts_at parts).
Hypothesis Hall : forall v, In v S <-> exists i, i < np /\ In v (pt i).
Hypothesis Hone : forall i j v, i < np -> j < np -> In v (pt i) -> In v (pt j) -> p_finite D v = true -> i = j.
Hypothesis Hinf : forall i v, i < np -> (p_inf D <= v < 2 ^ 64)%N -> In v (pt i).
Hypothesis Hnp : 0 < np.
Variable n : nat.
Hypothesis H6 : 6 * Datatypes.S n < 256.
Variable ps : list dsims.
Variable tks : list (list (N * N)).
Hypothesis Hlp : length ps = np.
Hypothesis Hlt : length tks = np.
Hypothesis Di : forall i, i < np -> done over D co hgt n (pt i) (nth i ps no_d) (nth i tks []).
Variable hits : nat -> simplex -> bool.
Variables ps' : list dsims.
Variables edge W : list N.
Hypothesis He : edge_run D hits ps ps' edge W.
Notation hull := (fun p => d_hull (p_at ps p)).
Notation on_edge := (on_edge np (p_get ps) hull hits).
Let HDc : (D <= 30)%N. Proof. destruct HD as [-> | ->]; lia. Qed.

Lemma kp_tri i : i < np -> triangulation over D co hgt (pt i) (p_at ps i).
Proof using Di. intros Hi. apply (Di i Hi). Qed.
Lemma kp_marks i : i < np -> (d_mark (p_at ps i) + 6 < 256)%N.
Proof using Di H6. intros Hi. destruct (Di i Hi) as (_ & _ & _ & M & _). unfold p_at. clear - M H6. lia. Qed.
Lemma kp_start i e : i < np -> (p_marks ps i e <= d_mark (p_at ps i))%N.
Proof using Di.
  intros Hi. unfold p_marks. destruct (p_get ps i e) as [s|] eqn:E; [|apply N.le_0_l]. apply (get_iff over D co hgt np pt ps kp_tri) in E; [|exact Hi]. destruct (tr_proper _ _ _ _ _ _ (kp_tri i Hi) e s E) as [_ [H _]]. exact H.
Qed.
Lemma kp_on i e x : on_edge i e x -> shown (p_at ps i) e x.
Proof using Di.
  intros (Hi & Hr & Hg & _). destruct (reached_live np (p_get ps) hull hits (e_linked over D co hgt np pt ps kp_tri) i e Hi Hr) as [s [Es Ei]]. assert (s = x) by congruence. subst s.
  exact (get_shown over D co hgt np pt ps kp_tri i e x Hi Hg Ei).
Qed.
Lemma kp_edge : length ps' = np /\ NoDup W /\ incl W S /\ (forall v, (p_inf D <= v < 2 ^ 64)%N -> In v W) /\ (forall e, In e edge <-> exists i x, on_edge i e x) /\
  forall i, i < np -> wf (d_arr (p_at ps' i)) /\ proper over (p_at ps' i) /\ length (d_arr (p_at ps' i)) = length (d_arr (p_at ps i)) /\ (forall e, held (p_at ps' i) e <-> held (p_at ps i) e) /\
    forall e x, shown (p_at ps i) e x -> exists y, shown (p_at ps' i) e y /\ x_verts y = x_verts x.
Proof using Hpl Hall Hone Hinf Hnp H6 Hlp Hlt Di He HD HDc.
  destruct He as [sh Hex Hl Hps Hne Hedge Hnw HW]. rewrite Hlp in *.
  assert (Hm2 : forall i, i < np -> (d_mark (p_at ps i) + 2 < 256)%N) by (intros i Hi; pose proof (kp_marks i Hi); lia).
  destruct (e_result D HDc np (p_get ps) hull (fun p => d_mark (p_at ps p)) hits (p_marks ps) (e_linked over D co hgt np pt ps kp_tri) Hm2 kp_start sh Hex) as [R1 R2].
  pose proof (e_marks_le D HDc np (p_get ps) hull (fun p => d_mark (p_at ps p)) hits (p_marks ps) (e_linked over D co hgt np pt ps kp_tri) Hm2 kp_start sh Hex) as R3.
  assert (M : forall i, i < np -> d_mark (p_at ps' i) = (d_mark (p_at ps i) + 2)%N) by (intros i Hi; destruct (Hps i Hi) as [_ [_ ->]]; exact (d_val D HDc np (fun p => d_mark (p_at ps p)) hits (p_marks ps) Hm2 kp_start i Hi)).
  split; [exact Hl|]. split; [exact Hnw|]. split; [|split; [|split]].
  - intros v Hv. apply HW, R2 in Hv as [[_ Hv]|(i & e & x & Hon & Hv)]; [now apply (pl_inf _ _ _ _ Hpl)|]. apply Hall. exists i. pose proof (proj1 Hon) as Hi. split; [exact Hi|].
    destruct (tr_sound _ _ _ _ _ _ (kp_tri i Hi) e x (kp_on i e x Hon)) as (H & _). auto.
  - intros v Hv. apply HW, R2. left. auto.
  - intros e. rewrite Hedge. apply R1.
  - intros i Hi. destruct (Hps i Hi) as [H1 [H2 _]].
    destruct (tri_marks over D co hgt (pt i) (p_at ps i) (p_at ps' i) (e_marks sh i) (kp_tri i Hi) H1 H2) as [T' V]; [intros e; rewrite (M i Hi); exact (R3 i e Hi)|].
    destruct (rewritten_spec _ _ _ (tr_wf _ _ _ _ _ _ (kp_tri i Hi)) H1) as [_ [L Hc]].
    split; [exact (tr_wf _ _ _ _ _ _ T')|]. split; [exact (tr_proper _ _ _ _ _ _ T')|]. split; [exact L|]. split.
    + intros e. split; [intros [y Hy]; apply Hc in Hy as [x [Hx _]]; eexists; eauto|intros [x Hx]; eexists; apply Hc; eauto].
    + intros e x Hx. exists (with_mark (e_marks sh i e) x). split; [apply V; eauto|reflexivity].
Qed.
Lemma kp_placed : placed D co r W.
Proof using Hpl Hall Hone Hinf Hnp H6 Hlp Hlt Di He HD HDc. destruct kp_edge as (_ & _ & H1 & H2 & _). exact (placed_sub D co r S W Hpl H1 H2). Qed.

Variable edgeDT : dsims.
Variable te : list (N * N).
Hypothesis De : done over D co hgt n W edgeDT te.
Hypothesis Htk : takes_ok (concat tks ++ te).
Lemma kp_apart : ForallOrdPairs no_shared (edgeDT :: ps).
Proof using Hlp Hlt Di De Htk.
  destruct Htk as (Hta & _). destruct (fop_app _ _ _ Hta) as (Ta & _ & Tx). destruct De as (_ & _ & Hw' & _). destruct (fop_concat _ _ Ta) as (Ti & Tij). constructor.
  - apply Forall_forall. intros p Hp k a b Ha Hb. apply (In_nth _ _ no_d) in Hp as (i & Hi & <-). rewrite Hlp in Hi.
    destruct (Di i Hi) as (_ & _ & H1 & _). destruct (proj1 (H1 k) ltac:(now exists b)) as (t1 & I1 & R1). destruct (proj1 (Hw' k) ltac:(now exists a)) as (t2 & I2 & R2).
    apply (Tx t1 t2 (in_concat_nth _ _ _ I1) I2 k); auto.
  - apply apart_at. intros i j Hi Hj Hne k a b Ha Hb. rewrite Hlp in Hi, Hj.
    destruct (Di i Hi) as (_ & _ & H1 & _). destruct (Di j Hj) as (_ & _ & H2 & _). destruct (proj1 (H1 k) ltac:(now exists a)) as (t1 & I1 & R1). destruct (proj1 (H2 k) ltac:(now exists b)) as (t2 & I2 & R2).
    rewrite <- Hlt in Hi, Hj. clear - Hi Hj Hne Tij I1 I2 R1 R2. destruct (Nat.lt_ge_cases i j) as [L|L]; [apply (Tij i j t1 t2 L Hj I1 I2 k); auto|]. apply (Tij j i t2 t1 ltac:(lia) Hi I2 I1 k); auto.
Qed.
Lemma kp_parts id q : In (id, q) (numbered parts) <-> id < np /\ q = pt id.
Proof using.
  split.
  - intros H. destruct (In_nth_error (numbered parts) (id, q) H) as [k E]. pose proof (numbered_num parts k id q E). subst id.
    destruct (Nat.lt_ge_cases k np) as [Hk|Hk]; [|rewrite <- numbered_len in Hk; apply nth_error_None in Hk; congruence]. rewrite (numbered_at parts k Hk) in E. injection E as <-. auto.
  - intros [H ->]. eapply nth_error_In, numbered_at, H.
Qed.
Lemma kp_input : merge_input over D (numbered parts) ps' edge edgeDT.
Proof using Hpl Hall Hone Hinf Hnp H6 Hlp Hlt Di He De Htk HD HDc.
  destruct kp_edge as (L' & Nw & Wi & Winf & Hed & T'). pose proof kp_apart as Ap. destruct De as (Tw & Lw & _ & Mw).
  assert (Hbb : blocks ps' = blocks ps).
  { assert (X : forall a b : list dsims, length a = length b -> (forall i, i < length a -> length (d_arr (p_at a i)) = length (d_arr (p_at b i))) -> blocks a = blocks b).
    { clear. induction a as [|x a IH]; intros [|y b] Hl Hi; try discriminate; [reflexivity|]. rewrite !blocks_cons. rewrite (IH b); [|now injection Hl|intros i H; apply (Hi (Datatypes.S i)); cbn; lia].
      pose proof (Hi 0 ltac:(cbn; lia)) as H. cbn in H. lia. }
    apply X; [lia|]. intros i Hi. apply (T' i ltac:(lia)). }
  constructor.
  - exact HDc.
  - intros E. rewrite E in L'. cbn in L'. lia.
  - intros p [<-|Hp]; [split; [exact (tr_wf _ _ _ _ _ _ Tw)|exact (tr_proper _ _ _ _ _ _ Tw)]|]. apply (In_nth _ _ no_d) in Hp as (i & Hi & <-). rewrite L' in Hi. split; apply (T' i Hi).
  - apply apart_at. rewrite apart_at in Ap. cbn [length]. intros i j Hi Hj' Hne x a b Hxa Hxb.
    assert (Y : forall i, i < Datatypes.S np -> held (nth i (edgeDT :: ps') no_d) x -> held (nth i (edgeDT :: ps) no_d) x) by (intros [|k] Hkk; cbn [nth]; [auto|intros H; exact (proj1 (proj1 (proj2 (proj2 (proj2 (T' k ltac:(lia))))) x) H)]).
    destruct (Y i ltac:(lia) ltac:(eexists; eauto)) as [a' Ha']. destruct (Y j ltac:(lia) ltac:(eexists; eauto)) as [b' Hb']. refine (Ap i j _ _ Hne x a' b' Ha' Hb'); cbn [length]; lia.
  - rewrite blocks_cons, Hbb, (blocks_concat ps tks); [|lia|intros i Hi; rewrite Hlp in Hi; apply (Di i Hi)]. destruct Htk as (_ & _ & Htl). rewrite app_length in Htl. lia.
  - split; [exact (numbered_num parts)|]. split.
    + intros id q id' q' v H1 H2 Hv Hv' Hf. apply kp_parts in H1 as [H1 ->]. apply kp_parts in H2 as [H2 ->]. exact (Hone id id' v H1 H2 Hv Hv' Hf).
    + intros id q id' q' v H1 H2 Hf Hv. apply kp_parts in H1 as [H1 ->]. apply kp_parts in H2 as [H2 ->]. apply (Hinf id'); [exact H2|].
      assert (HvS : In v S) by (apply Hall; eauto). pose proof (pl_small _ _ _ _ Hpl v HvS) as Hs. split; [|exact Hs]. destruct (N.le_gt_cases (p_inf D) v) as [|Hlt']; [assumption|]. apply (p_finite_lt D HDc) in Hlt'; [congruence|exact Hs].
  - intros e Hin. apply Hed in Hin as (i & x & Hon). pose proof (proj1 Hon) as Hi. destruct (proj2 (proj2 (proj2 (proj2 (T' i Hi)))) e x (kp_on i e x Hon)) as (y & [Hy Hyi] & _). exists y. split; [|exact Hyi].
    exists (p_at ps' i). split; [apply nth_In; lia|exact Hy].
  - intros i s v q Hs Hid Ev. assert (Hv : In v S) by (apply Wi; destruct (tr_sound _ _ _ _ _ _ Tw i s (conj Hs Hid)) as (H & _); apply H; rewrite Ev; now left).
    apply Hall in Hv as (k & Hk & Hv). exists k, (pt k). split; [apply kp_parts; auto|exact Hv].
Qed.

(** A simplex of a partition that is not on the edge is in the result. *)
Lemma kept out i e x : join_run over D (numbered parts) ps' edge edgeDT out -> i < np -> shown (p_at ps i) e x -> ~ on_edge i e x -> exists y, shown out e y /\ x_verts y = x_verts x.
Proof using Hpl Hall Hone Hinf Hnp H6 Hlp Hlt Di He De Htk HD HDc.
  intros [m inserted table marks tbl order sh cells R Htbl Hord Hu Hc ->] Hi Hx Hno. pose proof kp_input as Hin. destruct kp_edge as (L' & Nw & Wi & Winf & Hed & T'). pose proof kp_apart as Ap.
  destruct (proj2 (proj2 (proj2 (proj2 (T' i Hi)))) e x Hx) as (y & [Hy Hyi] & Ey).
  destruct (rewritten_spec _ _ _ (out_wf over D (numbered parts) ps' edge edgeDT Hin m inserted table marks R) Hc) as (_ & _ & Hc').
  destruct (proj2 (run_content over D (numbered parts) ps' edge edgeDT Hin m inserted table marks R e y)) as [Hm Hmi].
  - left. split; [exists (p_at ps' i); split; [apply nth_In; lia|exact Hy]|]. split; [exact Hyi|]. intros Hin'. apply Hed in Hin' as (j & z & Hon). pose proof (kp_on j e z Hon) as Hz. pose proof (proj1 Hon) as Hj.
    destruct (Nat.eq_dec j i) as [->|Hne].
    + assert (z = x) by (eapply (shown_fun _ _ _ _ _ _ (kp_tri i Hi)); eauto). subst z. contradiction.
    + inversion Ap as [|? ? _ Ap']; subst. rewrite apart_at in Ap'. apply (Ap' j i ltac:(lia) ltac:(lia) Hne e z x); [apply Hz|apply Hx].
  - exists (with_mark (u_marks sh e) (with_nbrs (u_nbr sh e) y)). split; [|cbn [with_mark with_nbrs x_verts]; exact Ey]. split; [|exact Hmi]. cbn [d_arr]. apply Hc'. eauto.
Qed.

Lemma kp_join_ex : exists out, join_run over D (numbered parts) ps' edge edgeDT out.
Proof using Hpl Hall Hone Hinf Hnp H6 Hlp Hlt Di He De Htk HD HDc.
  pose proof kp_input as Hin. destruct kp_edge as (L' & Nw & Wi & Winf & Hed & T').
  assert (Mk : forall i, i < np -> MergeModel.d_mark (p_at ps' i) = (MergeModel.d_mark (p_at ps i) + 2)%N).
  { intros i Hi. destruct He as [sh Hex Hl Hps _ _ _ _]. rewrite Hlp in *. destruct (Hps i Hi) as [_ [_ ->]]. apply (d_val D HDc np (fun p => MergeModel.d_mark (p_at ps p)) hits (p_marks ps)); [intros j Hj; pose proof (kp_marks j Hj); lia|intros; now apply kp_start|exact Hi]. }
  assert (Hm : forall p, In p ps' -> (MergeModel.d_mark p + 4 < 256)%N). { intros p Hp. apply (In_nth _ _ no_d) in Hp as [k [Hk <-]]. rewrite L' in Hk. pose proof (kp_marks k Hk). pose proof (Mk k Hk) as E. unfold p_at in *. lia. }
  assert (Hm2 : forall p, In p ps' -> (MergeModel.d_mark p + 2 < 256)%N) by (intros p Hp; specialize (Hm p Hp); lia).
  destruct (merge_run_ex over D (numbered parts) ps' edge edgeDT Hin Hm2) as (m & inserted & table & marks & R).
  { intros e s m Hin' Hs Hn Hf. apply Hed in Hin' as (i & x & Hon). pose proof (proj1 Hon) as Hi. destruct He as [sh Hex Hl Hps Hne Hedge Hnw HW]. rewrite Hlp in *.
    assert (Hm2' : forall i, i < np -> (MergeModel.d_mark (p_at ps i) + 2 < 256)%N) by (intros j Hj; pose proof (kp_marks j Hj); lia).
    pose proof (e_marks_le D HDc np (p_get ps) hull (fun p => MergeModel.d_mark (p_at ps p)) hits (p_marks ps) (e_linked over D co hgt np pt ps kp_tri) Hm2' kp_start sh Hex) as R3.
    destruct (Hps i Hi) as [H1 [H2 _]].
    destruct (tri_marks over D co hgt (pt i) (p_at ps i) (p_at ps' i) (e_marks sh i) (kp_tri i Hi) H1 H2) as [T2 V]; [intros e'; rewrite (Mk i Hi); exact (R3 i e' Hi)|].
    assert (Hx : shown (p_at ps' i) e (with_mark (e_marks sh i e) x)) by (apply V; exists x; split; [exact (kp_on i e x Hon)|reflexivity]).
    assert (s = with_mark (e_marks sh i e) x). { eapply (stored_fun over D (numbered parts) ps' edge edgeDT Hin e); [exact Hs|]. exists (p_at ps' i). split; [apply nth_In; lia|apply Hx]. } subst s.
    apply In_nth_error in Hn as [k Ek]. destruct (tr_nbrs _ _ _ _ _ _ T2 e _ k m Hx Ek) as [[C _]|(t & Ht & _)]; [contradiction|]. exists t, (p_at ps' i). split; [apply nth_In; lia|apply Ht]. }
  assert (Hro : (MergeModel.d_mark m + 2 < 256)%N). { destruct (run_marks over D (numbered parts) ps' edge edgeDT Hin m inserted table marks R Hm2 0%N) as [_ [p [Hp ->]]]. pose proof (Hm p Hp). destruct De as (_ & _ & _ & Mw & _). lia. }
  destruct (u_ends over D (numbered parts) ps' edge edgeDT Hin Hm2 m inserted table marks R Hro (cell_nbr (d_arr m))) as [sh Hu].
  destruct (rewritten_wf (fun i s => with_mark (u_marks sh i) (with_nbrs (u_nbr sh i) s)) (d_arr m)) as [cells Hc]; [eapply out_wf; eauto|].
  eexists. econstructor; [exact R|exact (tbl_of_spec table)|apply Permutation_refl|exact Hu|exact Hc|reflexivity].
Qed.

(** If no simplex with an infinite vertex crosses, the edge has none of the partition. *)
Lemma no_edge i : i < np -> (forall e x v, shown (p_at ps i) e x -> In v (x_verts x) -> p_finite D v = false -> ~ crosses np hits i x) -> forall e x, ~ on_edge i e x.
Proof using Di.
  intros Hi Hno. assert (X : forall e, reached np (p_get ps) hull hits i e -> In e (hull i)).
  { intros e Hr. induction Hr as [e Hh _|e s m Hr IH Hg Hcr Hn Hf]; [exact Hh|]. exfalso. apply (tr_hull _ _ _ _ _ _ (kp_tri i Hi)) in IH as (x & v & Hx & Hv & Hfv).
    assert (x = s) by (apply (get_iff over D co hgt np pt ps kp_tri) in Hg; [|exact Hi]; destruct Hx as [Hx _]; exact (holds_fun _ _ _ _ (tr_wf _ _ _ _ _ _ (kp_tri i Hi)) Hx Hg)). subst s. exact (Hno e x v Hx Hv Hfv Hcr). }
  intros e x Hon. pose proof (kp_on i e x Hon) as Hx. destruct Hon as (_ & Hr & Hg & Hcr). apply X, (tr_hull _ _ _ _ _ _ (kp_tri i Hi)) in Hr as (y & v & Hy & Hv & Hfv).
  assert (x = y) by (eapply (shown_fun _ _ _ _ _ _ (kp_tri i Hi)); eauto). subst y. exact (Hno e x v Hx Hv Hfv Hcr).
Qed.
End Keep.
