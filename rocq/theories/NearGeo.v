(** The search with the functions of dimension 2 and 3. *)
From Coq Require Import Psatz.
From Verif Require Import Outcome ListUtil BlockModel BlockSpec SimplexModel PointModel CheckModel GeoModel GeoSpec GeoProofs GeoCirc NearModel NearSpec NearProofs.
Local Open Scope R_scope.

(** GeometryCore<2>::inSimplex and sqDistanceToFace on the corners listed, Geometry.h:1000-1023. *)
Definition insim2 (p : vec) (cs : list vec) : res bool := match cs with [a; b; c]%list => in_simplex2 p a b c | _ => Undef end.
Definition dface2 (p : vec) (cs : list vec) : res R := match cs with [a; b]%list => dist_face2 p a b | _ => Undef end.
(** GeometryCore<3>, Geometry.h:1054-1079. *)
Definition insim3 (p : vec) (cs : list vec) : res bool := match cs with [a; b; c; d]%list => in_simplex3 p a b c d | _ => Undef end.
Definition dface3 (p : vec) (cs : list vec) : res R := match cs with [a; b; c]%list => dist_face3 p a b c | _ => Undef end.

Lemma rless : less_ok rltb.
Proof.
  split; [intros x; apply rltb_false; lra|]. intros x y z H1 H2. apply rltb_iff in H1, H2. apply rltb_iff. lra.
Qed.

(** The corners of a simplex. *)
Definition has_corners (D : N) (pts : points vec) (s : simplex) (cs : list vec) : Prop :=
  Forall2 (fun v c => p_get D pts v = Val c) (x_verts s) cs.

Lemma corners_val {A} D (pts : points A) : forall vs cs, Forall2 (fun v c => p_get D pts v = Val c) vs cs -> corners D pts vs = Val cs.
Proof.
  induction vs as [|v vs IH]; intros cs H; inversion H as [|? c ? cs' Hc Ht]; subst; [reflexivity|].
  unfold corners in *. cbn [collect]. rewrite Hc. cbn [rmap rbind]. rewrite (IH _ Ht). reflexivity.
Qed.
Lemma face_corners D (pts : points vec) s cs d : has_corners D pts s cs ->
  corners D pts (firstn d (x_verts s) ++ skipn (S d) (x_verts s)) = Val (firstn d cs ++ skipn (S d) cs).
Proof.
  intros H. apply corners_val. apply Forall2_app.
  - unfold has_corners in H. revert d. induction H; intros [|d]; cbn [firstn]; constructor; auto.
  - unfold has_corners in H. revert d. induction H; intros d; [constructor|]. cbn [skipn]. destruct d as [|d]; [assumption|]. apply IHForall2.
Qed.

Lemma plane_def (pts : points vec) s a b c p : has_corners 2 pts s [a; b; c]%list -> independent 2 a [b; c]%list ->
  (exists r, s_insim 2 insim2 pts s p = Val r /\ (r = true <-> in_hull 2 [a; b; c]%list p)) /\
  (forall d, (d < 3)%nat -> exists w, s_dface 2 dface2 pts s d p = Val w).
Proof.
  intros Hc Hi. split.
  - destruct (in_simplex2_ok p a b c Hi) as (r & E & Hr). exists r. split; [|exact Hr]. unfold s_insim.
    rewrite (corners_val 2 pts _ _ Hc). cbn [rbind insim2]. exact E.
  - intros d Hd. unfold s_dface. rewrite (face_corners 2 pts s _ d Hc). cbn [rbind]. apply indep2 in Hi.
    assert (G : forall x y z, orient2 x y z <> 0 -> exists w, dist_face2 p x y = Val w).
    { intros x y z H. eexists. apply dist_face2_val. destruct (Req_dec (y 0%nat) (x 0%nat)) as [E0|E0]; [|now left].
      destruct (Req_dec (y 1%nat) (x 1%nat)) as [E1|E1]; [|now right]. exfalso. apply H. unfold orient2. rewrite E0, E1. ring. }
    destruct d as [|[|[|d]]]; [| | |lia]; cbn [firstn skipn app dface2].
    + apply (G b c a). intros E. apply Hi. rewrite <- E. unfold orient2. ring.
    + apply (G a c b). intros E. apply Hi. transitivity (- orient2 a c b); [unfold orient2; ring|]. rewrite E. ring.
    + apply (G a b c Hi).
Qed.

Lemma dist_face3_def p a b c : (exists e, orient3 a b c e <> 0) -> exists w, dist_face3 p a b c = Val w.
Proof.
  intros (e & He). unfold dist_face3.
  match goal with |- context [reqb ?x 0] => set (nn := x) end. unfold reqb. destruct (Req_EM_T nn 0) as [E|E]; [|eexists; reflexivity].
  exfalso. unfold nn, dot, sum_loop, cdiff in E. cbn [seq fold_left] in E. clear nn.
  set (n0 := (b 1%nat - a 1%nat) * (c 2%nat - a 2%nat) - (b 2%nat - a 2%nat) * (c 1%nat - a 1%nat)).
  set (n1 := (b 2%nat - a 2%nat) * (c 0%nat - a 0%nat) - (b 0%nat - a 0%nat) * (c 2%nat - a 2%nat)).
  set (n2 := (b 0%nat - a 0%nat) * (c 1%nat - a 1%nat) - (b 1%nat - a 1%nat) * (c 0%nat - a 0%nat)).
  assert (E' : n0 ^ 2 + n1 ^ 2 + n2 ^ 2 = 0) by (rewrite <- E; unfold n0, n1, n2; ring).
  assert (n0 = 0 /\ n1 = 0 /\ n2 = 0) as (Z0 & Z1 & Z2).
  { pose proof (pow2_ge_0 n0). pose proof (pow2_ge_0 n1). pose proof (pow2_ge_0 n2).
    assert (n0 ^ 2 = 0 /\ n1 ^ 2 = 0 /\ n2 ^ 2 = 0) as (Q0 & Q1 & Q2) by lra. clear - Q0 Q1 Q2. repeat split; nra. }
  apply He. transitivity (n0 * (a 0%nat - e 0%nat) + n1 * (a 1%nat - e 1%nat) + n2 * (a 2%nat - e 2%nat)).
  - unfold orient3, n0, n1, n2. ring.
  - rewrite Z0, Z1, Z2. ring.
Qed.

Lemma space_def (pts : points vec) s a b c e p : has_corners 3 pts s [a; b; c; e]%list -> independent 3 a [b; c; e]%list ->
  (exists r, s_insim 3 insim3 pts s p = Val r /\ (r = true <-> in_hull 3 [a; b; c; e]%list p)) /\
  (forall d, (d < 4)%nat -> exists w, s_dface 3 dface3 pts s d p = Val w).
Proof.
  intros Hc Hi. split.
  - destruct (in_simplex3_ok p a b c e Hi) as (r & E & Hr). exists r. split; [|exact Hr]. unfold s_insim.
    rewrite (corners_val 3 pts _ _ Hc). cbn [rbind insim3]. exact E.
  - intros d Hd. unfold s_dface. rewrite (face_corners 3 pts s _ d Hc). cbn [rbind]. apply indep3 in Hi.
    destruct d as [|[|[|[|d]]]]; [| | | |lia]; cbn [firstn skipn app dface3]; apply dist_face3_def.
    + exists a. intros E. apply Hi. transitivity (- orient3 b c e a); [unfold orient3; ring|]. rewrite E. ring.
    + exists b. intros E. apply Hi. transitivity (orient3 a c e b); [unfold orient3; ring|exact E].
    + exists c. intros E. apply Hi. transitivity (- orient3 a b e c); [unfold orient3; ring|]. rewrite E. ring.
    + exists e. exact Hi.
Qed.

(** The search, in terms of the sets of points: [D] is 2 or 3. *)
Section Dim.
Variable D : nat.
Variable insim : vec -> list vec -> res bool.
Variable dface : vec -> list vec -> res R.
(** The corners of a simplex that is not flat. *)
Definition solid (cs : list vec) : Prop := match cs with nil => False | a :: r => length r = D /\ independent D a r end.
Hypothesis Hdef : forall pts s cs p, has_corners (N.of_nat D) pts s cs -> solid cs ->
  (exists r, s_insim (N.of_nat D) insim pts s p = Val r /\ (r = true <-> in_hull D cs p)) /\
  (forall d, (d < D + 1)%nat -> exists w, s_dface (N.of_nat D) dface pts s d p = Val w).

Lemma near_dim huge take (pts : points vec) dflt l p hintS start :
  made dflt l -> (forall i s, holds l i s -> (i < 2 ^ 63)%N) -> pq_ok rltb take -> (hintS <> s_inf -> exists s, holds l hintS s) ->
  starts_at l hintS start ->
  (forall i, reach l start i -> exists s cs, holds l i s /\ length (x_nbrs s) = (D + 1)%nat /\ has_corners (N.of_nat D) pts s cs /\ solid cs) ->
  exists r log, returns (find_nearest (N.of_nat D) rltb huge insim dface take pts l p hintS) (Some (r, log)) /\
    NoDup (map snd log) /\
    (forall w j, In (w, j) log -> reach l start j /\ ((j = start /\ w = huge) \/ j <> start /\ over_face l start (fun s d w => s_dface (N.of_nat D) dface pts s d p = Val w) j w)) /\
    ((exists i s cs, reach l start i /\ holds l i s /\ has_corners (N.of_nat D) pts s cs /\ in_hull D cs p /\ r = x_id s) \/
     ((forall i, reach l start i -> In i (map snd log)) /\
      (forall i s cs, reach l start i -> holds l i s -> has_corners (N.of_nat D) pts s cs -> ~ in_hull D cs p) /\
      least_entry rltb huge (p_inf (N.of_nat D)) l log r)).
Proof.
  intros Hm H63 Hpq Hs Hst Hr.
  destruct (near_ok (N.of_nat D) rltb huge insim dface take pts dflt l p hintS Hm H63 Hpq rless Hs) as (st & Hst' & H).
  assert (st = start) as ->.
  { destruct Hst as [A1 A2], Hst' as [B1 B2]. destruct (N.eq_dec hintS s_inf) as [E|E].
    - destruct (A2 E) as [(x & Hx) A3], (B2 E) as [(y & Hy) B3]. pose proof (A3 _ _ Hy). pose proof (B3 _ _ Hx). lia.
    - now rewrite A1, B1. }
  assert (U : forall s cs cs', has_corners (N.of_nat D) pts s cs -> has_corners (N.of_nat D) pts s cs' -> cs = cs').
  { intros s cs cs' H1 H2. apply corners_val in H1, H2. congruence. }
  destruct H as (r & log & Ret & ND & RR & F).
  { intros i Hi. destruct (Hr i Hi) as (s & cs & Hh & Ln & Hc & Hso). destruct (Hdef pts s cs p Hc Hso) as [(b & Eb & _) Hd]. exists s.
    split; [exact Hh|]. split; [lia|]. split; [now exists b|]. intros d n Ed _. apply Hd. rewrite <- Ln. apply nth_error_Some. congruence. }
  exists r, log. split; [exact Ret|]. split; [exact ND|]. split; [exact RR|]. destruct F as [(w & i & s & pre & El & Hh & Ei & Er & _)|(H1 & H2 & H3)]; [left|right].
  - assert (Hi : reach l start i). { apply (RR w i). rewrite El. apply in_or_app. right. now left. }
    destruct (Hr i Hi) as (s' & cs & Hh' & _ & Hc & Hso). pose proof (made_fun dflt l i s s' Hm Hh Hh') as <-.
    exists i, s, cs. destruct (Hdef pts s cs p Hc Hso) as [(b & Eb & Hb) _]. repeat (split; [assumption|]). split; [|exact Er]. apply Hb. congruence.
  - split; [exact H1|]. split; [|exact H3]. intros i s cs' Hi Hh Hc' Hin. specialize (H2 i s Hi Hh).
    destruct (Hr i Hi) as (s' & cs & Hh' & _ & Hc & Hso). pose proof (made_fun dflt l i s s' Hm Hh Hh') as <-. pose proof (U s cs cs' Hc Hc') as <-.
    destruct (Hdef pts s cs p Hc Hso) as [(b & Eb & Hb) _]. apply Hb in Hin. congruence.
Qed.
End Dim.

Lemma solid2 : forall pts s cs p, has_corners (N.of_nat 2) pts s cs -> solid 2 cs ->
  (exists r, s_insim (N.of_nat 2) insim2 pts s p = Val r /\ (r = true <-> in_hull 2 cs p)) /\
  (forall d, (d < 2 + 1)%nat -> exists w, s_dface (N.of_nat 2) dface2 pts s d p = Val w).
Proof.
  intros pts s cs p Hc Hs. destruct cs as [|a [|b [|c [|? ?]]]]; cbn [solid length] in Hs; try tauto; destruct Hs as [L Hi]; try discriminate.
  exact (plane_def pts s a b c p Hc Hi).
Qed.
Lemma solid3 : forall pts s cs p, has_corners (N.of_nat 3) pts s cs -> solid 3 cs ->
  (exists r, s_insim (N.of_nat 3) insim3 pts s p = Val r /\ (r = true <-> in_hull 3 cs p)) /\
  (forall d, (d < 3 + 1)%nat -> exists w, s_dface (N.of_nat 3) dface3 pts s d p = Val w).
Proof.
  intros pts s cs p Hc Hs. destruct cs as [|a [|b [|c [|e [|? ?]]]]]; cbn [solid length] in Hs; try tauto; destruct Hs as [L Hi]; try discriminate.
  exact (space_def pts s a b c e p Hc Hi).
Qed.

(** findNearestVertex *)
Lemma near_vertex_ok D huge (sqd : vec -> vec -> R) (pts : points vec) s cs p : has_corners D pts s cs ->
  exists r, near_vertex D rltb huge sqd pts s p = Val r /\
  ((r = p_inf D /\ Forall (fun c => huge <= sqd p c) cs) \/
   (exists k c, nth_error (x_verts s) k = Some r /\ nth_error cs k = Some c /\ sqd p c < huge /\ Forall (fun c' => sqd p c <= sqd p c') cs)).
Proof.
  intros H. unfold near_vertex.
  assert (G : forall vs cs vs0 cs0 m id, Forall2 (fun v c => p_get D pts v = Val c) vs cs -> Forall2 (fun v c => p_get D pts v = Val c) vs0 cs0 ->
    ((m = huge /\ id = p_inf D /\ Forall (fun c => huge <= sqd p c) cs0) \/
     (exists k c, nth_error vs0 k = Some id /\ nth_error cs0 k = Some c /\ m = sqd p c /\ m < huge /\ Forall (fun c' => m <= sqd p c') cs0)) ->
    exists m' id', fold_left (fun acc v => rbind acc (fun '(minD, id) => rmap (fun c => if rltb (sqd p c) minD then (sqd p c, v) else (minD, id)) (p_get D pts v))) vs (Val (m, id)) = Val (m', id') /\
    ((m' = huge /\ id' = p_inf D /\ Forall (fun c => huge <= sqd p c) (cs0 ++ cs)) \/
     (exists k c, nth_error (vs0 ++ vs) k = Some id' /\ nth_error (cs0 ++ cs) k = Some c /\ m' = sqd p c /\ m' < huge /\ Forall (fun c' => m' <= sqd p c') (cs0 ++ cs)))).
  { induction vs as [|v vs IH]; intros cs1 vs0 cs0 m id H1 H0 I; inversion H1 as [|? c ? cs' Hc Ht]; subst.
    - exists m, id. rewrite !app_nil_r. split; [reflexivity|]. exact I.
    - cbn [fold_left rbind]. rewrite Hc. cbn [rmap].
      assert (H0' : Forall2 (fun v c => p_get D pts v = Val c) (vs0 ++ [v])%list (cs0 ++ [c])%list) by (apply Forall2_app; [exact H0|constructor; [exact Hc|constructor]]).
      assert (Ln : length vs0 = length cs0) by (clear - H0; induction H0; cbn [length]; congruence).
      replace (vs0 ++ v :: vs)%list with ((vs0 ++ [v]) ++ vs)%list by now rewrite <- app_assoc.
      replace (cs0 ++ c :: cs')%list with ((cs0 ++ [c]) ++ cs')%list by now rewrite <- app_assoc.
      destruct (rltb (sqd p c) m) eqn:El; apply IH; auto.
      + apply rltb_iff in El. right. exists (length vs0), c. rewrite nth_error_app2 by lia. rewrite Nat.sub_diag.
        split; [reflexivity|]. rewrite Ln, nth_error_app2, Nat.sub_diag by lia. split; [reflexivity|]. split; [reflexivity|].
        destruct I as [(-> & _ & F)|(k & c0 & _ & _ & -> & L & F)].
        * split; [exact El|]. apply Forall_app. split; [|constructor; [lra|constructor]]. eapply Forall_impl; [|exact F]. intros x Hx; cbv beta in *; lra.
        * split; [lra|]. apply Forall_app. split; [|constructor; [lra|constructor]]. eapply Forall_impl; [|exact F]. intros x Hx; cbv beta in *; lra.
      + apply rltb_false in El. destruct I as [(-> & -> & F)|(k & c0 & E1 & E2 & -> & L & F)]; [left|right].
        * repeat split. apply Forall_app. split; [exact F|constructor; [lra|constructor]].
        * exists k, c0. rewrite !nth_error_app1 by (apply nth_error_Some; congruence). repeat (split; [assumption || reflexivity|]).
          apply Forall_app. split; [exact F|constructor; [lra|constructor]]. }
  destruct (G (x_verts s) cs nil nil huge (p_inf D) H (Forall2_nil _)) as (m & id & E & R); [left; repeat split; constructor|].
  rewrite E. cbn [rmap snd]. exists id. split; [reflexivity|]. cbn [app] in R.
  destruct R as [(_ & -> & F)|(k & c & E1 & E2 & -> & L & F)]; [left; auto|right]. exists k, c. auto.
Qed.
