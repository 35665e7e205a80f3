(** C49: findNearestSimplex; C57: findNearestVertex.  Coordinates are exact real numbers. *)
From Coq Require Import Permutation Psatz.
From Verif Require Import Outcome ListUtil WordsModel BlockModel BlockSpec SimplexModel PointModel CheckModel GeoModel GeoSpec GeoProofs GeoCirc GeoProps
  NearModel NearSpec NearProofs NearGeo.
Local Open Scope R_scope.

(** The search over any neighbor graph: [ltb] is any strict order of the distances, [insim] and [dface] any tests that are
    defined on the simplices that can be reached. *)
Theorem C49_walk : forall A W D ltb (huge : W) insim dface take (pts : points A) dflt l p hintS,
  made dflt l -> (forall i s, holds l i s -> (i < 2 ^ 63)%N) -> pq_ok ltb take -> less_ok ltb -> (hintS <> s_inf -> exists s, holds l hintS s) ->
  exists start, starts_at l hintS start /\
  ((forall i, reach l start i -> exists s, holds l i s /\ length (x_nbrs s) = N.to_nat (D + 1) /\
      (exists b, s_insim D insim pts s p = Val b) /\
      forall d n, nth_error (x_nbrs s) d = Some n -> s_finite n = true -> exists w, s_dface D dface pts s d p = Val w) ->
   exists r log, returns (find_nearest D ltb huge insim dface take pts l p hintS) (Some (r, log)) /\
    NoDup (map snd log) /\
    (forall w j, In (w, j) log -> reach l start j /\ ((j = start /\ w = huge) \/ j <> start /\ over_face l start (fun s d w => s_dface D dface pts s d p = Val w) j w)) /\
    ((exists w i s pre, log = (pre ++ [(w, i)])%list /\ holds l i s /\ s_insim D insim pts s p = Val true /\ r = x_id s /\
        forall w' j t, In (w', j) pre -> holds l j t -> s_insim D insim pts t p = Val false) \/
     ((forall i, reach l start i -> In i (map snd log)) /\ (forall i s, reach l start i -> holds l i s -> s_insim D insim pts s p = Val false) /\
      least_entry ltb huge (p_inf D) l log r))).
Proof. intros. eapply near_ok; eassumption. Qed.
Print Assumptions C49_walk.

(** In the plane: if a reachable triangle contains the point, the id stored in such a one is returned; otherwise every
    reachable triangle was visited, each once, and the one entered over the least distance is returned. *)
Theorem C49_plane_partial : forall huge take (pts : points vec) dflt l p hintS start,
  made dflt l -> (forall i s, holds l i s -> (i < 2 ^ 63)%N) -> pq_ok rltb take -> (hintS <> s_inf -> exists s, holds l hintS s) ->
  starts_at l hintS start ->
  (forall i, reach l start i -> exists s cs, holds l i s /\ length (x_nbrs s) = 3%nat /\ has_corners 2 pts s cs /\ solid 2 cs) ->
  exists r log, returns (find_nearest 2 rltb huge insim2 dface2 take pts l p hintS) (Some (r, log)) /\
    NoDup (map snd log) /\
    (forall w j, In (w, j) log -> reach l start j /\ ((j = start /\ w = huge) \/ j <> start /\ over_face l start (fun s d w => s_dface 2 dface2 pts s d p = Val w) j w)) /\
    ((exists i s cs, reach l start i /\ holds l i s /\ has_corners 2 pts s cs /\ in_hull 2 cs p /\ r = x_id s) \/
     ((forall i, reach l start i -> In i (map snd log)) /\
      (forall i s cs, reach l start i -> holds l i s -> has_corners 2 pts s cs -> ~ in_hull 2 cs p) /\
      least_entry rltb huge (p_inf 2) l log r)).
Proof. exact (near_dim 2 insim2 dface2 solid2). Qed.
Print Assumptions C49_plane_partial.
Theorem C49_space_partial : forall huge take (pts : points vec) dflt l p hintS start,
  made dflt l -> (forall i s, holds l i s -> (i < 2 ^ 63)%N) -> pq_ok rltb take -> (hintS <> s_inf -> exists s, holds l hintS s) ->
  starts_at l hintS start ->
  (forall i, reach l start i -> exists s cs, holds l i s /\ length (x_nbrs s) = 4%nat /\ has_corners 3 pts s cs /\ solid 3 cs) ->
  exists r log, returns (find_nearest 3 rltb huge insim3 dface3 take pts l p hintS) (Some (r, log)) /\
    NoDup (map snd log) /\
    (forall w j, In (w, j) log -> reach l start j /\ ((j = start /\ w = huge) \/ j <> start /\ over_face l start (fun s d w => s_dface 3 dface3 pts s d p = Val w) j w)) /\
    ((exists i s cs, reach l start i /\ holds l i s /\ has_corners 3 pts s cs /\ in_hull 3 cs p /\ r = x_id s) \/
     ((forall i, reach l start i -> In i (map snd log)) /\
      (forall i s cs, reach l start i -> holds l i s -> has_corners 3 pts s cs -> ~ in_hull 3 cs p) /\
      least_entry rltb huge (p_inf 3) l log r)).
Proof. exact (near_dim 3 insim3 dface3 solid3). Qed.
Print Assumptions C49_space_partial.

(** Missing of the full statement: the simplex returned is one that is stored.  See the refutations below. *)

(** ** Cases *)
(** A priority queue: the first least entry. *)
Fixpoint take_min (q : list (R * N)) : (R * N) * list (R * N) :=
  match q with
  | nil => ((0, 0%N), nil)
  | [x]%list => (x, nil)
  | x :: r => let '(y, r') := take_min r in if rltb (fst y) (fst x) then (y, x :: r') else (x, r)
  end.
Example take_min_ok : pq_ok rltb take_min.
Proof.
  assert (G : forall r x, Permutation (x :: r) (fst (take_min (x :: r)) :: snd (take_min (x :: r))) /\
    forall z, In z (snd (take_min (x :: r))) -> rltb (fst z) (fst (fst (take_min (x :: r)))) = false).
  { induction r as [|y r IH]; intros x.
    - split; [apply Permutation_refl|]. intros z [].
    - change (take_min (x :: y :: r)) with (let '(m, r') := take_min (y :: r) in if rltb (fst m) (fst x) then (m, x :: r') else (x, y :: r)).
      destruct (IH y) as [P L]. destruct (take_min (y :: r)) as [m r']. cbn [fst snd] in *. destruct (rltb (fst m) (fst x)) eqn:E; cbn [fst snd].
      + split; [rewrite P; apply perm_swap|]. intros z [<-|Hz]; [|auto]. apply rltb_iff in E. apply rltb_false. lra.
      + split; [reflexivity|]. intros z Hz. apply (Permutation_in _ P) in Hz. apply rltb_false in E. apply rltb_false. destruct Hz as [<-|Hz]; [exact E|].
        specialize (L z Hz). apply rltb_false in L. lra. }
  intros [|x r] H; [congruence|]. apply G.
Qed.

Definition blank : simplex := mks s_inf nil nil 0 0.
(** The points 1..4 are (0,0), (2,0), (0,2), (2,2); the infinite ones are not used. *)
Definition sq_pts : points vec := mkpts [v2 0 0; v2 0 0; v2 2 0; v2 0 2; v2 2 2]%list 0 [v2 0 0; v2 0 0; v2 0 0; v2 0 0]%list.
Definition low_tri : simplex := mks 0 [1; 2; 3]%N%list [1; s_inf; s_inf]%N%list 0 0.
Definition high_tri : simplex := mks 1 [2; 3; 4]%N%list [s_inf; s_inf; 0]%N%list 0 0.
(** Cells 0, 1, ... filled in order. *)
Definition filled (ss : list simplex) : list (block simplex) := [mkblk 0 (N.of_nat (length ss)) ss]%list.

Lemma filled_holds ss i s : holds (filled ss) i s <-> nth_error ss (N.to_nat i) = Some s.
Proof.
  unfold holds, filled. split.
  - intros (k & b & E & Hi & Hs). destruct k as [|[|k]]; [|discriminate|discriminate]. injection E as <-. cbn [b_min b_data] in *. rewrite N.sub_0_r in Hs. exact Hs.
  - intros H. exists 0%nat, (mkblk 0 (N.of_nat (length ss)) ss). split; [reflexivity|]. cbn [b_min b_max b_data]. rewrite N.sub_0_r. split; [|exact H].
    assert (N.to_nat i < length ss)%nat by (apply nth_error_Some; congruence). lia.
Qed.
Definition square : list (block simplex) := filled [low_tri; high_tri]%list.
Lemma square_made : made blank square.
Proof.
  apply (made_write blank (filled [low_tri; blank]%list) 1 0 high_tri square 0).
  - apply (made_write blank (ba_new blank 0 2) 0 0 low_tri (filled [low_tri; blank]%list) 0); [apply made_new; reflexivity|reflexivity].
  - reflexivity.
Qed.
Lemma square_holds i s : holds square i s -> (i = 0%N /\ s = low_tri) \/ (i = 1%N /\ s = high_tri).
Proof.
  intros H. apply filled_holds in H. destruct (N.to_nat i) as [|[|k]] eqn:E; cbn in H; [left|right|destruct k; discriminate]; injection H as <-; split; auto; lia.
Qed.
Lemma square_low : holds square 0 low_tri. Proof. now apply filled_holds. Qed.
Lemma square_high : holds square 1 high_tri. Proof. now apply filled_holds. Qed.
Lemma square_reach i : reach square 0 i <-> i = 0%N \/ i = 1%N.
Proof.
  split.
  - induction 1 as [|i s n Hi IH Hs Hn Hf]; [now left|]. apply square_holds in Hs. destruct Hs as [[-> ->]|[-> ->]]; cbn in Hn;
    destruct Hn as [<-|[<-|[<-|[]]]]; auto; discriminate.
  - intros [->| ->]; [constructor|]. apply (reach_step square 0 0 low_tri 1); [constructor|apply square_low|now left|reflexivity].
Qed.
Lemma low_corners : has_corners 2 sq_pts low_tri [v2 0 0; v2 2 0; v2 0 2]%list.
Proof. repeat (apply Forall2_cons; [reflexivity|]). apply Forall2_nil. Qed.
Lemma high_corners : has_corners 2 sq_pts high_tri [v2 2 0; v2 0 2; v2 2 2]%list.
Proof. repeat (apply Forall2_cons; [reflexivity|]). apply Forall2_nil. Qed.
Lemma low_solid : solid 2 [v2 0 0; v2 2 0; v2 0 2]%list.
Proof. split; [reflexivity|]. apply indep2. unfold orient2, v2. lra. Qed.
Lemma high_solid : solid 2 [v2 2 0; v2 0 2; v2 2 2]%list.
Proof. split; [reflexivity|]. apply indep2. unfold orient2, v2. lra. Qed.

(** The hypotheses of C49_plane_partial hold of the square. *)
Example C49_case : made blank square /\ (forall i s, holds square i s -> (i < 2 ^ 63)%N) /\ pq_ok rltb take_min /\ starts_at square s_inf 0 /\
  (forall i, reach square 0 i -> exists s cs, holds square i s /\ length (x_nbrs s) = 3%nat /\ has_corners 2 sq_pts s cs /\ solid 2 cs).
Proof.
  split; [apply square_made|]. split; [|split; [apply take_min_ok|split]].
  - intros i s H. apply square_holds in H. destruct H as [[-> _]|[-> _]]; reflexivity.
  - split; [congruence|]. intros _. split; [exists low_tri; apply square_low|]. intros; apply N.le_0_l.
  - intros i H. apply square_reach in H. destruct H as [->| ->].
    + exists low_tri, [v2 0 0; v2 2 0; v2 0 2]%list. repeat split; [apply square_low|apply low_corners|apply low_solid].
    + exists high_tri, [v2 2 0; v2 0 2; v2 2 2]%list. repeat split; [apply square_high|apply high_corners|apply high_solid].
Qed.
Lemma low_half x y : in_hull 2 [v2 0 0; v2 2 0; v2 0 2]%list (v2 x y) -> 0 <= x /\ 0 <= y /\ x + y <= 2.
Proof.
  intros H. apply hull3 in H as (u & v & Hu & Hv & Hs & L). pose proof (L 0%nat ltac:(lia)). pose proof (L 1%nat ltac:(lia)). cbn in *. lra.
Qed.
Lemma high_half q : in_hull 2 [v2 2 0; v2 0 2; v2 2 2]%list q -> 2 <= q 0%nat + q 1%nat.
Proof.
  intros H. apply hull3 in H as (u & v & Hu & Hv & Hs & L). pose proof (L 0%nat ltac:(lia)). pose proof (L 1%nat ltac:(lia)). cbn in *. lra.
Qed.
(** The point (3/2, 3/2) is found in the upper triangle. *)
Example C49_found : exists log, returns (find_nearest 2 rltb 1000 insim2 dface2 take_min sq_pts square (v2 (3 / 2) (3 / 2)) s_inf) (Some (1%N, log)).
Proof.
  destruct C49_case as (H1 & H2 & H3 & H4 & H5).
  destruct (C49_plane_partial 1000 take_min sq_pts blank square (v2 (3 / 2) (3 / 2)) s_inf 0 H1 H2 H3) as (r & log & Ret & _ & _ & F); [congruence|exact H4|exact H5|].
  exists log. destruct F as [(i & s & cs & Hi & Hs & Hc & Hh & ->)|(_ & N & _)].
  - apply square_holds in Hs. destruct Hs as [[-> ->]|[-> ->]]; [|exact Ret]. exfalso.
    pose proof (corners_val 2 sq_pts _ _ Hc) as E. rewrite (corners_val 2 sq_pts _ _ low_corners) in E. injection E as <-. apply low_half in Hh. lra.
  - exfalso. apply (N 1%N high_tri _ (proj2 (square_reach 1) (or_intror eq_refl)) square_high high_corners). apply hull3.
    exists (1 / 4), (1 / 2). repeat split; try lra. dims2.
Qed.

(** ** Refutations *)
(** The simplex the search starts from is never returned for a point outside: of two triangles the farther one is. *)
Theorem C49_nearest_refuted : exists (pts : points vec) dflt l p huge s0 s1 cs0 cs1 q0,
  made dflt l /\ holds l 0 s0 /\ holds l 1 s1 /\ (forall i s, holds l i s -> i = 0%N \/ i = 1%N) /\
  has_corners 2 pts s0 cs0 /\ has_corners 2 pts s1 cs1 /\ x_id s1 = 1%N /\
  (forall take, pq_ok rltb take -> exists log, returns (find_nearest 2 rltb huge insim2 dface2 take pts l p 0) (Some (1%N, log))) /\
  in_hull 2 cs0 q0 /\ forall q, in_hull 2 cs1 q -> dist2 2 q0 p < dist2 2 q p.
Proof.
  exists sq_pts, blank, square, (v2 (-1) (-1)), 1000, low_tri, high_tri, [v2 0 0; v2 2 0; v2 0 2]%list, [v2 2 0; v2 0 2; v2 2 2]%list, (v2 0 0).
  split; [apply square_made|]. split; [apply square_low|]. split; [apply square_high|].
  split. { intros i s H. apply square_holds in H. tauto. }
  split; [apply low_corners|]. split; [apply high_corners|]. split; [reflexivity|].
  assert (N0 : ~ in_hull 2 [v2 0 0; v2 2 0; v2 0 2]%list (v2 (-1) (-1))) by (intros H; apply low_half in H; lra).
  assert (N1 : ~ in_hull 2 [v2 2 0; v2 0 2; v2 2 2]%list (v2 (-1) (-1))) by (intros H; apply high_half in H; cbn in H; lra).
  split; [|split].
  - intros take Hpq. destruct C49_case as (H1 & H2 & _ & _ & H5).
    destruct (C49_plane_partial 1000 take sq_pts blank square (v2 (-1) (-1)) 0 0 H1 H2 Hpq) as (r & log & Ret & _ & RR & F);
      [intros _; exists low_tri; apply square_low|split; [reflexivity|discriminate]|exact H5|].
    exists log. destruct F as [(i & s & cs & Hi & Hs & Hc & Hh & _)|(HA & _ & L)].
    + exfalso. apply corners_val in Hc. apply square_holds in Hs. destruct Hs as [[-> ->]|[-> ->]].
      * rewrite (corners_val 2 sq_pts _ _ low_corners) in Hc. injection Hc as <-. auto.
      * rewrite (corners_val 2 sq_pts _ _ high_corners) in Hc. injection Hc as <-. auto.
    + assert (H1w : forall w, In (w, 1%N) log -> w < 1000).
      { intros w Hw. destruct (RR w 1%N Hw) as [_ [[E _]|(_ & i & s & d & Hi & Hs & Ed & Ew)]]; [discriminate|].
        apply square_holds in Hs. destruct Hs as [[-> ->]|[-> ->]].
        - destruct d as [|[|[|d]]]; try discriminate; [|destruct d; discriminate]. unfold s_dface in Ew. rewrite (face_corners 2 sq_pts low_tri _ 0 low_corners) in Ew.
          cbn [firstn skipn app rbind dface2] in Ew. rewrite dist_face2_val in Ew by (left; cbn; lra). injection Ew as <-.
          replace (orient2 (v2 2 0) (v2 0 2) (v2 (-1) (-1)) / dist2 2 (v2 2 0) (v2 0 2)) with 1 by (unfold orient2, dist2, sumn, v2; field). rewrite Rabs_R1. lra.
        - destruct d as [|[|[|d]]]; try discriminate. destruct d; discriminate. }
      destruct L as [(_ & Hn)|(w & i & s & Hw & Hs & -> & Lw & _)].
      * exfalso. specialize (HA 1%N (proj2 (square_reach 1) (or_intror eq_refl))). apply in_map_iff in HA. destruct HA as ([w j] & E & Hw). cbn in E. subst j.
        specialize (Hn w 1%N Hw). apply rltb_false in Hn. specialize (H1w w Hw). lra.
      * apply square_holds in Hs. destruct Hs as [[-> ->]|[-> ->]]; [|exact Ret]. exfalso. apply rltb_iff in Lw.
        destruct (RR w 0%N Hw) as [_ [[_ E]|(E & _)]]; [lra|now apply E].
  - apply hull3. exists 0, 0. repeat split; try lra. dims2.
  - intros q Hq. apply high_half in Hq. unfold dist2, sumn, v2. cbn in *. nra.
Qed.
Print Assumptions C49_nearest_refuted.

(** A single triangle and a point outside: the result is dPoint's cINF, which is not the id of a simplex, but which
    dSimplex::isFinite takes for one. *)
Definition alone : simplex := mks 0 [1; 2; 3]%N%list [s_inf; s_inf; s_inf]%N%list 0 0.
Definition one_tri : list (block simplex) := filled [alone]%list.
Lemma one_reach i : reach one_tri 0 i -> i = 0%N.
Proof.
  induction 1 as [|i s n Hi IH Hs Hn Hf]; [reflexivity|]. subst i. apply filled_holds in Hs. cbn in Hs. injection Hs as <-. cbn in Hn.
  destruct Hn as [<-|[<-|[<-|[]]]]; discriminate.
Qed.
Theorem C49_stored_refuted : exists (pts : points vec) dflt l p huge s cs,
  made dflt l /\ holds l 0 s /\ x_id s = 0%N /\ has_corners 2 pts s cs /\ solid 2 cs /\
  (forall take, pq_ok rltb take -> exists log, returns (find_nearest 2 rltb huge insim2 dface2 take pts l p s_inf) (Some (p_inf 2, log))) /\
  (forall t, ~ holds l (p_inf 2) t) /\ s_finite (p_inf 2) = true.
Proof.
  exists sq_pts, blank, one_tri, (v2 (-1) (-1)), 1000, alone, [v2 0 0; v2 2 0; v2 0 2]%list.
  assert (M : made blank one_tri).
  { apply (made_write blank (ba_new blank 0 1) 0 0 alone one_tri 0); [apply made_new; reflexivity|reflexivity]. }
  assert (Hh : holds one_tri 0 alone) by now apply filled_holds.
  assert (Ho : forall i s, holds one_tri i s -> i = 0%N /\ s = alone).
  { intros i s H. apply filled_holds in H. destruct (N.to_nat i) as [|k] eqn:E; cbn in H; [|destruct k; discriminate]. injection H as <-. split; auto. lia. }
  split; [exact M|]. split; [exact Hh|]. split; [reflexivity|]. split; [exact low_corners|]. split; [exact low_solid|]. split; [|split; [|reflexivity]].
  - intros take Hpq.
    destruct (C49_plane_partial 1000 take sq_pts blank one_tri (v2 (-1) (-1)) s_inf 0 M) as (r & log & Ret & _ & RR & F); [|exact Hpq|congruence| | |].
    + intros i s H. apply Ho in H as [-> _]. reflexivity.
    + split; [congruence|]. intros _. split; [now exists alone|]. intros; apply N.le_0_l.
    + intros i Hi. apply one_reach in Hi. subst i. exists alone, [v2 0 0; v2 2 0; v2 0 2]%list. split; [exact Hh|]. split; [reflexivity|]. split; [exact low_corners|exact low_solid].
    + exists log. destruct F as [(i & s & cs & Hi & Hs & Hc & Hin & _)|(_ & _ & L)].
      * exfalso. apply Ho in Hs. destruct Hs as [-> ->]. apply corners_val in Hc. change (x_verts alone) with (x_verts low_tri) in Hc. rewrite (corners_val 2 sq_pts _ _ low_corners) in Hc. injection Hc as <-. apply low_half in Hin. lra.
      * destruct L as [(-> & _)|(w & i & s & Hw & _ & _ & Lw & _)]; [exact Ret|]. exfalso. apply rltb_iff in Lw.
        destruct (RR w i Hw) as [Hi [[_ E]|(E & _)]]; [lra|]. apply E. now apply one_reach.
  - intros t H. apply Ho in H as [H _]. discriminate.
Qed.
Print Assumptions C49_stored_refuted.

(** The search may start at a cell whose simplex was deleted (id cINF): its old corners are tested, and cINF is returned
    though a triangle that can be reached contains the point. *)
Definition gone_tri : simplex := mks s_inf [1; 2; 3]%N%list [1; s_inf; s_inf]%N%list 0 0.
Definition again : simplex := mks 1 [1; 2; 3]%N%list [s_inf; s_inf; s_inf]%N%list 0 0.
Definition stale : list (block simplex) := filled [gone_tri; again]%list.
Theorem C49_deleted_refuted : exists (pts : points vec) dflt l p huge s cs,
  made dflt l /\ holds l 1 s /\ x_id s = 1%N /\ has_corners 2 pts s cs /\ in_hull 2 cs p /\ reach l 0 1 /\
  forall take, pq_ok rltb take -> exists log, returns (find_nearest 2 rltb huge insim2 dface2 take pts l p s_inf) (Some (s_inf, log)).
Proof.
  exists sq_pts, blank, stale, (v2 (1 / 2) (1 / 2)), 1000, again, [v2 0 0; v2 2 0; v2 0 2]%list.
  assert (Hin : in_hull 2 [v2 0 0; v2 2 0; v2 0 2]%list (v2 (1 / 2) (1 / 2))).
  { apply hull3. exists (1 / 4), (1 / 4). repeat split; try lra. dims2. }
  assert (H0 : holds stale 0 gone_tri) by now apply filled_holds.
  split.
  { apply (made_write blank (filled [gone_tri; blank]%list) 1 0 again stale 0).
    - apply (made_write blank (ba_new blank 0 2) 0 0 gone_tri (filled [gone_tri; blank]%list) 0); [apply made_new; reflexivity|reflexivity].
    - reflexivity. }
  split; [now apply filled_holds|]. split; [reflexivity|]. split; [exact low_corners|]. split; [exact Hin|].
  split. { apply (reach_step stale 0 0 gone_tri 1); [constructor|exact H0|now left|reflexivity]. }
  intros take Hpq. exists [(1000, 0%N)]%list. exists 1%nat. intros m Hm. destruct m as [|m]; [lia|].
  unfold find_nearest. change (ba_lower stale) with (@Val N 0%N). change (ba_upper stale) with (@Val N 2%N). cbn [rbind].
  change (s_inf =? s_inf)%N with true. cbn [negb].
  change (nth_error (repeat false (N.to_nat (wrap 64 (2 + 2 ^ 64 - 0 + 1)))) (mark_idx 0 0)) with (Some false). cbn [near_loop].
  destruct (Hpq [(1000, 0%N)]%list) as [P _]; [discriminate|]. destruct (take [(1000, 0%N)]%list) as [[w i] q']. cbn [fst snd] in P.
  apply Permutation_length_1_inv in P. injection P as -> -> ->.
  change (ba_at stale 0 0) with (@Val (option (simplex * nat)) (Some (gone_tri, 0%nat))). cbn [rbind].
  destruct (solid2 sq_pts gone_tri [v2 0 0; v2 2 0; v2 0 2]%list (v2 (1 / 2) (1 / 2)) low_corners low_solid) as [(b & Eb & Hb) _].
  change (N.of_nat 2) with 2%N in Eb. rewrite Eb. cbn [rbind]. rewrite (proj2 Hb Hin). reflexivity.
Qed.
Print Assumptions C49_deleted_refuted.

(** ** C57: findNearestVertex *)
(** The vertex returned is one of the simplex at the least distance from the point, unless all are as far as the largest
    number, in which case dPoint's cINF is returned. *)
Theorem C57_nearest_vertex : forall D huge (pts : points vec) s cs p, has_corners (N.of_nat D) pts s cs ->
  exists r, near_vertex (N.of_nat D) rltb huge (sq_distance D) pts s p = Val r /\
  ((r = p_inf (N.of_nat D) /\ Forall (fun c => huge <= dist2 D p c) cs) \/
   (exists k c, nth_error (x_verts s) k = Some r /\ nth_error cs k = Some c /\ dist2 D p c < huge /\ Forall (fun c' => dist2 D p c <= dist2 D p c') cs)).
Proof.
  intros D huge pts s cs p H. destruct (near_vertex_ok (N.of_nat D) huge (sq_distance D) pts s cs p H) as (r & E & R). exists r. split; [exact E|].
  assert (Q : forall c, sq_distance D p c = dist2 D p c) by (intros c; apply sq_distance_spec).
  destruct R as [(-> & F)|(k & c & E1 & E2 & L & F)]; [left|right].
  - split; [reflexivity|]. eapply Forall_impl; [|exact F]. intros c Hc. cbv beta in *. now rewrite <- Q.
  - exists k, c. rewrite <- Q. repeat (split; [assumption|]). eapply Forall_impl; [|exact F]. intros c' Hc. cbv beta in *. now rewrite <- Q.
Qed.
Print Assumptions C57_nearest_vertex.
Example C57_case : has_corners 2 sq_pts low_tri [v2 0 0; v2 2 0; v2 0 2]%list. Proof. exact low_corners. Qed.
Example C57_value : near_vertex 2 rltb 1000 (sq_distance 2) sq_pts low_tri (v2 3 1) = Val 2%N.
Proof.
  destruct (C57_nearest_vertex 2 1000 sq_pts low_tri _ (v2 3 1) low_corners) as (r & E & R). change (N.of_nat 2) with 2%N in E. rewrite E. f_equal.
  destruct R as [(_ & F)|(k & c & E1 & E2 & _ & F)].
  - exfalso. inversion_clear F as [|? ? F1 _]. unfold dist2, sumn, v2 in F1. lra.
  - inversion_clear F as [|? ? F1 F']. inversion_clear F' as [|? ? F2 F'']. inversion_clear F'' as [|? ? F3 _].
    destruct k as [|[|[|k]]]; cbn in E1, E2; [| | |destruct k; discriminate]; injection E1 as <-; injection E2 as <-; [|reflexivity|]; exfalso;
    unfold dist2, sumn, v2 in *; lra.
Qed.
