(** C82: what the check of their own result tells the user of the programs. *)
From Coq Require Import Permutation Reals Lra.
From Verif Require Import GeoCirc Outcome ListUtil WordsModel BlockModel BlockSpec LPSetModel LPSetProofs LPSetHistory SimplexModel SimplexProofs NbrModel NbrSpec PointModel PointProofs GeoModel GeoSpec InfModel InfProofs MergeModel MergeProofs DelSpec PlaceSpec DelPlace TriSpec MeshSpec MeshProofs
  StepEx CheckModel CheckSpec CheckProofs PartModel TreeModel TreeSpec SplitModel DcModel DcSpec DcBase TopSpec TopProofs TopRuns DcProps LbModel LbSpec LbProofs LbTrees LbProps SelfModel SelfSpec SelfProofs.
Local Open Scope nat_scope.

(** What may be iterated over exists. *)
Lemma enum_ex over D co hgt S d : triangulation over D co hgt S d -> exists ls, enum (d_get (d_arr d)) ls.
Proof.
  intros T. destruct (stored_ids (d_arr d) (tr_wf _ _ _ _ _ _ T)) as [ids Hids]. set (get := d_get (d_arr d)) in *.
  set (f := fun i => match get i with Some s => if (x_id s =? i)%N && negb (i =? s_inf)%N then [s] else [] | None => [] end).
  assert (Hf : forall i s, In s (f i) <-> live get i s).
  { intros i s. unfold f, live. destruct (get i) as [t|]; [|split; [intros []|intros [H _]; discriminate]].
    destruct (N.eqb_spec (x_id t) i) as [E|E], (N.eqb_spec i s_inf) as [E'|E']; cbn [andb negb In]; split; try (intros []); try (intros ->); try congruence; intuition congruence. }
  exists (flat_map f (nodup N.eq_dec ids)). split.
  - assert (X : forall l, NoDup l -> NoDup (map x_id (flat_map f l))); [|apply X, NoDup_nodup].
    induction l as [|i l IH]; intros H; [constructor|]. inversion H as [|? ? Hi Hl]; subst. cbn [flat_map]. rewrite map_app.
    assert (Hno : forall s, In s (flat_map f l) -> x_id s <> i).
    { intros s Hs E. apply in_flat_map in Hs as (j & Hj & Hs). apply Hf in Hs as (_ & Es & _). subst. congruence. }
    assert (Hfi : f i = [] \/ exists s, f i = [s] /\ x_id s = i).
    { unfold f. destruct (get i) as [s|]; [|now left]. destruct (N.eqb_spec (x_id s) i), (i =? s_inf)%N; cbn [andb negb]; eauto. }
    destruct Hfi as [-> | (s & -> & Es)]; [now apply IH|]. cbn [map app]. constructor; [|now apply IH]. rewrite Es. intros Hin. apply in_map_iff in Hin as (t & Et & Ht). exact (Hno t Ht Et).
  - intros s. rewrite in_flat_map. split.
    + intros (i & _ & H). apply Hf in H. now apply live_self in H.
    + intros H. exists (x_id s). split; [|now apply Hf]. apply nodup_In. destruct H as [H _]. now apply (Hids _ s).
Qed.
Lemma sees_ex over D co hgt r S d : (0 < D <= 30)%N -> placed D co r S -> breaks (N.to_nat D) co hgt S -> triangulation over D co hgt S d -> exists ls used tab ftab, verify_sees over d ls used tab ftab.
Proof.
  intros HD Hp HB T. destruct (enum_ex over D co hgt S d T) as [ls Hls]. exists ls, (nodup N.eq_dec (flat_map x_verts ls)), (map entry ls).
  destruct (CheckProofs.faces_spec over D (proj2 HD) (d_get (d_arr d)) (Datatypes.S (N.to_nat D)) ltac:(discriminate) ls Hls) as (fe & E & _).
  exists fe. split; [exact Hls|]. split; [|split; [reflexivity|exists fe; split; [exact E|reflexivity]]]. split; [apply NoDup_nodup|]. intros v. rewrite nodup_In, in_flat_map. split.
  - intros (s & Hs & Hv). exists (x_id s), s. split; [now apply Hls|exact Hv].
  - intros (c & s & Hs & Hv). exists s. split; [eapply enum_In; eauto|exact Hv].
Qed.
Lemma cross_ex over D co hgt S d d' : triangulation over D co hgt S d -> triangulation over D co hgt S d' -> exists tab ms rs chunks, cross_sees d d' tab ms rs chunks.
Proof.
  intros T T'. destruct (enum_ex _ _ _ _ _ _ T) as [ms Hm]. destruct (enum_ex _ _ _ _ _ _ T') as [rs Hr]. exists (map entry ms ++ map entry rs), ms, rs, [rs].
  split; [exact Hm|]. split; [exact Hr|]. split; [reflexivity|]. cbn [concat]. rewrite app_nil_r. reflexivity.
Qed.

(** ** Any correct result *)
(** Both triangulations of the points and the corners, correct: verify finds no duplicates and no wrong neighbors, and complains about the vertices behind a face that are on the
    circumsphere, exactly; crossCheck finds nothing.  So the answer tells whether there are such ties, not whether the result is right. *)
Theorem C82_check over D tiny huge p c work q hgt orient insphere d real ls used tab ftab tab' ms rs chunks : D = 2 \/ D = 3 -> input D tiny huge p c -> p_off p = 0%N ->
  (forall i, In i (concat work) <-> is_fin_id p i) -> ctor_points D tiny huge p work = Val q ->
  let P := id_keys (N.of_nat D) q in let co := co_of D q in
  breaks D co hgt P -> preds_exact D orient insphere ->
  triangulation over (N.of_nat D) co hgt P d -> triangulation over (N.of_nat D) co hgt P real ->
  verify_sees over d ls used tab ftab -> cross_sees d real tab' ms rs chunks ->
  (exists vr, verify_of over (N.of_nat D) orient insphere d q ls used tab ftab = Val vr /\ v_dups vr = [] /\ v_wrong vr = [] /\
    (forall s v, In (s, v) (v_circle vr) <-> exists i j t o r2, shown d i s /\ shown d j t /\ across s t v /\ p_finite (N.of_nat D) v = true /\ on_ball D co (x_verts s) o r2 /\ (dist2 D (co v) o <= r2)%R) /\
    (v_valid vr = true <-> no_ties (N.of_nat D) co d)) /\
  (exists cr, cross_of d real tab' ms rs chunks = Val cr /\ c_valid cr = true) /\
  exists b, self_check over (N.of_nat D) orient insphere d real q ls used tab ftab tab' ms rs chunks = Val b /\ (b = true <-> no_ties (N.of_nat D) co d) /\
    (spread (N.of_nat D) co P -> b = true) /\ (tied (N.of_nat D) co P -> b = false).
Proof.
  intros HD HI Hoff Hw Hq P co HB Hpr T T' Hv Hc. destruct (top_ex D HD tiny huge p c HI work Hw q Hq) as [r F]. pose proof (tf_placed _ _ _ _ _ _ _ F) as Hpl.
  destruct (ctor_q D _ _ _ _ _ Hq) as (st & _ & Eq). assert (HDr : 0 < D <= 30) by lia. assert (HDN : (0 < N.of_nat D <= 30)%N) by lia. assert (En : N.to_nat (N.of_nat D) = D) by apply Nat2N.id.
  assert (Hqo : pts_ok (N.of_nat D) q) by (rewrite Eq; eapply q_ok; eauto).
  assert (Hl : length (p_infs p) = 2 ^ D) by (destruct (in_ok _ _ _ _ _ HI) as [_ [_ H]]; rewrite <- pow_of_nat in H; lia).
  destruct (add_infinite_spec D ltac:(lia) p st Hl) as (A1 & A2 & _). rewrite <- Eq in A1, A2.
  assert (HB' : breaks (N.to_nat (N.of_nat D)) co hgt P) by now rewrite En.
  assert (HP : forall v, In v P <-> is_id (N.of_nat D) q v) by (intros v; apply keys_In; [apply HDN|exact Hqo]).
  assert (Hget : forall v, In v P -> PointModel.p_get (N.of_nat D) q v = Val (co v)).
  { intros v Hv'. apply HP in Hv'. destruct (get_id (N.of_nat D) (proj2 HDN) q v Hqo Hv') as (a & Ea & _). unfold co, co_of. now rewrite Ea. }
  assert (Hsz : (finite_size q + 2 ^ N.of_nat D < 2 ^ 64)%N).
  { unfold finite_size. rewrite A1. pose proof (in_size _ _ _ _ _ HI) as H. pose proof (top_pow D HDr) as H2. eapply N.le_lt_trans; [apply N.add_le_mono; [exact H|exact H2]|reflexivity]. }
  destruct (see_verify (N.of_nat D) HDN over co hgt r P Hpl HB' orient insphere ltac:(now rewrite En) ltac:(now rewrite En) q Hqo ltac:(congruence) Hsz HP Hget d T ls used tab ftab Hv) as (vr & Ev & V1 & V2 & V3 & V4).
  destruct (see_cross (N.of_nat D) over co hgt P HB' d real tab' ms rs chunks T T' Hc) as (cr & Ec & C1).
  rewrite En in V4. split; [exists vr; auto|]. split; [exists cr; auto|]. exists (v_valid vr && c_valid cr). unfold self_check. rewrite Ev. cbn [rbind]. rewrite Ec. cbn [rmap].
  split; [reflexivity|]. rewrite C1, Bool.andb_true_r. split; [exact V1|]. split.
  - intros Hs. apply V1. exact (spread_no_ties (N.of_nat D) over co hgt P HB' d T Hs).
  - intros Ht. apply Bool.not_true_is_false. intros E. apply V1 in E. exact (tied_ties (N.of_nat D) HDN over co hgt r P Hpl HB' d T Ht E).
Qed.
Print Assumptions C82_check.

(** ** DCTriangulator *)
(** The result of DCTriangulator, checked against a single call of CGAL: the check finishes; it accepts if no empty circumsphere has a further input point on it, and rejects if some
    such sphere has one and no corner. *)
Theorem C82_dc over D tiny huge p c work q hgt cgal sp depth par_edge c0 d takes real start last orient insphere ls used tab ftab tab' ms rs chunks :
  D = 2 \/ D = 3 -> input D tiny huge p c -> p_off p = 0%N -> (forall i, In i (concat work) <-> is_fin_id p i) -> ctor_points D tiny huge p work = Val q ->
  let P := id_keys (N.of_nat D) q in let co := co_of D q in
  breaks D co hgt P -> cgal_right (N.of_nat D) co hgt P cgal -> preds_exact D orient insphere -> (forall k, sp = OneDim k -> k < D) -> depth <= 42 ->
  dc_run over (N.of_nat D) co cgal (splits D q tiny huge sp) depth par_edge [] P d takes -> drawn c0 takes -> (c0 + total takes < 2 ^ 64)%N -> (N.of_nat (length takes) < 2 ^ 32)%N ->
  base_run over (N.of_nat D) cgal P real start last -> (start + last < 2 ^ 64)%N ->
  verify_sees over d ls used tab ftab -> cross_sees d real tab' ms rs chunks ->
  exists b, self_check over (N.of_nat D) orient insphere d real q ls used tab ftab tab' ms rs chunks = Val b /\ (b = true <-> no_ties (N.of_nat D) co d) /\
    (spread (N.of_nat D) co P -> b = true) /\ (tied (N.of_nat D) co P -> b = false).
Proof.
  intros HD HI Hoff Hw Hq P co HB Hc Hpr Hsp Hd Hr Ht H1 H2 Hb Hl Hv Hcr.
  assert (T : triangulation over (N.of_nat D) co hgt P d) by (eapply C67_triangulate; eauto).
  assert (T' : triangulation over (N.of_nat D) co hgt P real).
  { destruct (top_ex D HD tiny huge p c HI work Hw q Hq) as [r F]. pose proof (tf_placed _ _ _ _ _ _ _ F) as Hpl. destruct Hb as [dflt cells B1 B2 B3 B4].
    destruct (C65_base over (N.of_nat D) co hgt r P start last cells dflt) as (out & E & T' & _); auto; [lia|now rewrite Nat2N.id| |congruence].
    apply Hc; [apply F|apply incl_refl|apply Hpl|exact B3]. }
  exact (proj2 (proj2 (C82_check over D tiny huge p c work q hgt orient insphere d real ls used tab ftab tab' ms rs chunks HD HI Hoff Hw Hq HB Hpr T T' Hv Hcr))).
Qed.
Print Assumptions C82_dc.

(** ** LoadBalancing::DCTriangulator *)
Theorem C82_lb over D tiny huge p c work q hgt cgal depth C cbox meets par_base par_edge (t : tree C) l c0 d takes real start last orient insphere ls used tab ftab tab' ms rs chunks :
  D = 2 \/ D = 3 -> input D tiny huge p c -> p_off p = 0%N -> (forall i, In i (concat work) <-> is_fin_id p i) -> ctor_points D tiny huge p work = Val q ->
  let P := id_keys (N.of_nat D) q in let co := co_of D q in
  breaks D co hgt P -> cgal_right (N.of_nat D) co hgt P cgal -> preds_exact D orient insphere ->
  (forall r, placed (N.of_nat D) co r P -> (forall d, d < D -> (tiny <= r d)%R) -> tree_ok (N.of_nat D) co r C meets t P) ->
  Leaves t l -> (N.of_nat (4 * entries l) <= 2 ^ 63)%N -> height t <= 42 -> depth <= 42 ->
  lb_run over (N.of_nat D) co cgal (splits D q tiny huge Cycle) depth C cbox meets par_base par_edge [] t d takes ->
  drawn c0 takes -> (c0 + total takes < 2 ^ 64)%N -> (N.of_nat (length takes) < 2 ^ 32)%N ->
  base_run over (N.of_nat D) cgal P real start last -> (start + last < 2 ^ 64)%N ->
  verify_sees over d ls used tab ftab -> cross_sees d real tab' ms rs chunks ->
  exists b, self_check over (N.of_nat D) orient insphere d real q ls used tab ftab tab' ms rs chunks = Val b /\ (b = true <-> no_ties (N.of_nat D) co d) /\
    (spread (N.of_nat D) co P -> b = true) /\ (tied (N.of_nat D) co P -> b = false).
Proof.
  intros HD HI Hoff Hw Hq P co HB Hc Hpr Hok HL Hsm Hh Hd Hr Ht H1 H2 Hb Hl Hv Hcr.
  assert (T : triangulation over (N.of_nat D) co hgt P d).
  { exact (proj1 (C72_load_balanced over D tiny huge p c work q hgt cgal depth C cbox meets par_base par_edge t l c0 d takes HD HI Hw Hq HB Hc Hok HL Hsm Hh Hd Hr Ht H1 H2)). }
  assert (T' : triangulation over (N.of_nat D) co hgt P real).
  { destruct (top_ex D HD tiny huge p c HI work Hw q Hq) as [r F]. pose proof (tf_placed _ _ _ _ _ _ _ F) as Hpl. destruct Hb as [dflt cells B1 B2 B3 B4].
    destruct (C65_base over (N.of_nat D) co hgt r P start last cells dflt) as (out & E & T' & _); auto; [lia|now rewrite Nat2N.id| |congruence].
    apply Hc; [apply F|apply incl_refl|apply Hpl|exact B3]. }
  exact (proj2 (proj2 (C82_check over D tiny huge p c work q hgt orient insphere d real ls used tab ftab tab' ms rs chunks HD HI Hoff Hw Hq HB Hpr T T' Hv Hcr))).
Qed.
Print Assumptions C82_lb.

(** ** Cases *)
(** A run and its check, for few points in the plane. *)
Lemma preds_ex : exists o i, preds_exact 2 o i.
Proof.
  exists (fun l => match l with [a; b; c]%list => orient2 a b c | _ => 0%R end), (fun l p => match l with [a; b; c]%list => insphere2 a b c p | _ => 0%R end).
  split; [intros _ a b c p; unfold has_sign; tauto|discriminate].
Qed.
Lemma run_ex tiny huge p c work q : input 2 tiny huge p c -> (forall i, In i (concat work) <-> is_fin_id p i) -> ctor_points 2 tiny huge p work = Val q -> length (id_keys 2 q) <= 100 ->
  exists hgt cgal d takes real start last ls used tab ftab tab' ms rs chunks, let P := id_keys 2 q in let co := co_of 2 q in
  breaks 2 co hgt P /\ cgal_right 2 co hgt P cgal /\
  dc_run (fun x => x) 2 co cgal (splits 2 q tiny huge DWay) 1 true [] P d takes /\ drawn 1 takes /\ (1 + total takes < 2 ^ 64)%N /\ (N.of_nat (length takes) < 2 ^ 32)%N /\
  base_run (fun x => x) 2 cgal P real start last /\ (start + last < 2 ^ 64)%N /\
  verify_sees (fun x => x) d ls used tab ftab /\ cross_sees d real tab' ms rs chunks.
Proof.
  intros HI Hw Hq Hlen. destruct (heights_ex 2 (co_of 2 q) (id_keys 2 q)) as [hgt Hb]. set (m := (100 ^ 3)%N).
  set (cgal := fun S last cells => cgal_ok 2 (co_of 2 q) hgt S last cells /\ (last <= m)%N).
  assert (Hc : cgal_right 2 (co_of 2 q) hgt (id_keys 2 q) cgal) by (intros S last cells _ _ _ [H _]; exact H).
  assert (Hce : forall S, NoDup S -> incl S (id_keys 2 q) -> exists last cells, cgal S last cells /\ (last <= m)%N).
  { intros S Hn Hs. destruct (cgal_ex 2 (co_of 2 q) hgt S) as (cells & H & Hl). pose proof (NoDup_incl_length Hn Hs) as Hl2.
    assert (Hl3 : (N.of_nat (length cells) <= m)%N).
    { change (N.to_nat 2 + 1) with 3 in Hl. cbn [Nat.pow] in Hl. unfold m. change (100 ^ 3)%N with (100 * (100 * 100))%N. nia. }
    exists (N.of_nat (length cells)), cells. split; [split; [exact H|exact Hl3]|exact Hl3]. }
  assert (He : cgal_ends 2 (id_keys 2 q) m cgal) by (intros S Hn Hs _; now apply Hce).
  destruct (C71_runs (fun x => x) 2 tiny huge p c work q hgt cgal DWay 1 true m 1 (or_introl eq_refl) HI Hw Hq Hb Hc He ltac:(discriminate) ltac:(lia) ltac:(reflexivity) ltac:(reflexivity)) as (d & takes & R1 & R2 & R3 & R4).
  destruct (top_ex 2 (or_introl eq_refl) _ _ _ _ HI work Hw q Hq) as [r F]. pose proof (tf_placed _ _ _ _ _ _ _ F) as Hpl.
  destruct (Hce (id_keys 2 q) (tf_nodup _ _ _ _ _ _ _ F) (incl_refl _)) as (last & cells & Hcg & Hlast).
  assert (Hll : (1 + last < 2 ^ 64)%N) by (eapply N.le_lt_trans; [apply N.add_le_mono_l, Hlast|reflexivity]).
  destruct (C65_base (fun x => x) 2 (co_of 2 q) hgt r (id_keys 2 q) 1 last cells (blank [] [] 0)) as (real & E & T' & _); try assumption; [split; vm_compute; congruence|apply Hcg|reflexivity|reflexivity|].
  assert (T : triangulation (fun x => x) 2 (co_of 2 q) hgt (id_keys 2 q) d).
  { exact (C67_triangulate (fun x => x) 2 tiny huge p c work q hgt cgal DWay 1 true 1 d takes (or_introl eq_refl) HI Hw Hq Hb Hc ltac:(discriminate) ltac:(lia) R1 R2 R3 R4). }
  destruct (sees_ex (fun x => x) 2 (co_of 2 q) hgt r (id_keys 2 q) d ltac:(split; vm_compute; congruence) Hpl Hb T) as (ls & used & tab & ftab & V).
  destruct (cross_ex (fun x => x) 2 (co_of 2 q) hgt (id_keys 2 q) d real T T') as (tab' & ms & rs & chunks & X).
  exists hgt, cgal, d, takes, real, 1%N, last, ls, used, tab, ftab, tab', ms, rs, chunks. cbv zeta. repeat (split; [assumption|]). split; [|split; [exact Hll|split; [exact V|exact X]]].
  econstructor; [| |exact Hcg|exact E]; reflexivity.
Qed.

(** The square (0, 0), (1, 0), (0, 1), (1, 1): whatever the run, the check says that the result is wrong, although it is the Delaunay triangulation (C68). *)
Definition sq_c (i : N) : vec := if (i =? 1)%N then v2 0 0 else if (i =? 2)%N then v2 1 0 else if (i =? 3)%N then v2 0 1 else v2 1 1.
Definition sq_pts : points vec := mkpts [v2 0 0; v2 0 0; v2 1 0; v2 0 1; v2 1 1] 0 [v2 0 0; v2 0 0; v2 0 0; v2 0 0].
Lemma sq_fin i : is_fin_id sq_pts i <-> i = 1%N \/ i = 2%N \/ i = 3%N \/ i = 4%N.
Proof. unfold is_fin_id, sq_pts. cbn [p_off p_vec length]. lia. Qed.
Lemma sq_input : input 2 1 1 sq_pts sq_c.
Proof.
  assert (H2 : forall d, d < 2 -> d = 0 \/ d = 1) by lia. constructor.
  - split; [discriminate|]. split; [vm_compute; discriminate|reflexivity].
  - vm_compute. discriminate.
  - intros i Hi. apply sq_fin in Hi as [-> | [-> | [-> | ->]]]; reflexivity.
  - intros i j Hi Hj H. pose proof (H 0 ltac:(lia)) as Hx. pose proof (H 1 ltac:(lia)) as Hy. apply sq_fin in Hi as [-> | [-> | [-> | ->]]]; apply sq_fin in Hj as [-> | [-> | [-> | ->]]]; try reflexivity; exfalso; cbn in Hx, Hy; lra.
  - lra.
  - intros d Hd. exists 4%N, 1%N. rewrite !sq_fin. destruct (H2 d Hd) as [-> | ->]; cbn; intuition lra.
  - intros i d Hi Hd. exists 4%N, 1%N. split; [apply sq_fin; auto|]. split; [apply sq_fin; auto|]. destruct (H2 d Hd) as [-> | ->]; apply sq_fin in Hi as [-> | [-> | [-> | ->]]]; cbn; rewrite Rabs_pos_eq; lra.
  - intros i d Hi Hd. destruct (H2 d Hd) as [-> | ->]; apply sq_fin in Hi as [-> | [-> | [-> | ->]]]; cbn; lra.
Qed.
Lemma sq_work i : In i (concat [[1; 2]; [3; 4]]%N) <-> is_fin_id sq_pts i.
Proof. rewrite sq_fin. cbn [concat app In]. intuition congruence. Qed.
Lemma sq_tied q : ctor_points 2 1 1 sq_pts [[1; 2]; [3; 4]]%N = Val q -> tied 2 (co_of 2 q) (id_keys 2 q).
Proof.
  intros Hq. destruct (top_ex 2 (or_introl eq_refl) _ _ _ _ sq_input _ sq_work q Hq) as [r T]. pose proof (tf_fin _ _ _ _ _ _ _ T) as C. pose proof (tf_keys _ _ _ _ _ _ _ T) as K. pose proof (tf_placed _ _ _ _ _ _ _ T) as Hpl.
  assert (F : forall i, In i [1; 2; 3; 4]%N -> is_fin_id sq_pts i) by (intros i Hi; apply sq_fin; cbn [In] in Hi; intuition).
  assert (Hinf : forall w, In w (id_keys 2 q) -> p_finite 2 w = false -> (/ 2 < dist2 2 (co_of 2 q w) (v2 (/ 2) (/ 2)))%R).
  { intros w Hw Hf. pose proof (pl_corner _ _ _ _ Hpl w Hw Hf) as Hc. pose proof (tf_far _ _ _ _ _ _ _ T 0 4%N 1%N ltac:(lia) (F 4%N ltac:(cbn; tauto)) (F 1%N ltac:(cbn; tauto))) as Hr. cbn in Hr.
    unfold dist2. cbn [sumn]. rewrite (Hc 0 ltac:(cbn; lia)). unfold corner, v2. set (y := co_of 2 q w 1). pose proof (pow2_ge_0 (y - / 2)) as Hy. set (a := r 0) in *. assert (Ha : (200 <= a)%R) by lra. clear - Ha Hy.
    destruct (N.testbit w (N.of_nat 0)); [assert (100 * 100 <= (a - / 2) ^ 2)%R by nra|assert (100 * 100 <= (- a - / 2) ^ 2)%R by nra]; lra. }
  exists [1; 2; 3]%N, (v2 (/ 2) (/ 2)), (/ 2)%R, 4%N. change (N.to_nat 2) with 2.
  assert (Hd : forall i, In i [1; 2; 3; 4]%N -> dist2 2 (co_of 2 q i) (v2 (/ 2) (/ 2)) = (/ 2)%R).
  { intros i Hi. rewrite (C i (F i Hi)). destruct Hi as [<-|[<-|[<-|[<-|[]]]]]; unfold dist2; cbn; lra. }
  split; [intros w Hw; apply K; left; apply F; cbn [In] in *; tauto|]. split; [|split; [|split; [|split; [exact Hinf|split; [|split; [|]]]]]].
  - split; [repeat constructor; cbn; intuition discriminate|]. split; [reflexivity|].
    exists (fun v x => if (v =? 1)%N then 1 - x 0%nat - x 1%nat else if (v =? 2)%N then x 0%nat else x 1%nat)%R.
    assert (C1 : co_of 2 q 1%N = v2 0 0) by (rewrite (C 1%N (F 1%N ltac:(cbn; tauto))); reflexivity). assert (C2 : co_of 2 q 2%N = v2 1 0) by (rewrite (C 2%N (F 2%N ltac:(cbn; tauto))); reflexivity).
    assert (C3 : co_of 2 q 3%N = v2 0 1) by (rewrite (C 3%N (F 3%N ltac:(cbn; tauto))); reflexivity). split; [|split; [|split]].
    + intros v [<-|[<-|[<-|[]]]]; cbn [N.eqb Pos.eqb].
      * exists (fun _ => (-1))%R, 1%R. intros x. cbn. ring.
      * exists (fun d => match d with O => 1 | _ => 0 end)%R, 0%R. intros x. cbn. ring.
      * exists (fun d => match d with O => 0 | _ => 1 end)%R, 0%R. intros x. cbn. ring.
    + intros v [<-|[<-|[<-|[]]]]; rewrite ?C1, ?C2, ?C3; cbn; lra.
    + intros v w [<-|[<-|[<-|[]]]] [<-|[<-|[<-|[]]]] Hn; try (exfalso; now apply Hn); rewrite ?C1, ?C2, ?C3; cbn; lra.
    + intros x. split; [cbn; lra|]. intros d Hdd. cbn [lsum fold_right]. rewrite C1, C2, C3. assert (Hd2 : d = 0 \/ d = 1) by lia. destruct Hd2 as [-> | ->]; cbn; lra.
  - intros v Hv. apply Hd. cbn [In] in *. tauto.
  - intros w Hw. pose proof Hw as Hw'. apply K in Hw as [Hw|Hw].
    + right. symmetry. apply Hd. apply sq_fin in Hw. cbn [In]. intuition.
    + apply Rlt_le, Hinf; [exact Hw'|]. exact (inf_infinite 2 ltac:(lia) w Hw).
  - apply K. left. apply F. cbn. tauto.
  - cbn. intuition discriminate.
  - apply Hd. cbn. tauto.
Qed.
Theorem C82_accepts_refuted : input 2 1 1 sq_pts sq_c /\ exists q, ctor_points 2 1 1 sq_pts [[1; 2]; [3; 4]]%N = Val q /\
  forall over hgt cgal sp depth par_edge c0 d takes real start last orient insphere ls used tab ftab tab' ms rs chunks, let P := id_keys 2 q in let co := co_of 2 q in
  breaks 2 co hgt P -> cgal_right 2 co hgt P cgal -> preds_exact 2 orient insphere -> (forall k, sp = OneDim k -> k < 2) -> depth <= 42 ->
  dc_run over 2 co cgal (splits 2 q 1 1 sp) depth par_edge [] P d takes -> drawn c0 takes -> (c0 + total takes < 2 ^ 64)%N -> (N.of_nat (length takes) < 2 ^ 32)%N ->
  base_run over 2 cgal P real start last -> (start + last < 2 ^ 64)%N -> verify_sees over d ls used tab ftab -> cross_sees d real tab' ms rs chunks ->
  triangulation over 2 co hgt P d /\ self_check over 2 orient insphere d real q ls used tab ftab tab' ms rs chunks = Val false.
Proof.
  split; [exact sq_input|]. destruct (ctor_ex 2 1 1 sq_pts sq_c _ ltac:(lia) sq_input sq_work) as [q Hq]. exists q. split; [exact Hq|]. intros.
  split; [exact (C67_triangulate over 2 1 1 sq_pts sq_c _ q hgt cgal sp depth par_edge c0 d takes (or_introl eq_refl) sq_input sq_work Hq H H0 H2 H3 H4 H5 H6 H7)|].
  destruct (C82_dc over 2 1 1 sq_pts sq_c _ q hgt cgal sp depth par_edge c0 d takes real start last orient insphere ls used tab ftab tab' ms rs chunks (or_introl eq_refl) sq_input eq_refl sq_work Hq H H0 H1 H2 H3 H4 H5 H6 H7 H8 H9 H10 H11) as (b & E & _ & _ & Hb).
  rewrite (Hb (sq_tied q Hq)) in E. exact E.
Qed.
Print Assumptions C82_accepts_refuted.
(** Such runs exist. *)
Lemma few_len tiny huge p c work q n : input 2 tiny huge p c -> ctor_points 2 tiny huge p work = Val q -> length (p_vec p) = n + 1 -> length (id_keys 2 q) = n + 4.
Proof.
  intros HI Hq Hn. destruct (ctor_q 2 _ _ _ _ _ Hq) as (st & _ & ->). pose proof (keys_length 2 ltac:(lia) (add_infinite 2 p st) (q_ok 2 ltac:(lia) _ _ _ _ HI st)) as H.
  assert (Hl : length (p_infs p) = 4) by (destruct (in_ok _ _ _ _ _ HI) as [_ [_ H']]; change (2 ^ N.of_nat 2)%N with 4%N in H'; lia).
  destruct (add_infinite_spec 2 ltac:(lia) p st Hl) as [A1 _]. unfold finite_size in H. rewrite A1 in H. change (2 ^ 2)%N with 4%N in H. lia.
Qed.
Example C82_refuted_ex q : ctor_points 2 1 1 sq_pts [[1; 2]; [3; 4]]%N = Val q -> exists hgt cgal d takes real start last orient insphere ls used tab ftab tab' ms rs chunks, let P := id_keys 2 q in let co := co_of 2 q in
  breaks 2 co hgt P /\ cgal_right 2 co hgt P cgal /\ preds_exact 2 orient insphere /\
  dc_run (fun x => x) 2 co cgal (splits 2 q 1 1 DWay) 1 true [] P d takes /\ drawn 1 takes /\ (1 + total takes < 2 ^ 64)%N /\ (N.of_nat (length takes) < 2 ^ 32)%N /\
  base_run (fun x => x) 2 cgal P real start last /\ (start + last < 2 ^ 64)%N /\ verify_sees (fun x => x) d ls used tab ftab /\ cross_sees d real tab' ms rs chunks.
Proof.
  intros Hq. destruct (run_ex 1 1 sq_pts sq_c _ q sq_input sq_work Hq) as (hgt & cgal & d & takes & real & start & last & ls & used & tab & ftab & tab' & ms & rs & chunks & H1 & H2 & H3).
  { rewrite (few_len 1 1 sq_pts sq_c _ q 4 sq_input Hq eq_refl). lia. }
  destruct preds_ex as (o & i & Hp). exists hgt, cgal, d, takes, real, start, last, o, i, ls, used, tab, ftab, tab', ms, rs, chunks. cbv zeta. split; [exact H1|]. split; [exact H2|]. split; [exact Hp|exact H3].
Qed.

(** Two points without ties: (0, 1) and (3, 0).  All hypotheses of C82_dc and C82_check, and the check accepts. *)
Definition tw_c (i : N) : vec := if (i =? 1)%N then v2 0 1 else v2 3 0.
Definition tw_pts : points vec := mkpts [v2 0 0; v2 0 1; v2 3 0] 0 [v2 0 0; v2 0 0; v2 0 0; v2 0 0].
Lemma tw_fin i : is_fin_id tw_pts i <-> i = 1%N \/ i = 2%N.
Proof. unfold is_fin_id, tw_pts. cbn [p_off p_vec length]. lia. Qed.
Lemma tw_input : input 2 1 3 tw_pts tw_c.
Proof.
  assert (H2 : forall d, d < 2 -> d = 0 \/ d = 1) by lia. constructor.
  - split; [discriminate|]. split; [vm_compute; discriminate|reflexivity].
  - vm_compute. discriminate.
  - intros i Hi. apply tw_fin in Hi as [-> | ->]; reflexivity.
  - intros i j Hi Hj H. pose proof (H 0 ltac:(lia)) as Hx. apply tw_fin in Hi as [-> | ->]; apply tw_fin in Hj as [-> | ->]; try reflexivity; exfalso; cbn in Hx; lra.
  - lra.
  - intros d Hd. destruct (H2 d Hd) as [-> | ->]; [exists 2%N, 1%N|exists 1%N, 2%N]; rewrite !tw_fin; cbn; intuition lra.
  - intros i d Hi Hd. destruct (H2 d Hd) as [-> | ->]; [exists 2%N, 1%N|exists 1%N, 2%N]; (split; [apply tw_fin; auto|]; split; [apply tw_fin; auto|]); apply tw_fin in Hi as [-> | ->]; cbn; rewrite Rabs_pos_eq; lra.
  - intros i d Hi Hd. destruct (H2 d Hd) as [-> | ->]; apply tw_fin in Hi as [-> | ->]; cbn; lra.
Qed.
Lemma tw_work i : In i (concat [[1]; [2]]%N) <-> is_fin_id tw_pts i.
Proof. rewrite tw_fin. cbn [concat app In]. intuition congruence. Qed.
(** The corners (+-a, +-b); [sgn] is the sign that a bit chooses. *)
Definition sgn (b : bool) : R := if b then 1%R else (-1)%R.
Lemma tw_corners a b x y r2 v1 v2' : (600 <= a)%R -> (200 <= b)%R -> (v1 ^ 2 + v2' ^ 2 <= 9)%R -> (forall s t, r2 <= (sgn s * a - x) ^ 2 + (sgn t * b - y) ^ 2)%R -> r2 = ((v1 - x) ^ 2 + (v2' - y) ^ 2)%R ->
  forall s t s' t', (s, t) <> (s', t') -> r2 = ((sgn s * a - x) ^ 2 + (sgn t * b - y) ^ 2)%R -> r2 = ((sgn s' * a - x) ^ 2 + (sgn t' * b - y) ^ 2)%R ->
  s = s' /\ y = 0%R /\ (a ^ 2 + b ^ 2 - 2 * sgn s * (a * x) = r2 - x ^ 2 - y ^ 2)%R \/ t = t' /\ x = 0%R /\ (a ^ 2 + b ^ 2 - 2 * sgn t * (b * y) = r2 - x ^ 2 - y ^ 2)%R.
Proof.
  intros Ha Hb Hv He Hr s t s' t' Hn H1 H2. set (X := (a * x)%R). set (Y := (b * y)%R). set (K := (a ^ 2 + b ^ 2 + x ^ 2 + y ^ 2 - r2)%R).
  assert (F : forall s t, ((sgn s * a - x) ^ 2 + (sgn t * b - y) ^ 2 - r2 = K - 2 * sgn s * X - 2 * sgn t * Y)%R) by (intros s0 t0; unfold K, X, Y, sgn; destruct s0, t0; ring).
  assert (P : forall s t, (0 <= K - 2 * sgn s * X - 2 * sgn t * Y)%R) by (intros s0 t0; rewrite <- F; specialize (He s0 t0); lra).
  assert (Z1 : (K - 2 * sgn s * X - 2 * sgn t * Y = 0)%R) by (rewrite <- F; lra). assert (Z2 : (K - 2 * sgn s' * X - 2 * sgn t' * Y = 0)%R) by (rewrite <- F; lra).
  assert (X0 : X = 0%R -> x = 0%R) by (intros H; unfold X in H; apply Rmult_integral in H as [H|H]; lra). assert (Y0 : Y = 0%R -> y = 0%R) by (intros H; unfold Y in H; apply Rmult_integral in H as [H|H]; lra).
  assert (KK : X = 0%R -> Y = 0%R -> K = 0%R -> False).
  { intros A B C. apply X0 in A. apply Y0 in B. subst x y. unfold K in C. clear - C Ha Hb Hv Hr. nra. }
  pose proof (P true true) as P1. pose proof (P true false) as P2. pose proof (P false true) as P3. pose proof (P false false) as P4.
  assert (EK : (r2 - x ^ 2 - y ^ 2 = a ^ 2 + b ^ 2 - K)%R) by (unfold K; ring).
  destruct s, t, s', t'; cbn [sgn] in *; try (now contradiction Hn);
    first [exfalso; apply KK; lra | left; split; [reflexivity|]; split; [apply Y0; lra|rewrite EK; fold X; lra] | right; split; [reflexivity|]; split; [apply X0; lra|rewrite EK; fold Y; lra]].
Qed.
Lemma full_apart co s u v : full 2 co s -> In u s -> In v s -> (forall d, d < 2 -> co u d = co v d) -> u = v.
Proof.
  intros (_ & _ & L & A & B & C & _) Hu Hv He. destruct (N.eq_dec u v) as [E|E]; [exact E|]. pose proof (B u Hu) as H1. pose proof (C u v Hu Hv E) as H2. destruct (A u Hu) as (a & b & Hab). rewrite Hab in H1, H2. cbn [sumn] in H1, H2. rewrite (He 0), (He 1) in H1 by lia. lra.
Qed.
Lemma tw_spread q : ctor_points 2 1 3 tw_pts [[1]; [2]]%N = Val q -> spread 2 (co_of 2 q) (id_keys 2 q).
Proof.
  intros Hq. destruct (top_ex 2 (or_introl eq_refl) _ _ _ _ tw_input _ tw_work q Hq) as [r T]. pose proof (tf_fin _ _ _ _ _ _ _ T) as C. pose proof (tf_keys _ _ _ _ _ _ _ T) as K. pose proof (tf_placed _ _ _ _ _ _ _ T) as Hpl.
  assert (F1 : is_fin_id tw_pts 1) by (apply tw_fin; auto). assert (F2 : is_fin_id tw_pts 2) by (apply tw_fin; auto).
  pose proof (tf_far _ _ _ _ _ _ _ T 0 2%N 1%N ltac:(lia) F2 F1) as Ha. pose proof (tf_far _ _ _ _ _ _ _ T 1 1%N 2%N ltac:(lia) F1 F2) as Hb. cbn in Ha, Hb.
  assert (Ha' : (600 <= r 0%nat)%R) by lra. assert (Hb' : (200 <= r 1%nat)%R) by lra. clear Ha Hb.
  assert (C1 : co_of 2 q 1%N = v2 0 1) by (rewrite (C 1%N F1); reflexivity). assert (C2 : co_of 2 q 2%N = v2 3 0) by (rewrite (C 2%N F2); reflexivity).
  intros s c r2 v Hs Hf Hon He Hv Hfv Hn Hr. change (N.to_nat 2) with 2 in *.
  assert (Hv' : is_fin_id tw_pts v) by (apply K in Hv as [Hv|Hv]; [exact Hv|]; pose proof (inf_infinite 2 ltac:(lia) v Hv); change (N.of_nat 2) with 2%N in *; congruence).
  (* members of s *)
  assert (Hcor : forall w, In w (id_keys 2 q) -> is_inf_id 2 w -> exists s t, co_of 2 q w 0%nat = (sgn s * r 0%nat)%R /\ co_of 2 q w 1%nat = (sgn t * r 1%nat)%R).
  { intros w Hw Hi. pose proof (inf_infinite 2 ltac:(lia) w Hi) as Fw. change (N.of_nat 2) with 2%N in *. pose proof (pl_corner _ _ _ _ Hpl w Hw Fw) as Hc. change (N.to_nat 2) with 2 in Hc. rewrite (Hc 0), (Hc 1) by lia. unfold corner.
    exists (N.testbit w (N.of_nat 0)), (N.testbit w (N.of_nat 1)). unfold sgn. destruct (N.testbit w (N.of_nat 0)), (N.testbit w (N.of_nat 1)); split; ring. }
  assert (Hall : forall s t, (r2 <= (sgn s * r 0%nat - c 0%nat) ^ 2 + (sgn t * r 1%nat - c 1%nat) ^ 2)%R).
  { intros s0 t0. set (w := (p_inf 2 + (if s0 then 1 else 0) + (if t0 then 2 else 0))%N). assert (Hw : In w (id_keys 2 q)) by (apply (pl_inf _ _ _ _ Hpl); unfold w; destruct s0, t0; vm_compute; split; congruence).
    pose proof (He w Hw) as H. assert (Fw : p_finite 2 w = false) by (unfold w; destruct s0, t0; reflexivity). pose proof (pl_corner _ _ _ _ Hpl w Hw Fw) as Hc. change (N.to_nat 2) with 2 in Hc. rewrite dist2_2, (Hc 0), (Hc 1) in H by lia. unfold corner in H.
    assert (B0 : N.testbit w (N.of_nat 0) = s0) by (unfold w; destruct s0, t0; reflexivity). assert (B1 : N.testbit w (N.of_nat 1) = t0) by (unfold w; destruct s0, t0; reflexivity).
    rewrite B0, B1 in H. unfold sgn. destruct s0, t0; lra. }
  assert (Hv2 : (co_of 2 q v 0%nat ^ 2 + co_of 2 q v 1%nat ^ 2 <= 9)%R) by (apply tw_fin in Hv' as [-> | ->]; rewrite ?C1, ?C2; cbn; lra).
  rewrite dist2_2 in Hr. pose proof (tw_corners (r 0%nat) (r 1%nat) (c 0%nat) (c 1%nat) r2 _ _ Ha' Hb' Hv2 Hall Hr) as Q.
  set (u := (3 - v)%N). assert (Hmem : forall w, In w s -> w = u \/ is_inf_id 2 w).
  { intros w Hw. pose proof (Hs w Hw) as Hw'. apply K in Hw' as [Hw'|Hw']; [left|right; exact Hw']. assert (w <> v) by congruence. apply tw_fin in Hw'. apply tw_fin in Hv'. unfold u. lia. }
  (* pairs of corners in s *)
  assert (Hpair : forall w w', In w s -> In w' s -> is_inf_id 2 w -> is_inf_id 2 w' -> w <> w' -> exists s t s' t', (s, t) <> (s', t') /\
    co_of 2 q w 0%nat = (sgn s * r 0%nat)%R /\ co_of 2 q w 1%nat = (sgn t * r 1%nat)%R /\ co_of 2 q w' 0%nat = (sgn s' * r 0%nat)%R /\ co_of 2 q w' 1%nat = (sgn t' * r 1%nat)%R /\
    (s = s' /\ c 1%nat = 0%R /\ (r 0%nat ^ 2 + r 1%nat ^ 2 - 2 * sgn s * (r 0%nat * c 0%nat) = r2 - c 0%nat ^ 2 - c 1%nat ^ 2)%R \/ t = t' /\ c 0%nat = 0%R /\ (r 0%nat ^ 2 + r 1%nat ^ 2 - 2 * sgn t * (r 1%nat * c 1%nat) = r2 - c 0%nat ^ 2 - c 1%nat ^ 2)%R)).
  { intros w w' Hw Hw' Hi Hi' Hne. destruct (Hcor w (Hs w Hw) Hi) as (s1 & t1 & E1 & E2). destruct (Hcor w' (Hs w' Hw') Hi') as (s2 & t2 & E3 & E4). exists s1, t1, s2, t2.
    assert (Hd : (s1, t1) <> (s2, t2)). { intros E. injection E as -> ->. apply Hne. apply (full_apart (co_of 2 q) s); auto. intros d Hd. assert (Hd2 : d = 0 \/ d = 1) by lia. destruct Hd2 as [-> | ->]; congruence. }
    split; [exact Hd|]. repeat (split; [assumption|]). apply Q; [exact Hd| |].
    - pose proof (Hon w Hw) as H. rewrite dist2_2, E1, E2 in H. symmetry. exact H.
    - pose proof (Hon w' Hw') as H. rewrite dist2_2, E3, E4 in H. symmetry. exact H. }
  (* with the other point *)
  assert (Hu : In u s -> forall w w', In w s -> In w' s -> is_inf_id 2 w -> is_inf_id 2 w' -> w <> w' -> False).
  { intros Iu w w' Iw Iw' Hi Hi' Hne. destruct (Hpair w w' Iw Iw' Hi Hi' Hne) as (s1 & t1 & s2 & t2 & _ & _ & _ & _ & _ & HH). pose proof (Hon u Iu) as Eu. rewrite dist2_2 in Eu.
    assert (E1 : ((0 - c 0%nat) ^ 2 + (1 - c 1%nat) ^ 2 = r2)%R) by (apply tw_fin in Hv' as [-> | ->]; unfold u in Eu; [rewrite C1 in Hr; cbn in Hr; symmetry; rewrite Hr; ring|change (3 - 2)%N with 1%N in Eu; rewrite C1 in Eu; cbn in Eu; rewrite <- Eu; ring]).
    assert (E2 : ((3 - c 0%nat) ^ 2 + (0 - c 1%nat) ^ 2 = r2)%R) by (apply tw_fin in Hv' as [-> | ->]; unfold u in Eu; [change (3 - 1)%N with 2%N in Eu; rewrite C2 in Eu; cbn in Eu; rewrite <- Eu; ring|rewrite C2 in Hr; cbn in Hr; symmetry; rewrite Hr; ring]).
    clear - HH E1 E2 Ha' Hb'. destruct HH as [(_ & Z & H)|(_ & Z & H)]; rewrite Z in *.
    - assert (X : (c 0%nat = 4 / 3)%R) by lra. rewrite X in *. unfold sgn in H. destruct s1; nra.
    - assert (X : (c 1%nat = -4)%R) by lra. rewrite X in *. unfold sgn in H. destruct t1; nra. }
  destruct Hf as (Hnd & Hlen & Hco). destruct s as [|x [|y [|z [|? ?]]]]; try discriminate Hlen. assert (Hf : full 2 (co_of 2 q) [x; y; z]) by (split; [exact Hnd|split; [exact Hlen|exact Hco]]).
  pose proof Hnd as Hnd'. apply NoDup_cons_iff in Hnd' as [N1 Hnd']. apply NoDup_cons_iff in Hnd' as [N2 _]. cbn [In] in N1, N2.
  assert (Nxy : x <> y) by (intros E; apply N1; auto). assert (Nxz : x <> z) by (intros E; apply N1; auto). assert (Nyz : y <> z) by (intros E; apply N2; auto). assert (Ix : In x [x; y; z]) by (cbn; tauto). assert (Iy : In y [x; y; z]) by (cbn; tauto). assert (Iz : In z [x; y; z]) by (cbn; tauto).
  destruct (Hmem x Ix) as [Ex|Hx]; destruct (Hmem y Iy) as [Ey|Hy]; destruct (Hmem z Iz) as [Ez|Hz]; try congruence.
  - rewrite <- Ex in Hu. exact (Hu Ix y z Iy Iz Hy Hz Nyz).
  - rewrite <- Ey in Hu. exact (Hu Iy x z Ix Iz Hx Hz Nxz).
  - rewrite <- Ez in Hu. exact (Hu Iz x y Ix Iy Hx Hy Nxy).
  - destruct (Hpair x y Ix Iy Hx Hy Nxy) as (s1 & t1 & s2 & t2 & D1 & X0 & X1 & Y0 & Y1 & H1). destruct (Hpair y z Iy Iz Hy Hz Nyz) as (s3 & t3 & s4 & t4 & D2 & Y0' & Y1' & Z0 & Z1 & H2). destruct (Hpair x z Ix Iz Hx Hz Nxz) as (s5 & t5 & s6 & t6 & D3 & X0' & X1' & Z0' & Z1' & H3).
    assert (S0 : forall s t, (sgn s * r 0%nat = sgn t * r 0%nat)%R -> s = t) by (intros [] []; unfold sgn; intros; auto; exfalso; lra). assert (S1 : forall s t, (sgn s * r 1%nat = sgn t * r 1%nat)%R -> s = t) by (intros [] []; unfold sgn; intros; auto; exfalso; lra).
    assert (s3 = s2) by (apply S0; congruence). assert (t3 = t2) by (apply S1; congruence). assert (s5 = s1) by (apply S0; congruence). assert (t5 = t1) by (apply S1; congruence). assert (s6 = s4) by (apply S0; congruence). assert (t6 = t4) by (apply S1; congruence). subst s3 t3 s5 t5 s6 t6.
    clear - D1 D2 D3 H1 H2 H3 Hr Hv2 Ha' Hb'. destruct H1 as [(A1 & B1 & E1)|(A1 & B1 & E1)]; destruct H2 as [(A2 & B2 & E2)|(A2 & B2 & E2)]; destruct H3 as [(A3 & B3 & E3)|(A3 & B3 & E3)];
      first [exfalso; destruct s1, s2, s4, t1, t2, t4; congruence | exfalso; assert (Z : (c 0%nat = 0 /\ c 1%nat = 0)%R) by (split; assumption); destruct Z as [Z0 Z1]; rewrite Z0, Z1 in *; nra].
Qed.
Example C82_ex q : ctor_points 2 1 3 tw_pts [[1]; [2]]%N = Val q -> exists hgt cgal d takes real start last orient insphere ls used tab ftab tab' ms rs chunks, let P := id_keys 2 q in let co := co_of 2 q in
  breaks 2 co hgt P /\ cgal_right 2 co hgt P cgal /\ preds_exact 2 orient insphere /\ spread 2 co P /\
  dc_run (fun x => x) 2 co cgal (splits 2 q 1 3 DWay) 1 true [] P d takes /\ drawn 1 takes /\ (1 + total takes < 2 ^ 64)%N /\ (N.of_nat (length takes) < 2 ^ 32)%N /\
  base_run (fun x => x) 2 cgal P real start last /\ (start + last < 2 ^ 64)%N /\ verify_sees (fun x => x) d ls used tab ftab /\ cross_sees d real tab' ms rs chunks /\
  self_check (fun x => x) 2 orient insphere d real q ls used tab ftab tab' ms rs chunks = Val true.
Proof.
  intros Hq. destruct (run_ex 1 3 tw_pts tw_c _ q tw_input tw_work Hq) as (hgt & cgal & d & takes & real & start & last & ls & used & tab & ftab & tab' & ms & rs & chunks & H1 & H2 & H3 & H4 & H5 & H6 & H7 & H8 & H9 & H10).
  { rewrite (few_len 1 3 tw_pts tw_c _ q 2 tw_input Hq eq_refl). lia. }
  destruct preds_ex as (o & i & Hp). exists hgt, cgal, d, takes, real, start, last, o, i, ls, used, tab, ftab, tab', ms, rs, chunks. cbv zeta. repeat (split; [assumption|]). split; [exact (tw_spread q Hq)|]. repeat (split; [assumption|]).
  destruct (C82_dc (fun x => x) 2 1 3 tw_pts tw_c _ q hgt cgal DWay 1 true 1 d takes real start last o i ls used tab ftab tab' ms rs chunks (or_introl eq_refl) tw_input eq_refl tw_work Hq H1 H2 Hp ltac:(discriminate) ltac:(lia) H3 H4 H5 H6 H7 H8 H9 H10) as (b & E & _ & Hb & _).
  rewrite (Hb (tw_spread q Hq)) in E. exact E.
Qed.
