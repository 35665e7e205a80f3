(** The load balanced triangulator on a tree whose leaves are the children of the root, however they divide the points. *)
From Coq Require Import Permutation Classical.
From Verif Require Import Outcome ListUtil WordsModel LPSetModel ProbeTheory LPSetProofs LPSetHistory BlockModel BlockProofs BlockSpec SimplexModel Pool EdgeSpec NbrModel MergeModel MergeSpec MergeProofs MergeUpdate GeoModel GeoSpec GeoProofs GeoCirc DelSpec DelGeo PlaceSpec DelPlace
  StepModel TriSpec StepBase StepEdge StepJoin StepProofs StepPlaced StepEx MeshSpec MeshProofs DcModel DcSpec DcBase DcHits DcProofs DcEx PartModel TreeModel TreeSpec TreeProofs TreeTop SplitModel KWayModel LbModel LbSpec LbLevel LbProofs LbTrees LbEx NestProofs.
Local Open Scope nat_scope.

Definition no_leaf : kleaf := (mkbox (fun _ => 0%R) (fun _ => 0%R), []).
Section Flat.
Variable over : N -> N.
Variable D : N.
Hypothesis HD : D = 2%N \/ D = 3%N.
Variable co : N -> vec.
Variable hgt : N -> R.
Variable r : vec.
Variable P : list N.
Hypothesis HP : placed D co r P.
Hypothesis HB : breaks (N.to_nat D) co hgt P.
Variable cgal : list N -> N -> list cell -> Prop.
Hypothesis Hcgal : forall S last cells, NoDup S -> incl S P -> placed D co r S -> cgal S last cells -> cgal_ok D co hgt S last cells.
Variable split : list (option nat) -> list N -> list (list N * box) -> Prop.
Hypothesis Hsplit : forall prov S ps, NoDup S -> incl S P -> placed D co r S -> (500 < N.of_nat (length S))%N -> split prov S ps -> split_ok D co r S ps.
Variable depth : nat.
Hypothesis Hdepth : 6 * depth < 256.
Variable C : Type.
Variable cbox : C -> box.
Variable meets : C -> sphere -> simplex -> bool.
Variable nl : C * list N.
Variables par_base par_edge : bool.
Notation base := (lb_base over D co cgal split depth).
Notation run := (lb_run over D co cgal split depth C cbox meets par_base par_edge).
Notation dn := (done over D co hgt).

Variable b : C.
Variable kl : list (C * list N).
Variable ch : list (tree C).
Hypothesis Fch : Forall2 (fun l c => exists s, c = Tleaf (Some (fst l)) s /\ lists s (snd l)) kl ch.
Notation pt := (fun i => snd (nth i kl nl)).
Hypothesis Hnp : 2 <= length kl.
Hypothesis Hall : forall v, In v P <-> exists i, i < length kl /\ In v (pt i).
Hypothesis Hone : forall i j v, i < length kl -> j < length kl -> In v (pt i) -> In v (pt j) -> p_finite D v = true -> i = j.
Hypothesis Hinf : forall i v, i < length kl -> (p_inf D <= v < 2 ^ 64)%N -> In v (pt i).
Hypothesis Hsm : small 64 (4 * (length kl * length P)).

Lemma fl_len : length ch = length kl.
Proof. pose proof (f2_len _ _ _ Fch) as X. symmetry. exact X. Qed.
Lemma fl_at i c : nth_error ch i = Some c -> exists s, i < length kl /\ c = Tleaf (Some (fst (nth i kl nl))) s /\ lists s (pt i).
Proof.
  intros Ec. assert (Hi : i < length ch) by (apply nth_error_Some; congruence). rewrite fl_len in Hi. destruct (nth_error kl i) as [l|] eqn:El; [|apply nth_error_None in El; lia].
  destruct (f2_at _ _ _ Fch i l El) as (c' & Ec' & s & E & Hs). assert (c' = c) by congruence. subst c'. exists s. split; [exact Hi|]. rewrite (nth_error_nth kl i nl El). auto.
Qed.
Lemma fl_incl i : i < length kl -> incl (pt i) P.
Proof. intros Hi v Hv. apply Hall. eauto. Qed.
Lemma fl_placed i : i < length kl -> placed D co r (pt i).
Proof. intros Hi. apply (placed_sub D co r P); [exact HP|exact (fl_incl i Hi)|intros v Hv; now apply Hinf]. Qed.
Lemma fl_leaves : exists ls, Forall2 Leaves ch ls /\ good_sets (concat ls) /\ small 64 (4 * entries (concat ls)) /\ length ls = length ch /\
  (forall i c l, nth_error ch i = Some c -> nth_error ls i = Some l -> exists s, c = Tleaf (Some (fst (nth i kl nl))) s /\ l = [(Some (fst (nth i kl nl)), s)] /\ lists s (pt i)).
Proof.
  assert (Y : forall cs, (forall c, In c cs -> exists k s L, c = Tleaf (Some k) s /\ lists s L /\ incl L P) -> exists q, Forall2 (@Leaves C) cs q /\ entries (concat q) <= length cs * length P /\ good_sets (concat q)).
  { clear. induction cs as [|c cs IH]; intros H; [exists []; split; [constructor|]; split; [apply Nat.le_refl|intros ck s []]|]. destruct IH as (q & Q1 & Q2 & Q3); [intros c' Hc'; apply H; now right|].
    destruct (H c ltac:(now left)) as (k & s & L & -> & Hl & Hi). exists ([(Some k, s)] :: q). split; [constructor; [constructor|exact Q1]|]. cbn [concat app length]. change (entries ((Some k, s) :: concat q)) with (set_size s + entries (concat q)).
    rewrite (lists_len s L Hl). pose proof (NoDup_incl_length (proj1 Hl) Hi). split; [lia|]. intros ck s' [E|Hs]; [injection E as _ <-; exists L; apply Hl|exact (Q3 ck s' Hs)]. }
  destruct (Y ch) as (q & Q1 & Q2 & Q3).
  { intros c Hc. apply In_nth_error in Hc as [i Ec]. destruct (fl_at i c Ec) as (s & Hi & -> & Hl). exists (fst (nth i kl nl)), s, (pt i). split; [reflexivity|]. split; [exact Hl|exact (fl_incl i Hi)]. }
  exists q. split; [exact Q1|]. split; [exact Q3|]. split; [|split].
  - apply (small_le 64 ltac:(reflexivity)) with (m := 4 * (length kl * length P)); [rewrite fl_len in Q2; lia|exact Hsm].
  - pose proof (f2_len _ _ _ Q1). lia.
  - intros i c l Ec El. destruct (fl_at i c Ec) as (s & Hi & -> & Hl). exists s. split; [reflexivity|]. split; [|exact Hl]. destruct (f2_at _ _ _ Q1 i _ Ec) as (l' & El' & HL). assert (l' = l) by congruence. subst l'. now inversion HL.
Qed.
Lemma fl_old m ps ks parts : returns (fun f => to_old_partitioning C cbox f m ch) (ps, ks) -> Forall2 (fun p q => lists (pa_pts p) (fst q) /\ snd q = pa_box p) ps parts ->
  length parts = length kl /\ length ks = length kl /\ (forall i v, i < length kl -> In v (pts_at parts i) <-> In v (pt i)) /\ forall i, i < length kl -> nth_error ks i = Some (fst (nth i kl nl)).
Proof.
  intros Hto H2. destruct fl_leaves as (ls & HF & Hg & Hs & Ll & Hc). destruct (to_old_ok C cbox m ch ls HF Hg Hs) with (id := 0) as (ps' & cks & E & L1 & L2 & H).
  { intros c Hin. apply In_nth_error in Hin as [i Ec]. destruct (fl_at i c Ec) as (s & _ & -> & _). discriminate. }
  unfold to_old_partitioning in Hto. pose proof (returns_det _ _ _ Hto E) as Q. injection Q as -> ->. pose proof (f2_len _ _ _ H2) as L3. pose proof fl_len as Lk.
  split; [lia|]. split; [lia|].
  assert (Y : forall i, i < length kl -> exists s, nth_error cks i = Some (fst (nth i kl nl)) /\ lists s (pts_at parts i) /\ lists s (pt i)).
  { intros i Hi. destruct (nth_error ch i) as [c|] eqn:Ec; [|apply nth_error_None in Ec; lia]. destruct (nth_error ls i) as [l|] eqn:El; [|apply nth_error_None in El; lia]. destruct (Hc i c l Ec El) as (s & -> & -> & Hl).
    destruct (H i _ _ Ec El) as (k' & s' & K1 & K2 & K3 & _ & K4 & _). cbn in K1. injection K1 as <-. specialize (K4 eq_refl). injection K4 as <-. exists s. split; [exact K2|].
    destruct (f2_at _ _ _ H2 i _ K3) as (q & Eq & Hq & _). split; [|exact Hl]. unfold pts_at. rewrite (nth_error_nth parts i _ Eq). exact Hq. }
  split.
  - intros i v Hi. destruct (Y i Hi) as (s & _ & Y1 & Y2). exact (lists_fun _ _ _ Y1 Y2 v).
  - intros i Hi. now destruct (Y i Hi) as (s & Y0 & _).
Qed.

Section Parts.
Variable parts : list (list N * box).
Hypothesis Lp : length parts = length kl.
Hypothesis Hin : forall i v, i < length kl -> In v (pts_at parts i) <-> In v (pt i).
Lemma fp_all v : In v P <-> exists i, i < length parts /\ In v (pts_at parts i).
Proof. rewrite Hall, Lp. split; intros (i & Hi & Hv); exists i; (split; [exact Hi|]); now apply Hin. Qed.
Lemma fp_one i j v : i < length parts -> j < length parts -> In v (pts_at parts i) -> In v (pts_at parts j) -> p_finite D v = true -> i = j.
Proof. rewrite Lp. intros Hi Hj H1 H2. apply Hin in H1; [|exact Hi]. apply Hin in H2; [|exact Hj]. now apply Hone. Qed.
Lemma fp_inf i v : i < length parts -> (p_inf D <= v < 2 ^ 64)%N -> In v (pts_at parts i).
Proof. rewrite Lp. intros Hi Hv. apply Hin; [exact Hi|]. now apply Hinf. Qed.
End Parts.

(** A simplex of the triangulation of a leaf is in the result unless the search for the edge finds it; none of a leaf is found if its border does not cross. *)
Lemma flat_kept out takes : depth <= 42 -> run [] (Tnode (Some b) ch) out takes -> takes_ok takes -> exists dts, length dts = length kl /\
  forall i, i < length kl -> triangulation over D co hgt (pt i) (nth i dts no_d) /\
   ((forall e x v j, shown (nth i dts no_d) e x -> In v (x_verts x) -> p_finite D v = false -> j < length kl -> j <> i -> ck_hit D co C meets (fst (nth j kl nl)) x = false) ->
    forall e x, shown (nth i dts no_d) e x -> exists y, shown out e y /\ x_verts y = x_verts x).
Proof.
  intros Hd Hr Htk. pose proof fl_len as Lk. inversion Hr as [|? k ck ids S' ? ? Hl' Hb|? k ch' m ps ks parts dts dts' edge W edgeDT ? tks te H2 Hcp Hld Hlt Hsub Hto Hps He Hed Hjr]; subst.
  { cbn in Lk. lia. }
  destruct (fl_old m ps ks parts Hto Hps) as (Lp & Lks & Hin & Hck). destruct (takes_split tks te Htk) as (Ti & Ta & Te).
  assert (Di : forall i, i < length parts -> dn 41 (pts_at parts i) (nth i dts no_d) (nth i tks [])).
  { intros i Hi. rewrite Lp in Hi. destruct (nth_error ch i) as [c|] eqn:Ec; [|apply nth_error_None in Ec; lia]. destruct (fl_at i c Ec) as (s & _ & -> & Hl). pose proof (Hsub i _ Ec) as Hri. inversion Hri as [? k' ids S' ? ? Hl' Hb| |]; subst.
    pose proof (lists_fun _ _ _ Hl' Hl) as Q. apply (done_same over D co hgt 41 S'); [intros v; rewrite (Hin i v Hi); apply Q|].
    apply (lb_base_done over D HD co hgt r P HP HB cgal Hcgal split Hsplit depth Hdepth 41 par_base ([] ++ [Some i])); auto.
    - pose proof (chars_grow [] (Some i)) as G. change (chars []) with (@nil (option nat)) in G. cbn [length] in G. revert G. generalize (length (chars ([] ++ [Some i]))). clear - Hd. lia.
    - apply Hl'.
    - intros v Hv. apply (fl_incl i Hi), Q, Hv.
    - apply (placed_sub D co r P _ HP); [intros v Hv; apply (fl_incl i Hi), Q, Hv|intros v Hv; apply Q, (Hinf i v Hi Hv)].
    - lia. }
  assert (Ld : length dts = length parts) by lia. assert (Lt : length tks = length parts) by lia. assert (Np : 0 < length parts) by lia. assert (H6 : 6 * Datatypes.S 41 < 256) by lia.
  pose proof (kp_edge over D HD co hgt r P HP parts (fp_all parts Lp Hin) (fp_one parts Lp Hin) (fp_inf parts Lp Hin) Np 41 H6 dts tks Ld Lt Di _ dts' edge W He) as (_ & Nw & Wi & _).
  pose proof (kp_placed over D HD co hgt r P HP parts (fp_all parts Lp Hin) (fp_one parts Lp Hin) (fp_inf parts Lp Hin) Np 41 H6 dts tks Ld Lt Di _ dts' edge W He) as Pw.
  assert (De : dn 41 W edgeDT te).
  { apply (lb_base_done over D HD co hgt r P HP HB cgal Hcgal split Hsplit depth Hdepth 41 par_edge ([] ++ [None])); auto; [pose proof (chars_grow [] None) as G; change (chars []) with (@nil (option nat)) in G; cbn [length] in G; revert G; generalize (length (chars ([] ++ [None]))); clear - Hd; lia|lia]. }
  exists dts. split; [lia|]. intros i Hi. split.
  { apply (done_same over D co hgt 41 (pts_at parts i) (pt i) (nth i dts no_d) (nth i tks [])); [intros v; now apply Hin|apply Di; lia]. }
  intros Hno e x Hx. refine (kept over D HD co hgt r P HP parts (fp_all parts Lp Hin) (fp_one parts Lp Hin) (fp_inf parts Lp Hin) Np 41 H6 dts tks Ld Lt Di _ dts' edge W He edgeDT te De Htk out i e x Hjr ltac:(lia) Hx _).
  apply (no_edge over D co hgt parts 41 dts tks Di); [lia|]. intros e' x' v Hx' Hv Hf (j & Hj & Hne & Hh). rewrite Lp in Hj. unfold ck_hits in Hh. rewrite (Hck j Hj) in Hh. rewrite (Hno e' x' v j Hx' Hv Hf Hj Hne) in Hh. discriminate.
Qed.

(** It can be run to its end. *)
Variables M K : N.
Hypothesis Ecgal : forall S, NoDup S -> incl S P -> placed D co r S -> exists last cells, cgal S last cells /\ (last <= M)%N.
Hypothesis Esplit : forall prov S, NoDup S -> incl S P -> placed D co r S -> (500 < N.of_nat (length S))%N -> exists ps, split prov S ps /\ (N.of_nat (length ps) <= K)%N.
Lemma flat_ex n c : (N.of_nat (length kl) <= K)%N -> depth <= Datatypes.S n -> (c + (K + 1) ^ N.of_nat (Datatypes.S n) * M < 2 ^ 64)%N -> ((K + 1) ^ N.of_nat (Datatypes.S n) < 2 ^ 32)%N -> 6 * Datatypes.S n < 256 ->
  exists out takes, run [] (Tnode (Some b) ch) out takes /\ fetched c takes /\ (total takes <= (K + 1) ^ N.of_nat (Datatypes.S n) * M)%N /\ (N.of_nat (length takes) <= (K + 1) ^ N.of_nat (Datatypes.S n))%N.
Proof.
  intros HkK Hd He Hk H6. set (B := ((K + 1) ^ N.of_nat n * M)%N). assert (Hpow : ((K + 1) ^ N.of_nat (Datatypes.S n) = (K + 1) * (K + 1) ^ N.of_nat n)%N) by (rewrite Nat2N.inj_succ, N.pow_succ_r'; reflexivity).
  pose proof fl_len as Lk. rewrite Hpow in *. assert (Hp1 : (1 <= (K + 1) ^ N.of_nat n)%N) by (pose proof (N.pow_nonzero (K + 1) (N.of_nat n)); lia).
  assert (He' : (c + (K + 1) * B < 2 ^ 64)%N) by (unfold B; lia). assert (HB2 : ((K + 1) * B = K * B + B)%N) by (clear; lia).
  assert (HpB : (N.of_nat (length kl) * B <= K * B)%N) by (now apply N.mul_le_mono_r).
  assert (Hk' : ((K + 1) ^ N.of_nat n < 2 ^ 32)%N) by (eapply N.le_lt_trans; [|exact Hk]; clear; lia).
  assert (Hgr : forall o, depth - length (chars ([] ++ [o])) <= n).
  { intros o. pose proof (chars_grow [] o) as G. change (chars []) with (@nil (option nat)) in G. cbn [length] in G. revert G. generalize (length (chars ([] ++ [o]))). clear - Hd. lia. }
  destruct fl_leaves as (ls & HF & Hg & Hs & Ll & Hc). destruct (to_old_ok C cbox 3 ch ls HF Hg Hs) with (id := 0) as (ps & ks & Hto & L1 & L2 & H).
  { intros x Hin. apply In_nth_error in Hin as [i Ec]. destruct (fl_at i x Ec) as (s & _ & -> & _). discriminate. }
  destruct (lists_all ps) as [parts Hps].
  { intros p Hp. apply In_nth_error in Hp as [i Ep]. assert (Hi : i < length ps) by (apply nth_error_Some; congruence). destruct (nth_error ch i) as [x|] eqn:Ec; [|apply nth_error_None in Ec; lia].
    destruct (nth_error ls i) as [l|] eqn:El; [|apply nth_error_None in El; lia]. destruct (H i _ _ Ec El) as (k' & s' & _ & _ & K3 & (KK & U & _) & _). assert (p = mkpart (0 + i) s' (cbox k')) by congruence. subst p. exists KK. exact U. }
  destruct (fl_old 3 ps ks parts Hto Hps) as (Lp & Lks & Hin & Hck).
  destruct (choose_seq (no_d, []) B snd (fun i x => (forall t, nth_error ch i = Some t -> run ([] ++ [Some i]) t (fst x) (snd x)) /\ (N.of_nat (length (snd x)) <= (K + 1) ^ N.of_nat n)%N) c (length kl)) as (xs & Hxl & Hx & Fx & Tox).
  { lia. }
  { intros i c' Hi Hc'. assert (N.of_nat i * B + B <= N.of_nat (length kl) * B)%N by (clear - Hi; nia). destruct (nth_error ch i) as [x|] eqn:Ec; [|apply nth_error_None in Ec; lia]. destruct (fl_at i x Ec) as (s & _ & -> & Hl).
    destruct (lb_base_ex over D HD co hgt r P HP HB cgal Hcgal split Hsplit depth Hdepth M K Ecgal Esplit n par_base ([] ++ [Some i]) (pt i) c') as (o & t & R1 & R2 & R3 & R4); auto.
    - apply Hl.
    - exact (fl_incl i Hi).
    - exact (fl_placed i Hi).
    - fold B. lia.
    - lia.
    - exists (o, t). split; [|split; [exact R2|exact R3]]. split; [|exact R4]. intros t' Et. assert (t' = Tleaf (Some (fst (nth i kl nl))) s) by congruence. subst t'. cbn [fst snd]. eapply lb_leaf; eauto. }
  set (dts := map fst xs). set (tks := map snd xs).
  assert (Hds : forall i, nth i dts no_d = fst (nth i xs (no_d, []))) by (intros i; unfold dts; change no_d with (fst (no_d, @nil (N * N))) at 1; apply map_nth).
  assert (Htks : forall i, nth i tks [] = snd (nth i xs (no_d, []))) by (intros i; unfold tks; change (@nil (N * N)) with (snd (no_d, @nil (N * N))) at 1; apply map_nth).
  assert (Ld : length dts = length parts) by (unfold dts; rewrite map_length; lia).
  assert (Lt : length tks = length parts) by (unfold tks; rewrite map_length; lia).
  fold tks in Fx, Tox.
  assert (Tl : forall i, i < length kl -> (N.of_nat (length (nth i tks [])) <= (K + 1) ^ N.of_nat n)%N) by (intros i Hi; rewrite Htks; apply (Hx i Hi)).
  assert (Tc : within c (c + total (concat tks)) (concat tks)) by (apply fetched_within; [lia|exact Fx]).
  destruct (fop_concat _ _ (proj1 Tc)) as [Ti Tij].
  assert (Tlen : (N.of_nat (length (concat tks)) <= K * (K + 1) ^ N.of_nat n)%N).
  { pose proof (concat_len (N.to_nat ((K + 1) ^ N.of_nat n)) tks) as X. rewrite Lt, Lp in X. assert (H' : length (concat tks) <= length kl * N.to_nat ((K + 1) ^ N.of_nat n)).
    { apply X. intros l Hl. apply (In_nth _ _ []) in Hl as (i & Hi & <-). rewrite Lt, Lp in Hi. specialize (Tl i Hi). lia. }
    assert (N.of_nat (length (concat tks)) <= N.of_nat (length kl) * (K + 1) ^ N.of_nat n)%N by lia. etransitivity; [eassumption|]. now apply N.mul_le_mono_r. }
  assert (Di : forall i, i < length parts -> dn n (pts_at parts i) (nth i dts no_d) (nth i tks [])).
  { intros i Hi. rewrite Lp in Hi. destruct (nth_error ch i) as [x|] eqn:Ec; [|apply nth_error_None in Ec; lia]. destruct (fl_at i x Ec) as (s & _ & -> & Hl). destruct (Hx i Hi) as [Hri _]. specialize (Hri _ Ec). rewrite <- Hds, <- Htks in Hri.
    inversion Hri as [? k' ids S' ? ? Hl' Hb| |]; subst. pose proof (lists_fun _ _ _ Hl' Hl) as Q. apply (done_same over D co hgt n S'); [intros v; rewrite (Hin i v Hi); apply Q|].
    apply (lb_base_done over D HD co hgt r P HP HB cgal Hcgal split Hsplit depth Hdepth n par_base ([] ++ [Some i])); auto.
    - apply Hl'.
    - intros v Hv. apply (fl_incl i Hi), Q, Hv.
    - apply (placed_sub D co r P _ HP); [intros v Hv; apply (fl_incl i Hi), Q, Hv|intros v Hv; apply Q, (Hinf i v Hi Hv)].
    - split; [apply Ti; lia|]. split; [intros t Ht; apply in_concat_nth in Ht; pose proof (proj2 Tc t Ht); lia|]. specialize (Tl i Hi). lia.
    - lia. }
  assert (Np : 0 < length parts) by lia.
  assert (Mk : forall i, i < length parts -> (MergeModel.d_mark (p_at dts i) + 2 < 256)%N) by (intros i Hi; destruct (Di i Hi) as (_ & _ & _ & M'); unfold p_at; lia).
  destruct (edge_run_ex over D ltac:(destruct HD as [-> | ->]; lia) co hgt (length parts) (pts_at parts) (ck_hits D co C meets ks) dts Ld (kp_tri over D co hgt parts n dts tks Di) Mk) as (dts' & edge & W & Her).
  pose proof (kp_edge over D HD co hgt r P HP parts (fp_all parts Lp Hin) (fp_one parts Lp Hin) (fp_inf parts Lp Hin) Np n H6 dts tks Ld Lt Di _ dts' edge W Her) as (_ & Nw & Wi & _).
  pose proof (kp_placed over D HD co hgt r P HP parts (fp_all parts Lp Hin) (fp_one parts Lp Hin) (fp_inf parts Lp Hin) Np n H6 dts tks Ld Lt Di _ dts' edge W Her) as Pw.
  destruct (lb_base_ex over D HD co hgt r P HP HB cgal Hcgal split Hsplit depth Hdepth M K Ecgal Esplit n par_edge ([] ++ [None]) W (c + total (concat tks))%N) as (edgeDT & te & Hed & Fe & Toe & Le); auto; [fold B; lia|lia|].
  fold B in Toe.
  assert (We : within (c + total (concat tks)) (c + total (concat tks) + total te) te) by (apply fetched_within; [lia|exact Fe]).
  assert (Htk : takes_ok (concat tks ++ te)).
  { apply (drawn_ok c); [exists (concat tks ++ te); split; [reflexivity|apply fetched_app; auto; lia]|rewrite total_app; lia|rewrite app_length; lia]. }
  assert (De : dn n W edgeDT te).
  { apply (lb_base_done over D HD co hgt r P HP HB cgal Hcgal split Hsplit depth Hdepth n par_edge ([] ++ [None])); auto; [exact (proj2 (proj2 (takes_split tks te Htk)))|lia]. }
  destruct (kp_join_ex over D HD co hgt r P HP parts (fp_all parts Lp Hin) (fp_one parts Lp Hin) (fp_inf parts Lp Hin) Np n H6 dts tks Ld Lt Di _ dts' edge W Her edgeDT te De Htk) as [out Hj].
  exists out, (concat tks ++ te). split; [|split; [|split]].
  - eapply lb_split; eauto; try lia.
    + apply Forall_forall. intros x Hx'. apply In_nth_error in Hx' as [j Ej]. destruct (fl_at j x Ej) as (s & _ & -> & _). reflexivity.
    + intros i x Ec. rewrite Hds, Htks. destruct (Hx i ltac:(rewrite <- Lk; apply nth_error_Some; congruence)) as [Hq _]. exact (Hq x Ec).
  - apply fetched_app; auto. lia.
  - rewrite total_app. lia.
  - rewrite app_length. lia.
Qed.
End Flat.
