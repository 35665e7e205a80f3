(** The recursion over a partition tree can always be run to its end. *)
From Coq Require Import Permutation Classical.
From Verif Require Import Outcome ListUtil WordsModel LPSetModel ProbeTheory LPSetProofs LPSetHistory BlockModel BlockProofs BlockSpec SimplexModel Pool NbrModel MergeModel MergeSpec MergeProofs MergeUpdate GeoModel GeoSpec GeoProofs GeoCirc DelSpec DelGeo PlaceSpec DelPlace
  StepModel TriSpec StepBase StepEdge StepJoin StepProofs StepPlaced StepEx MeshSpec MeshProofs DcModel DcSpec DcBase DcHits DcProofs DcEx PartModel TreeModel TreeSpec TreeProofs TreeTop SplitModel LbModel LbSpec LbLevel LbProofs.
Local Open Scope nat_scope.

Section Ex.
Variable over : N -> N.
Variable D : N.
Hypothesis HD : D = 2%N \/ D = 3%N.
Variable co : N -> vec.
Variable hgt : N -> R.
Variable r : vec.
Variable P : list N.
Hypothesis HP : placed D co r P.
Hypothesis HB : breaks (N.to_nat D) co hgt P.
Variable cgal : list N -> N -> list cell -> Prop.
Hypothesis Hcgal : forall S last cells, NoDup S -> incl S P -> placed D co r S -> cgal S last cells -> cgal_ok D co hgt S last cells.
Variable split : list (option nat) -> list N -> list (list N * box) -> Prop.
Hypothesis Hsplit : forall prov S ps, NoDup S -> incl S P -> placed D co r S -> (500 < N.of_nat (length S))%N -> split prov S ps -> split_ok D co r S ps.
Variable depth : nat.
Hypothesis Hdepth : 6 * depth < 256.
Variable C : Type.
Variable cbox : C -> box.
Variable meets : C -> sphere -> simplex -> bool.
Variables par_base par_edge : bool.
(** As in DcEx; [K] bounds the width of the tree too. *)
Variables M K : N.
Hypothesis Ecgal : forall S, NoDup S -> incl S P -> placed D co r S -> exists last cells, cgal S last cells /\ (last <= M)%N.
Hypothesis Esplit : forall prov S, NoDup S -> incl S P -> placed D co r S -> (500 < N.of_nat (length S))%N -> exists ps, split prov S ps /\ (N.of_nat (length ps) <= K)%N.
Notation base := (lb_base over D co cgal split depth).
Notation run := (lb_run over D co cgal split depth C cbox meets par_base par_edge).
Notation ok := (tree_ok D co r C meets).
Notation dn := (done over D co hgt).

Lemma lb_base_ex n par prov S c : depth - length (chars prov) <= n -> NoDup S -> incl S P -> placed D co r S -> (c + (K + 1) ^ N.of_nat n * M < 2 ^ 64)%N -> ((K + 1) ^ N.of_nat n < 2 ^ 32)%N -> 6 * n < 256 ->
  exists out takes, base par prov S out takes /\ fetched c takes /\ (total takes <= (K + 1) ^ N.of_nat n * M)%N /\ (N.of_nat (length takes) <= (K + 1) ^ N.of_nat n)%N.
Proof.
  intros Hn Hnd Hs Hpl Hc Hk H6. destruct par.
  - destruct (run_ex over D HD co hgt r P HP HB cgal Hcgal split Hsplit depth Hdepth true M K Ecgal Esplit n (chars prov) S c Hn Hnd Hs Hpl Hc Hk H6) as (out & takes & R & F & T & L).
    exists out, takes. split; [now apply lb_par|auto].
  - assert (Hp1 : (1 <= (K + 1) ^ N.of_nat n)%N) by (pose proof (N.pow_nonzero (K + 1) (N.of_nat n)); lia). assert (HMB : (M <= (K + 1) ^ N.of_nat n * M)%N) by nia.
    destruct (base_ex over D HD co hgt r P HP HB cgal Hcgal split Hsplit depth Hdepth M K Ecgal Esplit S c Hnd Hs Hpl) as (out & takes & Hl & Hw & Hto & start & last & -> & Hb); [lia|].
    exists out, [(start, last)]. split; [now apply lb_seq|]. split; [exact Hw|]. split; [lia|cbn [length]; lia].
Qed.
Lemma ok_copyable t : forall S, ok t S -> copyable t = true.
Proof.
  induction t as [ck s|ck ch IH] using (tree_ind2 C); intros S H; [inversion H; reflexivity|]. inversion H as [|? ? ? ? _|k ch' pt S' _ _ Hch]; subst; [reflexivity|]. cbn [copyable].
  assert (X : forall ch pt, Forall (fun t => forall S, ok t S -> copyable t = true) ch -> (forall i c, nth_error ch i = Some c -> ok c (pt i)) -> (fix go (ch : list (tree C)) : bool := match ch with [] => true | c :: r => copyable c && go r end) ch = true).
  { clear. induction ch as [|c ch IHc]; intros pt HF Hc; [reflexivity|]. inversion HF as [|? ? H1 H2]; subst. rewrite (H1 (pt 0) (Hc 0 c eq_refl)). cbn [andb]. apply (IHc (fun i => pt (Datatypes.S i)) H2). intros i c' E. exact (Hc (Datatypes.S i) c' E). }
  exact (X ch pt IH Hch).
Qed.
Lemma width_child k (ch : list (tree C)) i c : nth_error ch i = Some c -> width c <= width (Tnode k ch) /\ length ch <= width (Tnode k ch).
Proof.
  intros E. cbn [width]. assert (X : forall ch i c, nth_error ch i = Some c -> width c <= (fix go (ch : list (tree C)) := match ch with [] => 0 | c :: q => Nat.max (width c) (go q) end) ch).
  { clear. induction ch as [|a ch IH]; intros [|i] c E; try discriminate; cbn in E; [injection E as ->; lia|]. specialize (IH i c E). lia. }
  specialize (X ch i c E). lia.
Qed.
Lemma old_ex m ch pt ls : (forall i c, nth_error ch i = Some c -> ok c (pt i)) -> Forall2 Leaves ch ls -> small 64 (4 * entries (concat ls)) ->
  exists ps ks parts, returns (fun f => to_old_partitioning C cbox f m ch) (ps, ks) /\ Forall2 (fun p q => lists (pa_pts p) (fst q) /\ snd q = pa_box p) ps parts.
Proof.
  intros Hch HF Hsm.
  assert (Hg : good_sets (concat ls)).
  { intros ck s Hi. destruct (in_concat_forall2 _ _ _ _ HF Hi) as (j & c & l & Ec & El & Hi'). destruct (f2_at _ _ _ HF j c Ec) as (l' & El' & Hl'). replace l' with l in Hl' by congruence.
    destruct (tree_sets D co r C cbox meets c (pt j) l (Hch j c Ec) Hl') as (_ & G & _). exact (G ck s Hi'). }
  destruct (to_old_ok C cbox m ch ls HF Hg Hsm) with (id := 0) as (ps & cks & E & L1 & L2 & H).
  { intros c Hc. apply In_nth_error in Hc as [j Ej]. exact (tree_ck D co r C meets c (pt j) (Hch j c Ej)). }
  assert (X : forall p, In p ps -> exists K, repr 64 (pa_pts p) K).
  { intros p Hp. apply In_nth_error in Hp as [j Ej]. assert (Hj : j < length ch) by (rewrite <- L1; apply nth_error_Some; congruence).
    destruct (nth_error ch j) as [c|] eqn:Ec; [|apply nth_error_None in Ec; lia]. destruct (f2_at _ _ _ HF j c Ec) as (l & El & _). destruct (H j c l Ec El) as (k & s & _ & _ & E3 & (K' & R & _) & _).
    rewrite E3 in Ej. injection Ej as <-. cbn [pa_pts]. now exists K'. }
  assert (Y : exists parts, Forall2 (fun p (q : list N * box) => lists (pa_pts p) (fst q) /\ snd q = pa_box p) ps parts).
  { clear - X. induction ps as [|p ps IH]; [exists []; constructor|]. destruct IH as [parts Hp]; [intros q Hq; apply X; now right|]. destruct (X p ltac:(now left)) as (K' & R1 & R2).
    exists ((nodup N.eq_dec K', pa_box p) :: parts). constructor; [|exact Hp]. split; [|reflexivity]. split; [apply NoDup_nodup|]. split; [exact R1|]. intros x. cbn [fst]. rewrite nodup_In. apply R2. }
  destruct Y as [parts Hp]. now exists ps, cks, parts.
Qed.

Lemma lb_run_ex : forall n t S l prov c, ok t S -> Leaves t l -> small 64 (4 * entries l) -> height t <= n -> depth - length (chars prov) <= n -> incl S P -> placed D co r S -> (N.of_nat (width t) <= K)%N ->
  (c + (K + 1) ^ N.of_nat n * M < 2 ^ 64)%N -> ((K + 1) ^ N.of_nat n < 2 ^ 32)%N -> 6 * n < 256 ->
  exists out takes, run prov t out takes /\ fetched c takes /\ (total takes <= (K + 1) ^ N.of_nat n * M)%N /\ (N.of_nat (length takes) <= (K + 1) ^ N.of_nat n)%N.
Proof.
  induction n as [|n IH]; intros t S l prov c Hok HL Hsm Hh Hn Hs Hpl Hw He Hk H6.
  - inversion Hok as [k ids S' Hl|k k' ids S' Hl|k ch pt S' H2]; subst.
    + destruct (lb_base_ex 0 par_base prov S c Hn (proj1 Hl) Hs Hpl He Hk H6) as (out & takes & R & Q). exists out, takes. split; [eapply lb_leaf; eauto|exact Q].
    + destruct (lb_base_ex 0 par_base prov S c Hn (proj1 Hl) Hs Hpl He Hk H6) as (out & takes & R & Q). exists out, takes. split; [eapply lb_one; eauto|exact Q].
    + destruct ch as [|a ch]; [cbn in H2; lia|]. pose proof (height_child C (Some k) (a :: ch) 0 a H2 eq_refl). lia.
  - inversion Hok as [k ids S' Hl|k k' ids S' Hl|k ch pt S' H2 Hnd Hch Hpd Hcov Hme]; subst.
    + destruct (lb_base_ex (Datatypes.S n) par_base prov S c Hn (proj1 Hl) Hs Hpl He Hk H6) as (out & takes & R & Q). exists out, takes. split; [eapply lb_leaf; eauto|exact Q].
    + destruct (lb_base_ex (Datatypes.S n) par_base prov S c Hn (proj1 Hl) Hs Hpl He Hk H6) as (out & takes & R & Q). exists out, takes. split; [eapply lb_one; eauto|exact Q].
    + inversion HL as [|? ? ls HF]; subst. set (B := ((K + 1) ^ N.of_nat n * M)%N). assert (Hpow : ((K + 1) ^ N.of_nat (Datatypes.S n) = (K + 1) * (K + 1) ^ N.of_nat n)%N) by (rewrite Nat2N.inj_succ, N.pow_succ_r'; reflexivity).
      rewrite Hpow in *. assert (Hp1 : (1 <= (K + 1) ^ N.of_nat n)%N) by (pose proof (N.pow_nonzero (K + 1) (N.of_nat n)); lia).
      assert (He' : (c + (K + 1) * B < 2 ^ 64)%N) by (unfold B; lia).
      assert (HB2 : ((K + 1) * B = K * B + B)%N) by (clear; lia).
      assert (Hkc : (N.of_nat (length ch) <= K)%N).
      { destruct ch as [|a ch]; [cbn; lia|]. pose proof (width_child (Some k) (a :: ch) 0 a eq_refl). lia. }
      assert (HpB : (N.of_nat (length ch) * B <= K * B)%N) by (now apply N.mul_le_mono_r).
      assert (Hk' : ((K + 1) ^ N.of_nat n < 2 ^ 32)%N) by (eapply N.le_lt_trans; [|exact Hk]; clear; lia).
      destruct (old_ex 3 ch pt ls Hch HF Hsm) as (ps & ks & parts & Hto & Hps).
      destruct (old_parts D co r C cbox meets 3 k ch pt S ls ps ks parts Hok Hch HF Hsm Hto Hps) as (Lp & Lk & Hnp & Hin & Hck).
      assert (Hbs : breaks (N.to_nat D) co hgt S) by (exact (breaks_sub _ _ _ _ _ HB Hs)).
      assert (Z : forall i, i < length ch -> exists c, nth_error ch i = Some c) by (intros i Hi; destruct (nth_error ch i) as [x|] eqn:Ec; [now exists x|apply nth_error_None in Ec; lia]).
      assert (Sub : forall i, i < length ch -> incl (pt i) S) by (intros i Hi v Hv; apply (pd_all _ _ _ _ _ Hpd); eauto).
      assert (Hpi : forall i, i < length ch -> placed D co r (pt i)) by (intros i Hi; apply (placed_sub D co r S _ Hpl); [exact (Sub i Hi)|intros v Hv; now apply (pd_inf _ _ _ _ _ Hpd)]).
      assert (Hle : forall i x, nth_error ch i = Some x -> exists l, Leaves x l /\ small 64 (4 * entries l)).
      { intros i x Ec. destruct (f2_at _ _ _ HF i x Ec) as (l & El & Hl). exists l. split; [exact Hl|]. apply (small_le 64 ltac:(reflexivity)) with (m := 4 * entries (concat ls)); [pose proof (entries_nth C ls i l El); lia|exact Hsm]. }
      destruct (choose_seq (no_d, []) B snd (fun i x => (forall t, nth_error ch i = Some t -> run (prov ++ [Some i]) t (fst x) (snd x)) /\ (N.of_nat (length (snd x)) <= (K + 1) ^ N.of_nat n)%N) c (length ch)) as (xs & Hxl & Hx & Fx & Tox).
      { lia. }
      { intros i c' Hi Hc'. assert (N.of_nat i * B + B <= N.of_nat (length ch) * B)%N by (clear - Hi; nia). destruct (Z i Hi) as [x Ec]. destruct (Hle i x Ec) as (l & Hl & Hsl).
        destruct (IH x (pt i) l (prov ++ [Some i]) c') as (o & t & R1 & R2 & R3 & R4); auto.
        - pose proof (height_child C (Some k) ch i x H2 Ec). lia.
        - pose proof (chars_grow prov (Some i)). lia.
        - intros v Hv. apply Hs. exact (Sub i Hi v Hv).
        - pose proof (width_child (Some k) ch i x Ec). lia.
        - fold B. lia.
        - lia.
        - exists (o, t). split; [|split; [exact R2|exact R3]]. split; [|exact R4]. intros t' Et. cbn [fst snd]. congruence. }
      set (dts := map fst xs). set (tks := map snd xs).
      assert (Hds : forall i, nth i dts no_d = fst (nth i xs (no_d, []))) by (intros i; unfold dts; change no_d with (fst (no_d, @nil (N * N))) at 1; apply map_nth).
      assert (Htks : forall i, nth i tks [] = snd (nth i xs (no_d, []))) by (intros i; unfold tks; change (@nil (N * N)) with (snd (no_d, @nil (N * N))) at 1; apply map_nth).
      assert (Ld : length dts = length parts) by (unfold dts; rewrite map_length; lia).
      assert (Lt : length tks = length parts) by (unfold tks; rewrite map_length; lia).
      fold tks in Fx, Tox.
      assert (Tl : forall i, i < length ch -> (N.of_nat (length (nth i tks [])) <= (K + 1) ^ N.of_nat n)%N) by (intros i Hi; rewrite Htks; apply (Hx i Hi)).
      assert (Tc : within c (c + total (concat tks)) (concat tks)) by (apply fetched_within; [lia|exact Fx]).
      destruct (fop_concat _ _ (proj1 Tc)) as [Ti Tij].
      assert (Tlen : (N.of_nat (length (concat tks)) <= K * (K + 1) ^ N.of_nat n)%N).
      { pose proof (concat_len (N.to_nat ((K + 1) ^ N.of_nat n)) tks) as H. rewrite Lt, Lp in H. assert (H' : length (concat tks) <= length ch * N.to_nat ((K + 1) ^ N.of_nat n)).
        { apply H. intros l Hl. apply (In_nth _ _ []) in Hl as (i & Hi & <-). rewrite Lt, Lp in Hi. specialize (Tl i Hi). lia. }
        assert (N.of_nat (length (concat tks)) <= N.of_nat (length ch) * (K + 1) ^ N.of_nat n)%N by lia. etransitivity; [eassumption|]. now apply N.mul_le_mono_r. }
      assert (Di : forall i, i < length parts -> dn n (pts_at parts i) (nth i dts no_d) (nth i tks [])).
      { intros i Hi. rewrite Lp in Hi. destruct (Z i Hi) as [x Ec]. destruct (Hle i x Ec) as (l & Hl & Hsl). apply (done_same over D co hgt n (pt i)); [intros v; symmetry; now apply Hin|].
        apply (lb_run_done over D HD co hgt r P HP HB cgal Hcgal split Hsplit depth Hdepth C cbox meets par_base par_edge n x (pt i) l (prov ++ [Some i])); auto.
        - pose proof (height_child C (Some k) ch i x H2 Ec). lia.
        - pose proof (chars_grow prov (Some i)). lia.
        - intros v Hv. apply Hs. exact (Sub i Hi v Hv).
        - split; [apply Ti; lia|]. split; [intros t H; apply in_concat_nth in H; pose proof (proj2 Tc t H); lia|]. specialize (Tl i Hi). lia.
        - lia.
        - rewrite Hds, Htks. destruct (Hx i Hi) as [H _]. exact (H x Ec). }
      destruct (level_hits over D HD co hgt r C meets k ch pt S ks parts dts n tks Hpl Hbs Hok H2 Hpd Hcov Hme Lp Lk Hin Hck Di) as (Hpd' & Hfi & Hme').
      destruct (lv_edge_ex over D HD co hgt r S Hpl Hbs parts Hpd' n ltac:(lia) dts tks Ld Lt Di (ck_hits D co C meets ks) Hfi Hme') as (dts' & edge & W & Her).
      destruct (lv_edge over D HD co hgt r S Hpl Hbs parts Hpd' n ltac:(lia) dts tks Ld Lt Di (proj1 Tc) (ck_hits D co C meets ks) Hfi Hme' dts' edge W Her) as (Nw & Wa & Pw).
      assert (Hw' : incl W P) by (intros v Hv; apply Hs, Wa, Hv).
      destruct (lb_base_ex n par_edge (prov ++ [None]) W (c + total (concat tks))%N) as (edgeDT & te & Hed & Fe & Toe & Le); auto; [pose proof (chars_grow prov None); lia|fold B; lia|lia|].
      fold B in Toe.
      assert (We : within (c + total (concat tks)) (c + total (concat tks) + total te) te) by (apply fetched_within; [lia|exact Fe]).
      assert (Htk : takes_ok (concat tks ++ te)).
      { apply (drawn_ok c); [exists (concat tks ++ te); split; [reflexivity|apply fetched_app; auto; lia]|rewrite total_app; lia|rewrite app_length; lia]. }
      assert (De : dn n W edgeDT te).
      { apply (lb_base_done over D HD co hgt r P HP HB cgal Hcgal split Hsplit depth Hdepth n par_edge (prov ++ [None])); auto; [pose proof (chars_grow prov None); lia|exact (proj2 (proj2 (takes_split tks te Htk)))|lia]. }
      destruct (lv_join_ex over D HD co hgt r S Hpl Hbs parts Hpd' n ltac:(lia) dts tks Ld Lt Di (proj1 Tc) (ck_hits D co C meets ks) Hfi Hme' dts' edge W Her edgeDT te De Htk) as [out Hj].
      exists out, (concat tks ++ te). split; [|split; [|split]].
      * eapply lb_split; eauto; try lia.
        -- apply Forall_forall. intros x Hx'. apply In_nth_error in Hx' as [j Ej]. exact (ok_copyable x (pt j) (Hch j x Ej)).
        -- intros i x Ec. rewrite Hds, Htks. destruct (Hx i ltac:(apply nth_error_Some; congruence)) as [H _]. exact (H x Ec).
      * apply fetched_app; auto. lia.
      * rewrite total_app. lia.
      * rewrite app_length. lia.
Qed.
End Ex.
