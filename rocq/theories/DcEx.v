(** The recursion can always be run to its end. *)
From Coq Require Import Permutation Classical.
From Verif Require Import Outcome ListUtil WordsModel BlockModel BlockProofs BlockSpec SimplexModel Pool NbrModel MergeModel MergeSpec MergeProofs MergeUpdate GeoModel GeoSpec DelSpec DelGeo PlaceSpec DelPlace StepModel TriSpec StepBase StepEdge StepJoin StepProofs StepPlaced StepEx DcModel DcSpec DcBase DcHits DcProofs.
Local Open Scope nat_scope.

Lemma choose_list {A} (d : A) (Q : nat -> A -> Prop) : forall k, (forall i, i < k -> exists x, Q i x) -> exists l, length l = k /\ forall i, i < k -> Q i (nth i l d).
Proof.
  induction k as [|k IH]; intros H; [exists []; split; [reflexivity|intros i Hi; lia]|]. destruct IH as (l & Hl & Hq); [intros i Hi; apply H; lia|]. destruct (H k ltac:(lia)) as [x Hx].
  exists (l ++ [x]). split; [rewrite app_length; cbn [length]; lia|]. intros i Hi. destruct (Nat.eq_dec i k) as [->|Hne].
  - rewrite app_nth2 by lia. rewrite Hl, Nat.sub_diag. exact Hx.
  - rewrite app_nth1 by lia. apply Hq. lia.
Qed.
Lemma fop_app_intro {A} (R : A -> A -> Prop) : forall l m, ForallOrdPairs R l -> ForallOrdPairs R m -> (forall a b, In a l -> In b m -> R a b) -> ForallOrdPairs R (l ++ m).
Proof.
  induction l as [|x l IH]; intros m Hl Hm H; [exact Hm|]. inversion Hl as [|? ? Hx Hl']; subst. cbn [app]. constructor; [|apply IH; auto; intros a b Ha; apply H; now right].
  apply Forall_forall. intros y Hy. apply in_app_or in Hy as [Hy|Hy]; [rewrite Forall_forall in Hx; auto|apply H; [now left|exact Hy]].
Qed.
Lemma fop_concat_intro {A} (R : A -> A -> Prop) : forall L, (forall i, i < length L -> ForallOrdPairs R (nth i L [])) ->
  (forall i j a b, i < j -> j < length L -> In a (nth i L []) -> In b (nth j L []) -> R a b) -> ForallOrdPairs R (concat L).
Proof.
  induction L as [|l L IH]; intros H1 H2; [constructor|]. cbn [concat]. apply fop_app_intro.
  - apply (H1 0). cbn. lia.
  - apply IH; [intros i Hi; apply (H1 (Datatypes.S i)); cbn; lia|intros i j a b Hi Hj; apply (H2 (Datatypes.S i) (Datatypes.S j)); cbn; lia].
  - intros a b Ha Hb. apply in_concat in Hb as (m & Hm & Hb). apply (In_nth _ _ []) in Hm as (j & Hj & <-). apply (H2 0 (Datatypes.S j)); auto; cbn; lia.
Qed.
Lemma in_concat_inv {A} (a : A) L : In a (concat L) -> exists i, i < length L /\ In a (nth i L []).
Proof. intros H. apply in_concat in H as (m & Hm & Ha). apply (In_nth _ _ []) in Hm as (i & Hi & <-). eauto. Qed.
Lemma concat_len {A} k : forall L : list (list A), (forall l, In l L -> length l <= k) -> length (concat L) <= length L * k.
Proof. induction L as [|l L IH]; intros H; [cbn; lia|]. cbn [concat length]. rewrite app_length. pose proof (H l ltac:(now left)). specialize (IH ltac:(intros m Hm; apply H; now right)). lia. Qed.

(** Ranges within an interval. *)
Definition within (c e : N) (takes : list (N * N)) : Prop := ForallOrdPairs ranges_apart takes /\ forall t, In t takes -> (c <= fst t /\ fst t + snd t <= e)%N.
Lemma within_apart c e c' e' a b : (e <= c')%N -> (c <= fst a /\ fst a + snd a <= e)%N -> (c' <= fst b /\ fst b + snd b <= e')%N -> ranges_apart a b.
Proof. intros H Ha Hb i. lia. Qed.
Lemma total_app a b : total (a ++ b) = (total a + total b)%N.
Proof. induction a as [|t a IH]; [reflexivity|]. cbn [app]. change (total (t :: a ++ b)) with (snd t + total (a ++ b))%N. change (total (t :: a)) with (snd t + total a)%N. rewrite IH. lia. Qed.
Lemma fetched_app : forall a b c, (c + total a < 2 ^ 64)%N -> fetched c a -> fetched (c + total a) b -> fetched c (a ++ b).
Proof.
  induction a as [|t a IH]; intros b c Hc Ha Hb; [cbn in Hb; now rewrite N.add_0_r in Hb|]. change (total (t :: a)) with (snd t + total a)%N in *. cbn [app fetched] in *. destruct Ha as [-> Ha]. split; [reflexivity|].
  rewrite wrap_small in * by lia. apply IH; [lia|exact Ha|]. now rewrite <- N.add_assoc.
Qed.
Lemma fetched_within : forall a c, (c + total a < 2 ^ 64)%N -> fetched c a -> within c (c + total a) a.
Proof.
  induction a as [|t a IH]; intros c Hc Ha; [split; [constructor|intros t []]|]. change (total (t :: a)) with (snd t + total a)%N in *. cbn [fetched] in Ha. destruct Ha as [Et Ha].
  rewrite wrap_small in Ha by lia. destruct (IH (c + snd t)%N) as [H1 H2]; [lia|exact Ha|]. split.
  - constructor; [|exact H1]. apply Forall_forall. intros u Hu i. specialize (H2 u Hu). lia.
  - intros u [<-|Hu]; [lia|]. specialize (H2 u Hu). lia.
Qed.
Lemma fop_perm {A} (R : A -> A -> Prop) : (forall a b, R a b -> R b a) -> forall l m, Permutation l m -> ForallOrdPairs R l -> ForallOrdPairs R m.
Proof.
  intros Hs l m Hp. induction Hp as [|x l m Hp IH|x y l|l m n Hp1 IH1 Hp2 IH2]; intros H; auto.
  - inversion H; subst. constructor; [|auto]. rewrite Forall_forall in *. intros a Ha. apply H2. now apply (Permutation_in _ (Permutation_sym Hp)).
  - inversion H as [|? ? H1 H2]; subst. inversion H2 as [|? ? H3 H4]; subst. inversion H1; subst. constructor; [constructor; auto|constructor; auto].
Qed.
Lemma total_perm l m : Permutation l m -> total l = total m.
Proof. induction 1 as [|x l m Hp IH|x y l|l m n Hp1 IH1 Hp2 IH2]; cbn in *; [reflexivity|fold (total l) (total m); lia|lia|congruence]. Qed.
Lemma drawn_ok c takes : drawn c takes -> (c + total takes < 2 ^ 64)%N -> (N.of_nat (length takes) < 2 ^ 32)%N -> takes_ok takes.
Proof.
  intros (o & Hp & Hf) Hc Hl. rewrite <- (total_perm _ _ Hp) in Hc. destruct (fetched_within o c Hc Hf) as [H1 H2]. split; [|split; [|exact Hl]].
  - apply (fop_perm ranges_apart) with (l := o); auto. intros a b H i [Ha Hb]. apply (H i). auto.
  - intros t Ht. apply (Permutation_in _ (Permutation_sym Hp)) in Ht. specialize (H2 t Ht). lia.
Qed.
(** One after another. *)
Lemma choose_seq {A} (d : A) (B : N) (tk : A -> list (N * N)) (Q : nat -> A -> Prop) c : forall k, (c + N.of_nat k * B < 2 ^ 64)%N ->
  (forall i c', i < k -> (c' <= c + N.of_nat i * B)%N -> exists x, Q i x /\ fetched c' (tk x) /\ (total (tk x) <= B)%N) ->
  exists l, length l = k /\ (forall i, i < k -> Q i (nth i l d)) /\ fetched c (concat (map tk l)) /\ (total (concat (map tk l)) <= N.of_nat k * B)%N.
Proof.
  induction k as [|k IH]; intros Hc H; [exists []; split; [reflexivity|split; [intros i Hi; lia|split; [exact I|cbn; lia]]]|].
  assert (Ek : (N.of_nat (Datatypes.S k) * B = N.of_nat k * B + B)%N) by (rewrite Nat2N.inj_succ; lia). rewrite Ek in *.
  destruct IH as (l & L & Hq & Hf & Ht); [lia|intros i c' Hi; apply H; lia|].
  destruct (H k (c + total (concat (map tk l)))%N) as (x & Qx & Fx & Tx); [lia|lia|]. exists (l ++ [x]). split; [rewrite app_length; cbn; lia|].
  rewrite map_app, concat_app. cbn [map concat]. rewrite app_nil_r. split; [|split].
  - intros i Hi. destruct (Nat.eq_dec i k) as [->|Hn]; [rewrite app_nth2, L, Nat.sub_diag by lia; exact Qx|rewrite app_nth1 by lia; apply Hq; lia].
  - apply fetched_app; auto. lia.
  - rewrite total_app. lia.
Qed.

Section Ex.
Variable over : N -> N.
Variable D : N.
Hypothesis HD : D = 2%N \/ D = 3%N.
Variable co : N -> vec.
Variable hgt : N -> R.
Variable r : vec.
Variable P : list N.
Hypothesis HP : placed D co r P.
Hypothesis HB : breaks (N.to_nat D) co hgt P.
Variable cgal : list N -> N -> list cell -> Prop.
Hypothesis Hcgal : forall S last cells, NoDup S -> incl S P -> placed D co r S -> cgal S last cells -> cgal_ok D co hgt S last cells.
Variable split : list (option nat) -> list N -> list (list N * box) -> Prop.
Hypothesis Hsplit : forall prov S ps, NoDup S -> incl S P -> placed D co r S -> (500 < N.of_nat (length S))%N -> split prov S ps -> split_ok D co r S ps.
Variable depth : nat.
Hypothesis Hdepth : 6 * depth < 256.
Variable par_edge : bool.
(** CGAL and the splitter end, with at most [M] ids and at most [K] partitions. *)
Variables M K : N.
Hypothesis Ecgal : forall S, NoDup S -> incl S P -> placed D co r S -> exists last cells, cgal S last cells /\ (last <= M)%N.
Hypothesis Esplit : forall prov S, NoDup S -> incl S P -> placed D co r S -> (500 < N.of_nat (length S))%N -> exists ps, split prov S ps /\ (N.of_nat (length ps) <= K)%N.
Notation run := (dc_run over D co cgal split depth par_edge).
Let HDb : (0 < D <= 30)%N. Proof. destruct HD as [-> | ->]; lia. Qed.
Let HDc : (D <= 30)%N. Proof. destruct HD as [-> | ->]; lia. Qed.

Lemma base_ex S c : NoDup S -> incl S P -> placed D co r S -> (c + M < 2 ^ 64)%N ->
  exists out takes, length takes = 1 /\ fetched c takes /\ (total takes <= M)%N /\ exists start last, takes = [(start, last)] /\ base_run over D cgal S out start last.
Proof.
  intros Hn Hs Hpl He. destruct (Ecgal S Hn Hs Hpl) as (last & cells & Hc & Hl).
  destruct (base_ok over D HDb co hgt S (pl_small _ _ _ _ Hpl)) with (start := c) (last := last) (cells := cells) (dflt := blank [] [] 0) as (out & E & _); auto.
  { apply (placed_dt D HDb co hgt r S Hpl). exact (generic_sub _ _ _ _ _ (proj2 HB) Hs). }
  { lia. }
  exists out, [(c, last)]. split; [reflexivity|]. split; [split; [reflexivity|exact I]|]. split; [cbn; lia|exists c, last; split; [reflexivity|econstructor; eauto; reflexivity]].
Qed.

Lemma run_ex : forall n prov S c, depth - length prov <= n -> NoDup S -> incl S P -> placed D co r S -> (c + (K + 1) ^ N.of_nat n * M < 2 ^ 64)%N -> ((K + 1) ^ N.of_nat n < 2 ^ 32)%N -> 6 * n < 256 ->
  exists out takes, run prov S out takes /\ fetched c takes /\ (total takes <= (K + 1) ^ N.of_nat n * M)%N /\ (N.of_nat (length takes) <= (K + 1) ^ N.of_nat n)%N.
Proof.
  induction n as [|n IH]; intros prov S c Hn Hnd Hs Hpl He Hk H6.
  - rewrite N.pow_0_r, N.mul_1_l in *. destruct (base_ex S c Hnd Hs Hpl He) as (out & takes & Hl & Hw & Hto & start & last & -> & Hb). exists out, [(start, last)]. split; [|split; [exact Hw|split; [exact Hto|cbn; lia]]].
    apply dc_base; [|exact Hb]. replace (length prov <? depth) with false by (symmetry; apply Nat.ltb_ge; lia). reflexivity.
  - set (B := ((K + 1) ^ N.of_nat n * M)%N). assert (Hpow : ((K + 1) ^ N.of_nat (Datatypes.S n) = (K + 1) * (K + 1) ^ N.of_nat n)%N) by (rewrite Nat2N.inj_succ, N.pow_succ_r'; reflexivity).
    rewrite Hpow in *. assert (Hp1 : (1 <= (K + 1) ^ N.of_nat n)%N) by (pose proof (N.pow_nonzero (K + 1) (N.of_nat n)); lia).
    assert (He' : (c + (K + 1) * B < 2 ^ 64)%N) by (unfold B; lia).
    assert (HMB : (M <= B)%N) by (unfold B; nia).
    assert (HB1 : (B <= (K + 1) * B)%N) by (clear; lia).
    assert (HB2 : ((K + 1) * B = K * B + B)%N) by (clear; lia).
    destruct (Nat.ltb (length prov) depth && (500 <? N.of_nat (length S))%N) eqn:Ht.
    2:{ destruct (base_ex S c Hnd Hs Hpl) as (out & takes & Hl & Hw & Hto & start & last & -> & Hb); [lia|]. exists out, [(start, last)]. split; [now apply dc_base|]. split; [exact Hw|]. split; [unfold B in *; lia|cbn [length]; lia]. }
    pose proof Ht as Ht'. apply andb_prop in Ht' as [Ht1 Ht2]. apply Nat.ltb_lt in Ht1. apply N.ltb_lt in Ht2.
    destruct (Esplit prov S Hnd Hs Hpl Ht2) as (parts & Hsp & HK).
    destruct (Hsplit prov S parts Hnd Hs Hpl Ht2 Hsp) as [Hpd Hpn Hpb Hpm].
    assert (Sub : forall i, i < length parts -> incl (pts_at parts i) S) by (intros i Hi v Hv; apply (pd_all _ _ _ _ _ Hpd); eauto).
    assert (Hpi : forall i, i < length parts -> placed D co r (pts_at parts i)) by (intros i Hi; apply (placed_sub D co r S _ Hpl); [exact (Sub i Hi)|intros v Hv; now apply (pd_inf _ _ _ _ _ Hpd)]).
    assert (Hsi : forall i, i < length parts -> incl (pts_at parts i) P) by (intros i Hi v Hv; apply Hs, (Sub i Hi v Hv)).
    assert (HpB : (N.of_nat (length parts) * B <= K * B)%N) by (now apply N.mul_le_mono_r).
    assert (Hk' : ((K + 1) ^ N.of_nat n < 2 ^ 32)%N) by (eapply N.le_lt_trans; [|exact Hk]; clear; lia).
    destruct (choose_seq (no_d, []) B snd (fun i x => run (prov ++ [Some i]) (pts_at parts i) (fst x) (snd x) /\ (N.of_nat (length (snd x)) <= (K + 1) ^ N.of_nat n)%N) c (length parts)) as (xs & Hxl & Hx & Fx & Tox).
    { lia. }
    { intros i c' Hi Hc'. assert (N.of_nat i * B + B <= N.of_nat (length parts) * B)%N by (clear - Hi; nia). destruct (IH (prov ++ [Some i]) (pts_at parts i) c') as (o & t & R1 & R2 & R3 & R4); auto.
      - rewrite app_length. cbn [length]. lia.
      - fold B. lia.
      - lia.
      - now exists (o, t). }
    set (ps := map fst xs). set (tks := map snd xs).
    assert (Hps : forall i, nth i ps no_d = fst (nth i xs (no_d, []))) by (intros i; unfold ps; change no_d with (fst (no_d, @nil (N * N))) at 1; apply map_nth).
    assert (Htks : forall i, nth i tks [] = snd (nth i xs (no_d, []))) by (intros i; unfold tks; change (@nil (N * N)) with (snd (no_d, @nil (N * N))) at 1; apply map_nth).
    assert (Hlp : length ps = length parts) by (unfold ps; now rewrite map_length).
    assert (Hlt : length tks = length parts) by (unfold tks; now rewrite map_length).
    fold tks in Fx, Tox.
    assert (Tl : forall i, i < length parts -> (N.of_nat (length (nth i tks [])) <= (K + 1) ^ N.of_nat n)%N) by (intros i Hi; rewrite Htks; apply (Hx i Hi)).
    assert (Tc : within c (c + total (concat tks)) (concat tks)) by (apply fetched_within; [lia|exact Fx]).
    destruct (fop_concat _ _ (proj1 Tc)) as [Ti Tij].
    assert (Tlen : (N.of_nat (length (concat tks)) <= K * (K + 1) ^ N.of_nat n)%N).
    { pose proof (concat_len (N.to_nat ((K + 1) ^ N.of_nat n)) tks) as H. rewrite Hlt in H. assert (H' : length (concat tks) <= length parts * N.to_nat ((K + 1) ^ N.of_nat n)).
      { apply H. intros l Hl. apply (In_nth _ _ []) in Hl as (i & Hi & <-). rewrite Hlt in Hi. specialize (Tl i Hi). lia. }
      assert (N.of_nat (length (concat tks)) <= N.of_nat (length parts) * (K + 1) ^ N.of_nat n)%N by lia. etransitivity; [eassumption|]. now apply N.mul_le_mono_r. }
    assert (Di : forall i, i < length parts -> done over D co hgt n (pts_at parts i) (nth i ps no_d) (nth i tks [])).
    { intros i Hi. apply (run_done over D HD co hgt r P HP HB cgal Hcgal split Hsplit depth Hdepth par_edge n (prov ++ [Some i])); auto.
      - rewrite app_length. cbn [length]. lia.
      - split; [apply Ti; lia|]. split; [intros t H; apply in_concat_nth in H; pose proof (proj2 Tc t H); lia|]. specialize (Tl i Hi). lia.
      - lia.
      - rewrite Hps, Htks. apply (Hx i Hi). }
    assert (Hap : ForallOrdPairs no_shared ps).
    { apply apart_at. intros i j Hi Hj Hne k a b Ha Hb. rewrite Hlp in Hi, Hj.
      destruct (Di i Hi) as (_ & _ & H1 & _). destruct (Di j Hj) as (_ & _ & H2 & _). destruct (proj1 (H1 k) ltac:(now exists a)) as (t1 & I1 & R1). destruct (proj1 (H2 k) ltac:(now exists b)) as (t2 & I2 & R2).
      destruct (Nat.lt_ge_cases i j) as [L|L]; [apply (Tij i j t1 t2 L ltac:(lia) I1 I2 k); auto|]. apply (Tij j i t2 t1 ltac:(lia) ltac:(lia) I2 I1 k); auto. }
    assert (Hpd' : partitioned D co (length (numbered parts)) (points_of (numbered parts)) S).
    { rewrite numbered_len. destruct Hpd as [A1 A2 A3 A4 A5]. constructor; setoid_rewrite numbered_points; auto. }
    assert (Hbs : breaks (N.to_nat D) co hgt S) by (exact (breaks_sub _ _ _ _ _ HB Hs)).
    assert (Hti : forall i, i < length (numbered parts) -> triangulation over D co hgt (points_of (numbered parts) i) (p_at ps i)).
    { intros i Hi. rewrite numbered_len in Hi. rewrite numbered_points. apply (Di i Hi). }
    assert (Hfi : finds D co (length (numbered parts)) (points_of (numbered parts)) (p_at ps) (fun i => box_hit D co (boxes_of parts i))).
    { apply (box_finds over D HD co hgt _ _ _ _ Hti). intros i v Hi. rewrite numbered_len in Hi. rewrite numbered_points. now apply Hpb. }
    assert (Hme : two_filled D (length (numbered parts)) (points_of (numbered parts)) \/ hull_hit D (length (numbered parts)) (points_of (numbered parts)) (p_at ps) (fun i => box_hit D co (boxes_of parts i))).
    { rewrite numbered_len. assert (Hnb : forall i, points_of (numbered parts) i = pts_at parts i) by apply numbered_points. destruct Hpm as [Hpm|Hpm]; [left|right].
      - destruct Hpm as (i & j & u & v & H). exists i, j, u, v. rewrite !Hnb. exact H.
      - assert (Hh : hull_hit D (length parts) (pts_at parts) (p_at ps) (fun i => box_hit D co (boxes_of parts i))).
        { apply (box_reaches over D HD co hgt r parts (p_at ps)); auto.
          - intros i Hi. apply (Di i Hi).
          - intros i Hi. split; [apply (placed_sub D co r S _ Hpl); [exact (Sub i Hi)|intros v Hv; now apply (pd_inf _ _ _ _ _ Hpd)]|exact (breaks_sub _ _ _ _ _ Hbs (Sub i Hi))]. }
        destruct Hh as (i & j & u & id & x & v & H). exists i, j, u, id, x, v. rewrite Hnb. exact H. }
    assert (Hmi : forall i, i < length (numbered parts) -> (d_mark (p_at ps i) + 6 < 256)%N).
    { intros i Hi. rewrite numbered_len in Hi. destruct (Di i Hi) as (_ & _ & _ & Mi & _). unfold p_at. lia. }
    assert (Hln : length ps = length (numbered parts)) by (rewrite numbered_len; exact Hlp).
    destruct (edge_run_ex over D HDc co hgt (length (numbered parts)) (points_of (numbered parts)) (fun i => box_hit D co (boxes_of parts i)) ps Hln Hti) as (ps' & edge & W & Her); [intros i Hi; specialize (Hmi i Hi); lia|].
    destruct (edge_pts over D HDb co hgt r (numbered parts) (numbered_num parts) S Hpl Hbs Hpd' _ ps ps' edge W Hln Hti Hap Hfi Hme Hmi Her) as (Nw & Wa & Pw & _).
    assert (Hw : incl W P) by (intros v Hv; apply Hs, Wa, Hv).
    assert (exists edgeDT te, dc_edge over D co cgal split depth par_edge (prov ++ [None]) W edgeDT te /\ fetched (c + total (concat tks)) te /\ (total te <= B)%N /\ (N.of_nat (length te) <= (K + 1) ^ N.of_nat n)%N) as (edgeDT & te & Hed & Fe & Toe & Le).
    { destruct par_edge eqn:Epe.
      - destruct (IH (prov ++ [None]) W (c + total (concat tks))%N) as (o & t & R1 & R2 & R3 & R4); auto.
        + rewrite app_length. cbn [length]. lia.
        + fold B. lia.
        + lia.
        + exists o, t. split; [now apply dc_edge_rec|auto].
      - destruct (base_ex W (c + total (concat tks))%N Nw Hw Pw) as (o & t & Hl & Hwi & Hto & start & last & -> & Hb); [lia|]. exists o, [(start, last)]. split; [now apply dc_edge_base|]. split; [exact Hwi|]. split; [lia|cbn [length]; lia]. }
    assert (We : within (c + total (concat tks)) (c + total (concat tks) + total te) te) by (apply fetched_within; [lia|exact Fe]).
    assert (De : done over D co hgt n W edgeDT te).
    { assert (takes_ok te) by (destruct We as [A1 A2]; split; [exact A1|]; split; [intros t H; specialize (A2 t H); lia|lia]). inversion Hed as [? ? ? ? _ Hre|? ? ? start last _ Hbe]; subst.
      - apply (run_done over D HD co hgt r P HP HB cgal Hcgal split Hsplit depth Hdepth par_edge n (prov ++ [None])); auto; [rewrite app_length; cbn [length]; lia|lia].
      - eapply (base_done over D HD co hgt r P HP HB cgal Hcgal split Hsplit depth Hdepth); auto. }
    destruct De as (Tw & Lw & Hw' & Mw & _).
    assert (Hbl : blocks (edgeDT :: ps) = length te + length (concat tks)).
    { change (blocks (edgeDT :: ps)) with (length (d_arr edgeDT) + blocks ps). rewrite (blocks_concat ps tks); [lia|lia|]. intros i Hi. rewrite Hlp in Hi. apply (Di i Hi). }
    assert (Tx : forall a b, In a (concat tks) -> In b te -> ranges_apart a b) by (intros a b Ha Hb; apply (within_apart c (c + total (concat tks)) (c + total (concat tks)) (c + total (concat tks) + total te)); [lia|now apply Tc|now apply We]).
    assert (Hae : forall p, In p ps -> no_shared edgeDT p).
    { intros p Hp k a b Ha Hb. apply (In_nth _ _ no_d) in Hp as (i & Hi & <-). rewrite Hlp in Hi.
      destruct (Di i Hi) as (_ & _ & H1 & _). destruct (proj1 (H1 k) ltac:(now exists b)) as (t1 & I1 & R1). destruct (proj1 (Hw' k) ltac:(now exists a)) as (t2 & I2 & R2).
      apply (Tx t1 t2 (in_concat_nth _ _ _ I1) I2 k); auto. }
    pose proof (placed_division D HDb co hgt r _ _ _ Hpl Hbs Hpd') as Hdiv.
    assert (Hnp : 0 < length (numbered parts)) by (destruct (pd_some _ _ _ _ _ Hpd') as (i & _ & H & _); lia).
    destruct (edge_run_ok over D HDc co hgt (length (numbered parts)) (points_of (numbered parts)) S Hdiv Hnp (pl_inf _ _ _ _ Hpl) (pl_small _ _ _ _ Hpl) (fun i => box_hit D co (boxes_of parts i)) ps Hln Hti) with (ps' := ps') (edge := edge) (W := W) as (L' & T' & E' & _); auto.
    { intros i j Hi Hj Hne. rewrite apart_at in Hap. apply Hap; lia. }
    { intros i Hi. pose proof (Hmi i Hi). lia. }
    assert (Hh : forall i, i < length (numbered parts) -> forall x, held (p_at ps' i) x <-> held (p_at ps i) x) by (intros i Hi; apply T', Hi).
    assert (Hbb : blocks ps' = blocks ps).
    { assert (X : forall a b : list dsims, length a = length b -> (forall i, i < length a -> length (d_arr (p_at a i)) = length (d_arr (p_at b i))) -> blocks a = blocks b).
      { clear. induction a as [|x a IH]; intros [|y b] Hl Hi; try discriminate; [reflexivity|]. rewrite !blocks_cons. rewrite (IH b); [|now injection Hl|intros i H; apply (Hi (Datatypes.S i)); cbn; lia].
        pose proof (Hi 0 ltac:(cbn; lia)) as H. cbn in H. lia. }
      apply X; [lia|]. intros i Hi. destruct (T' i ltac:(lia)) as (_ & _ & H & _). exact H. }
    destruct (join_run_ex over D HDc co hgt (numbered parts) (numbered_num parts) Hnp S Hdiv ps' edge W edgeDT L') as [out Hj]; auto.
    { intros i Hi. apply T', Hi. }
    { assert (Hap2 : ForallOrdPairs no_shared (edgeDT :: ps)) by (constructor; [now apply Forall_forall|exact Hap]).
      apply apart_at. rewrite apart_at in Hap2. cbn [length]. intros i j Hi Hj' Hne x a b Hxa Hxb.
      assert (Y : forall i, i < Datatypes.S (length (numbered parts)) -> held (nth i (edgeDT :: ps') no_d) x -> held (nth i (edgeDT :: ps) no_d) x) by (intros [|k] Hkk; cbn [nth]; [auto|apply Hh; lia]).
      destruct (Y i ltac:(lia) ltac:(eexists; eauto)) as [a' Ha']. destruct (Y j ltac:(lia) ltac:(eexists; eauto)) as [b' Hb']. refine (Hap2 i j _ _ Hne x a' b' Ha' Hb'); cbn [length]; lia. }
    { rewrite blocks_cons in *. rewrite Hbb. assert (N.of_nat (length (d_arr edgeDT) + blocks ps) <= (K + 1) * (K + 1) ^ N.of_nat n)%N by (rewrite Hbl; lia). lia. }
    { intros i Hi. destruct (T' i Hi) as (_ & -> & _). pose proof (Hmi i Hi). lia. }
    { lia. }
    exists out, (concat tks ++ te). split; [|split; [|split]].
    + eapply dc_split; eauto. intros i Hi. rewrite Hps, Htks. apply (Hx i Hi).
    + apply fetched_app; auto. lia.
    + rewrite total_app. lia.
    + rewrite app_length. lia.
Qed.
End Ex.
