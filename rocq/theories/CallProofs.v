(** The base cases of a run. *)
From Coq Require Import Permutation Classical.
From Verif Require Import Outcome ListUtil WordsModel BlockModel BlockProofs BlockSpec SimplexModel Pool NbrModel MergeModel MergeSpec MergeUpdate GeoModel GeoSpec DelSpec DelGeo PlaceSpec DelPlace StepModel TriSpec StepBase StepEdge StepJoin StepProofs StepPlaced DcModel DcSpec DcBase DcHits DcProofs CallModel CallSpec.
Local Open Scope nat_scope.

Section Erase.
Variable over : N -> N.
Variable D : N.
Variable co : N -> vec.
Variable cgal : list N -> N -> list cell -> Prop.
Variable split : list (option nat) -> list N -> list (list N * box) -> Prop.
Variable depth : nat.
Variable par_edge : bool.
Notation run := (dc_run over D co cgal split depth par_edge).
Notation trace := (dc_trace over D co cgal split depth par_edge).

Lemma trace_run : forall n prov S out takes cs, depth - length prov <= n -> trace prov S out takes cs -> run prov S out takes.
Proof.
  induction n as [|n IH]; intros prov S out takes cs Hn Ht;
    inversion Ht as [? ? ? start last H Hb|? ? parts ps ps' edge W edgeDT ? tks te css ce H Hsp Hlp Hlt Hlc Hsub He Hed Hjr]; subst; try (now apply dc_base);
    pose proof H as Hc; apply andb_prop in Hc as [H1 H2]; apply Nat.ltb_lt in H1; [lia|].
  eapply dc_split; eauto.
  - intros i Hi. eapply IH; [|apply Hsub; exact Hi]. rewrite app_length. cbn [length]. lia.
  - inversion Hed as [? ? ? ? ? Hpe Hre|? ? ? start last Hpe Hbe]; subst; [|now apply dc_edge_base]. apply dc_edge_rec; [reflexivity|]. eapply IH; [|exact Hre]. rewrite app_length. cbn [length]. lia.
Qed.
Lemma choice_list {A} (d : A) (Q : nat -> A -> Prop) : forall n, (forall i, i < n -> exists a, Q i a) -> exists l, length l = n /\ forall i, i < n -> Q i (nth i l d).
Proof.
  induction n as [|n IH]; intros H; [exists []; split; [reflexivity|lia]|]. destruct IH as (l & L & Hl); [intros i Hi; apply H; lia|]. destruct (H n ltac:(lia)) as [a Ha].
  exists (l ++ [a]). split; [rewrite app_length, L; cbn; lia|]. intros i Hi. destruct (Nat.eq_dec i n) as [-> |Hne]; [rewrite app_nth2, L, Nat.sub_diag by lia; exact Ha|].
  rewrite app_nth1 by lia. apply Hl. lia.
Qed.
Lemma run_trace : forall n prov S out takes, depth - length prov <= n -> run prov S out takes -> exists cs, trace prov S out takes cs.
Proof.
  induction n as [|n IH]; intros prov S out takes Hn Hr;
    inversion Hr as [? ? ? start last H Hb|? ? parts ps ps' edge W edgeDT ? tks te H Hsp Hlp Hlt Hsub He Hed Hjr]; subst; try (now (eexists; apply tr_base; eauto));
    pose proof H as Hc; apply andb_prop in Hc as [H1 H2]; apply Nat.ltb_lt in H1; [lia|].
  destruct (choice_list [] (fun i cs => trace (prov ++ [Some i]) (fst (nth i parts ([], mkbox (fun _ => 0%R) (fun _ => 0%R)))) (nth i ps no_d) (nth i tks []) cs) (length parts)) as (css & Lc & Hcs).
  { intros i Hi. apply IH; [rewrite app_length; cbn [length]; lia|auto]. }
  assert (Hce : exists ce, edge_trace over D co cgal split depth par_edge (prov ++ [None]) W edgeDT te ce).
  { inversion Hed as [? ? ? ? Hpe Hre|? ? ? start last Hpe Hbe]; subst; [|eexists; now apply tr_edge_base].
    destruct (fun h => IH _ _ _ _ h Hre) as [ce Hce]; [rewrite app_length; cbn [length]; lia|]. exists ce. now apply tr_edge_rec. }
  destruct Hce as [ce Hce]. exists (concat css ++ ce). eapply tr_split; eauto.
Qed.
End Erase.

Lemma plain_app a b S : plain (a ++ b, S) = plain (a, S) && plain (b, S).
Proof. unfold plain. cbn [fst]. apply forallb_app. Qed.
Lemma plain_irr a S S' : plain (a, S) = plain (a, S').
Proof. reflexivity. Qed.

Section Rec.
Variable over : N -> N.
Variable D : N.
Hypothesis HD : D = 2%N \/ D = 3%N.
Variable co : N -> vec.
Variable hgt : N -> R.
Variable r : vec.
Variable P : list N.
Hypothesis HP : placed D co r P.
Hypothesis HB : breaks (N.to_nat D) co hgt P.
Variable cgal : list N -> N -> list cell -> Prop.
Hypothesis Hcgal : forall S last cells, NoDup S -> incl S P -> placed D co r S -> cgal S last cells -> cgal_ok D co hgt S last cells.
Variable split : list (option nat) -> list N -> list (list N * box) -> Prop.
Hypothesis Hsplit : forall prov S ps, NoDup S -> incl S P -> placed D co r S -> (500 < N.of_nat (length S))%N -> split prov S ps -> split_ok D co r S ps.
Variable depth : nat.
Hypothesis Hdepth : 6 * depth < 256.
Variable par_edge : bool.
Variable K : nat.
Hypothesis HK : 1 <= K.
Hypothesis Hways : forall prov S ps, split prov S ps -> length ps <= K.
Notation run := (dc_run over D co cgal split depth par_edge).
Notation trace := (dc_trace over D co cgal split depth par_edge).
Let HDb : (0 < D <= 30)%N. Proof. destruct HD as [-> | ->]; lia. Qed.

Definition sane (S : list N) : Prop := NoDup S /\ incl S P /\ placed D co r S.
(** The sets that are triangulated below a split. *)
Lemma split_facts prov S out parts ps ps' edge W edgeDT tks te : sane S -> takes_ok (concat tks ++ te) ->
  Nat.ltb (length prov) depth && (500 <? N.of_nat (length S))%N = true -> split prov S parts -> length ps = length parts -> length tks = length parts ->
  (forall i, i < length parts -> run (prov ++ [Some i]) (pts_at parts i) (nth i ps no_d) (nth i tks [])) ->
  edge_run D (fun i => box_hit D co (boxes_of parts i)) ps ps' edge W -> join_run over D (numbered parts) ps' edge edgeDT out ->
  partitioned D co (length parts) (pts_at parts) S /\ (forall i, i < length parts -> sane (pts_at parts i) /\ takes_ok (nth i tks [])) /\ sane W /\ incl W S /\ takes_ok te.
Proof.
  intros (Hnd & Hs & Hpl) (Hta & Hte & Htl) Ht Hsp Hlp Hlt Hsub He Hjr.
  apply andb_prop in Ht as [Ht1 Ht2]. apply Nat.ltb_lt in Ht1. apply N.ltb_lt in Ht2.
  destruct (Hsplit prov S parts Hnd Hs Hpl Ht2 Hsp) as [Hpd Hpn Hpb Hpm].
  rewrite app_length in Htl. destruct (fop_app _ _ _ Hta) as (Ta & Te & Tx). destruct (fop_concat _ _ Ta) as (Ti & Tij).
  assert (Sub : forall i, i < length parts -> incl (pts_at parts i) S) by (intros i Hi v Hv; apply (pd_all _ _ _ _ _ Hpd); eauto).
  assert (Si : forall i, i < length parts -> sane (pts_at parts i) /\ takes_ok (nth i tks [])).
  { intros i Hi. split; [split; [now apply Hpn|split]|].
    - intros v Hv. apply Hs, (Sub i Hi v Hv).
    - apply (placed_sub D co r S _ Hpl); [exact (Sub i Hi)|]. intros v Hv. now apply (pd_inf _ _ _ _ _ Hpd).
    - split; [apply Ti; lia|]. split; [intros t Hin; apply Hte, in_or_app; left; eapply in_concat_nth; eauto|]. pose proof (nth_concat_len tks i). lia. }
  assert (Di : forall i, i < length parts -> done over D co hgt depth (pts_at parts i) (nth i ps no_d) (nth i tks [])).
  { intros i Hi. destruct (Si i Hi) as [(A1 & A2 & A3) A4].
    apply (run_done over D HD co hgt r P HP HB cgal Hcgal split Hsplit depth Hdepth par_edge depth (prov ++ [Some i])); auto. lia. }
  assert (Di' : forall i, i < length parts -> (d_mark (nth i ps no_d) <= N.of_nat (6 * (depth - 1)))%N).
  { intros i Hi. destruct (Si i Hi) as [(A1 & A2 & A3) A4].
    apply (run_done over D HD co hgt r P HP HB cgal Hcgal split Hsplit depth Hdepth par_edge (depth - 1) (prov ++ [Some i]) (pts_at parts i) (nth i ps no_d) (nth i tks [])); auto; [rewrite app_length; cbn [length]; lia|lia]. }
  assert (Hap : ForallOrdPairs no_shared ps).
  { apply apart_at. intros i j Hi Hj Hne k a b Ha Hb. rewrite Hlp in Hi, Hj.
    destruct (Di i Hi) as (_ & _ & H1 & _). destruct (Di j Hj) as (_ & _ & H2 & _). destruct (proj1 (H1 k) ltac:(now exists a)) as (t1 & I1 & R1). destruct (proj1 (H2 k) ltac:(now exists b)) as (t2 & I2 & R2).
    destruct (Nat.lt_ge_cases i j) as [L|L]; [apply (Tij i j t1 t2 L ltac:(lia) I1 I2 k); auto|]. apply (Tij j i t2 t1 ltac:(lia) ltac:(lia) I2 I1 k); auto. }
  assert (Hpd' : partitioned D co (length (numbered parts)) (points_of (numbered parts)) S).
  { rewrite numbered_len. destruct Hpd as [A1 A2 A3 A4 A5]. constructor; setoid_rewrite numbered_points; auto. }
  assert (Hbs : breaks (N.to_nat D) co hgt S) by (exact (breaks_sub _ _ _ _ _ HB Hs)).
  assert (Hti : forall i, i < length (numbered parts) -> triangulation over D co hgt (points_of (numbered parts) i) (p_at ps i)).
  { intros i Hi. rewrite numbered_len in Hi. rewrite numbered_points. apply (Di i Hi). }
  assert (Hfi : finds D co (length (numbered parts)) (points_of (numbered parts)) (p_at ps) (fun i => box_hit D co (boxes_of parts i))).
  { apply (box_finds over D HD co hgt _ _ _ _ Hti). intros i v Hi. rewrite numbered_len in Hi. rewrite numbered_points. now apply Hpb. }
  assert (Hme : two_filled D (length (numbered parts)) (points_of (numbered parts)) \/ hull_hit D (length (numbered parts)) (points_of (numbered parts)) (p_at ps) (fun i => box_hit D co (boxes_of parts i))).
  { rewrite numbered_len. assert (Hnb : forall i, points_of (numbered parts) i = pts_at parts i) by apply numbered_points. destruct Hpm as [Hpm|Hpm]; [left|right].
    - destruct Hpm as (i & j & u & v & H). exists i, j, u, v. rewrite !Hnb. exact H.
    - assert (Hh : hull_hit D (length parts) (pts_at parts) (p_at ps) (fun i => box_hit D co (boxes_of parts i))).
      { apply (box_reaches over D HD co hgt r parts (p_at ps)); auto.
        - intros i Hi. apply (Di i Hi).
        - intros i Hi. split; [apply (placed_sub D co r S _ Hpl); [exact (Sub i Hi)|intros v Hv; now apply (pd_inf _ _ _ _ _ Hpd)]|exact (breaks_sub _ _ _ _ _ Hbs (Sub i Hi))]. }
      destruct Hh as (i & j & u & id & x & v & H). exists i, j, u, id, x, v. rewrite Hnb. exact H. }
  assert (Hmi : forall i, i < length (numbered parts) -> (d_mark (p_at ps i) + 6 < 256)%N).
  { intros i Hi. rewrite numbered_len in Hi. specialize (Di' i Hi). unfold p_at. lia. }
  assert (Hln : length ps = length (numbered parts)) by (rewrite numbered_len; exact Hlp).
  destruct (edge_pts over D HDb co hgt r (numbered parts) (numbered_num parts) S Hpl Hbs Hpd' _ ps ps' edge W Hln Hti Hap Hfi Hme Hmi He) as (Nw & Wa & Pw & _).
  split; [exact Hpd|]. split; [exact Si|]. split; [split; [exact Nw|split; [intros v Hv; apply Hs, Wa, Hv|exact Pw]]|]. split; [exact Wa|].
  split; [exact Te|]. split; [intros t Hin; apply Hte, in_or_app; now right|lia].
Qed.

Definition trace_ok (prov : list (option nat)) (S : list N) (takes : list (N * N)) (cs : list bcall) : Prop :=
  (forall pv T, In (pv, T) cs -> (exists q, pv = prov ++ q) /\ length pv <= depth /\ NoDup T /\ incl T S /\ (forall v, (p_inf D <= v < 2 ^ 64)%N -> In v T) /\
     ((N.of_nat (length T) <= 500)%N \/ length pv = depth \/ par_edge = false /\ exists q, pv = q ++ [None])) /\
  NoDup (map fst cs) /\
  (forall v, In v S -> p_finite D v = true -> exists q T, In (prov ++ q, T) cs /\ plain (q, []) = true /\ In v T /\ forall q' T', In (prov ++ q', T') cs -> plain (q', []) = true -> In v T' -> q' = q /\ T' = T) /\
  (plain (prov, []) = true -> length (filter plain cs) <= K ^ (depth - length prov)) /\ (plain (prov, []) = false -> filter plain cs = []) /\ length cs = length takes.

Lemma filter_concat_len {A} (f : A -> bool) m : forall css, (forall i, i < length css -> length (filter f (nth i css [])) <= m) -> length (filter f (concat css)) <= length css * m.
Proof.
  induction css as [|c css IH]; intros H; [reflexivity|]. cbn [concat length]. rewrite filter_app, app_length. pose proof (H 0 ltac:(cbn; lia)) as H0. cbn [nth] in H0.
  specialize (IH (fun i Hi => H (Datatypes.S i) ltac:(cbn; lia))). lia.
Qed.
Lemma concat_len {A B} : forall (css : list (list A)) (tks : list (list B)), length css = length tks -> (forall i, i < length css -> length (nth i css []) = length (nth i tks [])) -> length (concat css) = length (concat tks).
Proof.
  induction css as [|c css IH]; intros [|t tks] L H; cbn in L; try discriminate; [reflexivity|]. cbn [concat]. rewrite !app_length. pose proof (H 0 ltac:(cbn; lia)) as H0. cbn [nth] in H0.
  rewrite H0, (IH tks); [reflexivity|lia|]. intros i Hi. apply (H (Datatypes.S i)). cbn. lia.
Qed.
Lemma in_concat_at {A} (a : A) css : In a (concat css) <-> exists i, i < length css /\ In a (nth i css []).
Proof.
  split; [|intros (i & Hi & H); eapply in_concat_nth; eauto]. intros H. apply in_concat in H as (l & Hl & H). apply (In_nth _ _ []) in Hl as (i & Hi & <-). eauto.
Qed.
Lemma nodup_concat {A} : forall (css : list (list A)), (forall i, i < length css -> NoDup (nth i css [])) -> (forall i j a, i < length css -> j < length css -> In a (nth i css []) -> In a (nth j css []) -> i = j) -> NoDup (concat css).
Proof.
  induction css as [|c css IH]; intros H1 H2; [constructor|]. cbn [concat]. apply NoDup_app_intro.
  - exact (H1 0 ltac:(cbn; lia)).
  - apply IH; [intros i Hi; apply (H1 (Datatypes.S i)); cbn; lia|]. intros i j a Hi Hj Ha Hb. specialize (H2 (Datatypes.S i) (Datatypes.S j) a ltac:(cbn; lia) ltac:(cbn; lia) Ha Hb). lia.
  - intros a Ha Hb. apply in_concat_at in Hb as (j & Hj & Hb). specialize (H2 0 (Datatypes.S j) a ltac:(cbn; lia) ltac:(cbn; lia) Ha Hb). lia.
Qed.

Lemma base_trace prov S t : sane S -> length prov <= depth -> (N.of_nat (length S) <= 500)%N \/ length prov = depth \/ par_edge = false /\ (exists q, prov = q ++ [None]) -> trace_ok prov S [t] [(prov, S)].
Proof.
  intros (Hn & Hs & Hp) Hd Hc. split; [|split; [|split; [|split; [|split]]]].
  - intros pv T [E|[]]. injection E as <- <-. split; [exists []; now rewrite app_nil_r|]. split; [exact Hd|]. split; [exact Hn|]. split; [apply incl_refl|]. split; [apply Hp|exact Hc].
  - cbn. constructor; [intros []|constructor].
  - intros v Hv _. exists [], S. rewrite app_nil_r. split; [now left|]. split; [reflexivity|]. split; [exact Hv|]. intros q' T' [E|[]] _ _. injection E as E1 <-. split; [|reflexivity].
    rewrite <- (app_nil_r prov) in E1 at 1. apply app_inv_head in E1. now symmetry.
  - intros _. cbn [filter]. pose proof (Nat.pow_nonzero K (depth - length prov) ltac:(lia)). destruct (plain (prov, S)); cbn [length]; lia.
  - intros Hf. cbn [filter]. change (plain (prov, S)) with (plain (prov, [])). now rewrite Hf.
  - reflexivity.
Qed.

Lemma trace_facts : forall n prov S out takes cs, depth - length prov <= n -> length prov <= depth -> sane S -> takes_ok takes -> trace prov S out takes cs -> trace_ok prov S takes cs.
Proof.
  assert (Base : forall prov S (t : N * N), length prov <= depth -> sane S -> Nat.ltb (length prov) depth && (500 <? N.of_nat (length S))%N = false -> trace_ok prov S [t] [(prov, S)]).
  { intros prov S t Hd Hs H. apply base_trace; auto. apply andb_false_iff in H as [H|H]; [apply Nat.ltb_ge in H; right; left; lia|apply N.ltb_ge in H; now left]. }
  induction n as [|n IH]; intros prov S out takes cs Hn Hd Hs Htk Ht;
    inversion Ht as [? ? ? start last H Hb|? ? parts ps ps' edge W edgeDT ? tks te css ce H Hsp Hlp Hlt Hlc Hsub He Hed Hjr]; subst; try (now apply Base);
    pose proof H as Hc; apply andb_prop in Hc as [H1 H2]; apply Nat.ltb_lt in H1; [lia|].
  destruct (split_facts prov S out parts ps ps' edge W edgeDT tks te Hs Htk H Hsp Hlp Hlt) as (Hpd & Hpi & Hw & HwS & Hte); auto.
  { intros i Hi. eapply trace_run; [apply le_n|]. apply Hsub, Hi. }
  assert (Oi : forall i, i < length parts -> trace_ok (prov ++ [Some i]) (pts_at parts i) (nth i tks []) (nth i css [])).
  { intros i Hi. destruct (Hpi i Hi) as [A1 A2]. eapply (IH (prov ++ [Some i])); [| |exact A1|exact A2|apply Hsub, Hi]; rewrite app_length; cbn [length]; lia. }
  assert (Oe : trace_ok (prov ++ [None]) W te ce).
  { inversion Hed as [? ? ? ? ? Hpe Hre|? ? ? start last Hpe Hbe]; subst.
    - eapply IH; [| |exact Hw|exact Hte|exact Hre]; rewrite app_length; cbn [length]; lia.
    - apply base_trace; [exact Hw|rewrite app_length; cbn [length]; lia|]. right. right. split; [exact Hpe|now exists prov]. }
  assert (Sub : forall i, i < length parts -> incl (pts_at parts i) S) by (intros i Hi v Hv; apply (pd_all _ _ _ _ _ Hpd); eauto).
  assert (Pre : forall i pv T, i < length parts -> In (pv, T) (nth i css []) -> exists q, pv = prov ++ Some i :: q).
  { intros i pv T Hi Hin. destruct (Oi i Hi) as [O1 _]. destruct (O1 pv T Hin) as [[q ->] _]. exists q. now rewrite <- app_assoc. }
  assert (PreE : forall pv T, In (pv, T) ce -> exists q, pv = prov ++ None :: q).
  { intros pv T Hin. destruct Oe as [O1 _]. destruct (O1 pv T Hin) as [[q ->] _]. exists q. now rewrite <- app_assoc. }
  split; [|split; [|split; [|split; [|split]]]].
  - intros pv T Hin. apply in_app_or in Hin as [Hin|Hin].
    + apply in_concat_at in Hin as (i & Hi & Hin). rewrite Hlc in Hi. destruct (Oi i Hi) as [O1 _]. destruct (O1 pv T Hin) as (_ & B2 & B3 & B4 & B5 & B6).
      destruct (Pre i pv T Hi Hin) as [q ->]. split; [eauto|]. split; [exact B2|]. split; [exact B3|]. split; [intros v Hv; apply (Sub i Hi), B4, Hv|]. split; [exact B5|exact B6].
    + destruct Oe as [O1 _]. destruct (O1 pv T Hin) as (_ & B2 & B3 & B4 & B5 & B6). destruct (PreE pv T Hin) as [q ->]. split; [eauto|]. split; [exact B2|]. split; [exact B3|].
      split; [intros v Hv; apply HwS, B4, Hv|]. split; [exact B5|exact B6].
  - rewrite map_app, concat_map. apply NoDup_app_intro.
    + apply nodup_concat.
      * intros i Hi. rewrite map_length in Hi. change (@nil (list (option nat))) with (map (@fst (list (option nat)) (list N)) []). rewrite map_nth. apply (Oi i). lia.
      * intros i j a Hi Hj Ha Hb. rewrite map_length in Hi, Hj. change (@nil (list (option nat))) with (map (@fst (list (option nat)) (list N)) []) in Ha, Hb. rewrite map_nth in Ha, Hb.
        apply in_map_iff in Ha as ([pv T] & <- & Ha). apply in_map_iff in Hb as ([pv' T'] & E & Hb). cbn [fst] in E. subst pv'.
        destruct (Pre i pv T ltac:(lia) Ha) as [q ->]. destruct (Pre j _ T' ltac:(lia) Hb) as [q' E]. apply app_inv_head in E. now injection E as -> _.
    + apply Oe.
    + intros a Ha Hb. rewrite <- concat_map in Ha. apply in_map_iff in Ha as ([pv T] & <- & Ha). apply in_map_iff in Hb as ([pv' T'] & E & Hb). cbn [fst] in E. subst pv'.
      apply in_concat_at in Ha as (i & Hi & Ha). destruct (Pre i pv T ltac:(lia) Ha) as [q ->]. destruct (PreE _ T' Hb) as [q' E]. apply app_inv_head in E. discriminate.
  - intros v Hv Hf. destruct (proj1 (pd_all _ _ _ _ _ Hpd v) Hv) as (i & Hi & Hvi). destruct (Oi i Hi) as (_ & _ & O3 & _). destruct (O3 v Hvi Hf) as (q & T & A1 & A2 & A3 & A4).
    exists (Some i :: q), T. split; [apply in_or_app; left; apply in_concat_at; exists i; split; [lia|]; now rewrite <- app_assoc in A1|]. split; [exact A2|]. split; [exact A3|].
    intros q' T' Hin Hq Hv'. apply in_app_or in Hin as [Hin|Hin].
    + apply in_concat_at in Hin as (j & Hj & Hin). rewrite Hlc in Hj. destruct (Pre j _ T' Hj Hin) as [q2 E]. apply app_inv_head in E. subst q'.
      assert (Hji : j = i). { apply (pd_one _ _ _ _ _ Hpd j i v); auto. destruct (Oi j Hj) as [O1 _]. destruct (O1 _ T' Hin) as (_ & _ & _ & B4 & _). apply B4, Hv'. }
      subst j. destruct (A4 q2 T') as [-> ->]; auto. now rewrite <- app_assoc.
    + destruct (PreE _ T' Hin) as [q2 E]. apply app_inv_head in E. subst q'. discriminate Hq.
  - intros Hpp. rewrite filter_app, app_length. destruct Oe as (_ & _ & _ & _ & O5 & _). rewrite O5 by (rewrite plain_app; cbn; now rewrite andb_false_r). cbn [length]. rewrite Nat.add_0_r.
    etransitivity; [apply (filter_concat_len plain (K ^ (depth - Datatypes.S (length prov))))|].
    + intros i Hi. rewrite Hlc in Hi. destruct (Oi i Hi) as (_ & _ & _ & O4 & _). rewrite app_length, Nat.add_1_r in O4. apply O4. rewrite plain_app, Hpp. reflexivity.
    + replace (depth - length prov) with (Datatypes.S (depth - Datatypes.S (length prov))) by lia. cbn [Nat.pow]. apply Nat.mul_le_mono_r. rewrite Hlc. eapply Hways; eauto.
  - intros Hpp. rewrite filter_app. destruct Oe as (_ & _ & _ & _ & O5 & _). rewrite O5 by (rewrite plain_app; cbn; now rewrite andb_false_r). rewrite app_nil_r.
    assert (G : length (filter plain (concat css)) <= length css * 0).
    { apply filter_concat_len. intros i Hi. rewrite Hlc in Hi. destruct (Oi i Hi) as (_ & _ & _ & _ & O5' & _). rewrite O5'; [reflexivity|]. now rewrite plain_app, Hpp. }
    destruct (filter plain (concat css)); [reflexivity|cbn in G; lia].
  - rewrite !app_length. destruct Oe as (_ & _ & _ & _ & _ & O6). rewrite O6. f_equal. apply concat_len; [lia|]. intros i Hi. rewrite Hlc in Hi. apply (Oi i Hi).
Qed.
End Rec.
