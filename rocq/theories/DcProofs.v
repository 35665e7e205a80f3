(** The recursion gives the triangulation. *)
From Coq Require Import Permutation Classical.
From Verif Require Import Outcome ListUtil WordsModel BlockModel BlockProofs BlockSpec SimplexModel Pool NbrModel MergeModel MergeSpec MergeUpdate GeoModel GeoSpec DelSpec DelGeo PlaceSpec DelPlace StepModel TriSpec StepBase StepEdge StepJoin StepProofs StepPlaced DcModel DcSpec DcBase DcHits.
Local Open Scope nat_scope.

Lemma fop_app {A} (R : A -> A -> Prop) : forall l m, ForallOrdPairs R (l ++ m) -> ForallOrdPairs R l /\ ForallOrdPairs R m /\ forall a b, In a l -> In b m -> R a b.
Proof.
  induction l as [|x l IH]; intros m H; cbn [app] in H; [split; [constructor|split; [exact H|intros a b []]]|].
  inversion H as [|? ? Hx Hl]; subst. destruct (IH m Hl) as (A1 & A2 & A3). rewrite Forall_forall in Hx. split; [constructor; [apply Forall_forall; intros y Hy; apply Hx, in_or_app; now left|exact A1]|]. split; [exact A2|].
  intros a b [<-|Ha] Hb; [apply Hx, in_or_app; now right|auto].
Qed.
Lemma fop_concat {A} (R : A -> A -> Prop) : forall L, ForallOrdPairs R (concat L) ->
  (forall i, i < length L -> ForallOrdPairs R (nth i L [])) /\ forall i j a b, i < j -> j < length L -> In a (nth i L []) -> In b (nth j L []) -> R a b.
Proof.
  induction L as [|l L IH]; intros H; cbn [concat] in H; [split; [intros i Hi|intros i j a b Hi Hj]; cbn in *; lia|].
  destruct (fop_app R l (concat L) H) as (A1 & A2 & A3). destruct (IH A2) as (B1 & B2). split.
  - intros [|i] Hi; cbn [nth]; [exact A1|apply B1; cbn in Hi; lia].
  - intros [|i] [|j] a b Hi Hj Ha Hb; cbn [nth length] in *; try lia.
    + apply A3; [exact Ha|]. apply in_concat. exists (nth j L []). split; [apply nth_In; lia|exact Hb].
    + apply (B2 i j); auto; lia.
Qed.
Lemma in_concat_nth {A} (a : A) L i : In a (nth i L []) -> In a (concat L).
Proof.
  intros H. destruct (Nat.lt_ge_cases i (length L)) as [Hi|Hi]; [|rewrite nth_overflow in H by exact Hi; destruct H].
  apply in_concat. exists (nth i L []). split; [now apply nth_In|exact H].
Qed.
Lemma nth_concat_len {A} : forall (L : list (list A)) i, length (nth i L []) <= length (concat L).
Proof. induction L as [|l L IH]; intros [|i]; cbn [nth concat]; rewrite ?app_length; cbn [length]; try lia. specialize (IH i). lia. Qed.
Lemma blocks_concat : forall ps (tks : list (list (N * N))), length ps = length tks -> (forall i, i < length ps -> length (d_arr (nth i ps no_d)) = length (nth i tks [])) -> blocks ps = length (concat tks).
Proof.
  induction ps as [|p ps IH]; intros [|t tks] Hl H; cbn in Hl; try discriminate; [reflexivity|]. change (blocks (p :: ps)) with (length (d_arr p) + blocks ps). cbn [concat]. rewrite app_length.
  pose proof (H 0 ltac:(cbn; lia)) as H0. cbn [nth] in H0. rewrite (IH tks), H0; [reflexivity|lia|]. intros i Hi. apply (H (Datatypes.S i)). cbn [length]. lia.
Qed.

Lemma numbered_len ps : length (numbered ps) = length ps.
Proof. change (length (combine (seq 0 (length ps)) (map fst ps)) = length ps). rewrite combine_length, seq_length, map_length. lia. Qed.
Lemma numbered_at ps k : k < length ps -> nth_error (numbered ps) k = Some (k, pts_at ps k).
Proof.
  intros Hk. unfold numbered, pts_at. apply (combine_nth_error (seq 0 (length ps)) (map fst ps)).
  - rewrite (nth_error_nth' _ 0) by (now rewrite seq_length). now rewrite seq_nth.
  - rewrite nth_error_map. rewrite (nth_error_nth' ps ([], mkbox (fun _ => 0%R) (fun _ => 0%R)) Hk). reflexivity.
Qed.
Lemma numbered_num ps k id pts : nth_error (numbered ps) k = Some (id, pts) -> id = k.
Proof.
  intros H. assert (Hk : k < length ps) by (rewrite <- numbered_len; apply (nth_error_Some (numbered ps)); congruence).
  rewrite (numbered_at ps k Hk) in H. congruence.
Qed.
Lemma numbered_points ps k : points_of (numbered ps) k = pts_at ps k.
Proof.
  unfold points_of. destruct (Nat.lt_ge_cases k (length ps)) as [Hk|Hk].
  - now rewrite (nth_error_nth (numbered ps) k (0, []) (numbered_at ps k Hk)).
  - rewrite nth_overflow by (rewrite numbered_len; exact Hk). unfold pts_at. now rewrite nth_overflow by exact Hk.
Qed.

Section Rec.
Variable over : N -> N.
Variable D : N.
Hypothesis HD : D = 2%N \/ D = 3%N.
Variable co : N -> vec.
Variable hgt : N -> R.
Variable r : vec.
Variable P : list N.
Hypothesis HP : placed D co r P.
Hypothesis HB : breaks (N.to_nat D) co hgt P.
Variable cgal : list N -> N -> list cell -> Prop.
Hypothesis Hcgal : forall S last cells, NoDup S -> incl S P -> placed D co r S -> cgal S last cells -> cgal_ok D co hgt S last cells.
Variable split : list (option nat) -> list N -> list (list N * box) -> Prop.
Hypothesis Hsplit : forall prov S ps, NoDup S -> incl S P -> placed D co r S -> (500 < N.of_nat (length S))%N -> split prov S ps -> split_ok D co r S ps.
Variable depth : nat.
Hypothesis Hdepth : 6 * depth < 256.
Variable par_edge : bool.
Notation run := (dc_run over D co cgal split depth par_edge).
Notation runs_edge := (dc_edge over D co cgal split depth par_edge).
Let HDb : (0 < D <= 30)%N. Proof. destruct HD as [-> | ->]; lia. Qed.

Definition in_takes (takes : list (N * N)) (i : N) : Prop := exists t, In t takes /\ (fst t <= i < fst t + snd t)%N.
Definition done (n : nat) (S : list N) (out : dsims) (takes : list (N * N)) : Prop :=
  triangulation over D co hgt S out /\ length (d_arr out) = length takes /\ (forall i, held out i <-> in_takes takes i) /\ (d_mark out <= N.of_nat (6 * n))%N /\
  (1 < length takes -> exists i, held out i /\ forall s, ~ shown out i s).

Lemma base_done n S out start last : NoDup S -> incl S P -> placed D co r S -> takes_ok [(start, last)] -> base_run over D cgal S out start last -> done n S out [(start, last)].
Proof.
  intros Hn Hs Hpl (_ & Ht & _) [dflt cells Hd Hm Hc E].
  destruct (base_ok over D HDb co hgt S (pl_small _ _ _ _ Hpl)) with (start := start) (last := last) (cells := cells) (dflt := dflt) as (out' & E' & T & M & L & He); auto.
  { apply (placed_dt D HDb co hgt r S Hpl). exact (generic_sub _ _ _ _ _ (proj2 HB) Hs). }
  { apply (Ht (start, last)). now left. }
  rewrite E in E'. injection E' as <-. split; [exact T|]. split; [exact L|]. split; [|split; [rewrite M; lia|cbn [length]; lia]]. intros i. rewrite He. split; [intros Hi; exists (start, last); split; [now left|exact Hi]|].
  intros (t & [<-|[]] & H). exact H.
Qed.

Lemma run_done : forall n prov S out takes, depth - length prov <= n -> NoDup S -> incl S P -> placed D co r S -> takes_ok takes -> 6 * n < 256 -> run prov S out takes -> done n S out takes.
Proof.
  induction n as [|n IH]; intros prov S out takes Hn Hnd Hs Hpl Htk H6 Hr.
  - inversion Hr as [? ? ? start last Ht Hb|? ? parts ps ps' edge W edgeDT ? tks te Ht]; subst; [eapply base_done; eauto|].
    apply andb_prop in Ht as [Ht _]. apply Nat.ltb_lt in Ht. lia.
  - inversion Hr as [? ? ? start last Ht Hb|? ? parts ps ps' edge W edgeDT ? tks te Ht Hsp Hlp Hlt Hsub He Hed Hjr]; subst; [eapply base_done; eauto|].
    apply andb_prop in Ht as [Ht1 Ht2]. apply Nat.ltb_lt in Ht1. apply N.ltb_lt in Ht2.
    destruct (Hsplit prov S parts Hnd Hs Hpl Ht2 Hsp) as [Hpd Hpn Hpb Hpm].
    destruct Htk as (Hta & Hte & Htl). rewrite app_length in Htl. destruct (fop_app _ _ _ Hta) as (Ta & Te & Tx). destruct (fop_concat _ _ Ta) as (Ti & Tij).
    assert (Sub : forall i, i < length parts -> incl (pts_at parts i) S) by (intros i Hi v Hv; apply (pd_all _ _ _ _ _ Hpd); eauto).
    assert (Di : forall i, i < length parts -> done n (pts_at parts i) (nth i ps no_d) (nth i tks [])).
    { intros i Hi. apply (IH (prov ++ [Some i])); auto.
      - rewrite app_length. cbn [length]. lia.
      - intros v Hv. apply Hs, (Sub i Hi v Hv).
      - apply (placed_sub D co r S _ Hpl); [exact (Sub i Hi)|]. intros v Hv. now apply (pd_inf _ _ _ _ _ Hpd).
      - split; [apply Ti; lia|]. split; [intros t Hin; apply Hte, in_or_app; left; eapply in_concat_nth; eauto|]. pose proof (nth_concat_len tks i). lia.
      - lia.
      - apply Hsub. exact Hi. }
    assert (Hap : ForallOrdPairs no_shared ps).
    { apply apart_at. intros i j Hi Hj Hne k a b Ha Hb. rewrite Hlp in Hi, Hj.
      destruct (Di i Hi) as (_ & _ & H1 & _). destruct (Di j Hj) as (_ & _ & H2 & _). destruct (proj1 (H1 k) ltac:(now exists a)) as (t1 & I1 & R1). destruct (proj1 (H2 k) ltac:(now exists b)) as (t2 & I2 & R2).
      destruct (Nat.lt_ge_cases i j) as [L|L]; [apply (Tij i j t1 t2 L ltac:(lia) I1 I2 k); auto|]. apply (Tij j i t2 t1 ltac:(lia) ltac:(lia) I2 I1 k); auto. }
    assert (Hpd' : partitioned D co (length (numbered parts)) (points_of (numbered parts)) S).
    { rewrite numbered_len. destruct Hpd as [A1 A2 A3 A4 A5]. constructor; setoid_rewrite numbered_points; auto. }
    assert (Hbs : breaks (N.to_nat D) co hgt S) by (exact (breaks_sub _ _ _ _ _ HB Hs)).
    assert (Hti : forall i, i < length (numbered parts) -> triangulation over D co hgt (points_of (numbered parts) i) (p_at ps i)).
    { intros i Hi. rewrite numbered_len in Hi. rewrite numbered_points. apply (Di i Hi). }
    assert (Hfi : finds D co (length (numbered parts)) (points_of (numbered parts)) (p_at ps) (fun i => box_hit D co (boxes_of parts i))).
    { apply (box_finds over D HD co hgt _ _ _ _ Hti). intros i v Hi. rewrite numbered_len in Hi. rewrite numbered_points. now apply Hpb. }
    assert (Hme : two_filled D (length (numbered parts)) (points_of (numbered parts)) \/ hull_hit D (length (numbered parts)) (points_of (numbered parts)) (p_at ps) (fun i => box_hit D co (boxes_of parts i))).
    { rewrite numbered_len. assert (Hnb : forall i, points_of (numbered parts) i = pts_at parts i) by apply numbered_points. destruct Hpm as [Hpm|Hpm]; [left|right].
      - destruct Hpm as (i & j & u & v & H). exists i, j, u, v. rewrite !Hnb. exact H.
      - assert (Hh : hull_hit D (length parts) (pts_at parts) (p_at ps) (fun i => box_hit D co (boxes_of parts i))).
        { apply (box_reaches over D HD co hgt r parts (p_at ps)); auto.
          - intros i Hi. apply (Di i Hi).
          - intros i Hi. split; [apply (placed_sub D co r S _ Hpl); [exact (Sub i Hi)|intros v Hv; now apply (pd_inf _ _ _ _ _ Hpd)]|exact (breaks_sub _ _ _ _ _ Hbs (Sub i Hi))]. }
        destruct Hh as (i & j & u & id & x & v & H). exists i, j, u, id, x, v. rewrite Hnb. exact H. }
    assert (Hmi : forall i, i < length (numbered parts) -> (d_mark (p_at ps i) + 6 < 256)%N).
    { intros i Hi. rewrite numbered_len in Hi. destruct (Di i Hi) as (_ & _ & _ & M & _). unfold p_at. lia. }
    assert (Hln : length ps = length (numbered parts)) by (rewrite numbered_len; exact Hlp).
    destruct (edge_pts over D HDb co hgt r (numbered parts) (numbered_num parts) S Hpl Hbs Hpd' _ ps ps' edge W Hln Hti Hap Hfi Hme Hmi He) as (Nw & Wa & Pw & _).
    assert (Hw : incl W P) by (intros v Hv; apply Hs, Wa, Hv).
    assert (Htw : takes_ok te) by (split; [exact Te|]; split; [intros t Hin; apply Hte, in_or_app; now right|lia]).
    assert (De : done n W edgeDT te).
    { inversion Hed as [? ? ? ? _ Hre|? ? ? start last _ Hbe]; subst.
      - apply (IH (prov ++ [None])); auto; [rewrite app_length; cbn [length]; lia|lia].
      - apply base_done; auto. }
    destruct De as (Tw & Lw & Hw' & Mw & _).
    assert (Hbl : blocks (edgeDT :: ps) = length te + length (concat tks)).
    { change (blocks (edgeDT :: ps)) with (length (d_arr edgeDT) + blocks ps). rewrite (blocks_concat ps tks); [lia|lia|]. intros i Hi. rewrite Hlp in Hi. apply (Di i Hi). }
    destruct (step_placed over D HDb co hgt r (numbered parts) (numbered_num parts) S Hpl Hbs Hpd' _ ps ps' edge W Hln Hti Hap Hfi Hme Hmi He edgeDT out) as (To & Lo & Ho & Ko & p & Hp & Mo); auto.
    { constructor; [|exact Hap]. apply Forall_forall. intros p Hp k a b Ha Hb. apply (In_nth _ _ no_d) in Hp as (i & Hi & <-). rewrite Hlp in Hi.
      destruct (Di i Hi) as (_ & _ & H1 & _). destruct (proj1 (H1 k) ltac:(now exists b)) as (t1 & I1 & R1). destruct (proj1 (Hw' k) ltac:(now exists a)) as (t2 & I2 & R2).
      apply (Tx t1 t2 (in_concat_nth _ _ _ I1) I2 k); auto. }
    { rewrite Hbl. lia. }
    { lia. }
    split; [exact To|]. split; [rewrite Lo, Hbl, app_length; lia|]. split.
    + intros i. split.
      { intros Hi. apply Ho in Hi as [Hi|(q & Hq & Hi)].
      * destruct (proj1 (Hw' i) Hi) as (t & It & Rt). exists t. split; [apply in_or_app; now right|exact Rt].
      * apply (In_nth _ _ no_d) in Hq as (j & Hj & <-). rewrite Hlp in Hj. destruct (Di j Hj) as (_ & _ & H1 & _). destruct (proj1 (H1 i) Hi) as (t & It & Rt). exists t.
        split; [apply in_or_app; left; eapply in_concat_nth; eauto|exact Rt]. }
      { intros (t & It & Rt). apply Ho. apply in_app_or in It as [It|It]; [right|left; apply Hw'; now exists t]. apply in_concat in It as (l & Hl & It).
        apply (In_nth _ _ []) in Hl as (j & Hj & <-). rewrite Hlt in Hj. exists (nth j ps no_d). split; [apply nth_In; lia|]. destruct (Di j Hj) as (_ & _ & H1 & _). apply H1. now exists t. }
    + split; [|intros _; exact Ko]. apply (In_nth _ _ no_d) in Hp as (j & Hj & <-). rewrite Hlp in Hj. destruct (Di j Hj) as (_ & _ & _ & M & _). lia.
Qed.
End Rec.
