(** The recursions: conversion of trees, buildTree and the base cases of the triangulators (C39, C46). *)
From Verif Require Import Outcome ListUtil WordsModel WordsProofs LPSetModel ProbeTheory LPSetProofs LPSetHistory LPSetIter SimplexModel PointModel PointProofs GeoModel GeoSpec GeoProofs PartModel PartSpec PartProofs TreeModel TreeSpec TreeProofs.
Local Open Scope nat_scope.

Section T.
Variable C : Type.
Variable bounds : C -> box.
Notation tree := (tree C).
Notation Leaves := (@Leaves C).

Lemma to_old_ok m ch ls : Forall2 Leaves ch ls -> good_sets (concat ls) -> small64 (4 * entries (concat ls)) -> (forall c, In c ch -> t_ck c <> None) -> forall id,
  exists ps cks, returns (fun f => to_old C bounds f m id ch) (ps, cks) /\ length ps = length ch /\ length cks = length ch /\
  forall j c l, nth_error ch j = Some c -> nth_error ls j = Some l -> exists k s, t_ck c = Some k /\ nth_error cks j = Some k /\
    nth_error ps j = Some (mkpart (id + j) s (bounds k)) /\ union_of C l s /\ (is_leaf c = true -> c = Tleaf (Some k) s) /\ (is_leaf c = false -> room s).
Proof.
  intros HF. induction HF as [|c l r ls Hc HF IH]; intros Hg Hsm Hck id.
  - exists [], []. split; [exists 0; intros; reflexivity|]. split; [reflexivity|]. split; [reflexivity|]. intros [|j] c l H; discriminate.
  - cbn [concat] in Hg, Hsm. rewrite entries_app in Hsm.
    destruct (collect_ok C m c l Hc) as [s [E [U [A B]]]]; [intros k' s' Hin; apply (Hg k' s'), in_app_iff; now left|eapply (small_le 64 w64); [|exact Hsm]; lia|].
    destruct (IH ltac:(intros k' s' Hin; apply (Hg k' s'), in_app_iff; now right) ltac:(eapply (small_le 64 w64); [|exact Hsm]; lia) ltac:(intros x Hx; apply Hck; now right) (S id)) as [ps [cks [E2 [L1 [L2 H2]]]]].
    destruct (t_ck c) as [k|] eqn:Ek; [|exfalso; apply (Hck c); [now left|exact Ek]].
    exists (mkpart id s (bounds k) :: ps), (k :: cks). split; [|split; [cbn; lia|split; [cbn; lia|]]].
    + cbn [to_old]. refine (returns_bind _ (fun c' f => rbind (t_ids c') (fun s => match t_ck c' with None => Undef | Some k => rmap (fun x => (mkpart id s (bounds k) :: fst x, k :: snd x)) (to_old C bounds f m (S id) r) end)) _ _ E _).
      cbn [t_ids rbind t_ck]. exact (returns_map _ (fun x => (mkpart id s (bounds k) :: fst x, k :: snd x)) _ E2).
    + intros [|j] c' l' Hc' Hl'.
      * injection Hc' as <-. injection Hl' as <-. exists k, s. split; [exact Ek|]. split; [reflexivity|]. rewrite Nat.add_0_r. split; [reflexivity|]. auto.
      * cbn [nth_error] in *. destruct (H2 j c' l' Hc' Hl') as [k' [s' [Q1 [Q2 [Q3 Q4]]]]]. exists k', s'. split; [exact Q1|]. split; [exact Q2|]. split; [|exact Q4].
        now replace (id + S j) with (S id + j) by lia.
Qed.

Lemma has_in s K i : rep s K -> (i <> 0)%N -> has s i <-> In i K.
Proof. intros HR Hz. split; [intros H; exact (holds_set s K i HR H Hz)|exact (holds_in s K i HR)]. Qed.
Lemma rep_nz s K i : rep s K -> In i K -> (i <> 0)%N.
Proof. intros HR Hi. apply (proj2 HR) in Hi. apply elem_In in Hi. apply Hi. Qed.
Lemma union_has l s i : union_of C l s -> (i <> 0)%N -> good_sets l -> has s i <-> in_leaves l i.
Proof.
  intros [K [R [_ U]]] Hz Hg. rewrite (has_in s K i R Hz), U. split.
  - intros [ck [t [H1 H2]]]. exists ck, t. split; [exact H1|]. destruct (Hg ck t H1) as [K' R']. apply (holds_in t K' i R'), (proj2 R'), H2.
  - intros [ck [t [H1 H2]]]. exists ck, t. split; [exact H1|]. destruct (Hg ck t H1) as [K' R']. apply (proj2 R'), (holds_set t K' i R' H2 Hz).
Qed.

(** *** buildTree *)
Section Build.
Variable D : nat.
Hypothesis HD : (N.of_nat D <= 30)%N.
Variable pts : points vec.
Variable mk : box -> C.
Hypothesis Hmk : forall b, bounds (mk b) = b.
Variable P : N -> Prop.
Hypothesis Pinf : forall i, is_inf_id (N.of_nat D) i -> P i.
Notation inf := (is_inf_id (N.of_nat D)).

(** A splitter that partitions every set of admissible ids. *)
Definition part_sets (ps : list part) : Prop := forall p, In p ps -> exists K, rep (pa_pts p) K.
Definition splits (split : lpset -> nat -> res (list part)) : Prop :=
  forall ids K, rep ids K -> (forall i, In i K -> P i) -> exists ps, returns (split ids) ps /\ good_partition D pts K false ps /\ part_sets ps.

Variable split : nat -> list nat -> lpset -> res (list part).
Hypothesis Hsplit : forall prov, splits (fun ids f => split f prov ids).
Variable cutoff : nat.

Definition boxed (b : box) (K : list N) : Prop := forall i, In i K -> ~ inf i -> exists c, p_get (N.of_nat D) pts i = Val c /\ in_box D b c.
(** What buildTree is to achieve. *)
Definition tree_ok (b : box) (K : list N) (lim : nat) (t : tree) (l : list (option C * lpset)) : Prop :=
  Leaves t l /\ good_sets l /\
  (forall i, In i K -> ~ inf i -> exists j ck s c, only (fun x => has (snd x) i) l j (Some ck, s) /\ p_get (N.of_nat D) pts i = Val c /\ in_box D (bounds ck) c) /\
  (forall ck s i, In (ck, s) l -> (i <> 0)%N -> has s i -> In i K \/ inf i) /\
  (forall d s, leaf_at t d s -> d = lim \/ d < lim /\ at_most D s cutoff).

Fixpoint build_parts (fuel : nat) (big : bool) (r : nat) (prov : list nat) (i : nat) (ps : list part) : res (list tree) :=
  match ps with
  | [] => Val []
  | p :: q => rbind (if big then build_tree C mk split fuel cutoff r (prov ++ [i]) (pa_box p) (pa_pts p) else Val (Tleaf (Some (mk (pa_box p))) (pa_pts p)))
                    (fun t => rmap (cons t) (build_parts fuel big r prov (S i) q))
  end.
Lemma build_S fuel r prov b ids : build_tree C mk split fuel cutoff (S r) prov b ids =
  rbind (split fuel prov ids) (fun ps => rmap (Tnode (Some (mk b))) (build_parts fuel (Nat.ltb cutoff (set_size ids)) r prov 0 ps)).
Proof.
  cbn [build_tree]. destruct (split fuel prov ids) as [ps| |]; cbn [rbind]; try reflexivity. f_equal. generalize 0 as i. induction ps as [|p q IH]; intros i; [reflexivity|].
  cbn [build_parts]. destruct (if Nat.ltb _ _ then _ else _) as [t| |]; cbn [rbind]; try reflexivity. now rewrite IH.
Qed.

Lemma at_most_sub s K n : rep s K -> (forall F, NoDup F -> (forall i, In i F -> In i K /\ ~ inf i) -> length F <= n) -> at_most D s n.
Proof. intros HR H F Hn HF. apply H; [exact Hn|]. intros i Hi. destruct (HF i Hi) as [A [B E]]. split; [now apply (has_in s K i HR A)|exact B]. Qed.

Lemma only_app_l {A} (Q : A -> Prop) l r j x : only Q l j x -> (forall y, In y r -> ~ Q y) -> only Q (l ++ r) j x.
Proof.
  intros [H1 [H2 H3]] Hr. split; [|split; [exact H2|]].
  - rewrite nth_error_app1; [exact H1|]. now apply nth_error_lt in H1.
  - intros j' x' Hj Hx. destruct (Nat.lt_ge_cases j' (length l)) as [H|H]; [rewrite nth_error_app1 in Hj by exact H; now apply (H3 j' x')|].
    exfalso. rewrite nth_error_app2 in Hj by exact H. apply nth_error_In in Hj. exact (Hr x' Hj Hx).
Qed.
Lemma only_app_r {A} (Q : A -> Prop) l r j x : only Q r j x -> (forall y, In y l -> ~ Q y) -> only Q (l ++ r) (length l + j) x.
Proof.
  intros [H1 [H2 H3]] Hl. split; [|split; [exact H2|]].
  - rewrite nth_error_app2 by lia. now replace (length l + j - length l) with j by lia.
  - intros j' x' Hj Hx. destruct (Nat.lt_ge_cases j' (length l)) as [H|H].
    + exfalso. rewrite nth_error_app1 in Hj by exact H. apply nth_error_In in Hj. exact (Hl x' Hj Hx).
    + rewrite nth_error_app2 in Hj by exact H. rewrite <- (H3 _ x' Hj Hx). lia.
Qed.

(** The parts [ps] of a partition: the trees built for them and what they hold. *)
Definition part_tree (lim : nat) (p : part) (t : tree) (l : list (option C * lpset)) : Prop :=
  exists K, rep (pa_pts p) K /\ boxed (pa_box p) K /\ tree_ok (pa_box p) K lim t l.

Definition part_pair (lim : nat) (p : part) (tl : tree * list (option C * lpset)) : Prop := part_tree lim p (fst tl) (snd tl).

Lemma build_parts_ok (big : bool) r lim prov ps : (forall p i, In p ps -> exists t l, returns (fun f => if big then build_tree C mk split f cutoff r (prov ++ [i]) (pa_box p) (pa_pts p) else Val (Tleaf (Some (mk (pa_box p))) (pa_pts p))) t /\ part_tree lim p t l) ->
  forall i, exists ts ls, returns (fun f => build_parts f big r prov i ps) ts /\ Forall2 (part_pair lim) ps (combine ts ls) /\ length ts = length ls.
Proof.
  induction ps as [|p q IH]; intros H i.
  - exists [], []. split; [exists 0; intros; reflexivity|]. split; [constructor|reflexivity].
  - destruct (H p i (or_introl eq_refl)) as [t [l [E1 H1]]]. destruct (IH (fun x j Hx => H x j (or_intror Hx)) (S i)) as [ts [ls [E2 [H2 L]]]].
    exists (t :: ts), (l :: ls). split; [|split; [constructor; [exact H1|exact H2]|cbn; lia]].
    cbn [build_parts]. refine (returns_bind _ (fun t f => rmap (cons t) (build_parts f big r prov (S i) q)) _ _ E1 _). exact (returns_map _ (cons t) _ E2).
Qed.

Lemma parts_leaves lim ps ts ls : Forall2 (part_pair lim) ps (combine ts ls) -> length ts = length ls -> Forall2 Leaves ts ls.
Proof.
  revert ps ls. induction ts as [|t ts IH]; intros ps [|l ls] H HL; try discriminate; [constructor|]. cbn [combine] in H. inversion H as [|p x q y H1 H2]; subst.
  constructor; [destruct H1 as [K [_ [_ H1]]]; apply H1|]. eapply IH; [exact H2|]. cbn in HL. lia.
Qed.
(** An id of part [j] and of no other part is in exactly one leaf. *)
Lemma parts_only lim i : forall ps ts ls, Forall2 (part_pair lim) ps (combine ts ls) -> length ts = length ls -> (i <> 0)%N -> ~ inf i ->
  forall j p, nth_error ps j = Some p -> holds p i -> (forall j' p', nth_error ps j' = Some p' -> holds p' i -> j' = j) ->
  exists n ck s c, only (fun x => has (snd x) i) (concat ls) n (Some ck, s) /\ p_get (N.of_nat D) pts i = Val c /\ in_box D (bounds ck) c.
Proof.
  induction ps as [|p0 q IH]; intros ts ls H HL Hz Hinf j p Hj Hp Hu; [destruct j; discriminate|].
  destruct ts as [|t ts], ls as [|l ls]; try discriminate; cbn [combine] in H; inversion H as [|? ? ? ? H1 H2]; subst. cbn [fst snd] in H1.
  destruct H1 as [K [R [Bx [TL [TG [T1 [T2 T3]]]]]]]. cbn [concat].
  assert (Hrest : forall ts ls q (j0 : nat), Forall2 (part_pair lim) q (combine ts ls) -> length ts = length ls -> (forall p', In p' q -> ~ holds p' i) -> forall y, In y (concat ls) -> ~ has (snd y) i).
  { clear - Hz Hinf. intros ts ls q _. revert ts ls. induction q as [|p q IH]; intros ts ls H HL Hq y Hy Hh.
    - destruct ts as [|? ?], ls as [|? ?]; try discriminate; [exact Hy|inversion H].
    - destruct ts as [|t ts], ls as [|l ls]; try discriminate; [exact Hy|]. cbn [combine] in H. inversion H as [|? ? ? ? H1 H2]; subst. cbn [concat] in Hy. apply in_app_iff in Hy. destruct Hy as [Hy|Hy].
      + cbn [fst snd] in H1. destruct H1 as [K [R [_ [_ [_ [_ [T2 _]]]]]]]. destruct y as [ck s]. destruct (T2 ck s i Hy Hz Hh) as [Hi|Hi]; [|contradiction].
        apply (Hq p (or_introl eq_refl)). exact (holds_in _ K i R Hi).
      + apply (IH ts ls H2 ltac:(cbn in HL; lia) (fun x Hx => Hq x (or_intror Hx)) y Hy Hh). }
  destruct j as [|j].
  - injection Hj as ->. assert (HK : In i K) by exact (holds_set _ K i R Hp Hz). destruct (T1 i HK Hinf) as [n [ck [s [c [Ho [Hg Hb]]]]]]. exists n, ck, s, c. split; [|auto].
    apply only_app_l; [exact Ho|]. apply (Hrest ts ls q 0 H2); [cbn in HL; lia|]. intros p' Hp' Hh. apply In_nth_error in Hp'. destruct Hp' as [j' Hj']. specialize (Hu (S j') p' Hj' Hh). discriminate.
  - destruct (IH ts ls H2 ltac:(cbn in HL; lia) Hz Hinf j p Hj Hp) as [n [ck [s [c [Ho [Hg Hb]]]]]].
    { intros j' p' Hj' Hh. specialize (Hu (S j') p' Hj' Hh). lia. }
    exists (length l + n), ck, s, c. split; [|auto]. apply only_app_r; [exact Ho|]. intros [ck' s'] Hy Hh. cbn [snd] in Hh. destruct (T2 ck' s' i Hy Hz Hh) as [Hi|Hi]; [|contradiction].
    specialize (Hu 0 p0 eq_refl (holds_in _ K i R Hi)). discriminate.
Qed.
Lemma parts_in lim : forall ps ts ls ck s, Forall2 (part_pair lim) ps (combine ts ls) -> length ts = length ls -> In (ck, s) (concat ls) ->
  (exists K, rep s K) /\ forall i, (i <> 0)%N -> has s i -> (exists p, In p ps /\ holds p i) \/ inf i.
Proof.
  induction ps as [|p q IH]; intros ts ls ck s H HL Hin.
  - destruct ts as [|? ?], ls as [|? ?]; try discriminate; [destruct Hin|inversion H].
  - destruct ts as [|t ts], ls as [|l ls]; try discriminate; [destruct Hin|]. cbn [combine] in H. inversion H as [|? ? ? ? H1 H2]; subst. cbn [concat] in Hin. apply in_app_iff in Hin. destruct Hin as [Hin|Hin].
    + cbn [fst snd] in H1. destruct H1 as [K [R [_ [_ [TG [_ [T2 _]]]]]]]. split; [exact (TG ck s Hin)|]. intros i Hz Hh. destruct (T2 ck s i Hin Hz Hh) as [Hi|Hi]; [left|now right]. exists p. split; [now left|exact (holds_in _ K i R Hi)].
    + destruct (IH ts ls ck s H2 ltac:(cbn in HL; lia) Hin) as [A B]. split; [exact A|]. intros i Hz Hh. destruct (B i Hz Hh) as [[p' [Hp' Hh']]|Hi]; [left|now right]. exists p'. split; [now right|exact Hh'].
Qed.
Lemma parts_depth lim : forall ps ts ls, Forall2 (part_pair lim) ps (combine ts ls) -> length ts = length ls -> forall t d s, In t ts -> leaf_at t d s -> d = lim \/ d < lim /\ at_most D s cutoff.
Proof.
  induction ps as [|p q IH]; intros ts ls H HL t d s Hin Hat.
  - destruct ts as [|? ?], ls as [|? ?]; try discriminate; [destruct Hin|inversion H].
  - destruct ts as [|t0 ts], ls as [|l ls]; try discriminate; [destruct Hin|]. cbn [combine] in H. inversion H as [|? ? ? ? H1 H2]; subst. destruct Hin as [->|Hin].
    + destruct H1 as [K [_ [_ [_ [_ [_ [_ T3]]]]]]]. exact (T3 d s Hat).
    + apply (IH ts ls H2 ltac:(cbn in HL; lia) t d s Hin Hat).
Qed.

Lemma good_parts K ps p : good_partition D pts K false ps -> part_sets ps -> In p ps -> exists K', rep (pa_pts p) K' /\ boxed (pa_box p) K' /\ (forall i, In i K' -> In i K /\ ~ inf i \/ inf i).
Proof.
  intros [G1 [G2 [G3 G4]]] Hs Hp. destruct (Hs p Hp) as [K' R]. apply In_nth_error in Hp. destruct Hp as [j Hj]. exists K'. split; [exact R|].
  assert (HX : forall i, In i K' -> In i K /\ ~ inf i \/ inf i).
  { intros i Hi. destruct (G3 j p i Hj (rep_nz _ _ _ R Hi) (holds_in _ K' i R Hi)) as [H|[_ H]]; auto. }
  split; [|exact HX]. intros i Hi Hinf. destruct (HX i Hi) as [[HK _]|]; [|contradiction]. destruct (G2 i HK) as [|[j0 [p0 [c [A1 [A2 [A3 [A4 A5]]]]]]]]; [contradiction|].
  assert (E : j = j0) by exact (A5 j p Hj (holds_in _ K' i R Hi)). subst j0. rewrite Hj in A1. injection A1 as <-. exists c. auto.
Qed.

Lemma build_ok : forall rem prov b ids K, rep ids K -> (forall i, In i K -> P i) -> boxed b K ->
  exists t l, returns (fun f => build_tree C mk split f cutoff rem prov b ids) t /\ is_leaf t = false /\ t_ck t = Some (mk b) /\ tree_ok b K (S rem) t l.
Proof.
  induction rem as [|r IH]; intros prov b ids K HR HP Hb.
  - exists (Tnode (Some (mk b)) [Tleaf (Some (mk b)) ids]), [(Some (mk b), ids)]. split; [exists 0; intros; reflexivity|]. split; [reflexivity|]. split; [reflexivity|].
    split; [apply (L_node _ _ [[(Some (mk b), ids)]]); repeat constructor|]. split; [intros ck s [E|[]]; injection E as _ <-; now exists K|]. split; [|split].
    + intros i Hi Hinf. destruct (Hb i Hi Hinf) as [c [Hc Hin]]. exists 0, (mk b), ids, c. split; [|rewrite Hmk; auto]. split; [reflexivity|]. split; [exact (holds_in _ K i HR Hi)|].
      intros [|[|j]] x Hx _; [reflexivity|discriminate|discriminate].
    + intros ck s i [E|[]] Hz Hh. injection E as _ <-. left. exact (holds_set _ K i HR Hh Hz).
    + intros d s Hat. left. inversion Hat as [|? ? ? d' ? Hin Hat']; subst. destruct Hin as [<-|[]]. now inversion Hat'.
  - destruct (Hsplit prov ids K HR HP) as [ps [E [G S]]]. pose proof G as [G1 [G2 [G3 G4]]].
    assert (HT : exists t ts ls lim, returns (fun f => build_tree C mk split f cutoff (Datatypes.S r) prov b ids) t /\ t = Tnode (Some (mk b)) ts /\
       Forall2 (part_pair lim) ps (combine ts ls) /\ length ts = length ls /\ (lim = Datatypes.S r \/ lim = 0 /\ (forall d s, leaf_at t d s -> at_most D s cutoff))).
    { destruct (Nat.ltb cutoff (set_size ids)) eqn:Ebig.
      - destruct (build_parts_ok true r (Datatypes.S r) prov ps) with (i := 0) as [ts [ls [E2 [H2 L2]]]].
        { intros p i Hp. destruct (good_parts K ps p G S Hp) as [K' [R' [B' I']]]. destruct (IH (prov ++ [i]) (pa_box p) (pa_pts p) K' R') as [t [l [A1 [A2 [A3 A4]]]]]; [|exact B'|].
          - intros x Hx. destruct (I' x Hx) as [[H _]|H]; auto.
          - exists t, l. split; [exact A1|]. exists K'. auto. }
        exists (Tnode (Some (mk b)) ts), ts, ls, (Datatypes.S r). split; [|auto].
        destruct (returns_bind _ (fun ps f => rmap (Tnode (Some (mk b))) (build_parts f true r prov 0 ps)) _ _ E (returns_map _ (Tnode (Some (mk b))) _ E2)) as [n Hn].
        exists n. intros f Hf. rewrite build_S, Ebig. now apply Hn.
      - destruct (build_parts_ok false r 0 prov ps) with (i := 0) as [ts [ls [E2 [H2 L2]]]].
        { intros p i Hp. destruct (good_parts K ps p G S Hp) as [K' [R' [B' I']]]. exists (Tleaf (Some (mk (pa_box p))) (pa_pts p)), [(Some (mk (pa_box p)), pa_pts p)].
          split; [exists 0; intros; reflexivity|]. exists K'. split; [exact R'|]. split; [exact B'|]. split; [constructor|]. split; [intros ck s [Ex|[]]; injection Ex as _ <-; now exists K'|]. split; [|split].
          - intros x Hx Hinf. destruct (B' x Hx Hinf) as [c [Hc Hin]]. exists 0, (mk (pa_box p)), (pa_pts p), c. split; [|rewrite Hmk; auto]. split; [reflexivity|]. split; [exact (holds_in _ K' x R' Hx)|].
            intros [|[|j]] y Hy _; [reflexivity|discriminate|discriminate].
          - intros ck s x [Ex|[]] Hz Hh. injection Ex as _ <-. left. exact (holds_set _ K' x R' Hh Hz).
          - intros d s Hat. left. now inversion Hat. }
        exists (Tnode (Some (mk b)) ts), ts, ls, 0. split; [|split; [reflexivity|split; [exact H2|split; [exact L2|right; split; [reflexivity|]]]]].
        + destruct (returns_bind _ (fun ps f => rmap (Tnode (Some (mk b))) (build_parts f false r prov 0 ps)) _ _ E (returns_map _ (Tnode (Some (mk b))) _ E2)) as [n Hn].
          exists n. intros f Hf. rewrite build_S, Ebig. now apply Hn.
        + intros d s Hat. inversion Hat as [|? ? t d' ? Hin Hat']; subst. clear Hat.
          assert (Hex : exists ck, In (ck, s) (concat ls)).
          { clear - H2 L2 Hin Hat'. revert ts ls H2 L2 Hin. induction ps as [|p q IHq]; intros ts ls H2 L2 Hin; destruct ts as [|t0 ts], ls as [|l ls]; try discriminate; try (inversion H2; fail); try (destruct Hin; fail).
            cbn [combine] in H2. inversion H2 as [|? ? ? ? H3 H4]; subst. cbn [concat]. destruct Hin as [->|Hin].
            - cbn [fst snd] in H3. destruct H3 as [K [_ [_ [TL [_ [_ [_ T3]]]]]]]. destruct (T3 d' s Hat') as [->|[Hlt _]]; [|lia]. inversion Hat' as [ck s0|]; subst. cbn [fst snd] in TL. inversion TL; subst. exists ck. apply in_app_iff. left. now left.
            - destruct (IHq ts ls H4 ltac:(cbn in L2; lia) Hin) as [ck Hck]. exists ck. apply in_app_iff. now right. }
          destruct Hex as [ck Hck]. destruct (parts_in 0 ps ts ls ck s H2 L2 Hck) as [[Ks Rs] HS].
          apply (at_most_sub s Ks cutoff Rs). intros F HF HFi. apply Nat.ltb_ge in Ebig. etransitivity; [|exact Ebig]. unfold set_size. rewrite (repr_items 64 ids K HR). unfold distinct.
          apply NoDup_incl_length; [exact HF|]. intros x Hx. apply nodup_In. destruct (HFi x Hx) as [Hk Hinf]. pose proof (rep_nz _ _ _ Rs Hk) as Hz.
          destruct (HS x Hz (holds_in _ Ks x Rs Hk)) as [[p [Hp Hh]]|]; [|contradiction]. apply In_nth_error in Hp. destruct Hp as [j Hj].
          destruct (G3 j p x Hj Hz Hh) as [[HK _]|[_ Hi]]; [exact HK|contradiction]. }
    destruct HT as [t [ts [ls [lim [Et [-> [H2 [L2 Hlim]]]]]]]]. exists (Tnode (Some (mk b)) ts), (concat ls). split; [exact Et|]. split; [reflexivity|]. split; [reflexivity|].
    split; [constructor; exact (parts_leaves lim ps ts ls H2 L2)|]. split; [intros ck s Hin; exact (proj1 (parts_in lim ps ts ls ck s H2 L2 Hin))|]. split; [|split].
    + intros i Hi Hinf. destruct (G2 i Hi) as [|[j [p [c [A1 [A2 [A3 [A4 A5]]]]]]]]; [contradiction|].
      exact (parts_only lim i ps ts ls H2 L2 (rep_nz _ _ _ HR Hi) Hinf j p A1 A2 A5).
    + intros ck s i Hin Hz Hh. destruct (proj2 (parts_in lim ps ts ls ck s H2 L2 Hin) i Hz Hh) as [[p [Hp Hx]]|Hx]; [|now right]. apply In_nth_error in Hp. destruct Hp as [j Hj].
      destruct (G3 j p i Hj Hz Hx) as [[H _]|[_ H]]; auto.
    + intros d s Hat. inversion Hat as [|? ? c d' ? Hin Hat']; subst. destruct (parts_depth lim ps ts ls H2 L2 c d' s Hin Hat') as [Hd|[Hd Hm]].
      * destruct Hlim as [->|[-> Hm]]; [left; lia|right; split; [lia|exact (Hm _ s Hat)]].
      * destruct Hlim as [->|[-> _]]; [right; split; [lia|exact Hm]|lia].
Qed.
End Build.
End T.
