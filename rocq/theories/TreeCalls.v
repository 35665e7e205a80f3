(** The base cases of the two triangulators (C46). *)
From Verif Require Import BlockProofs Outcome ListUtil WordsModel WordsProofs LPSetModel ProbeTheory LPSetProofs LPSetHistory LPSetIter SimplexModel PointModel PointProofs GeoModel GeoSpec GeoProofs PartModel PartSpec PartProofs TreeModel TreeSpec TreeProofs TreeTop.
Local Open Scope nat_scope.

Section DC.
Variable D : nat.
Variable pts : points vec.
Notation inf := (is_inf_id (N.of_nat D)).
Variable P : N -> Prop.
Hypothesis Pinf : forall i, inf i -> P i.
Variable dsplit : nat -> list (option nat) -> lpset -> res (list part).
Hypothesis Hsplit : forall prov, splits D pts P (fun ids f => dsplit f prov ids).
Variable edge : nat -> list (option nat) -> lpset -> res lpset.
Hypothesis Hedge : forall prov ids K, rep ids K -> (forall i, In i K -> P i) -> exists s Ks, returns (fun f => edge f prov ids) s /\ rep s Ks /\ forall i, In i Ks -> P i.
Variable depth : nat.
Variable pe : bool.
Notation calls := (list call).

Fixpoint part_calls (f : nat) (prov : list (option nat)) (i : nat) (ps : list part) : res calls :=
  match ps with
  | [] => Val []
  | p :: r => rbind (dc_calls dsplit edge f depth pe (prov ++ [Some i]) (pa_pts p)) (fun x => rmap (app x) (part_calls f prov (S i) r))
  end.
Lemma dc_S f prov ids : dc_calls dsplit edge (S f) depth pe prov ids =
  if Nat.ltb (length prov) depth && (500 <? N.of_nat (set_size ids))%N then
    rbind (dsplit f prov ids) (fun ps => rbind (part_calls f prov 0 ps) (fun parts => rbind (edge f prov ids) (fun e =>
    rmap (app parts) (if pe then dc_calls dsplit edge f depth pe (prov ++ [None]) e else Val [(prov ++ [None], e)]))))
  else Val [(prov, ids)].
Proof.
  cbn [dc_calls]. destruct (Nat.ltb _ _ && _); [|reflexivity]. destruct (dsplit f prov ids) as [ps| |]; cbn [rbind]; try reflexivity. f_equal.
  generalize 0 as i. induction ps as [|p r IH]; intros i; [reflexivity|]. cbn [part_calls]. destruct (dc_calls dsplit edge f depth pe (prov ++ [Some i]) (pa_pts p)) as [x| |]; cbn [rbind]; try reflexivity. now rewrite IH.
Qed.

(** What the calls made for the ids [K] with the provenance [prov] are like. *)
Definition edge_call (pv : list (option nat)) : Prop := exists q, pv = q ++ [None].
Definition plain (q : list (option nat)) : Prop := ~ In None q.
Definition dc_good (prov : list (option nat)) (K : list N) (cs : calls) : Prop :=
  (forall pv s, In (pv, s) cs -> exists q Ks, pv = prov ++ q /\ rep s Ks /\ forall i, In i Ks -> P i) /\
  (forall pv s, In (pv, s) cs -> length pv <= depth \/ pv = prov) /\
  (forall pv s, In (pv, s) cs -> (N.of_nat (set_size s) <= 500)%N \/ depth <= length pv \/ pe = false /\ edge_call pv) /\
  (forall i, In i K -> ~ inf i -> exists q s, In (prov ++ q, s) cs /\ plain q /\ has s i /\
     forall q' s', In (prov ++ q', s') cs -> plain q' -> has s' i -> q' = q /\ s' = s) /\
  (forall q s i, In (prov ++ q, s) cs -> plain q -> (i <> 0)%N -> has s i -> In i K \/ inf i) /\
  NoDup (map fst cs).

Lemma returns_later {A} (g : nat -> res A) (h : nat -> res A) v : returns g v -> (forall f, h (S f) = g f) -> returns h v.
Proof. intros [n Hn] H. exists (S n). intros [|f] Hf; [lia|]. rewrite H. apply Hn. lia. Qed.

Lemma app_inj_pre {A} (a b c : list A) : a ++ b = a ++ c -> b = c.
Proof. apply app_inv_head. Qed.

(** The calls for the parts from number [i] on. *)
Definition parts_good (prov : list (option nat)) (i : nat) (ps : list part) (cs : calls) : Prop :=
  (forall pv s, In (pv, s) cs -> exists j q Ks, i <= j < i + length ps /\ pv = prov ++ Some j :: q /\ rep s Ks /\ forall i, In i Ks -> P i) /\
  (forall pv s, In (pv, s) cs -> length pv <= depth) /\
  (forall pv s, In (pv, s) cs -> (N.of_nat (set_size s) <= 500)%N \/ depth <= length pv \/ pe = false /\ edge_call pv) /\
  (forall j p x, nth_error ps j = Some p -> (x <> 0)%N -> ~ inf x -> holds p x -> exists q s, In (prov ++ Some (i + j) :: q, s) cs /\ plain q /\ has s x /\
     forall q' s', In (prov ++ Some (i + j) :: q', s') cs -> plain q' -> has s' x -> q' = q /\ s' = s) /\
  (forall j q s x, In (prov ++ Some j :: q, s) cs -> plain q -> (x <> 0)%N -> has s x -> inf x \/ exists p, i <= j /\ nth_error ps (j - i) = Some p /\ holds p x) /\
  NoDup (map fst cs).

Lemma parts_calls_ok prov ps : length prov < depth -> (forall p, In p ps -> exists K, rep (pa_pts p) K /\ (forall i, In i K -> P i)) ->
  (forall i s K, rep s K -> (forall x, In x K -> P x) -> exists cs, returns (fun f => dc_calls dsplit edge f depth pe (prov ++ [Some i]) s) cs /\ dc_good (prov ++ [Some i]) K cs) ->
  forall i, exists cs, returns (fun f => part_calls f prov i ps) cs /\ parts_good prov i ps cs.
Proof.
  intros Hlen Hps Hrec. induction ps as [|p r IH]; intros i.
  - exists []. split; [exists 0; intros; reflexivity|]. split; [|split; [|split; [|split; [|split]]]]; cbn [In]; try (intros; contradiction); [|constructor]. intros j p0 x H. destruct j; discriminate.
  - destruct (Hps p (or_introl eq_refl)) as [K [R HK]]. destruct (Hrec i (pa_pts p) K R HK) as [c1 [E1 [A1 [A2 [A3 [A4 [A5 A6]]]]]]].
    destruct (IH (fun x Hx => Hps x (or_intror Hx)) (S i)) as [c2 [E2 [B1 [B2 [B3 [B4 [B5 B6]]]]]]]. exists (c1 ++ c2). split.
    { cbn [part_calls]. refine (returns_bind _ (fun x f => rmap (app x) (part_calls f prov (S i) r)) _ _ E1 _). exact (returns_map _ (app c1) _ E2). }
    assert (Eap : forall (q : list (option nat)) j, (prov ++ [Some j]) ++ q = prov ++ Some j :: q) by (intros; rewrite <- app_assoc; reflexivity).
    assert (X1 : forall j q s, In (prov ++ Some j :: q, s) c1 -> j = i).
    { intros j q s Hin. destruct (A1 _ _ Hin) as [q' [_ [E _]]]. rewrite Eap in E. apply app_inj_pre in E. now injection E. }
    assert (X2 : forall j q s, In (prov ++ Some j :: q, s) c2 -> S i <= j).
    { intros j q s Hin. destruct (B1 _ _ Hin) as [j' [q' [_ [Hj [E _]]]]]. apply app_inj_pre in E. injection E as -> _. lia. }
    split; [|split; [|split; [|split; [|split]]]].
    + intros pv s Hin. apply in_app_iff in Hin. destruct Hin as [Hin|Hin].
      * destruct (A1 pv s Hin) as [q [Ks [-> H]]]. exists i, q, Ks. rewrite Eap. cbn [length]. split; [lia|]. auto.
      * destruct (B1 pv s Hin) as [j [q [Ks [Hj H]]]]. exists j, q, Ks. cbn [length]. split; [lia|exact H].
    + intros pv s Hin. apply in_app_iff in Hin. destruct Hin as [Hin|Hin]; [|exact (B2 pv s Hin)].
      destruct (A2 pv s Hin) as [H| ->]; [exact H|]. rewrite app_length. cbn. lia.
    + intros pv s Hin. apply in_app_iff in Hin. destruct Hin as [Hin|Hin]; [exact (A3 pv s Hin)|exact (B3 pv s Hin)].
    + intros [|j] p' x Hj Hz Hinf Hh.
      * injection Hj as <-. rewrite Nat.add_0_r. destruct (A4 x (holds_set _ K x R Hh Hz) Hinf) as [q [s [Q1 [Q2 [Q3 Q4]]]]]. rewrite Eap in Q1. exists q, s.
        split; [apply in_app_iff; now left|]. split; [exact Q2|]. split; [exact Q3|]. intros q' s' Hin Hp Hs. apply in_app_iff in Hin. destruct Hin as [Hin|Hin].
        -- apply (Q4 q' s'); auto. now rewrite Eap.
        -- apply X2 in Hin. lia.
      * destruct (B4 j p' x Hj Hz Hinf Hh) as [q [s [Q1 [Q2 [Q3 Q4]]]]]. replace (i + S j) with (S i + j) by lia. exists q, s. split; [apply in_app_iff; now right|]. split; [exact Q2|]. split; [exact Q3|].
        intros q' s' Hin Hp Hs. apply in_app_iff in Hin. destruct Hin as [Hin|Hin]; [apply X1 in Hin; lia|]. exact (Q4 q' s' Hin Hp Hs).
    + intros j q s x Hin Hp Hz Hh. apply in_app_iff in Hin. destruct Hin as [Hin|Hin].
      * pose proof (X1 _ _ _ Hin) as ->. rewrite <- Eap in Hin. destruct (A5 q s x Hin Hp Hz Hh) as [H|H]; [right|now left]. exists p. rewrite Nat.sub_diag. split; [lia|]. split; [reflexivity|]. exact (holds_in _ K x R H).
      * pose proof (X2 _ _ _ Hin) as Hj. destruct (B5 j q s x Hin Hp Hz Hh) as [H|[p' [Hle [Hn Hp']]]]; [now left|right]. exists p'. split; [lia|]. split; [|exact Hp'].
        replace (j - i) with (S (j - S i)) by lia. exact Hn.
    + rewrite map_app. apply NoDup_app_intro; [exact A6|exact B6|]. intros pv H1 H2. apply in_map_iff in H1. apply in_map_iff in H2. destruct H1 as [[p1 s1] [Ea Ha]], H2 as [[p2 s2] [Eb Hb]]. cbn [fst] in Ea, Eb. subst p1 p2.
      destruct (B1 _ _ Hb) as [j [q [_ [Hj [-> _]]]]]. apply X1 in Ha. lia.
Qed.

Lemma dc_ok : forall n prov ids K, depth - length prov <= n -> rep ids K -> (forall i, In i K -> P i) ->
  exists cs, returns (fun f => dc_calls dsplit edge f depth pe prov ids) cs /\ dc_good prov K cs.
Proof.
  induction n as [n IHn] using (well_founded_induction Wf_nat.lt_wf). intros prov ids K Hn HR HP.
  destruct (Nat.ltb (length prov) depth && (500 <? N.of_nat (set_size ids))%N) eqn:Ec.
  - apply andb_prop in Ec. destruct Ec as [Ec1 Ec2]. apply Nat.ltb_lt in Ec1. pose proof Ec2 as Ec2'. apply N.ltb_lt in Ec2.
    destruct (Hsplit prov ids K HR HP) as [ps [E [G S]]]. pose proof G as [G1 [G2 [G3 G4]]].
    assert (Hrec : forall x s K, rep s K -> (forall y, In y K -> P y) -> exists cs, returns (fun f => dc_calls dsplit edge f depth pe (prov ++ [x]) s) cs /\ dc_good (prov ++ [x]) K cs).
    { intros x s K' R' HP'. apply (IHn (n - 1)); auto; [|rewrite app_length; cbn]; lia. }
    destruct (parts_calls_ok prov ps Ec1) with (i := 0) as [c1 [E1 [A1 [A2 [A3 [A4 [A5 A6]]]]]]].
    { intros p Hp. destruct (good_parts D pts K ps p G S Hp) as [K' [R' [_ I']]]. exists K'. split; [exact R'|]. intros i Hi. destruct (I' i Hi) as [[H _]|H]; auto. }
    { intros i s K' R' HP'. apply Hrec; assumption. }
    destruct (Hedge prov ids K HR HP) as [es [Ks [E2 [R2 HP2]]]].
    assert (HE : exists c2, returns (fun f => if pe then dc_calls dsplit edge f depth pe (prov ++ [None]) es else Val [(prov ++ [None], es)]) c2 /\
      (forall pv s, In (pv, s) c2 -> exists q Ks, pv = prov ++ None :: q /\ rep s Ks /\ forall i, In i Ks -> P i) /\
      (forall pv s, In (pv, s) c2 -> length pv <= depth) /\
      (forall pv s, In (pv, s) c2 -> (N.of_nat (set_size s) <= 500)%N \/ depth <= length pv \/ pe = false /\ edge_call pv) /\ NoDup (map fst c2)).
    { assert (Eap : forall (q : list (option nat)), (prov ++ [None]) ++ q = prov ++ None :: q) by (intros; rewrite <- app_assoc; reflexivity).
      destruct (Bool.bool_dec pe true) as [Epe|Epe]; [|apply Bool.not_true_is_false in Epe].
      - destruct (Hrec None es Ks R2 HP2) as [c2 [Q0 [Q1 [Q2 [Q3 [_ [_ Q6]]]]]]]. exists c2. split; [destruct Q0 as [n0 Q0]; exists n0; intros f Hf; rewrite <- (Q0 f Hf), Epe; reflexivity|]. split; [|split; [|split; [exact Q3|exact Q6]]].
        + intros pv s Hin. destruct (Q1 pv s Hin) as [q [K' [-> H]]]. exists q, K'. now rewrite Eap.
        + intros pv s Hin. destruct (Q2 pv s Hin) as [H| ->]; [exact H|]. rewrite app_length. cbn. lia.
      - exists [(prov ++ [None], es)]. split; [exists 0; intros; now rewrite Epe|]. split; [|split; [|split]].
        + intros pv s [H|[]]. injection H as <- <-. exists [], Ks. auto.
        + intros pv s [H|[]]. injection H as <- <-. rewrite app_length. cbn. lia.
        + intros pv s [H|[]]. injection H as <- <-. right. right. split; [exact Epe|]. now exists prov.
        + cbn. constructor; [easy|constructor]. }
    destruct HE as [c2 [E3 [B1 [B2 [B3 B6]]]]]. exists (c1 ++ c2). split.
    + eapply returns_later; [|intros f; rewrite dc_S; replace (Nat.ltb (length prov) depth) with true by (symmetry; now apply Nat.ltb_lt); rewrite Ec2'; cbn [andb]; reflexivity].
      refine (returns_bind _ (fun ps f => rbind (part_calls f prov 0 ps) (fun parts => rbind (edge f prov ids) (fun e => rmap (app parts) (if pe then dc_calls dsplit edge f depth pe (prov ++ [None]) e else Val [(prov ++ [None], e)])))) _ _ E _).
      refine (returns_bind _ (fun parts f => rbind (edge f prov ids) (fun e => rmap (app parts) (if pe then dc_calls dsplit edge f depth pe (prov ++ [None]) e else Val [(prov ++ [None], e)]))) _ _ E1 _).
      refine (returns_bind _ (fun e f => rmap (app c1) (if pe then dc_calls dsplit edge f depth pe (prov ++ [None]) e else Val [(prov ++ [None], e)])) _ _ E2 _).
      exact (returns_map _ (app c1) _ E3).
    + assert (X2 : forall q s, In (prov ++ q, s) c2 -> plain q -> False).
      { intros q s Hin Hp. destruct (B1 _ _ Hin) as [q' [_ [Eq _]]]. apply app_inj_pre in Eq. subst q. apply Hp. now left. }
      split; [|split; [|split; [|split; [|split]]]].
      * intros pv s Hin. apply in_app_iff in Hin. destruct Hin as [Hin|Hin].
        -- destruct (A1 pv s Hin) as [j [q [K' [_ [-> H]]]]]. exists (Some j :: q), K'. auto.
        -- destruct (B1 pv s Hin) as [q [K' [-> H]]]. exists (None :: q), K'. auto.
      * intros pv s Hin. left. apply in_app_iff in Hin. destruct Hin as [Hin|Hin]; [exact (A2 pv s Hin)|exact (B2 pv s Hin)].
      * intros pv s Hin. apply in_app_iff in Hin. destruct Hin as [Hin|Hin]; [exact (A3 pv s Hin)|exact (B3 pv s Hin)].
      * intros i Hi Hinf. destruct (G2 i Hi) as [|[j [p [c [C1 [C2 [_ [_ C5]]]]]]]]; [contradiction|]. pose proof (rep_nz _ _ _ HR Hi) as Hz.
        destruct (A4 j p i C1 Hz Hinf C2) as [q [s [Q1 [Q2 [Q3 Q4]]]]]. cbn [Nat.add] in Q1, Q4. exists (Some j :: q), s. split; [apply in_app_iff; now left|]. split; [intros [H|H]; [discriminate|contradiction]|]. split; [exact Q3|].
        intros q' s' Hin Hp Hs. apply in_app_iff in Hin. destruct Hin as [Hin|Hin]; [|exfalso; exact (X2 q' s' Hin Hp)].
        destruct (A1 _ _ Hin) as [j' [q0 [_ [_ [Eq _]]]]]. apply app_inj_pre in Eq. subst q'. assert (Hp0 : plain q0) by (intros H; apply Hp; now right).
        destruct (A5 j' q0 s' i Hin Hp0 Hz Hs) as [H|[p' [_ [Hj' Hp']]]]; [contradiction|]. rewrite Nat.sub_0_r in Hj'. assert (j' = j) by exact (C5 j' p' Hj' Hp'). subst j'.
        destruct (Q4 q0 s' Hin Hp0 Hs) as [-> ->]. auto.
      * intros q s i Hin Hp Hz Hh. apply in_app_iff in Hin. destruct Hin as [Hin|Hin]; [|exfalso; exact (X2 q s Hin Hp)].
        destruct (A1 _ _ Hin) as [j' [q0 [_ [_ [Eq _]]]]]. apply app_inj_pre in Eq. subst q. assert (Hp0 : plain q0) by (intros H; apply Hp; now right).
        destruct (A5 j' q0 s i Hin Hp0 Hz Hh) as [H|[p' [_ [Hj' Hp']]]]; [now right|]. destruct (G3 _ p' i Hj' Hz Hp') as [[H _]|[_ H]]; auto.
      * rewrite map_app. apply NoDup_app_intro; [exact A6|exact B6|]. intros pv H1 H2. apply in_map_iff in H1. apply in_map_iff in H2. destruct H1 as [[p1 s1] [Ea Ha]], H2 as [[p2 s2] [Eb Hb]]. cbn [fst] in Ea, Eb. subst p1 p2.
        destruct (A1 _ _ Ha) as [j [q [_ [_ [-> _]]]]]. destruct (B1 _ _ Hb) as [q' [_ [Eq _]]]. apply app_inj_pre in Eq. discriminate.
  - exists [(prov, ids)]. split.
    + eapply returns_later; [|intros f; rewrite dc_S, Ec; reflexivity]. exists 0. reflexivity.
    + split; [|split; [|split; [|split; [|split]]]].
      * intros pv s [H|[]]. injection H as <- <-. exists [], K. rewrite app_nil_r. auto.
      * intros pv s [H|[]]. injection H as <- <-. now right.
      * intros pv s [H|[]]. injection H as <- <-. apply Bool.andb_false_iff in Ec. destruct Ec as [Ec|Ec]; [apply Nat.ltb_ge in Ec; auto|apply N.ltb_ge in Ec; auto].
      * intros i Hi Hinf. exists [], ids. rewrite app_nil_r. split; [now left|]. split; [intros []|]. split; [exact (holds_in _ K i HR Hi)|].
        intros q' s' [H|[]] _ _. injection H as H1 H2. rewrite <- (app_nil_r prov) in H1 at 1. apply app_inj_pre in H1. auto.
      * intros q s i [H|[]] _ Hz Hh. injection H as H1 <-. left. exact (holds_set _ K i HR Hh Hz).
      * cbn. constructor; [easy|constructor].
Qed.
End DC.

(** *** recursiveTriangulate *)
Section LB.
Variable C : Type.
Notation tree := (tree C).
Variable tedge : list (option nat) -> list tree -> lpset.
(** Every tree has a checker and either at least two children or one leaf. *)
Inductive proper : tree -> Prop :=
| proper_leaf k s : proper (Tleaf (Some k) s)
| proper_one k k' s : proper (Tnode (Some k) [Tleaf (Some k') s])
| proper_many k c1 c2 ch : Forall proper (c1 :: c2 :: ch) -> proper (Tnode (Some k) (c1 :: c2 :: ch)).

Lemma proper_copyable t : proper t -> copyable t = true.
Proof.
  induction t as [ck s|ck ch IH] using tree_ind2; intros Hp; [inversion Hp; reflexivity|]. assert (H : exists k, ck = Some k /\ Forall (fun c => copyable c = true) ch).
  { inversion Hp as [|k k' s|k c1 c2 ch' HF]; subst; [exists k; split; [reflexivity|repeat constructor]|]. exists k. split; [reflexivity|]. rewrite Forall_forall in *. auto. }
  destruct H as (k & -> & H). cbn [copyable]. clear - H. induction H as [|c r Hc _ IH]; [reflexivity|]. now rewrite Hc, IH.
Qed.
Fixpoint child_calls (prov : list (option nat)) (i : nat) (ch : list tree) : res (list call) :=
  match ch with
  | [] => Val []
  | c :: r => rbind (if copyable c then lb_calls C tedge (prov ++ [Some i]) c else Undef) (fun x => rmap (app x) (child_calls prov (S i) r))
  end.
Lemma lb_many prov k c1 c2 ch : lb_calls C tedge prov (Tnode (Some k) (c1 :: c2 :: ch)) =
  rmap (fun x => x ++ [(prov ++ [None], tedge prov (c1 :: c2 :: ch))]) (child_calls prov 0 (c1 :: c2 :: ch)).
Proof.
  assert (H : forall l i, (fix go (i : nat) (ch : list tree) : res (list call) :=
                   match ch with
                   | [] => Val []
                   | c :: r => rbind (if copyable c then lb_calls C tedge (prov ++ [Some i]) c else Undef) (fun x => rmap (app x) (go (S i) r))
                   end) i l = child_calls prov i l).
  { induction l as [|c r IH]; intros i; [reflexivity|]. cbn [child_calls]. destruct (if copyable c then _ else _) as [x| |]; cbn [rbind]; try reflexivity. now rewrite IH. }
  rewrite <- (H (c1 :: c2 :: ch) 0). reflexivity.
Qed.

Definition is_edge (c : call) : bool := existsb (fun o => match o with None => true | Some _ => false end) (fst c).
(** The calls for a tree: those that are not edge triangulations get the sets of the leaves, in order. *)
Lemma lb_ok t : proper t -> forall prov, existsb (fun o => match o with None => true | Some _ => false end) prov = false -> forall l, Leaves t l ->
  exists cs, lb_calls C tedge prov t = Val cs /\ map snd (filter (fun c => negb (is_edge c)) cs) = map snd l /\
  (forall pv s, In (pv, s) cs -> exists q, pv = prov ++ q).
Proof.
  induction t as [ck s|ck ch IH] using tree_ind2; intros Hp prov Hpl l HL.
  - inversion Hp; subst. inversion HL; subst. exists [(prov, s)]. split; [reflexivity|]. cbn [filter]. unfold is_edge. cbn [fst]. rewrite Hpl. split; [reflexivity|]. intros pv s' [H|[]]. injection H as <- <-. exists []. now rewrite app_nil_r.
  - inversion Hp as [|k ck' s|k c1 c2 ch' HF]; subst.
    + inversion HL as [|? ? ls HF]; subst. inversion HF as [|? l1 ? l2 H1 H2]; subst. inversion H2; subst. inversion H1; subst. exists [(prov, s)]. split; [reflexivity|]. cbn [filter]. unfold is_edge. cbn [fst]. rewrite Hpl. split; [reflexivity|].
      intros pv s' [H|[]]. injection H as <- <-. exists []. now rewrite app_nil_r.
    + rewrite lb_many. inversion HL as [|? ? ls HF2]; subst. clear HL Hp. revert HF HF2 IH. generalize (tedge prov (c1 :: c2 :: ch')). generalize (c1 :: c2 :: ch'). intros ch e HF HF2 IH.
      assert (HC : forall i, exists cs, child_calls prov i ch = Val cs /\ map snd (filter (fun c => negb (is_edge c)) cs) = map snd (concat ls) /\ (forall pv s, In (pv, s) cs -> exists q, pv = prov ++ q)).
      { revert HF IH. induction HF2 as [|c l1 r ls1 Hc HF2 IHr]; intros HF IH i.
        - exists []. split; [reflexivity|]. split; [reflexivity|]. intros ? ? [].
        - inversion HF; subst. inversion IH; subst. destruct (H3 H1 (prov ++ [Some i])) with (l := l1) as [x [Ex [Hx Hq]]]; [rewrite existsb_app, Hpl; reflexivity|exact Hc|].
          destruct (IHr H2 H4 (S i)) as [y [Ey [Hy Hqy]]]. exists (x ++ y). cbn [child_calls]. rewrite (proper_copyable c H1), Ex. cbn [rbind]. rewrite Ey. split; [reflexivity|].
          split; [rewrite filter_app; cbn [concat]; rewrite !map_app; f_equal; [exact Hx|exact Hy]|]. intros pv s Hin. apply in_app_iff in Hin. destruct Hin as [Hin|Hin]; [|exact (Hqy pv s Hin)].
          destruct (Hq pv s Hin) as [q ->]. exists (Some i :: q). now rewrite <- app_assoc. }
      destruct (HC 0) as [cs [E [H Hq]]]. rewrite E. exists (cs ++ [(prov ++ [None], e)]). split; [reflexivity|]. split.
      * rewrite <- H, filter_app, map_app. cbn [filter]. assert (Ee : is_edge (prov ++ [None], e) = true) by (unfold is_edge; cbn [fst]; rewrite existsb_app; cbn [existsb]; now rewrite Bool.orb_true_r). rewrite Ee. cbn [negb map]. now rewrite app_nil_r.
      * intros pv s Hin. apply in_app_iff in Hin. destruct Hin as [Hin|[Hin|[]]]; [exact (Hq pv s Hin)|]. injection Hin as <- <-. now exists [None].
Qed.
End LB.

(** *** SimplePartitioner *)
Section Simple.
Variable C : Type.
Variable D : nat.
Hypothesis HD : (N.of_nat D <= 30)%N.
Variable pts : points vec.
Variable mk : box -> C.
Notation Dn := (N.of_nat D).
Notation inf := (is_inf_id Dn).

Definition sends (left : box) (b : bool) (i : N) : bool :=
  p_finite Dn i && match p_get Dn pts i with Val c => Bool.eqb (box_has D left c) b | _ => false end.
Lemma simple_split_ok left ids : forall l r Kl Kr, rep l Kl -> rep r Kr -> room l -> room r -> ~ In 0%N ids -> (forall i, In i ids -> exists c, p_get Dn pts i = Val c) ->
  small64 (4 * (length Kl + length ids)) -> small64 (4 * (length Kr + length ids)) ->
  exists l' r', returns (fun f => simple_split D pts f left ids l r) (l', r') /\ room l' /\ room r' /\
    rep l' (rev (filter (sends left true) ids) ++ Kl) /\ rep r' (rev (filter (sends left false) ids) ++ Kr).
Proof.
  induction ids as [|i t IH]; intros l r Kl Kr HL HR Rl Rr Hz Hg Hl Hr.
  - exists l, r. split; [exists 0; reflexivity|]. auto.
  - destruct (Hg i (or_introl eq_refl)) as [c Hc]. assert (Hi : i <> 0%N) by (intros ->; apply Hz; now left). assert (Hz' : ~ In 0%N t) by (intros H; apply Hz; now right).
    assert (Hg' : forall x, In x t -> exists c, p_get Dn pts x = Val c) by (intros x Hx; apply Hg; now right). cbn [length] in Hl, Hr.
    cbn [simple_split filter]. unfold sends. rewrite Hc. cbn [rbind]. destruct (p_finite Dn i) eqn:Ef; cbn [andb].
    + destruct (box_has D left c) eqn:Eb; cbn [Bool.eqb rev].
      * destruct (insert_room l Kl i HL Rl Hi) as [l1 [b [E1 [R1 F1]]]]; [eapply (small_le 64 w64); [|exact Hl]; pose proof (distinct_length Kl); lia|].
        destruct (IH l1 r (i :: Kl) Kr R1 HR F1 Rr Hz' Hg') as [l' [r' [E [Q1 [Q2 [Q3 Q4]]]]]]; [eapply (small_le 64 w64); [|exact Hl]; cbn [length]; lia|eapply (small_le 64 w64); [|exact Hr]; lia|].
        exists l', r'. rewrite <- app_assoc. split; [|auto]. exact (returns_bind _ (fun x f => simple_split D pts f left t (fst x) r) _ _ E1 E).
      * destruct (insert_room r Kr i HR Rr Hi) as [r1 [b [E1 [R1 F1]]]]; [eapply (small_le 64 w64); [|exact Hr]; pose proof (distinct_length Kr); lia|].
        destruct (IH l r1 Kl (i :: Kr) HL R1 Rl F1 Hz' Hg') as [l' [r' [E [Q1 [Q2 [Q3 Q4]]]]]]; [eapply (small_le 64 w64); [|exact Hl]; lia|eapply (small_le 64 w64); [|exact Hr]; cbn [length]; lia|].
        exists l', r'. rewrite <- app_assoc. split; [|auto]. exact (returns_bind _ (fun x f => simple_split D pts f left t l (fst x)) _ _ E1 E).
    + destruct (IH l r Kl Kr HL HR Rl Rr Hz' Hg') as [l' [r' [E Q]]]; [eapply (small_le 64 w64); [|exact Hl]; lia|eapply (small_le 64 w64); [|exact Hr]; lia|].
      exists l', r'. split; [exact E|exact Q].
Qed.

Lemma filter_len {A} (f : A -> bool) l : length (filter f l) <= length l.
Proof. induction l as [|x l IH]; [reflexivity|]. cbn. destruct (f x); cbn; lia. Qed.

Lemma simple_ok m0 m1 b ids K : 0 < D -> rep ids K -> (forall i, In i K -> (i < 2 ^ 64)%N /\ exists c, p_get Dn pts i = Val c) -> small64 (4 * (set_size ids + Nat.pow 2 D)) -> (b_lo b O <= b_hi b O)%R ->
  exists sl sr lb rb, returns (fun f => simple_partition C D pts mk f m0 m1 b ids) (Tnode (Some (mk b)) [Tleaf (Some (mk lb)) sl; Tleaf (Some (mk rb)) sr]) /\
    (exists Kl, rep sl Kl) /\ (exists Kr, rep sr Kr) /\ room sl /\ room sr /\ (lb, rb) = split_box b 0 ((b_lo b O + b_hi b O) / 2)%R /\
    (forall i, inf i -> has sl i /\ has sr i) /\
    (forall i c, In i K -> ~ inf i -> p_get Dn pts i = Val c ->
       (has sl i <-> in_box D lb c) /\ (has sr i <-> ~ in_box D lb c)) /\
    (forall i, (i <> 0)%N -> has sl i \/ has sr i -> In i K \/ inf i).
Proof.
  intros HD0 HR HK Hsm Hb. destruct (iterate_rep ids K HR) as [l [El [Hnd [Hlen Hl]]]]. unfold simple_partition. destruct (split_box b 0 _) as [lb rb] eqn:Es.
  assert (Hz : ~ In 0%N l) by (intros H; apply Hl in H; now apply (PartProofs.rep_nz ids K HR)).
  assert (Hsz : length l = set_size ids) by exact Hlen.
  destruct (new_room m0) as [N1 N2], (new_room m1) as [N3 N4].
  destruct (simple_split_ok lb l _ _ _ _ N1 N3 N2 N4 Hz) as [l1 [r1 [E1 [F1 [F2 [R1 R2]]]]]]; [intros i Hi; apply HK, Hl, Hi|eapply (small_le 64 w64); [|exact Hsm]; cbn [length]; lia|eapply (small_le 64 w64); [|exact Hsm]; cbn [length]; lia|].
  rewrite app_nil_r in R1, R2.
  assert (Hin : length (inf_ids D) = Nat.pow 2 D). { apply Nat2N.inj. rewrite (inf_length D HD), Nat2N.inj_pow. reflexivity. }
  destruct (add_room (inf_ids D) l1 _ R1 F1 (inf_nz D HD)) as [sl [E2 [R3 F3]]]; [eapply (small_le 64 w64); [|exact Hsm]; rewrite rev_length; pose proof (filter_len (sends lb true) l); lia|].
  destruct (add_room (inf_ids D) r1 _ R2 F2 (inf_nz D HD)) as [sr [E3 [R4 F4]]]; [eapply (small_le 64 w64); [|exact Hsm]; rewrite rev_length; pose proof (filter_len (sends lb false) l); lia|].
  exists sl, sr, lb, rb. split.
  { refine (returns_bind _ (fun l f => rbind (simple_split D pts f lb l (set_new 1 m0) (set_new 1 m1)) (fun lr => rbind (add_all f (inf_ids D) (fst lr)) (fun sl => rmap (fun sr => Tnode (Some (mk b)) [Tleaf (Some (mk lb)) sl; Tleaf (Some (mk rb)) sr]) (add_all f (inf_ids D) (snd lr))))) _ _ El _).
    refine (returns_bind _ (fun lr f => rbind (add_all f (inf_ids D) (fst lr)) (fun sl => rmap (fun sr => Tnode (Some (mk b)) [Tleaf (Some (mk lb)) sl; Tleaf (Some (mk rb)) sr]) (add_all f (inf_ids D) (snd lr)))) _ _ E1 _).
    cbn [fst snd]. refine (returns_bind _ (fun sl f => rmap (fun sr => Tnode (Some (mk b)) [Tleaf (Some (mk lb)) sl; Tleaf (Some (mk rb)) sr]) (add_all f (inf_ids D) r1)) _ _ E2 _).
    exact (returns_map _ (fun sr => Tnode (Some (mk b)) [Tleaf (Some (mk lb)) sl; Tleaf (Some (mk rb)) sr]) _ E3). }
  assert (Hmem : forall s g x, rep s (rev (inf_ids D) ++ rev (filter (sends lb g) l)) -> (x <> 0)%N -> has s x <-> inf x \/ In x K /\ sends lb g x = true).
  { intros s g x R Hx. rewrite (has_in s _ x R Hx), in_app_iff, <- !in_rev, filter_In, (inf_iff D HD), Hl. reflexivity. }
  split; [eauto|]. split; [eauto|]. split; [exact F3|]. split; [exact F4|]. split; [reflexivity|]. split; [|split].
  - intros i Hi. assert (Hi0 : i <> 0%N). { intros ->. apply (inf_nz D HD), (inf_iff D HD), Hi. } split; [apply (Hmem sl true)|apply (Hmem sr false)]; auto.
  - intros i c Hi Hinf Hc. pose proof (rep_nz _ _ _ HR Hi) as Hi0. assert (Hf : p_finite Dn i = true) by (apply (finite_iff D HD); [apply HK, Hi|exact Hinf]).
    rewrite (Hmem sl true i R3 Hi0), (Hmem sr false i R4 Hi0), <- box_has_spec. unfold sends. rewrite Hf, Hc. cbn [andb]. destruct (box_has D lb c); cbn; split; split; intros H; try (destruct H as [?|[_ ?]]); try easy; auto; try contradiction.
  - intros i Hi [H|H]; [apply (Hmem sl true i R3 Hi) in H|apply (Hmem sr false i R4 Hi) in H]; destruct H as [|[]]; auto.
Qed.
End Simple.

(** *** How many base cases there are *)
Lemma dc_count dsplit edge depth pe p : (forall f prov ids ps, dsplit f prov ids = Val ps -> length ps <= p) -> 1 <= p ->
  forall f prov ids cs, existsb (fun o => match o with None => true | Some _ => false end) prov = false ->
  dc_calls dsplit edge f depth pe prov ids = Val cs -> length (filter (fun c => negb (is_edge c)) cs) <= Nat.pow p (depth - length prov).
Proof.
  intros Hp H1. induction f as [|f IH]; intros prov ids cs Hpl E; [discriminate|]. rewrite dc_S in E.
  assert (Hpos : forall n, 1 <= Nat.pow p n) by (intros n; change 1 with (Nat.pow p 0); apply Nat.pow_le_mono_r; lia).
  destruct (Nat.ltb (length prov) depth && _) eqn:Ec.
  - apply andb_prop in Ec. destruct Ec as [Ec _]. apply Nat.ltb_lt in Ec. destruct (dsplit f prov ids) as [ps| |] eqn:Es; try discriminate. cbn [rbind] in E.
    destruct (part_calls dsplit edge depth pe f prov 0 ps) as [cp| |] eqn:Ep; try discriminate. cbn [rbind] in E. destruct (edge f prov ids) as [e| |]; try discriminate. cbn [rbind] in E.
    assert (HC : forall ps i cp, part_calls dsplit edge depth pe f prov i ps = Val cp -> length (filter (fun c => negb (is_edge c)) cp) <= length ps * Nat.pow p (depth - S (length prov))).
    { clear - IH Hpl. induction ps as [|q r IHr]; intros i cp E; cbn [part_calls] in E; [injection E as <-; cbn; lia|].
      destruct (dc_calls dsplit edge f depth pe (prov ++ [Some i]) (pa_pts q)) as [x| |] eqn:Ex; try discriminate. cbn [rbind] in E.
      destruct (part_calls dsplit edge depth pe f prov (S i) r) as [y| |] eqn:Ey; try discriminate. injection E as <-. rewrite filter_app, app_length. cbn [length Nat.mul].
      specialize (IHr _ _ Ey). apply IH in Ex; [|rewrite existsb_app, Hpl; reflexivity]. rewrite app_length, Nat.add_1_r in Ex. lia. }
    specialize (HC _ _ _ Ep). specialize (Hp _ _ _ _ Es).
    assert (HE : forall ce, (if pe then dc_calls dsplit edge f depth pe (prov ++ [None]) e else Val [(prov ++ [None], e)]) = Val ce -> filter (fun c => negb (is_edge c)) ce = []).
    { intros ce Hce. assert (Hall : forall pv s, In (pv, s) ce -> is_edge (pv, s) = true).
      { destruct pe.
        - clear - Hce. assert (HN : is_edge (prov ++ [None], e) = true) by (unfold is_edge; cbn [fst]; rewrite existsb_app; cbn [existsb]; now rewrite Bool.orb_true_r).
          revert Hce HN. generalize (prov ++ [None]). clear prov. revert e ce. induction f as [|f IH]; intros e ce q Hce HN pv s Hin; [discriminate|]. rewrite dc_S in Hce.
          destruct (Nat.ltb (length q) depth && _); [|injection Hce as <-; destruct Hin as [Hin|[]]; injection Hin as <- <-; exact HN].
          destruct (dsplit f q e) as [ps| |]; try discriminate. cbn [rbind] in Hce. destruct (part_calls dsplit edge depth true f q 0 ps) as [cp| |] eqn:Ep; try discriminate. cbn [rbind] in Hce.
          destruct (edge f q e) as [e2| |]; try discriminate. cbn [rbind] in Hce. destruct (dc_calls dsplit edge f depth true (q ++ [None]) e2) as [c2| |] eqn:E2; try discriminate. injection Hce as <-.
          apply in_app_iff in Hin. destruct Hin as [Hin|Hin].
          + revert Ep Hin. generalize 0 as i. revert cp. induction ps as [|x r IHr]; intros cp i Ep Hin; cbn [part_calls] in Ep; [injection Ep as <-; destruct Hin|].
            destruct (dc_calls dsplit edge f depth true (q ++ [Some i]) (pa_pts x)) as [y| |] eqn:Ey; try discriminate. cbn [rbind] in Ep. destruct (part_calls dsplit edge depth true f q (S i) r) as [z| |] eqn:Ez; try discriminate.
            injection Ep as <-. apply in_app_iff in Hin. destruct Hin as [Hin|Hin]; [|exact (IHr _ _ Ez Hin)]. refine (IH _ _ _ Ey _ _ _ Hin). unfold is_edge in *. cbn [fst] in *. now rewrite existsb_app, HN.
          + refine (IH _ _ _ E2 _ _ _ Hin). unfold is_edge in *. cbn [fst] in *. now rewrite existsb_app, HN.
        - injection Hce as <-. intros pv s [Hin|[]]. injection Hin as <- <-. unfold is_edge. cbn [fst]. rewrite existsb_app. cbn [existsb]. now rewrite Bool.orb_true_r. }
      clear - Hall. induction ce as [|[pv s] r IH]; [reflexivity|]. cbn [filter]. rewrite (Hall pv s (or_introl eq_refl)). cbn [negb]. apply IH. intros; apply Hall. now right. }
    destruct (if pe then _ else _) as [ce| |] eqn:Ee; try discriminate. injection E as <-. rewrite filter_app, (HE ce eq_refl), app_nil_r.
    etransitivity; [exact HC|]. replace (depth - length prov) with (S (depth - S (length prov))) by lia. cbn [Nat.pow]. apply Nat.mul_le_mono_r. exact Hp.
  - injection E as <-. cbn [filter]. destruct (negb _); cbn [length]; [apply Hpos|lia].
Qed.
