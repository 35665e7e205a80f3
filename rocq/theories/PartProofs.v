(** The partitioners: sequential parts (C34). *)
From Verif Require Import Outcome ListUtil WordsModel WordsProofs LPSetModel ProbeTheory LPSetProofs LPSetHistory LPSetIter SimplexModel PointModel PointProofs GeoModel GeoSpec GeoProofs Conc ConcSetModel PartModel PartSpec.
Local Open Scope nat_scope.

Lemma w64 : (64 <= 64)%N. Proof. discriminate. Qed.
Notation rep := (repr 64).
Notation small64 := (small 64).

(** A lookup of any id is answered iff the table has a free cell. *)
Definition free (s : lpset) : Prop := s_items s < cap s.

Lemma insert_free s K k : rep s K -> (k <> 0)%N -> small64 (4 * distinct K) ->
  exists s', returns (fun f => set_insert 64 true f s k) (s', negb (mem k K)) /\ rep s' (k :: K) /\ (2 <= cap s -> free s' /\ 2 <= cap s').
Proof.
  intros HR Hz Hsm. pose proof HR as [Hwf HK]. pose proof (repr_items 64 s K HR) as Hi.
  assert (Hpre : if grows true s then can_double 64 s else elem s k \/ s_items s < cap s).
  { unfold grows. cbn [andb]. destruct (Nat.leb_spec (cap s) (2 * s_items s)).
    - unfold can_double. destruct Hsm. split; lia.
    - right. lia. }
  destruct (insert_spec 64 w64 true s k Hwf Hz Hpre) as [s' [E [W' [X' [C' [M' I']]]]]].
  exists s'. split; [|split].
  - exists (2 * cap s). intros fuel Hf. rewrite E by exact Hf. now rewrite (negb_mem 64 s K k HR).
  - split; [exact W'|]. intros x. rewrite X', HK. simpl. intuition congruence.
  - intros H2. assert (Hle : s_items s <= cap s). { destruct Hwf as [_ [_ [_ ->]]]. apply keys_of_length. }
    unfold grows in C'. cbn [andb] in C'. unfold free. destruct (Nat.leb_spec (cap s) (2 * s_items s)), (elem_dec s k); lia.
Qed.

Lemma add_all_ok ks : forall s K, rep s K -> ~ In 0%N ks -> small64 (4 * (length K + length ks)) ->
  exists s', returns (fun f => add_all f ks s) s' /\ rep s' (rev ks ++ K) /\ (2 <= cap s -> (ks <> [] \/ free s) -> free s' /\ 2 <= cap s').
Proof.
  induction ks as [|k t IH]; intros s K HR Hz Hsm.
  - exists s. split; [exists 0; intros; reflexivity|]. split; [exact HR|]. intros H2 [H|H]; [congruence|auto].
  - cbn [length] in Hsm. destruct (insert_free s K k HR) as [s1 [E1 [R1 F1]]]; [intros ->; apply Hz; now left| |].
    { eapply (small_le 64 w64); [|exact Hsm]. pose proof (distinct_length K). lia. }
    destruct (IH s1 (k :: K) R1) as [s2 [E2 [R2 F2]]]; [intros H; apply Hz; now right|eapply (small_le 64 w64); [|exact Hsm]; cbn [length]; lia|].
    exists s2. split; [|split].
    + cbn [add_all]. exact (returns_bind _ (fun r f => add_all f t (fst r)) _ _ E1 E2).
    + cbn [rev]. now rewrite <- app_assoc.
    + intros H2 _. destruct (F1 H2) as [Fa Fb]. apply F2; [exact Fb|now right].
Qed.

Section D.
Variable D : nat.
Hypothesis HD : (N.of_nat D <= 30)%N.
Variable pts : points vec.
Notation Dn := (N.of_nat D).

Lemma inf_iff i : In i (inf_ids D) <-> is_inf_id Dn i.
Proof.
  unfold inf_ids, is_inf_id. rewrite in_map_iff. pose proof (pow_D_le Dn HD). assert (Hc : (2 ^ 30 < 2 ^ 64)%N) by reflexivity.
  rewrite (p_ninf_val Dn HD), (p_inf_val Dn HD). split.
  - intros [j [<- Hj]]. apply in_seq in Hj. rewrite wrap_id by lia. lia.
  - intros H1. exists (N.to_nat (i - (2 ^ 64 - 2 ^ Dn))). split; [rewrite wrap_id by lia; lia|]. apply in_seq. lia.
Qed.
Lemma inf_nz : ~ In 0%N (inf_ids D).
Proof. intros H. apply inf_iff in H. unfold is_inf_id in H. pose proof (pow_D_le Dn HD). assert (Hc : (2 ^ 30 < 2 ^ 64)%N) by reflexivity. lia. Qed.
Lemma inf_length : N.of_nat (length (inf_ids D)) = (2 ^ Dn)%N.
Proof. unfold inf_ids. rewrite map_length, seq_length, (p_ninf_val Dn HD). lia. Qed.
Lemma inf_ne : inf_ids D <> [].
Proof. intros E. pose proof inf_length as H. rewrite E in H. cbn in H. pose proof (pow2_pos Dn). lia. Qed.

(** Ids are words; the finite ones are those below the infinite ones. *)
Lemma finite_iff i : (i < 2 ^ 64)%N -> p_finite Dn i = true <-> ~ is_inf_id Dn i.
Proof. intros Hi. rewrite (p_finite_spec Dn HD i Hi). unfold is_inf_id. lia. Qed.

(** *** parts and the ids they hold *)
(** [ps] are the parts with ids and boxes as in [ps0]; part [j] represents [K j]. *)
Definition parts_rep (m : nat) (bx : nat -> box) (K : nat -> list N) (ps : list part) : Prop :=
  length ps = m /\ forall j p, nth_error ps j = Some p -> pa_id p = j /\ pa_box p = bx j /\ rep (pa_pts p) (K j).
Definition parts_free (ps : list part) : Prop := forall p, In p ps -> free (pa_pts p).
Definition parts_two (ps : list part) : Prop := forall p, In p ps -> 2 <= cap (pa_pts p).

Lemma put_ok m bx K ps j k : parts_rep m bx K ps -> j < m -> (k <> 0)%N -> small64 (4 * length (K j)) ->
  exists ps', returns (fun f => part_put f ps j k) ps' /\ parts_rep m bx (fun i => if Nat.eqb i j then k :: K i else K i) ps' /\
    (parts_two ps -> parts_free ps -> parts_two ps' /\ parts_free ps').
Proof.
  intros [HL HP] Hj Hk Hsm. destruct (nth_error_ex ps j) as [p Ep]; [lia|]. destruct (HP j p Ep) as [H1 [H2 H3]].
  destruct (insert_free (pa_pts p) (K j) k H3 Hk) as [s' [E [R F]]]. { eapply (small_le 64 w64); [|exact Hsm]. pose proof (distinct_length (K j)). lia. }
  exists (upd ps j (mkpart (pa_id p) s' (pa_box p))). split; [|split; [split|]].
  - unfold part_put. rewrite Ep. exact (returns_map _ (fun r => upd ps j (mkpart (pa_id p) (fst r) (pa_box p))) _ E).
  - rewrite upd_length. exact HL.
  - intros i q Hq. rewrite nth_error_upd in Hq. destruct (Nat.eqb_spec j i) as [<-|Hne].
    + rewrite Nat.eqb_refl. destruct (Nat.ltb _ _); [|discriminate]. injection Hq as <-. cbn [pa_id pa_box pa_pts]. auto.
    + destruct (Nat.eqb_spec i j); [congruence|]. now apply HP.
  - intros T Fr. pose proof (nth_error_In _ _ Ep) as Hin. destruct (F (T p Hin)) as [Fa Fb].
    assert (U : forall q, In q (upd ps j (mkpart (pa_id p) s' (pa_box p))) -> In q ps \/ pa_pts q = s').
    { intros q Hq. apply In_nth_error in Hq. destruct Hq as [x Hx]. rewrite nth_error_upd in Hx. destruct (Nat.eqb j x).
      - destruct (Nat.ltb _ _); [|discriminate]. injection Hx as <-. now right.
      - left. eapply nth_error_In; exact Hx. }
    split; intros q Hq; destruct (U q Hq) as [Hq'|Hq']; auto; rewrite Hq'; assumption.
Qed.

(** The finite ids of [l] routed to part [j]. *)
Definition goes (route : vec -> res nat) (j : nat) (i : N) : bool :=
  match route_id D pts route i with Val (Some x) => Nat.eqb x j | _ => false end.

Lemma distribute_ok route m bx l : forall K ps, parts_rep m bx K ps -> ~ In 0%N l ->
  (forall i, In i l -> exists r, route_id D pts route i = Val r /\ forall j, r = Some j -> j < m) ->
  (forall j, small64 (4 * (length (K j) + length l))) ->
  exists ps', returns (fun f => distribute D pts f route l ps) ps' /\ parts_rep m bx (fun j => rev (filter (goes route j) l) ++ K j) ps' /\
    (parts_two ps -> parts_free ps -> parts_two ps' /\ parts_free ps').
Proof.
  induction l as [|i t IH]; intros K ps HP Hz Hr Hsm.
  - exists ps. split; [exists 0; reflexivity|]. cbn [filter rev app]. auto.
  - destruct (Hr i (or_introl eq_refl)) as [r [Er Hj]]. cbn [length] in Hsm.
    assert (Ht : forall i, In i t -> exists r, route_id D pts route i = Val r /\ forall j, r = Some j -> j < m) by (intros x Hx; apply Hr; now right).
    assert (Hzt : ~ In 0%N t) by (intros H; apply Hz; now right). destruct r as [j|].
    + destruct (put_ok m bx K ps j i HP (Hj j eq_refl)) as [ps1 [E1 [R1 F1]]]; [intros ->; apply Hz; now left|eapply (small_le 64 w64); [|apply (Hsm j)]; lia|].
      destruct (IH _ ps1 R1 Hzt Ht) as [ps2 [E2 [R2 F2]]].
      { intros x. cbn beta. destruct (Nat.eqb x j); (eapply (small_le 64 w64); [|apply (Hsm x)]; cbn [length]; lia). }
      exists ps2. split; [|split].
      * cbn [distribute]. destruct E1 as [n1 E1]. destruct E2 as [n2 E2]. exists (n1 + n2). intros f Hf. rewrite Er. cbn [rbind]. rewrite E1 by lia. cbn [rbind]. apply E2. lia.
      * destruct R2 as [L2 R2]. split; [exact L2|]. intros x p Hp. destruct (R2 x p Hp) as [A [B C]]. split; [exact A|]. split; [exact B|].
        cbn [filter]. unfold goes at 1. rewrite Er. rewrite (Nat.eqb_sym j x). destruct (Nat.eqb x j); [|exact C]. cbn [rev]. rewrite <- app_assoc. exact C.
      * intros T Fr. destruct (F1 T Fr). now apply F2.
    + destruct (IH K ps HP Hzt Ht) as [ps2 [E2 [R2 F2]]]; [intros x; eapply (small_le 64 w64); [|apply (Hsm x)]; lia|].
      exists ps2. split; [|split; [|exact F2]].
      * cbn [distribute]. destruct E2 as [n2 E2]. exists n2. intros f Hf. rewrite Er. cbn [rbind]. apply E2. lia.
      * destruct R2 as [L2 R2]. split; [exact L2|]. intros x p Hp. destruct (R2 x p Hp) as [A [B C]]. split; [exact A|]. split; [exact B|].
        cbn [filter]. unfold goes at 1. rewrite Er. exact C.
Qed.

Lemma distribute_undef route l : forall ps i, In i l -> route_id D pts route i = Undef ->
  (forall x, In x l -> route_id D pts route x = Undef \/ route_id D pts route x = Val None) -> forall f, distribute D pts f route l ps = Undef.
Proof.
  induction l as [|x t IH]; intros ps i [] Hi Ha f.
  - subst x. cbn [distribute]. now rewrite Hi.
  - cbn [distribute]. destruct (Ha x (or_introl eq_refl)) as [->| ->]; [reflexivity|]. cbn [rbind]. apply (IH ps i); auto. intros y Hy. apply Ha. now right.
Qed.

(** *** the infinite points *)
Lemma add_inf_ok ignore m bx : forall ps off K, (length ps = m /\ forall j p, nth_error ps j = Some p -> pa_id p = off + j /\ pa_box p = bx (off + j) /\ rep (pa_pts p) (K (off + j))) ->
  (forall j, j < off + m -> small64 (4 * (length (K j) + length (inf_ids D)))) ->
  exists ps', returns (fun f => add_inf D f ignore ps) ps' /\
    (length ps' = m /\ forall j p, nth_error ps' j = Some p -> pa_id p = off + j /\ pa_box p = bx (off + j) /\ rep (pa_pts p) ((if ignore then [] else rev (inf_ids D)) ++ K (off + j))) /\
    (parts_two ps -> ignore = false \/ parts_free ps -> parts_free ps').
Proof.
  revert m. intros m ps. revert m. induction ps as [|p t IH]; intros m off K [HL HP] Hsm.
  - exists []. split; [exists 0; reflexivity|]. split; [split; [exact HL|]|intros _ _ q []]. intros [|j] q Hq; discriminate.
  - cbn [length] in HL. destruct m as [|m]; [discriminate|]. injection HL as HL.
    destruct (HP 0 p eq_refl) as [A [B C]]. rewrite Nat.add_0_r in *.
    destruct (IH m (S off) K) as [t' [Et [[Lt Rt] Ft]]].
    { split; [exact HL|]. intros j q Hq. specialize (HP (S j) q Hq). now rewrite Nat.add_succ_r in HP. }
    { intros j Hj. apply Hsm. lia. }
    assert (Hs : exists s', returns (fun f => if ignore then Val (pa_pts p) else add_all f (inf_ids D) (pa_pts p)) s' /\
      rep s' ((if ignore then [] else rev (inf_ids D)) ++ K off) /\ (2 <= cap (pa_pts p) -> ignore = false \/ free (pa_pts p) -> free s')).
    { destruct ignore.
      - exists (pa_pts p). split; [exists 0; reflexivity|]. split; [exact C|]. intros _ [H|H]; [discriminate|exact H].
      - destruct (add_all_ok (inf_ids D) (pa_pts p) (K off) C inf_nz) as [s' [Es [Rs Fs]]]; [apply Hsm; lia|].
        exists s'. split; [exact Es|]. split; [exact Rs|]. intros H2 _. apply Fs; [exact H2|]. left. exact inf_ne. }
    destruct Hs as [s' [Es [Rs Fs]]]. exists (mkpart (pa_id p) s' (pa_box p) :: t'). split; [|split; [split|]].
    + cbn [add_inf]. apply (returns_bind _ (fun s f => rmap (cons (mkpart (pa_id p) s (pa_box p))) (add_inf D f ignore t)) _ _ Es).
      exact (returns_map _ (cons (mkpart (pa_id p) s' (pa_box p))) _ Et).
    + cbn [length]. now rewrite Lt.
    + intros [|j] q Hq; cbn [nth_error] in Hq.
      * injection Hq as <-. rewrite Nat.add_0_r. cbn [pa_id pa_box pa_pts]. auto.
      * rewrite Nat.add_succ_r. apply (Rt j q Hq).
    + intros T Fr q [<-|Hq]; cbn [pa_pts].
      * apply Fs; [apply T; now left|]. destruct Fr as [Fr|Fr]; [now left|right; apply Fr; now left].
      * apply Ft; [intros x Hx; apply T; now right| |exact Hq]. destruct Fr as [Fr|Fr]; [now left|right; intros x Hx; apply Fr; now right].
Qed.

(** *** lookups *)
Lemma holds_iff p K i : rep (pa_pts p) K -> (i <> 0)%N -> holds p i <-> In i K.
Proof.
  intros [Hwf HK] Hi0. split.
  - intros [n Hn]. apply HK. specialize (Hn (n + cap (pa_pts p)) ltac:(lia)). unfold part_has in Hn.
    destruct (elem_dec (pa_pts p) i) as [H|H]; [exact H|exfalso]. destruct (Nat.lt_ge_cases (s_items (pa_pts p)) (cap (pa_pts p))) as [Hl|Hl].
    + rewrite (contains_out 64 w64 (pa_pts p) i _ Hwf Hi0 H Hl) in Hn by lia. discriminate.
    + pose proof (contains_full_diverges 64 w64 (pa_pts p) i Hwf Hi0 H) as Hd.
      assert (Hle : s_items (pa_pts p) <= cap (pa_pts p)). { destruct Hwf as [_ [_ [_ ->]]]. apply keys_of_length. }
      specialize (Hd ltac:(lia) (n + cap (pa_pts p))). congruence.
  - intros Hi. exists (cap (pa_pts p)). intros f Hf. apply (contains_in 64 w64); [exact Hwf|now apply HK|exact Hf].
Qed.
Lemma lacks_out p K i : rep (pa_pts p) K -> free (pa_pts p) -> (i <> 0)%N -> ~ In i K -> lacks p i.
Proof.
  intros [Hwf HK] Hf Hi0 Hi. exists (cap (pa_pts p)). intros f Hle. apply (contains_out 64 w64); auto. intros H. apply Hi, HK, H.
Qed.

Lemma free_answering m bx K ps : parts_rep m bx K ps -> parts_free ps -> answering ps.
Proof.
  intros [_ HP] HF p i Hp Hi. pose proof (HF p Hp) as Fp. apply In_nth_error in Hp. destruct Hp as [j Hj]. destruct (HP j p Hj) as [_ [_ HR]].
  destruct (in_dec N.eq_dec i (K j)) as [H|H]; [left; now apply (holds_iff p (K j))|right; eapply lacks_out; eassumption].
Qed.

(** *** the whole partitioning *)
(** Each finite id of [l] has coordinates, and is routed to a part whose box contains them. *)
Definition routes (route : vec -> res nat) (m : nat) (bx : nat -> box) (l : list N) : Prop :=
  forall i, In i l -> (i < 2 ^ 64)%N /\ (~ is_inf_id Dn i -> exists c j, p_get Dn pts i = Val c /\ route c = Val j /\ j < m /\ in_box D (bx j) c).

Lemma routes_id route m bx l i : routes route m bx l -> In i l ->
  (is_inf_id Dn i /\ route_id D pts route i = Val None) \/
  (~ is_inf_id Dn i /\ exists c j, p_get Dn pts i = Val c /\ route_id D pts route i = Val (Some j) /\ j < m /\ in_box D (bx j) c).
Proof.
  intros H Hi. destruct (H i Hi) as [Hw Hf]. unfold route_id. destruct (p_finite Dn i) eqn:Ef.
  - right. pose proof (proj1 (finite_iff i Hw) Ef) as Hni. split; [exact Hni|]. destruct (Hf Hni) as [c [j [Ec [Ej [Hj Hb]]]]]. exists c, j. rewrite Ec. cbn [rbind]. rewrite Ej. auto.
  - left. split; [|reflexivity]. destruct (N.lt_ge_cases i (2 ^ 64 - 2 ^ Dn)) as [Hlt|Hge]; [|unfold is_inf_id; lia].
    exfalso. assert (p_finite Dn i = true); [|congruence]. apply finite_iff; [exact Hw|]. unfold is_inf_id. lia.
Qed.

Lemma goes_in route m bx l i j : routes route m bx l -> In i l -> goes route j i = true ->
  ~ is_inf_id Dn i /\ exists c, p_get Dn pts i = Val c /\ j < m /\ in_box D (bx j) c.
Proof.
  intros H Hi Hg. unfold goes in Hg. destruct (routes_id route m bx l i H Hi) as [[_ E]|[Hn [c [x [Ec [E [Hx Hb]]]]]]]; rewrite E in Hg; [discriminate|].
  apply Nat.eqb_eq in Hg. subst x. split; [exact Hn|]. exists c. auto.
Qed.

(** What each part holds in the end. *)
Definition final (route : vec -> res nat) (ignore : bool) (l : list N) (j : nat) : list N :=
  (if ignore then [] else rev (inf_ids D)) ++ rev (filter (goes route j) l).

Lemma final_in route ignore l j i : In i (final route ignore l j) <-> (ignore = false /\ is_inf_id Dn i) \/ (In i l /\ goes route j i = true).
Proof.
  unfold final. rewrite in_app_iff, <- in_rev, filter_In. destruct ignore; [|rewrite <- in_rev, inf_iff]; cbn [In]; intuition congruence.
Qed.

Lemma final_good route ignore m bx l ps : ~ In 0%N l -> routes route m bx l -> parts_rep m bx (final route ignore l) ps -> good_partition D pts l ignore ps.
Proof.
  intros Hz Hr [HL HP]. split; [|split; [|split]].
  - intros j p Hp. apply (HP j p Hp).
  - intros i Hi. assert (Hi0 : (i <> 0)%N) by (intros ->; contradiction). destruct (routes_id route m bx l i Hr Hi) as [[Hn _]|[Hn [c [j [Ec [E [Hj Hb]]]]]]]; [now left|right].
    destruct (nth_error_ex ps j) as [p Ep]; [lia|]. destruct (HP j p Ep) as [_ [Eb HR]]. exists j, p, c. split; [exact Ep|]. split; [|split; [exact Ec|split; [now rewrite Eb|]]].
    + apply (holds_iff p _ i HR Hi0). apply final_in. right. split; [exact Hi|]. unfold goes. rewrite E. apply Nat.eqb_refl.
    + intros j' p' Hp' Hh. destruct (HP j' p' Hp') as [_ [_ HR']]. apply (holds_iff p' _ i HR' Hi0) in Hh. apply final_in in Hh. destruct Hh as [[_ H]|[_ H]]; [contradiction|].
      unfold goes in H. rewrite E in H. apply Nat.eqb_eq in H. congruence.
  - intros j p i Hp Hi0 Hh. destruct (HP j p Hp) as [_ [_ HR]]. apply (holds_iff p _ i HR Hi0) in Hh. apply final_in in Hh. destruct Hh as [H|[H1 H2]]; [now right|left].
    split; [exact H1|]. apply (goes_in route m bx l i j Hr H1 H2).
  - intros Hig j p i Hp Hi. destruct (HP j p Hp) as [_ [_ HR]]. apply (holds_iff p _ i HR).
    + intros ->. apply inf_nz. now apply inf_iff.
    + apply final_in. auto.
Qed.

Lemma inf_small n : small64 (4 * (n + Nat.pow 2 D)) -> small64 (4 * (n + length (inf_ids D))).
Proof. intros H. replace (length (inf_ids D)) with (Nat.pow 2 D); [exact H|]. pose proof inf_length as E. apply Nat2N.inj. rewrite E, Nat2N.inj_pow. reflexivity. Qed.

(** Sequential partitioners: [init j] is the empty set part [j] starts with. *)
Lemma seq_partition route ignore m bx (init : nat -> lpset) (l : list N) :
  ~ In 0%N l -> routes route m bx l -> small64 (4 * (length l + Nat.pow 2 D)) -> (forall j, j < m -> rep (init j) [] /\ s_items (init j) = 0) ->
  exists ps, returns (fun f => rbind (distribute D pts f route l (map (fun j => mkpart j (init j) (bx j)) (seq 0 m))) (add_inf D f ignore)) ps /\
    parts_rep m bx (final route ignore l) ps /\
    ((forall j, j < m -> 2 <= cap (init j)) -> parts_free ps).
Proof.
  intros Hz Hr Hsm Hi.
  assert (H0 : forall j p, nth_error (map (fun j => mkpart j (init j) (bx j)) (seq 0 m)) j = Some p -> j < m /\ p = mkpart j (init j) (bx j)).
  { intros j p Hp. assert (Hj : j < m) by (apply nth_error_lt in Hp; rewrite map_length, seq_length in Hp; exact Hp). split; [exact Hj|].
    rewrite nth_error_map in Hp. rewrite (nth_error_nth' _ 0) in Hp by (rewrite seq_length; exact Hj). rewrite seq_nth in Hp by exact Hj. cbn in Hp. congruence. }
  destruct (distribute_ok route m bx l (fun _ => []) (map (fun j => mkpart j (init j) (bx j)) (seq 0 m))) as [ps1 [E1 [[L1 R1] F1]]].
  - split; [now rewrite map_length, seq_length|]. intros j p Hp. destruct (H0 j p Hp) as [Hj ->]. cbn [pa_id pa_box pa_pts]. split; [reflexivity|]. split; [reflexivity|]. now apply Hi.
  - exact Hz.
  - intros i Hin. destruct (routes_id route m bx l i Hr Hin) as [[_ E]|[_ [c [j [_ [E [Hj _]]]]]]]; eexists; (split; [exact E|]); intros x Hx; congruence.
  - intros j. eapply (small_le 64 w64); [|exact Hsm]. cbn [length]. lia.
  - destruct (add_inf_ok ignore m bx ps1 0 (fun j => rev (filter (goes route j) l))) as [ps2 [E2 [R2 F2]]].
    + split; [exact L1|]. intros j p Hp. cbn [Nat.add]. specialize (R1 j p Hp). rewrite app_nil_r in R1. exact R1.
    + intros j Hj. apply inf_small. eapply (small_le 64 w64); [|exact Hsm]. rewrite rev_length.
      assert (length (filter (goes route j) l) <= length l) by (clear; induction l as [|a t IH]; cbn [filter length]; [lia|destruct (goes route j a); cbn [length]; lia]). lia.
    + exists ps2. split; [exact (returns_bind _ (fun ps f => add_inf D f ignore ps) _ _ E1 E2)|]. split; [exact R2|].
      intros H2. destruct F1 as [T1 Fr1].
      * intros p Hp. apply In_nth_error in Hp. destruct Hp as [j Hj]. destruct (H0 j p Hj) as [Hjm ->]. cbn [pa_pts]. now apply H2.
      * intros p Hp. apply In_nth_error in Hp. destruct Hp as [j Hj]. destruct (H0 j p Hj) as [Hjm ->]. cbn [pa_pts]. unfold free. rewrite (proj2 (Hi j Hjm)). specialize (H2 j Hjm). lia.
      * apply F2; [exact T1|right; exact Fr1].
Qed.

(** *** the routes of the partitioners *)
Variable st : stats.

Lemma routed_spec c : forall n, let r := fold_left (fun p d => p + (if rltb (st_mid st d) (c d) then Nat.pow 2 d else 0)) (seq 0 n) 0 in
  r < Nat.pow 2 n /\ forall d, d < n -> Nat.testbit r d = rltb (st_mid st d) (c d).
Proof.
  induction n as [|n IH]; cbv zeta.
  - split; [cbn; lia|]. intros d Hd. lia.
  - rewrite seq_S, fold_left_app. cbn [Nat.add fold_left]. destruct IH as [I1 I2]. cbv zeta in *. set (r := fold_left _ (seq 0 n) 0) in *. clearbody r.
    cbn [Nat.pow]. destruct (rltb (st_mid st n) (c n)) eqn:E.
    + split; [lia|]. intros d Hd. rewrite Nat.testbit_spec' || idtac.
      assert (Hd' : d < n \/ d = n) by lia. destruct Hd' as [Hd'|Hd'].
      * rewrite <- (I2 d Hd'). rewrite !Nat.testbit_eqb.
        replace (2 ^ n) with (2 ^ (n - d - 1) * 2 * 2 ^ d) by (rewrite <- Nat.mul_assoc, <- (Nat.pow_succ_r' 2 d), <- Nat.pow_add_r; f_equal; lia).
        rewrite Nat.div_add by (apply Nat.pow_nonzero; discriminate). now rewrite Nat.mod_add by discriminate.
      * subst d. rewrite E. rewrite Nat.testbit_eqb. replace (r + 2 ^ n) with (r + 1 * 2 ^ n) by lia. rewrite Nat.div_add by (apply Nat.pow_nonzero; discriminate).
        rewrite (Nat.div_small r) by exact I1. reflexivity.
    + split; [lia|]. intros d Hd. rewrite Nat.add_0_r. assert (Hd' : d < n \/ d = n) by lia. destruct Hd' as [Hd'|Hd']; [now apply I2|]. subst d. rewrite E.
      rewrite Nat.testbit_eqb, (Nat.div_small r) by exact I1. reflexivity.
Qed.

Lemma routed_routes l : (forall i, In i l -> (i < 2 ^ 64)%N) -> covers D pts l st -> routes (routed D st) (Nat.pow 2 D) (d_box st) l.
Proof.
  intros Hw Hc i Hi. split; [now apply Hw|]. intros Hn. destruct (Hc i Hi Hn) as [c [Ec Hb]]. exists c.
  pose proof (routed_spec c D) as [H1 H2]. unfold routed. set (r := fold_left _ _ _) in *. exists r. split; [exact Ec|]. split; [reflexivity|]. split; [exact H1|].
  intros d Hd. cbn [d_box b_lo b_hi]. specialize (H2 d Hd). specialize (Hb d Hd). rewrite H2. destruct (rltb (st_mid st d) (c d)) eqn:E.
  - apply rltb_iff in E. split; [now left|apply Hb].
  - apply rltb_false in E. split; [apply Hb|exact E].
Qed.

Lemma route1_routes k l : k < D -> (forall i, In i l -> (i < 2 ^ 64)%N) -> covers D pts l st -> routes (route1 D st k) 2 (half_box st k) l.
Proof.
  intros Hk Hw Hc i Hi. split; [now apply Hw|]. intros Hn. destruct (Hc i Hi Hn) as [c [Ec Hb]]. exists c.
  unfold route1. apply Nat.ltb_lt in Hk. rewrite Hk. exists (if rltb (st_mid st k) (c k) then 1 else 0).
  split; [exact Ec|]. split; [reflexivity|]. split; [destruct (rltb _ _); lia|].
  intros d Hd. specialize (Hb d Hd). destruct (rltb (st_mid st k) (c k)) eqn:E; unfold half_box; cbn [Nat.eqb b_lo b_hi]; destruct (Nat.eqb_spec d k) as [->|]; try exact Hb.
  - apply rltb_iff in E. split; [now left|apply Hb].
  - apply rltb_false in E. split; [apply Hb|exact E].
Qed.

(** *** dWayPartitioner and OneDimPartitioner *)
Variable mult : nat -> N.
Lemma iterate_rep s K : rep s K -> exists l, returns (fun f => set_iterate f s) l /\ NoDup l /\ length l = s_items s /\ forall i, In i l <-> In i K.
Proof.
  intros [Hwf HK]. exists (keys_of (s_arr s)). split; [apply set_iterate_spec|]. split; [exact (wf_NoDup 64 s Hwf)|]. split; [symmetry; apply Hwf|]. exact HK.
Qed.

Lemma init_ok n a : (n <= 2 ^ 63)%N -> rep (set_new n a) [] /\ s_items (set_new n a) = 0 /\ ((2 <= n)%N -> 2 <= cap (set_new n a)).
Proof.
  intros H. destruct (set_new_spec 64 w64 n a) as [R [I [C _]]]; [lia|exact H|etransitivity; [exact H|discriminate]|]. split; [exact R|]. split; [exact I|]. lia.
Qed.

Lemma rep_nz s K : rep s K -> ~ In 0%N K.
Proof. intros [_ HK] H. apply HK in H. apply elem_In in H. now apply H. Qed.
Lemma nz_same (l K : list N) : (forall i, In i l <-> In i K) -> ~ In 0%N K -> ~ In 0%N l.
Proof. intros H Hz H0. apply Hz, H, H0. Qed.

Lemma good_same K l ignore ps : (forall i, In i l <-> In i K) -> good_partition D pts l ignore ps -> good_partition D pts K ignore ps.
Proof.
  intros H [G1 [G2 [G3 G4]]]. split; [exact G1|]. split; [|split; [|exact G4]].
  - intros i Hi. apply G2. now apply H.
  - intros j p i Hp Hi0 Hh. destruct (G3 j p i Hp Hi0 Hh) as [[A B]|A]; [left|now right]. split; [now apply H|exact B].
Qed.
Lemma covers_same K l : (forall i, In i l <-> In i K) -> covers D pts K st -> covers D pts l st.
Proof. intros H Hc i Hi. apply Hc. now apply H. Qed.

Section Seq.
Variables (ids : lpset) (K : list N) (ignore : bool).
Hypothesis HR : rep ids K.
Hypothesis Hw : forall i, In i K -> (i < 2 ^ 64)%N.
Hypothesis Hc : covers D pts K st.
Hypothesis Hsm : small64 (4 * (set_size ids + Nat.pow 2 D)).

Definition parts_of (route : vec -> res nat) (m : nat) (bx : nat -> box) (ps : list part) : Prop :=
  exists l, (forall i, In i l <-> In i K) /\ routes route m bx l /\ parts_rep m bx (final route ignore l) ps.

Lemma parts_good route m bx ps : parts_of route m bx ps -> good_partition D pts K ignore ps.
Proof.
  intros [l [Hl [Hr HP]]]. apply (good_same K l ignore ps Hl). eapply final_good; [|exact Hr|exact HP]. apply (nz_same l K Hl). exact (rep_nz ids K HR).
Qed.

Lemma seq_case route m bx n : (forall l, (forall i, In i l <-> In i K) -> routes route m bx l) -> (n <= N.of_nat (set_size ids))%N ->
  exists ps, returns (fun f => rbind (set_iterate f ids) (fun l =>
      rbind (distribute D pts f route l (map (fun j => mkpart j (set_new n (mult j)) (bx j)) (seq 0 m))) (add_inf D f ignore))) ps /\
    parts_of route m bx ps /\ ((2 <= n)%N -> parts_free ps).
Proof.
  intros Hr Hn. destruct (iterate_rep ids K HR) as [l [El [Hnd [Hlen Hl]]]].
  assert (Hn63 : (n <= 2 ^ 63)%N). { destruct Hsm as [_ H]. lia. }
  destruct (seq_partition route ignore m bx (fun j => set_new n (mult j)) l) as [ps [Eps [Rps Fps]]].
  - apply (nz_same l K Hl). exact (rep_nz ids K HR).
  - now apply Hr.
  - rewrite Hlen. exact Hsm.
  - intros j _. destruct (init_ok n (mult j) Hn63) as [A [B _]]. auto.
  - exists ps. split; [|split].
    + exact (returns_bind _ (fun l f => rbind (distribute D pts f route l (map (fun j => mkpart j (set_new n (mult j)) (bx j)) (seq 0 m))) (add_inf D f ignore)) _ _ El Eps).
    + exists l. split; [exact Hl|]. split; [now apply Hr|exact Rps].
    + intros H2. apply Fps. intros j _. apply (init_ok n (mult j) Hn63). exact H2.
Qed.

Lemma d_way_ok : exists ps, returns (fun f => d_way D pts st mult f ids ignore) ps /\ parts_of (routed D st) (Nat.pow 2 D) (d_box st) ps /\
  ((2 * 2 ^ Dn <= N.of_nat (set_size ids))%N -> parts_free ps).
Proof.
  destruct (seq_case (routed D st) (Nat.pow 2 D) (d_box st) (N.of_nat (set_size ids) / 2 ^ Dn)) as [ps [E [P F]]].
  - intros l Hl. apply routed_routes; [intros i Hi; apply Hw, Hl, Hi|now apply (covers_same K l Hl)].
  - apply N.div_le_upper_bound; [apply N.pow_nonzero; discriminate|]. pose proof (pow2_pos Dn). nia.
  - exists ps. split; [exact E|]. split; [exact P|]. intros H. apply F. apply N.div_le_lower_bound; [apply N.pow_nonzero; discriminate|]. lia.
Qed.
Lemma one_dim_ok k : k < D -> exists ps, returns (fun f => one_dim D pts st mult k f ids ignore) ps /\ parts_of (route1 D st k) 2 (half_box st k) ps /\
  (4 <= set_size ids -> parts_free ps).
Proof.
  intros Hk. destruct (seq_case (route1 D st k) 2 (half_box st k) (N.of_nat (set_size ids) / 2)) as [ps [E [P F]]].
  - intros l Hl. apply route1_routes; [exact Hk|intros i Hi; apply Hw, Hl, Hi|now apply (covers_same K l Hl)].
  - apply N.div_le_upper_bound; lia.
  - exists ps. split; [exact E|]. split; [exact P|]. intros H. apply F. apply N.div_le_lower_bound; lia.
Qed.
End Seq.
End D.

(** *** Partitioning::partition and Partition::contains *)
Lemma part_of_first ps : answering ps -> forall i, (i <> 0)%N ->
  (exists j p, nth_error ps j = Some p /\ holds p i /\ (forall j' p', j' < j -> nth_error ps j' = Some p' -> ~ holds p' i) /\ returns (fun f => part_of f ps i) (Some (pa_id p))) \/
  ((forall p, In p ps -> ~ holds p i) /\ returns (fun f => part_of f ps i) None).
Proof.
  induction ps as [|p t IH]; intros Ha i Hi.
  - right. split; [intros p []|exists 0; reflexivity].
  - destruct (Ha p i (or_introl eq_refl) Hi) as [H|H].
    + left. exists 0, p. split; [reflexivity|]. split; [exact H|]. split; [intros; lia|].
      exact (returns_bind _ (fun (b : bool) f => if b then Val (Some (pa_id p)) else part_of f t i) _ _ H (returns_ret _)).
    + assert (Hno : ~ holds p i) by (intros H'; pose proof (returns_det _ _ _ H H'); discriminate).
      assert (Ht : answering t) by (intros q x Hq; apply Ha; now right).
      destruct (IH Ht i Hi) as [[j [q [Hq [Hh [Hf E]]]]]|[Hall E]].
      * left. exists (S j), q. split; [exact Hq|]. split; [exact Hh|]. split.
        -- intros [|j'] q' Hlt Hq'; [injection Hq' as <-; exact Hno|]. apply (Hf j' q'); [lia|exact Hq'].
        -- exact (returns_bind _ (fun (b : bool) f => if b then Val (Some (pa_id p)) else part_of f t i) _ _ H E).
      * right. split; [intros q [<-|Hq]; [exact Hno|now apply Hall]|].
        exact (returns_bind _ (fun (b : bool) f => if b then Val (Some (pa_id p)) else part_of f t i) _ _ H E).
Qed.

Lemma has_simplex_all p vs : (forall v, In v vs -> holds p v \/ lacks p v) ->
  (returns (fun f => part_has_simplex f p vs false) true /\ forall v, In v vs -> holds p v) \/
  (returns (fun f => part_has_simplex f p vs false) false /\ exists v, In v vs /\ lacks p v).
Proof.
  induction vs as [|v t IH]; intros Ha.
  - left. split; [exists 0; reflexivity|intros v []].
  - destruct (Ha v (or_introl eq_refl)) as [H|H].
    + destruct IH as [[E Hall]|[E [x [Hx Hl]]]]; [intros x Hx; apply Ha; now right| |].
      * left. split; [|intros x [<-|Hx]; auto]. exact (returns_bind _ (fun (b : bool) f => if negb false && negb b then Val false else if false && b then Val true else part_has_simplex f p t false) _ _ H E).
      * right. split; [|exists x; split; [now right|exact Hl]]. exact (returns_bind _ (fun (b : bool) f => if negb false && negb b then Val false else if false && b then Val true else part_has_simplex f p t false) _ _ H E).
    + right. split; [|exists v; split; [now left|exact H]]. exact (returns_bind _ (fun (b : bool) f => if negb false && negb b then Val false else if false && b then Val true else part_has_simplex f p t false) _ _ H (returns_ret _)).
Qed.
Lemma has_simplex_some p vs : (forall v, In v vs -> holds p v \/ lacks p v) ->
  (returns (fun f => part_has_simplex f p vs true) true /\ exists v, In v vs /\ holds p v) \/
  (returns (fun f => part_has_simplex f p vs true) false /\ forall v, In v vs -> lacks p v).
Proof.
  induction vs as [|v t IH]; intros Ha.
  - right. split; [exists 0; reflexivity|intros v []].
  - destruct (Ha v (or_introl eq_refl)) as [H|H].
    + left. split; [|exists v; split; [now left|exact H]]. exact (returns_bind _ (fun (b : bool) f => if negb true && negb b then Val false else if true && b then Val true else part_has_simplex f p t true) _ _ H (returns_ret _)).
    + destruct IH as [[E [x [Hx Hl]]]|[E Hall]]; [intros x Hx; apply Ha; now right| |].
      * left. split; [|exists x; split; [now right|exact Hl]]. exact (returns_bind _ (fun (b : bool) f => if negb true && negb b then Val false else if true && b then Val true else part_has_simplex f p t true) _ _ H E).
      * right. split; [|intros x [<-|Hx]; auto]. exact (returns_bind _ (fun (b : bool) f => if negb true && negb b then Val false else if true && b then Val true else part_has_simplex f p t true) _ _ H E).
Qed.
