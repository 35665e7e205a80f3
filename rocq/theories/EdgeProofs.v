From Verif Require Import Outcome ListUtil WordsModel SimplexModel PointProofs Pool EdgeModel EdgeSpec.
Local Open Scope nat_scope.

Section E.
Variable D : N.
Hypothesis HD : (D <= 30)%N.
Variable np : nat.
Variable get : nat -> N -> option simplex.
Variable hull : nat -> list N.
Variable mark0 : nat -> N.
Variable hits : nat -> simplex -> bool.
Variable m0 : nat -> N -> N.
Hypothesis Hlink : linked np get hull.
Hypothesis Hmark : forall p, p < np -> (mark0 p + 2 < 256)%N.
Hypothesis Hm0 : forall p id, p < np -> (m0 p id <= mark0 p)%N.

Notation q_mark := (q_mark mark0).
Notation d_mark := (d_mark mark0).
Notation e_step := (e_step np get hull mark0 hits).
Notation reached := (reached np get hull hits).
Notation crosses := (crosses np hits).
Notation meets := (meets np hits).

Lemma q_val p : p < np -> q_mark p = (mark0 p + 1)%N.
Proof. intros Hp. specialize (Hmark p Hp). unfold EdgeModel.q_mark, wrap. apply N.mod_small. lia. Qed.
Lemma d_val p : p < np -> d_mark p = (mark0 p + 2)%N.
Proof. intros Hp. specialize (Hmark p Hp). unfold EdgeModel.d_mark, wrap. apply N.mod_small. lia. Qed.
Lemma meets_iff p s : meets p s = true <-> crosses p s.
Proof.
  unfold EdgeModel.meets, EdgeSpec.crosses. rewrite existsb_exists. split.
  - intros [i [Hi H]]. apply in_seq in Hi. apply andb_prop in H. destruct H as [H1 H2]. exists i. split; [lia|]. split; [|exact H2]. destruct (Nat.eqb_spec i p); [discriminate|assumption].
  - intros [i [H1 [H2 H3]]]. exists i. split; [apply in_seq; lia|]. rewrite H3, andb_true_r. destruct (Nat.eqb_spec i p); [contradiction|reflexivity].
Qed.
Lemma fin_iff n : s_finite n = true <-> n <> s_inf.
Proof. unfold s_finite. rewrite negb_true_iff, N.eqb_neq. tauto. Qed.

Lemma reached_live p id : p < np -> reached p id -> exists s, get p id = Some s /\ x_id s = id.
Proof.
  destruct Hlink as [L1 L2]. intros Hp Hr. induction Hr as [id Hh Hf|id s n Hr IH Eg Hc Hn Hf]; [auto|].
  destruct IH as [s' [Es Ei]]. assert (s' = s) by congruence. subst s'. eauto.
Qed.

Definition marked (sh : esh) (p : nat) (id : N) : Prop := (q_mark p <= e_marks sh p id)%N.

(** The simplex has been dealt with. *)
Definition complete (sh : esh) (p : nat) (id : N) : Prop :=
  exists s, get p id = Some s /\ (crosses p s -> In (x_id s) (e_simp sh) /\ (forall v, In v (x_verts s) -> In v (e_pts sh)) /\
    forall n, In n (x_nbrs s) -> n <> s_inf -> marked sh p n).

Definition pend (T : list etask) (p : nat) (id : N) : Prop :=
  exists t, In t T /\ match t with EItem p' i | EMark p' i | EAdd p' _ i _ => p' = p /\ i = id | _ => False end.
Definition prog (T : list etask) (p : nat) (id : N) : Prop :=
  exists t, In t T /\ match t with EInsS p' i | EInsV p' i _ | EScan p' i _ | EQueue p' i _ _ | EAdd p' i _ _ => p' = p /\ i = id | _ => False end.

(** A task past the test of the circumsphere. *)
Definition inside (sh : esh) (p : nat) (id : N) (vs : list N) (ns : list N) (n : N) : Prop :=
  p < np /\ reached p id /\ exists s, get p id = Some s /\ crosses p s /\ In (x_id s) (e_simp sh) /\
    (forall v, In v (x_verts s) -> In v vs \/ In v (e_pts sh)) /\ (forall v, In v vs -> In v (x_verts s)) /\
    (forall m, In m (x_nbrs s) -> m <> s_inf -> m = n \/ In m ns \/ marked sh p m) /\ (forall m, In m ns -> In m (x_nbrs s)).

Definition tI (sh : esh) (t : etask) : Prop :=
  match t with
  | EInf p k => p < np /\ (p_inf D <= k < 2 ^ 64)%N /\ forall j, (p_inf D <= j < k)%N -> In j (e_pts sh)
  | EItem p id => p < np /\ (id <> s_inf -> reached p id)
  | EMark p id => p < np /\ id <> s_inf /\ reached p id
  | EInsS p id => p < np /\ reached p id /\ exists s, get p id = Some s /\ crosses p s
  | EInsV p id vs => exists s, get p id = Some s /\ inside sh p id vs (x_nbrs s) s_inf
  | EScan p id ns => inside sh p id [] ns s_inf
  | EQueue p id n ns => inside sh p id [] ns n /\ n <> s_inf /\ exists s, get p id = Some s /\ In n (x_nbrs s)
  | EAdd p id n ns => inside sh p id [] ns s_inf /\ reached p n
  end.

Record eI (a : pool esh etask) : Prop := mkI {
  i_t : forall t, In t (p_tasks a) -> tI (p_sh a) t;
  i_m : forall p id, p < np -> e_marks (p_sh a) p id = m0 p id \/ e_marks (p_sh a) p id = q_mark p \/ e_marks (p_sh a) p id = d_mark p;
  i_d : forall p id, p < np -> e_marks (p_sh a) p id = d_mark p -> prog (p_tasks a) p id \/ complete (p_sh a) p id;
  i_q : forall p id, p < np -> id <> s_inf -> e_marks (p_sh a) p id = q_mark p -> pend (p_tasks a) p id \/ prog (p_tasks a) p id \/ complete (p_sh a) p id;
  i_h : forall p id, p < np -> In id (hull p) -> id <> s_inf ->
     (exists k, In (EInf p k) (p_tasks a)) \/ pend (p_tasks a) p id \/ prog (p_tasks a) p id \/ complete (p_sh a) p id;
  i_s : forall x, In x (e_simp (p_sh a)) -> exists p s, on_edge np get hull hits p x s;
  i_p : forall v, In v (e_pts (p_sh a)) -> (0 < np /\ (p_inf D <= v < 2 ^ 64)%N) \/ exists p id s, on_edge np get hull hits p id s /\ In v (x_verts s);
  i_f : forall p, p < np -> (exists k, In (EInf p k) (p_tasks a)) \/ forall v, (p_inf D <= v < 2 ^ 64)%N -> In v (e_pts (p_sh a)) }.

(** *** The shared state grows *)
Definition grows (sh sh' : esh) : Prop :=
  (forall x, In x (e_simp sh) -> In x (e_simp sh')) /\ (forall v, In v (e_pts sh) -> In v (e_pts sh')) /\ (forall p id, p < np -> marked sh p id -> marked sh' p id).
Lemma grows_refl sh : grows sh sh.
Proof. repeat split; auto. Qed.
Lemma inside_grows sh sh' p id vs ns n : grows sh sh' -> inside sh p id vs ns n -> inside sh' p id vs ns n.
Proof.
  intros [G1 [G2 G3]] [H1 [H2 [s [H3 [H4 [H5 [H6 [H7 [H8 H9]]]]]]]]]. split; [exact H1|]. split; [exact H2|]. exists s.
  split; [exact H3|]. split; [exact H4|]. split; [auto|]. split; [intros v Hv; destruct (H6 v Hv); auto|]. split; [exact H7|]. split; [|exact H9].
  intros m Hm Hf. destruct (H8 m Hm Hf) as [H|[H|H]]; auto.
Qed.
Lemma tI_grows sh sh' t : grows sh sh' -> tI sh t -> tI sh' t.
Proof.
  intros G. pose proof G as [G1 [G2 G3]]. destruct t; cbn [tI]; auto.
  - intros [H1 [H2 H3]]. auto.
  - intros [s [H1 H2]]. exists s. split; [exact H1|]. eapply inside_grows; eauto.
  - apply inside_grows, G.
  - intros [H1 H2]. split; [eapply inside_grows; eauto|exact H2].
  - intros [H1 H2]. split; [eapply inside_grows; eauto|exact H2].
Qed.
Lemma complete_grows sh sh' p id : p < np -> grows sh sh' -> complete sh p id -> complete sh' p id.
Proof.
  intros Hp [G1 [G2 G3]] [s [H1 H2]]. exists s. split; [exact H1|]. intros Hc. destruct (H2 Hc) as [A [B C]]. split; [auto|]. split; auto.
Qed.
Lemma set_mark_same m p id v : set_mark m p id v p id = v.
Proof. unfold set_mark. now rewrite Nat.eqb_refl, N.eqb_refl. Qed.
Lemma set_mark_cases m p id v p' id' : (p' = p /\ id' = id /\ set_mark m p id v p' id' = v) \/ ((p' <> p \/ id' <> id) /\ set_mark m p id v p' id' = m p' id').
Proof.
  unfold set_mark. destruct (Nat.eqb_spec p' p), (N.eqb_spec id' id); cbn [andb]; auto.
Qed.

Lemma e_grows sh t sh' next : e_step sh t = TStep sh' next -> grows sh sh'.
Proof.
  intros E. destruct t; cbn [EdgeModel.e_step] in E.
  - destruct (_ =? _)%N; injection E as <- <-; repeat split; cbn; auto.
  - destruct (negb _); [injection E as <- <-; apply grows_refl|]. destruct (get p id); [|discriminate]. destruct (_ =? _)%N; injection E as <- <-; apply grows_refl.
  - destruct (get p id); [|discriminate]. injection E as <- <-. repeat split; cbn [e_simp e_pts]; auto. intros p' id' Hp' H. unfold marked in *. cbn [e_marks].
    destruct (set_mark_cases (e_marks sh) p id (d_mark p) p' id') as [[-> [-> ->]]|[_ ->]]; [rewrite q_val, d_val by exact Hp'; lia|exact H].
  - destruct (get p id); [|discriminate]. injection E as <- <-. repeat split; cbn; auto.
  - destruct vs; [destruct (get p id); [|discriminate]; injection E as <- <-; apply grows_refl|]. injection E as <- <-. repeat split; cbn; auto.
  - destruct ns; [injection E as <- <-; apply grows_refl|]. destruct (negb _); [injection E as <- <-; apply grows_refl|]. destruct (get p n); [|discriminate]. injection E as <- <-. apply grows_refl.
  - injection E as <- <-. repeat split; cbn [e_simp e_pts]; auto. intros p' id' Hp' H. unfold marked in *. cbn [e_marks].
    destruct (set_mark_cases (e_marks sh) p n (q_mark p) p' id') as [[-> [-> ->]]|[_ ->]]; [lia|exact H].
  - injection E as <- <-. apply grows_refl.
Qed.

(** *** Tasks keep their invariants *)
Lemma wrap_next k : (p_inf D <= k < 2 ^ 64)%N -> (wrap 64 (k + 1) =? 0)%N = true /\ k = (2 ^ 64 - 1)%N \/ (wrap 64 (k + 1) =? 0)%N = false /\ wrap 64 (k + 1) = (k + 1)%N /\ (k + 1 < 2 ^ 64)%N.
Proof.
  intros H. unfold wrap. destruct (N.eq_dec k (2 ^ 64 - 1)) as [->|Hne].
  - left. split; reflexivity.
  - right. rewrite N.mod_small by lia. split; [apply N.eqb_neq; lia|]. split; [reflexivity|lia].
Qed.

Lemma item_step sh p id sh' next : tI sh (EItem p id) -> e_step sh (EItem p id) = TStep sh' next ->
  sh' = sh /\ ((id = s_inf /\ next = []) \/ (id <> s_inf /\ e_marks sh p id = d_mark p /\ next = []) \/ (id <> s_inf /\ next = [EMark p id])).
Proof.
  intros _ E. cbn [EdgeModel.e_step] in E. destruct (s_finite id) eqn:Ef; cbn [negb] in E.
  - apply fin_iff in Ef. destruct (get p id); [|discriminate]. destruct (N.eqb_spec (e_marks sh p id) (d_mark p)); injection E as <- <-; auto 8.
  - injection E as <- <-. split; [reflexivity|]. left. split; [|reflexivity]. unfold s_finite in Ef. apply negb_false_iff, N.eqb_eq in Ef. exact Ef.
Qed.

Lemma next_ok sh t sh' next : tI sh t -> e_step sh t = TStep sh' next -> forall x, In x next -> tI sh' x.
Proof.
  intros H E. pose proof (e_grows _ _ _ _ E) as G. destruct t.
  - cbn [tI EdgeModel.e_step] in *. destruct H as [Hp [Hk Hj]]. destruct (wrap_next k Hk) as [[W ->]|[W [Wk Wl]]]; rewrite W in E; injection E as <- <-; intros x Hx.
    + apply in_map_iff in Hx. destruct Hx as [id [<- Hid]]. cbn [tI]. split; [exact Hp|]. intros Hf. now apply reached_hull.
    + rewrite Wk in Hx. destruct Hx as [<-|[]]. cbn [tI e_pts]. split; [exact Hp|]. split; [lia|]. intros j Hj'. destruct (N.eq_dec j k) as [->|]; [now left|]. right. apply Hj. lia.
  - destruct (item_step _ _ _ _ _ H E) as [-> [[_ ->]|[[_ [_ ->]]|[Hf ->]]]]; intros x Hx; try contradiction. destruct Hx as [<-|[]]. cbn [tI] in *. destruct H. auto.
  - cbn [tI EdgeModel.e_step] in *. destruct H as [Hp [Hf Hr]]. destruct (get p id) as [s|] eqn:Eg; [|discriminate]. injection E as <- <-. intros x Hx.
    destruct (meets p s) eqn:Em; [|contradiction]. destruct Hx as [<-|[]]. cbn [tI]. apply meets_iff in Em. eauto.
  - cbn [tI EdgeModel.e_step] in *. destruct H as [Hp [Hr [s [Eg Hc]]]]. rewrite Eg in E. injection E as <- <-. intros x [<-|[]]. cbn [tI]. exists s. split; [exact Eg|].
    split; [exact Hp|]. split; [exact Hr|]. exists s. split; [exact Eg|]. split; [exact Hc|]. split; [now left|]. auto 10.
  - cbn [tI EdgeModel.e_step] in *. destruct H as [s [Eg H]]. destruct vs as [|v vs].
    + rewrite Eg in E. injection E as <- <-. intros x [<-|[]]. exact H.
    + injection E as <- <-. intros x [<-|[]]. cbn [tI]. exists s. split; [exact Eg|]. destruct H as [H1 [H2 [s' [H3 [H4 [H5 [H6 [H7 [H8 H9]]]]]]]]].
      split; [exact H1|]. split; [exact H2|]. exists s'. split; [exact H3|]. split; [exact H4|]. split; [exact H5|]. split; [|split; [|split; [exact H8|exact H9]]].
      * intros u Hu. destruct (H6 u Hu) as [[->|H]|H]; cbn; auto.
      * intros u Hu. apply H7. now right.
  - destruct ns as [|n ns]; cbn [tI EdgeModel.e_step] in *; [injection E as <- <-; intros x []|].
    destruct H as [H1 [H2 [s' [H3 [H4 [H5 [H6 [H7 [H8 H9]]]]]]]]].
    destruct (s_finite n) eqn:Ef; cbn [negb] in E.
    + apply fin_iff in Ef. destruct (get p n) as [sn|] eqn:En; [|discriminate]. injection E as <- <-. destruct (N.ltb_spec (e_marks sh p n) (q_mark p)) as [Hq|Hq]; intros x [<-|[]]; cbn [tI].
      * split; [|split; [exact Ef|exists s'; split; [exact H3|apply H9; now left]]]. split; [exact H1|]. split; [exact H2|]. exists s'. repeat (split; [assumption|]). split.
        -- intros m Hm Hmf. destruct (H8 m Hm Hmf) as [H|[[H|H]|H]]; auto. congruence.
        -- intros m Hm. apply H9. now right.
      * split; [exact H1|]. split; [exact H2|]. exists s'. repeat (split; [assumption|]). split.
        -- intros m Hm Hmf. destruct (H8 m Hm Hmf) as [H|[[<-|H]|H]]; auto.
        -- intros m Hm. apply H9. now right.
    + injection E as <- <-. intros x [<-|[]]. assert (n = s_inf) by (unfold s_finite in Ef; apply negb_false_iff, N.eqb_eq in Ef; exact Ef). cbn [tI].
      split; [exact H1|]. split; [exact H2|]. exists s'. repeat (split; [assumption|]). split.
      * intros m Hm Hmf. destruct (H8 m Hm Hmf) as [H'|[[H'|H']|H']]; auto. congruence.
      * intros m Hm. apply H9. now right.
  - cbn [EdgeModel.e_step] in E. injection E as <- <-. intros x [<-|[]]. cbn [tI] in *. destruct H as [H [Hf [s [Eg Hn]]]]. destruct H as [H1 [H2 [s' [H3 [H4 [H5 [H6 [H7 [H8 H9]]]]]]]]].
    split; [|apply (reached_next np get hull hits p id s n H2 Eg ltac:(congruence) Hn Hf)].
    destruct G as [_ [_ G3]]. split; [exact H1|]. split; [exact H2|]. exists s'. repeat (split; [assumption|]). split; [|exact H9]. intros m Hm Hmf. right.
    destruct (H8 m Hm Hmf) as [->|[H|H]]; auto. right. unfold marked. cbn [e_marks]. rewrite set_mark_same. lia.
  - cbn [EdgeModel.e_step] in E. injection E as <- <-. cbn [tI] in H. destruct H as [H Hr]. intros x [<-|[<-|[]]]; cbn [tI]; [exact H|]. destruct H as [H1 _]. auto.
Qed.

(** *** Coverage *)
Lemma in_step {A} (l1 l2 next : list A) t x : In x (l1 ++ t :: l2) -> x = t \/ In x (l1 ++ next ++ l2).
Proof. intros H. apply in_app_or in H. destruct H as [H|[<-|H]]; [right|now left|right]; rewrite !in_app_iff; auto. Qed.
Lemma in_next {A} (l1 l2 next : list A) x : In x next -> In x (l1 ++ next ++ l2).
Proof. intros H. rewrite !in_app_iff. auto. Qed.

Lemma prog_step l1 t l2 sh sh' next p id : p < np -> tI sh t -> e_step sh t = TStep sh' next ->
  prog (l1 ++ t :: l2) p id -> prog (l1 ++ next ++ l2) p id \/ complete sh' p id.
Proof.
  intros Hp Ht E [x [Hx Hm]]. destruct (in_step l1 l2 next t x Hx) as [->|Hx']; [|left; exists x; auto].
  assert (Use : forall y, In y next -> match y with EInsS p' i | EInsV p' i _ | EScan p' i _ | EQueue p' i _ _ | EAdd p' i _ _ => p' = p /\ i = id | _ => False end ->
    prog (l1 ++ next ++ l2) p id \/ complete sh' p id) by (intros y Hy H; left; exists y; split; [now apply in_next|exact H]).
  destruct t; try contradiction; destruct Hm as [-> ->]; cbn [EdgeModel.e_step] in E.
  - destruct (get p id) as [s|]; [|discriminate]. injection E as <- <-. apply (Use (EInsV p id (x_verts s))); [now left|split; reflexivity].
  - destruct vs as [|v vs]; [destruct (get p id) as [s|]; [|discriminate]|]; injection E as <- <-; (eapply Use; [now left|split; reflexivity]).
  - destruct ns as [|n ns].
    + injection E as <- <-. right. cbn [tI] in Ht. destruct Ht as [_ [_ [s [H3 [H4 [H5 [H6 [_ [H8 _]]]]]]]]]. exists s. split; [exact H3|]. intros _. split; [exact H5|]. split.
      * intros v Hv. destruct (H6 v Hv) as [[]|H]. exact H.
      * intros m Hm Hf. destruct (H8 m Hm Hf) as [H|[[]|H]]; [contradiction|exact H].
    + destruct (negb _); [injection E as <- <-; (eapply Use; [now left|split; reflexivity])|]. destruct (get p n); [|discriminate]. injection E as <- <-. eapply Use; [now left|]. destruct (_ <? _)%N; split; reflexivity.
  - injection E as <- <-. eapply Use; [now left|split; reflexivity].
  - injection E as <- <-. eapply Use; [now left|split; reflexivity].
Qed.

Lemma cover_d l1 t l2 sh sh' next p id : p < np -> tI sh t -> e_step sh t = TStep sh' next ->
  prog (l1 ++ t :: l2) p id \/ complete sh p id -> prog (l1 ++ next ++ l2) p id \/ complete sh' p id.
Proof.
  intros Hp Ht E [H|H]; [eapply prog_step; eauto|]. right. eapply complete_grows; eauto. eapply e_grows; eauto.
Qed.
Lemma mark_ends sh sh' p id next : p < np -> e_step sh (EMark p id) = TStep sh' next ->
  (exists s, get p id = Some s /\ sh' = mke (set_mark (e_marks sh) p id (d_mark p)) (e_simp sh) (e_pts sh)) /\ (next = [EInsS p id] \/ complete sh' p id).
Proof.
  intros Hp E. cbn [EdgeModel.e_step] in E. destruct (get p id) as [s|] eqn:Eg; [|discriminate]. injection E as <- <-. split; [eauto|]. destruct (meets p s) eqn:Em; [now left|].
  right. exists s. split; [exact Eg|]. intros Hc. apply meets_iff in Hc. congruence.
Qed.

Lemma cover_q l1 t l2 sh sh' next p id : p < np -> id <> s_inf -> tI sh t -> e_step sh t = TStep sh' next ->
  (e_marks sh p id = d_mark p -> prog (l1 ++ t :: l2) p id \/ complete sh p id) ->
  pend (l1 ++ t :: l2) p id \/ prog (l1 ++ t :: l2) p id \/ complete sh p id ->
  pend (l1 ++ next ++ l2) p id \/ prog (l1 ++ next ++ l2) p id \/ complete sh' p id.
Proof.
  intros Hp Hi Ht E Hd [[x [Hx Hm]]|H]; [|right; eapply cover_d; eauto].
  destruct (in_step l1 l2 next t x Hx) as [->|Hx']; [|left; exists x; auto].
  destruct t; try contradiction; destruct Hm as [-> ->].
  - destruct (item_step _ _ _ _ _ Ht E) as [Esh [[Hi' _]|[[_ [Hk _]]|[_ Hn]]]]; [contradiction| |].
    + right. eapply cover_d; eauto.
    + left. exists (EMark p id). split; [apply in_next; rewrite Hn; now left|split; reflexivity].
  - destruct (mark_ends _ _ _ _ _ Hp E) as [_ [Hn|Hn]]; right; [left|right; exact Hn]. exists (EInsS p id). split; [apply in_next; rewrite Hn; now left|split; reflexivity].
  - cbn [EdgeModel.e_step] in E. injection E as <- <-. left. exists (EItem p id). split; [apply in_next; right; now left|split; reflexivity].
Qed.

(** *** The invariant *)
Lemma eI_step a b : eI a -> pstep e_step a b -> eI b.
Proof.
  intros [It Im Id Iq Ih Is Ip If] (l1 & t & l2 & sh' & next & E1 & E2 & ->). destruct a as [sh T]. cbn [p_sh p_tasks] in *. subst T.
  assert (Hin : In t (l1 ++ t :: l2)) by (apply in_or_app; right; now left).
  pose proof (It t Hin) as Ht. pose proof (e_grows _ _ _ _ E2) as G. pose proof (next_ok _ _ _ _ Ht E2) as Hn.
  assert (Mk : forall p id, p < np -> e_marks sh' p id = e_marks sh p id \/
     (t = EMark p id /\ e_marks sh' p id = d_mark p) \/ (exists x ns, t = EQueue p x id ns /\ e_marks sh' p id = q_mark p)).
  { intros p id Hp. destruct t; cbn [EdgeModel.e_step] in E2.
    - destruct (_ =? _)%N; injection E2 as <- <-; now left.
    - destruct (negb _); [injection E2 as <- <-; now left|]. destruct (get p0 id0); [|discriminate]. destruct (_ =? _)%N; injection E2 as <- <-; now left.
    - destruct (get p0 id0); [|discriminate]. injection E2 as <- <-. cbn [e_marks]. destruct (set_mark_cases (e_marks sh) p0 id0 (d_mark p0) p id) as [[-> [-> ->]]|[_ ->]]; auto.
    - destruct (get p0 id0); [|discriminate]. injection E2 as <- <-. now left.
    - destruct vs; [destruct (get p0 id0); [|discriminate]|]; injection E2 as <- <-; now left.
    - destruct ns; [injection E2 as <- <-; now left|]. destruct (negb _); [injection E2 as <- <-; now left|]. destruct (get p0 n); [|discriminate]. injection E2 as <- <-. now left.
    - injection E2 as <- <-. cbn [e_marks]. destruct (set_mark_cases (e_marks sh) p0 n (q_mark p0) p id) as [[-> [-> ->]]|[_ ->]]; eauto 8.
    - injection E2 as <- <-. now left. }
  assert (Dn : forall p id, p < np -> e_marks sh' p id = d_mark p -> prog (l1 ++ next ++ l2) p id \/ complete sh' p id).
  { intros p id Hp Hm. destruct (Mk p id Hp) as [Hs|[[-> _]|[x [ns [-> Hq]]]]].
    - eapply cover_d; eauto. apply Id; congruence.
    - destruct (mark_ends _ _ _ _ _ Hp E2) as [_ [Hx|Hx]]; [left|right; exact Hx]. exists (EInsS p id). split; [apply in_next; rewrite Hx; now left|split; reflexivity].
    - exfalso. rewrite Hq, q_val, d_val in Hm by exact Hp. lia. }
  assert (Inf : forall p k, In (EInf p k) (l1 ++ t :: l2) -> (exists k', In (EInf p k') (l1 ++ next ++ l2)) \/
     (t = EInf p k /\ next = map (EItem p) (hull p) /\ forall v, (p_inf D <= v < 2 ^ 64)%N -> In v (e_pts sh'))).
  { intros p k Hk. destruct (in_step l1 l2 next t _ Hk) as [<-|Hk']; [|left; eauto]. cbn [tI] in Ht. destruct Ht as [Hp [Hk' Hj]]. cbn [EdgeModel.e_step] in E2.
    destruct (wrap_next k Hk') as [[W ->]|[W _]]; rewrite W in E2; injection E2 as <- <-.
    - right. split; [reflexivity|]. split; [reflexivity|]. intros v Hv. cbn [e_pts]. destruct (N.eq_dec v (2 ^ 64 - 1)) as [->|]; [now left|]. right. apply Hj. lia.
    - left. eexists. apply in_next. now left. }
  split; cbn [p_sh p_tasks].
  - intros x Hx. rewrite !in_app_iff in Hx. destruct Hx as [Hx|[Hx|Hx]]; [|now apply Hn|]; (eapply tI_grows; [exact G|]; apply It; rewrite in_app_iff; cbn [In]; auto).
  - intros p id Hp. destruct (Mk p id Hp) as [->|[[_ ->]|[x [ns [_ ->]]]]]; auto.
  - exact Dn.
  - intros p id Hp Hf Hm. destruct (Mk p id Hp) as [Hs|[[-> Hd]|[x [ns [-> Hq]]]]].
    + eapply cover_q; eauto. apply Iq; [exact Hp|exact Hf|congruence].
    + right. now apply Dn.
    + cbn [EdgeModel.e_step] in E2. injection E2 as <- <-. left. exists (EAdd p x id ns). split; [apply in_next; now left|split; reflexivity].
  - intros p id Hp Hh Hf. destruct (Ih p id Hp Hh Hf) as [[k Hk]|H].
    + destruct (Inf p k Hk) as [H|[_ [-> _]]]; [now left|]. right. left. exists (EItem p id). split; [apply in_next, in_map, Hh|split; reflexivity].
    + right. eapply cover_q; eauto.
  - intros x Hx. destruct t; cbn [EdgeModel.e_step] in E2; try (injection E2 as <- <-; now apply Is).
    + destruct (_ =? _)%N; injection E2 as <- <-; now apply Is.
    + destruct (negb _); [injection E2 as <- <-; now apply Is|]. destruct (get p id); [|discriminate]. destruct (_ =? _)%N; injection E2 as <- <-; now apply Is.
    + destruct (get p id); [|discriminate]. injection E2 as <- <-. now apply Is.
    + cbn [tI] in Ht. destruct Ht as [Hp [Hr [s [Eg Hc]]]]. rewrite Eg in E2. injection E2 as <- <-. destruct Hx as [<-|Hx]; [|now apply Is].
      exists p, s. destruct (reached_live p id Hp Hr) as [s' [Es Ei]]. assert (s' = s) by congruence. subst s'. rewrite Ei. repeat (split; [assumption|]). exact Hc.
    + destruct vs; [destruct (get p id); [|discriminate]|]; injection E2 as <- <-; now apply Is.
    + destruct ns; [injection E2 as <- <-; now apply Is|]. destruct (negb _); [injection E2 as <- <-; now apply Is|]. destruct (get p n); [|discriminate]. injection E2 as <- <-. now apply Is.
  - intros v Hv. destruct t; cbn [EdgeModel.e_step] in E2; try (injection E2 as <- <-; now apply Ip).
    + assert (Hv' : v = k \/ In v (e_pts sh)) by (destruct (_ =? _)%N; injection E2 as <- <-; destruct Hv; auto). destruct Hv' as [->|Hv']; [|now apply Ip].
      cbn [tI] in Ht. left. destruct Ht as [Hp [Hk _]]. split; [lia|exact Hk].
    + destruct (negb _); [injection E2 as <- <-; now apply Ip|]. destruct (get p id); [|discriminate]. destruct (_ =? _)%N; injection E2 as <- <-; now apply Ip.
    + destruct (get p id); [|discriminate]. injection E2 as <- <-. now apply Ip.
    + destruct (get p id); [|discriminate]. injection E2 as <- <-. now apply Ip.
    + destruct vs as [|u vs]; [destruct (get p id); [|discriminate]; injection E2 as <- <-; now apply Ip|]. injection E2 as <- <-. destruct Hv as [<-|Hv]; [|now apply Ip].
      right. cbn [tI] in Ht. destruct Ht as [_ [_ [Hp [Hr [s [Eg [Hc [_ [_ [H7 _]]]]]]]]]]. exists p, id, s. split; [|apply H7; now left]. repeat (split; [assumption|]). exact Hc.
    + destruct ns; [injection E2 as <- <-; now apply Ip|]. destruct (negb _); [injection E2 as <- <-; now apply Ip|]. destruct (get p n); [|discriminate]. injection E2 as <- <-. now apply Ip.
  - intros p Hp. destruct (If p Hp) as [[k Hk]|H].
    + destruct (Inf p k Hk) as [H|[_ [_ H]]]; auto.
    + right. intros v Hv. destruct G as [_ [G2 _]]. auto.
Qed.

Lemma eI_start : eI (e_start D np m0).
Proof.
  pose proof (p_inf_val D HD) as HI. pose proof (pow_D_le D HD). pose proof (N.pow_nonzero 2 D ltac:(discriminate)).
  assert (Nq : forall p id, p < np -> (m0 p id < q_mark p /\ m0 p id < d_mark p)%N) by (intros p id Hp; pose proof (Hm0 p id Hp); rewrite q_val, d_val by exact Hp; lia).
  split; unfold e_start; cbn [p_sh p_tasks e_marks e_simp e_pts].
  - intros t Ht. apply in_map_iff in Ht. destruct Ht as [p [<- Hp]]. apply in_seq in Hp. cbn [tI]. split; [lia|]. split; [lia|]. intros j Hj. lia.
  - auto.
  - intros p id Hp Hm. destruct (Nq p id Hp). lia.
  - intros p id Hp _ Hm. destruct (Nq p id Hp). lia.
  - intros p id Hp _ _. left. exists (p_inf D). apply in_map_iff. exists p. split; [reflexivity|]. apply in_seq. lia.
  - intros x [].
  - intros v [].
  - intros p Hp. left. exists (p_inf D). apply in_map_iff. exists p. split; [reflexivity|]. apply in_seq. lia.
Qed.

Lemma eI_inv a : pexec e_step (e_start D np m0) a -> eI a.
Proof. apply pexec_inv; [exact eI_start|]. intros b c Hb Hs. exact (eI_step b c Hb Hs). Qed.

Lemma e_safe : psafe e_step (e_start D np m0).
Proof.
  intros a t Ha Hin Hbad. destruct (eI_inv a Ha) as [It _ _ _ _ _ _ _]. pose proof (It t Hin) as Ht.
  assert (Rd : forall p id, p < np -> reached p id -> exists s, get p id = Some s).
  { intros p id Hp Hr. destruct (reached_live p id Hp Hr) as [s [Es _]]. eauto. }
  destruct t; cbn [EdgeModel.e_step tI] in *.
  - destruct (_ =? _)%N; discriminate.
  - destruct (s_finite id) eqn:Ef; cbn [negb] in Hbad; [|discriminate]. apply fin_iff in Ef. destruct Ht as [Hp Hr]. destruct (Rd p id Hp (Hr Ef)) as [s Es]. rewrite Es in Hbad. destruct (_ =? _)%N; discriminate.
  - destruct Ht as [Hp [_ Hr]]. destruct (Rd p id Hp Hr) as [s Es]. rewrite Es in Hbad. discriminate.
  - destruct Ht as [_ [_ [s [Es _]]]]. rewrite Es in Hbad. discriminate.
  - destruct Ht as [s [Es _]]. destruct vs; [rewrite Es in Hbad|]; discriminate.
  - destruct ns as [|n ns]; [discriminate|]. destruct (s_finite n) eqn:Ef; cbn [negb] in Hbad; [|discriminate]. apply fin_iff in Ef.
    destruct Ht as [Hp [Hr [s [Es [Hc [_ [_ [_ [_ H9]]]]]]]]]. destruct (Rd p n Hp) as [s' Es']; [eapply reached_next; eauto; apply H9; now left|]. rewrite Es' in Hbad. discriminate.
  - discriminate.
  - discriminate.
Qed.

(** With an empty pool the sets are those wanted. *)
Lemma e_result sh : pexec e_step (e_start D np m0) (mkp sh []) ->
  (forall x, In x (e_simp sh) <-> exists p s, on_edge np get hull hits p x s) /\
  (forall v, In v (e_pts sh) <-> (0 < np /\ (p_inf D <= v < 2 ^ 64)%N) \/ exists p id s, on_edge np get hull hits p id s /\ In v (x_verts s)).
Proof.
  intros Ha. destruct (eI_inv _ Ha) as [It Im Id Iq Ih Is Ip If]. cbn [p_sh p_tasks] in *.
  assert (NP : forall p id, ~ pend [] p id) by (intros p id [t [[] _]]). assert (NG : forall p id, ~ prog [] p id) by (intros p id [t [[] _]]).
  assert (Mc : forall p n, p < np -> n <> s_inf -> marked sh p n -> complete sh p n).
  { intros p n Hp Hf Hm. unfold marked in Hm. destruct (Im p n Hp) as [E|[E|E]].
    - exfalso. rewrite E, q_val in Hm by exact Hp. pose proof (Hm0 p n Hp). lia.
    - destruct (Iq p n Hp Hf E) as [H|[H|H]]; [now apply NP in H|now apply NG in H|exact H].
    - destruct (Id p n Hp E) as [H|H]; [now apply NG in H|exact H]. }
  assert (Rc : forall p id, p < np -> reached p id -> complete sh p id).
  { intros p id Hp Hr. induction Hr as [id Hh Hf|id s n Hr IH Eg Hc Hn Hf].
    - destruct (Ih p id Hp Hh Hf) as [[k []]|[H|[H|H]]]; [now apply NP in H|now apply NG in H|exact H].
    - destruct IH as [s' [Eg' H]]. assert (s' = s) by congruence. subst s'. destruct (H Hc) as [_ [_ H']]. apply Mc; auto. }
  split.
  - intros x. split; [apply Is|]. intros [p [s [Hp [Hr [Eg Hc]]]]]. destruct (Rc p x Hp Hr) as [s' [Eg' H]]. assert (s' = s) by congruence. subst s'.
    destruct (H Hc) as [H1 _]. destruct (reached_live p x Hp Hr) as [s' [Es Ei]]. assert (s' = s) by congruence. subst s'. rewrite Ei in H1. exact H1.
  - intros v. split; [apply Ip|]. intros [[Hp Hv]|[p [id [s [[Hp [Hr [Eg Hc]]] Hv]]]]].
    + destruct (If 0 Hp) as [[k []]|H]. auto.
    + destruct (Rc p id Hp Hr) as [s' [Eg' H]]. assert (s' = s) by congruence. subst s'. destruct (H Hc) as [_ [H2 _]]. auto.
Qed.

Lemma e_marks_le sh : pexec e_step (e_start D np m0) (mkp sh []) -> forall p id, p < np -> (e_marks sh p id <= mark0 p + 2)%N.
Proof.
  intros Ha p id Hp. destruct (eI_inv _ Ha) as [_ Im _ _ _ _ _ _]. cbn [p_sh] in Im. pose proof (Hm0 p id Hp).
  destruct (Im p id Hp) as [->|[->| ->]]; [lia|rewrite q_val by exact Hp; lia|rewrite d_val by exact Hp; lia].
Qed.

(** *** Termination *)
Section T.
Variable ids : list N.
Hypothesis Hids : forall p id s, p < np -> get p id = Some s -> In id ids.
Variable K : nat.
Hypothesis HK : forall p id s, p < np -> get p id = Some s -> length (x_verts s) <= K /\ length (x_nbrs s) <= K.

Definition fresh (sh : esh) (x : nat * N) : bool := (e_marks sh (fst x) (snd x) <? q_mark (fst x))%N.
Definition dom := list_prod (seq 0 np) ids.
Definition e_U (sh : esh) : nat := length (filter (fresh sh) dom).
Definition in_dom (p : nat) (n : N) : bool := (p <? np) && (if in_dec N.eq_dec n ids then true else false).
Definition e_wt (sh : esh) (t : etask) : nat :=
  match t with
  | EInf p k => N.to_nat (2 ^ 64 - k) + length (hull p) * (3 * K + 5)
  | EItem _ _ => 3 * K + 5
  | EMark _ _ => 3 * K + 4
  | EInsS _ _ => 3 * K + 3
  | EInsV _ _ vs => length vs + 2 * K + 2
  | EScan _ _ ns => 2 * length ns + 1
  | EQueue p _ n ns => if in_dom p n && fresh sh (p, n) then 2 * length ns + 2 else 2 * length ns + 3 * K + 8
  | EAdd _ _ _ ns => 2 * length ns + 3 * K + 7
  end.

Lemma in_dom_spec p n : in_dom p n = true <-> In (p, n) dom.
Proof.
  unfold in_dom, dom. rewrite in_prod_iff, in_seq, andb_true_iff, Nat.ltb_lt. destruct (in_dec N.eq_dec n ids); [|intuition discriminate]. intuition lia.
Qed.

Lemma filter_le {A} (f g : A -> bool) l : (forall x, In x l -> f x = true -> g x = true) -> length (filter f l) <= length (filter g l).
Proof.
  induction l as [|x l IH]; intros H; cbn [filter]; [lia|]. specialize (IH ltac:(intros y Hy; apply H; now right)). pose proof (H x ltac:(now left)) as Hx.
  destruct (f x); [rewrite Hx by reflexivity; cbn [length]; lia|]. destruct (g x); cbn [length]; lia.
Qed.
Lemma filter_lt {A} (f g : A -> bool) l x : (forall y, In y l -> f y = true -> g y = true) -> In x l -> f x = false -> g x = true -> length (filter f l) < length (filter g l).
Proof.
  induction l as [|y l IH]; intros H Hin Hf Hg; [destruct Hin|]. cbn [filter]. destruct Hin as [->|Hin].
  - rewrite Hf, Hg. cbn [length]. pose proof (filter_le f g l ltac:(intros z Hz; apply H; now right)). lia.
  - specialize (IH ltac:(intros z Hz; apply H; now right) Hin Hf Hg). pose proof (H y ltac:(now left)) as Hy. destruct (f y); [rewrite Hy by reflexivity; cbn [length]; lia|]. destruct (g y); cbn [length]; lia.
Qed.

Lemma fresh_grows sh sh' x : grows sh sh' -> In x dom -> fresh sh' x = true -> fresh sh x = true.
Proof.
  intros [_ [_ G]] Hx. destruct x as [p n]. apply in_prod_iff in Hx. rewrite in_seq in Hx. unfold fresh. cbn [fst snd]. rewrite !N.ltb_lt. intros H.
  destruct (N.lt_ge_cases (e_marks sh p n) (q_mark p)) as [|H']; [assumption|]. apply G in H'; [unfold marked in H'; lia|lia].
Qed.

Lemma e_measure sh t sh' next : tI sh t -> e_step sh t = TStep sh' next ->
  e_U sh' < e_U sh \/ (e_U sh' = e_U sh /\ (forall x, e_wt sh' x <= e_wt sh x) /\ total (e_wt sh') next < e_wt sh t).
Proof.
  intros Ht E. pose proof (e_grows _ _ _ _ E) as G.
  assert (Gf : forall x, In x dom -> fresh sh' x = true -> fresh sh x = true) by (intros x; apply fresh_grows, G).
  destruct (Nat.lt_ge_cases (e_U sh') (e_U sh)) as [|Hge]; [now left|]. right.
  assert (EU : e_U sh' = e_U sh) by (pose proof (filter_le _ _ dom Gf); unfold e_U in *; lia).
  assert (Ef : forall x, In x dom -> fresh sh' x = fresh sh x).
  { intros x Hx. destruct (fresh sh' x) eqn:E1; [symmetry; auto|]. destruct (fresh sh x) eqn:E2; [|reflexivity]. pose proof (filter_lt _ _ dom x Gf Hx E1 E2). unfold e_U in *. lia. }
  assert (Ew : forall x, e_wt sh' x = e_wt sh x).
  { intros x. destruct x; cbn [e_wt]; try reflexivity. destruct (in_dom p n) eqn:Ed; cbn [andb]; [|reflexivity]. apply in_dom_spec in Ed. now rewrite Ef. }
  split; [exact EU|]. split; [intros x; now rewrite Ew|]. clear Hge.
  destruct t.
  - cbn [EdgeModel.e_step tI] in *. destruct Ht as [Hp [Hk _]]. destruct (wrap_next k Hk) as [[W ->]|[W [Wk Wl]]]; rewrite W in E; injection E as Es <-.
    + assert (T : forall l, total (e_wt sh') (map (EItem p) l) = length l * (3 * K + 5)) by (induction l as [|y l IH]; cbn [map total length e_wt]; lia).
      rewrite T. cbn [e_wt]. change (2 ^ 64 - (2 ^ 64 - 1))%N with 1%N. lia.
    + rewrite Wk. cbn [total e_wt]. lia.
  - destruct (item_step _ _ _ _ _ Ht E) as [_ [[_ ->]|[[_ [_ ->]]|[_ ->]]]]; cbn [total e_wt]; lia.
  - cbn [EdgeModel.e_step] in E. destruct (get p id) as [s|]; [|discriminate]. injection E as _ <-. destruct (meets p s); cbn [total e_wt]; lia.
  - cbn [EdgeModel.e_step tI] in *. destruct Ht as [Hp [_ [s [Eg _]]]]. rewrite Eg in E. injection E as _ <-. destruct (HK p id s Hp Eg). cbn [total e_wt]. lia.
  - cbn [tI] in Ht. destruct Ht as [s [Eg [Hp _]]]. cbn [EdgeModel.e_step] in E. destruct vs as [|v vs].
    + rewrite Eg in E. injection E as _ <-. destruct (HK p id s Hp Eg). cbn [total e_wt length]. lia.
    + injection E as _ <-. cbn [total e_wt length]. lia.
  - cbn [EdgeModel.e_step] in E. destruct ns as [|n ns]; [injection E as _ <-; cbn [total e_wt length]; lia|].
    destruct (negb (s_finite n)); [injection E as _ <-; cbn [total e_wt length]; lia|]. destruct (get p n) as [s|] eqn:Eg; [|discriminate]. injection E as <- <-.
    cbn [tI] in Ht. destruct Ht as [Hp _]. destruct (e_marks sh p n <? q_mark p)%N eqn:El; [|cbn [total e_wt length]; lia].
    cbn [total e_wt]. assert (Hd : in_dom p n = true) by (apply in_dom_spec, in_prod_iff; split; [apply in_seq; lia|eauto]). rewrite Hd. unfold fresh. cbn [fst snd]. rewrite El. cbn [andb length]. lia.
  - cbn [EdgeModel.e_step] in E. injection E as Es <-. cbn [total e_wt]. destruct (in_dom p n) eqn:Ed; cbn [andb]; [|lia]. destruct (fresh sh (p, n)) eqn:Efr; [|lia].
    exfalso. apply in_dom_spec in Ed. rewrite <- (Ef _ Ed), <- Es in Efr. unfold fresh in Efr. cbn [fst snd e_marks] in Efr. rewrite set_mark_same, N.ltb_irrefl in Efr. discriminate.
  - cbn [EdgeModel.e_step] in E. injection E as _ <-. cbn [total e_wt]. lia.
Qed.

Lemma e_terminates_K : pterminates e_step (e_start D np m0).
Proof.
  apply (pterm_measure e_step eI e_U e_wt); [exact eI_start|intros b c Hb Hs; exact (eI_step b c Hb Hs)|].
  intros b t sh' next Hb Hin Es. apply e_measure; [|exact Es]. now apply (i_t b Hb).
Qed.
End T.

Lemma e_terminates ids : (forall p id s, p < np -> get p id = Some s -> In id ids) -> pterminates e_step (e_start D np m0).
Proof.
  intros Hids.
  set (sz := fun x : nat * N => match get (fst x) (snd x) with Some s => length (x_verts s) + length (x_nbrs s) | None => 0 end).
  apply (e_terminates_K ids Hids (list_max (map sz (dom ids)))). intros p id s Hp Eg.
  assert (Hin : In (sz (p, id)) (map sz (dom ids))) by (apply in_map, in_prod_iff; split; [apply in_seq; lia|eauto]).
  pose proof (proj1 (list_max_le (map sz (dom ids)) _) (Nat.le_refl _)) as Hm. rewrite Forall_forall in Hm. apply Hm in Hin. unfold sz at 1 in Hin. cbn [fst snd] in Hin. rewrite Eg in Hin. lia.
Qed.
End E.
