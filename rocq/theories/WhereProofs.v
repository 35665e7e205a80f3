From Verif Require Import Outcome ListUtil WordsModel SimplexModel SimplexProofs Pool NbrModel WhereModel WhereSpec.
Local Open Scope nat_scope.

Section W.
Variable over : N -> N.
Variable get : N -> option simplex.
Variable edge : list N.
Variable mark0 : N.
Variable m0 : N -> N.
Hypothesis Hmark : (mark0 + 2 < 256)%N.
Hypothesis Hm0 : forall id, (m0 id <= mark0)%N.

Notation inward := (inward get edge).

Notation w_step := (w_step over get edge mark0).
Notation qm := (uq_mark mark0).
Notation dm := (ud_mark mark0).
Lemma qm_val : qm = (mark0 + 1)%N. Proof. unfold uq_mark, wrap. apply N.mod_small. lia. Qed.
Lemma dm_val : dm = (mark0 + 2)%N. Proof. unfold ud_mark, wrap. apply N.mod_small. lia. Qed.
Lemma sfin_iff n : s_finite n = true <-> n <> s_inf.
Proof. unfold s_finite. rewrite negb_true_iff, N.eqb_neq. tauto. Qed.
Lemma in_step {A} l1 l2 next (t x : A) : In x (l1 ++ t :: l2) -> x = t \/ In x (l1 ++ next ++ l2).
Proof. rewrite !in_app_iff. cbn [In]. intuition. Qed.
Lemma in_next {A} l1 l2 next (x : A) : In x next -> In x (l1 ++ next ++ l2).
Proof. rewrite !in_app_iff. auto. Qed.
Lemma put_mark_same m id v : put_mark m id v id = v.
Proof. unfold put_mark. now rewrite N.eqb_refl. Qed.
Lemma put_mark_cases m id v id' : (id' = id /\ put_mark m id v id' = v) \/ (id' <> id /\ put_mark m id v id' = m id').
Proof. unfold put_mark. destruct (N.eqb_spec id' id); auto. Qed.

Definition ins_at (t : wtask) (n : N) (i : nat) : Prop := match t with WIns _ n' i' _ => n' = n /\ i' <= i | _ => False end.
Definition ahead (t : wtask) (e n : N) : Prop :=
  match t with
  | WScan e' ns | WIns e' _ _ ns => e' = e /\ In n ns
  | WTest e' n' ns | WQueue e' n' ns => e' = e /\ (n' = n \/ In n ns)
  | _ => False
  end.
Definition full (sh : wsh) (T : list wtask) (n : N) : Prop :=
  forall s i, get n = Some s -> i < length (x_verts s) -> (exists h, face_fp over s i = Val h /\ In (h, n) (w_tab sh)) \/ exists t, In t T /\ ins_at t n i.
Definition scanned (sh : wsh) (T : list wtask) (e : N) : Prop :=
  forall s n, get e = Some s -> In n (x_nbrs s) -> n <> s_inf -> ~ In n edge -> w_marks sh n = qm \/ exists t, In t T /\ ahead t e n.
Definition waits (t : wtask) (e : N) : Prop := match t with WItem e' | WMark e' => e' = e | _ => False end.

Definition tI (t : wtask) : Prop :=
  match t with
  | WItem e | WMark e => In e edge
  | WScan e ns => In e edge /\ exists s, get e = Some s /\ incl ns (x_nbrs s)
  | WTest e n ns | WQueue e n ns | WIns e n _ ns => In e edge /\ inward n /\ exists s, get e = Some s /\ incl ns (x_nbrs s)
  end.
Record wI (a : pool wsh wtask) : Prop := mkwI {
  j_t : forall t, In t (p_tasks a) -> tI t;
  j_m : forall n, ~ In n edge -> w_marks (p_sh a) n = m0 n \/ w_marks (p_sh a) n = qm;
  j_q : forall n, ~ In n edge -> w_marks (p_sh a) n = qm -> full (p_sh a) (p_tasks a) n;
  j_s : forall h n, In (h, n) (w_tab (p_sh a)) -> inward n /\ exists s i, get n = Some s /\ i < length (x_verts s) /\ face_fp over s i = Val h;
  j_d : forall e, In e edge -> w_marks (p_sh a) e = dm -> scanned (p_sh a) (p_tasks a) e;
  j_c : forall e, In e edge -> (exists t, In t (p_tasks a) /\ waits t e) \/ scanned (p_sh a) (p_tasks a) e }.

Lemma w_mark_step sh t sh' next n : tI t -> w_step sh t = TStep sh' next ->
  w_marks sh' n = w_marks sh n \/ (t = WMark n /\ In n edge /\ w_marks sh' n = dm) \/ exists e ns, t = WQueue e n ns /\ ~ In n edge /\ w_marks sh' n = qm.
Proof.
  intros Ht E. destruct t; cbn [WhereModel.w_step tI] in *.
  - destruct (get id); [|discriminate]. destruct (_ =? _)%N; injection E as <- <-; now left.
  - destruct (get id); [|discriminate]. injection E as <- <-. cbn [w_marks]. destruct (put_mark_cases (w_marks sh) id dm n) as [[-> ->]|[_ ->]]; auto.
  - destruct ns; injection E as <- <-; now left.
  - destruct (get n0); [|discriminate]. injection E as <- <-. now left.
  - injection E as <- <-. cbn [w_marks]. destruct (put_mark_cases (w_marks sh) n0 qm n) as [[-> ->]|[_ ->]]; [|now left]. right. right. exists id, ns. destruct Ht as [_ [[e [s [_ [_ [_ [_ H]]]]]] _]]. auto.
  - destruct (get n0) as [s|]; [|discriminate]. destruct (_ <? _)%nat; [|injection E as <- <-; now left]. destruct (face_fp over s i); try discriminate. injection E as <- <-. now left.
Qed.
Lemma w_tab_step sh t sh' next : w_step sh t = TStep sh' next -> forall x, In x (w_tab sh) -> In x (w_tab sh').
Proof.
  intros E x Hx. destruct t; cbn [WhereModel.w_step] in E.
  - destruct (get id); [|discriminate]. destruct (_ =? _)%N; injection E as <- <-; auto.
  - destruct (get id); [|discriminate]. injection E as <- <-. auto.
  - destruct ns; injection E as <- <-; auto.
  - destruct (get n); [|discriminate]. injection E as <- <-. auto.
  - injection E as <- <-. auto.
  - destruct (get n) as [s|]; [|discriminate]. destruct (_ <? _)%nat; [|injection E as <- <-; auto]. destruct (face_fp over s i); try discriminate. injection E as <- <-. now right.
Qed.

Lemma wI_step a b : wI a -> pstep w_step a b -> wI b.
Proof.
  intros [Jt Jm Jq Js Jd Jc] (l1 & t & l2 & sh' & next & E1 & E2 & ->). destruct a as [sh T]. cbn [p_sh p_tasks] in *. subst T.
  assert (Hint : In t (l1 ++ t :: l2)) by (apply in_or_app; right; now left). pose proof (Jt t Hint) as Ht.
  assert (Mq : forall n, ~ In n edge -> w_marks sh n = qm -> w_marks sh' n = qm) by (intros n Hn Hq; destruct (w_mark_step _ _ _ _ n Ht E2) as [->|[[_ [H _]]|[e [ns [_ [_ ->]]]]]]; [exact Hq|contradiction|reflexivity]).
  assert (Fu : forall n, full sh (l1 ++ t :: l2) n -> full sh' (l1 ++ next ++ l2) n).
  { intros n HF s i Eg Hi. destruct (HF s i Eg Hi) as [[h [Eh Hh]]|[x [Hx Ha]]]; [left; exists h; split; [exact Eh|]; eapply w_tab_step; eauto|].
    destruct (in_step l1 l2 next t x Hx) as [->|Hx']; [|right; eauto]. destruct t; try contradiction. destruct Ha as [-> Ha]. cbn [WhereModel.w_step] in E2. rewrite Eg in E2.
    destruct (Nat.ltb_spec i0 (length (x_verts s))) as [L|L]; [|lia]. destruct (face_fp over s i0) as [h| |] eqn:Eh; try discriminate. injection E2 as <- <-.
    destruct (Nat.eq_dec i0 i) as [->|Hne]; [left; exists h; split; [exact Eh|now left]|]. right. eexists. split; [apply in_next; now left|]. cbn [ins_at]. split; [reflexivity|lia]. }
  assert (Sc : forall e, scanned sh (l1 ++ t :: l2) e -> scanned sh' (l1 ++ next ++ l2) e).
  { intros e HS s n Eg Hn Hf He. destruct (HS s n Eg Hn Hf He) as [Hq|[x [Hx Ha]]]; [left; auto|]. destruct (in_step l1 l2 next t x Hx) as [->|Hx']; [|right; eauto].
    assert (Fn : s_finite n && negb (isin edge n) = true).
    { apply andb_true_intro. split; [now apply sfin_iff|]. rewrite negb_true_iff. now apply isin_false. }
    destruct t; try contradiction; cbn [ahead] in Ha; destruct Ha as [-> Ha]; cbn [WhereModel.w_step] in E2.
    - destruct ns as [|n0 ns]; [destruct Ha|]. injection E2 as <- <-. right. destruct Ha as [->|Ha].
      + rewrite Fn. eexists. split; [apply in_next; now left|]. cbn [ahead]. auto.
      + destruct (s_finite n0 && negb (isin edge n0)); eexists; (split; [apply in_next; now left|]); cbn [ahead]; auto.
    - destruct (get n0); [|discriminate]. injection E2 as <- <-. destruct (N.ltb_spec (w_marks sh n0) qm) as [L|L].
      + right. eexists. split; [apply in_next; now left|]. cbn [ahead]. auto.
      + destruct Ha as [->|Ha]; [|right; eexists; split; [apply in_next; now left|]; cbn [ahead]; auto]. left. destruct (Jm n He) as [E|E]; [|exact E]. exfalso. rewrite E, qm_val in L. pose proof (Hm0 n). lia.
    - injection E2 as <- <-. destruct Ha as [->|Ha]; [left; cbn [w_marks]; apply put_mark_same|]. right. eexists. split; [apply in_next; now left|]. cbn [ahead]. auto.
    - destruct (get n0) as [s0|]; [|discriminate]. right. destruct (_ <? _)%nat; [destruct (face_fp over s0 i); try discriminate|]; injection E2 as <- <-; (eexists; split; [apply in_next; now left|]); cbn [ahead]; auto. }
  assert (Sm : forall e, t = WMark e -> scanned sh' (l1 ++ next ++ l2) e).
  { intros e -> s n Eg Hn Hf He. cbn [WhereModel.w_step] in E2. rewrite Eg in E2. injection E2 as <- <-. right. eexists. split; [apply in_next; now left|]. cbn [ahead]. auto. }
  split; cbn [p_sh p_tasks].
  - intros x Hx. rewrite !in_app_iff in Hx. destruct Hx as [Hx|[Hx|Hx]]; [apply Jt, in_or_app; auto| |apply Jt, in_or_app; right; now right].
    destruct t; cbn [WhereModel.w_step tI] in *.
    + destruct (get id); [|discriminate]. destruct (_ =? _)%N; injection E2 as <- <-; [destruct Hx|]. destruct Hx as [<-|[]]. exact Ht.
    + destruct (get id) as [s|] eqn:Eg; [|discriminate]. injection E2 as <- <-. destruct Hx as [<-|[]]. cbn [tI]. split; [exact Ht|]. exists s. split; [exact Eg|apply incl_refl].
    + destruct Ht as [He [s [Eg Hi]]]. destruct ns as [|n ns]; injection E2 as <- <-; [destruct Hx|]. destruct Hx as [<-|[]].
      assert (Hi' : incl ns (x_nbrs s)) by (intros y Hy; apply Hi; now right). destruct (s_finite n && negb (isin edge n)) eqn:Ef; cbn [tI]; [|eauto].
      apply andb_prop in Ef. destruct Ef as [Ef1 Ef2]. split; [exact He|]. split; [|eauto]. exists id, s. split; [exact He|]. split; [exact Eg|]. split; [apply Hi; now left|]. split; [now apply sfin_iff|].
      intros H. apply isin_In in H. rewrite H in Ef2. discriminate.
    + destruct (get n); [|discriminate]. injection E2 as <- <-. destruct Hx as [<-|[]]. destruct (_ <? _)%N; cbn [tI]; [exact Ht|]. tauto.
    + injection E2 as <- <-. destruct Hx as [<-|[]]. exact Ht.
    + destruct (get n) as [s0|]; [|discriminate]. destruct (_ <? _)%nat; [destruct (face_fp over s0 i); try discriminate|]; injection E2 as <- <-; destruct Hx as [<-|[]]; cbn [tI]; [exact Ht|tauto].
  - intros n Hn. destruct (w_mark_step _ _ _ _ n Ht E2) as [->|[[_ [H _]]|[e [ns [_ [_ ->]]]]]]; auto. contradiction.
  - intros n Hn Hq. destruct (w_mark_step _ _ _ _ n Ht E2) as [E|[[_ [H _]]|[e [ns [-> _]]]]]; [apply Fu, Jq; [exact Hn|congruence]|contradiction|].
    cbn [WhereModel.w_step] in E2. injection E2 as <- <-. intros s i _ _. right. eexists. split; [apply in_next; now left|]. cbn [ins_at]. split; [reflexivity|lia].
  - intros h n Hh. destruct t; cbn [WhereModel.w_step tI] in *.
    + destruct (get id); [|discriminate]. destruct (_ =? _)%N; injection E2 as <- <-; auto.
    + destruct (get id); [|discriminate]. injection E2 as <- <-. auto.
    + destruct ns; injection E2 as <- <-; auto.
    + destruct (get n0); [|discriminate]. injection E2 as <- <-. auto.
    + injection E2 as <- <-. auto.
    + destruct (get n0) as [s|] eqn:Eg; [|discriminate]. destruct (Nat.ltb_spec i (length (x_verts s))) as [L|L]; [|injection E2 as <- <-; auto]. destruct (face_fp over s i) as [h'| |] eqn:Eh; try discriminate. injection E2 as <- <-.
      destruct Hh as [E|Hh]; [|auto]. injection E as -> ->. split; [tauto|]. exists s, i. auto.
  - intros e He Hd. destruct (w_mark_step _ _ _ _ e Ht E2) as [E|[[E _]|[e' [ns [_ [H _]]]]]]; [apply Sc, Jd; [exact He|congruence]|now apply Sm|contradiction].
  - intros e He. destruct (Jc e He) as [[x [Hx Hw]]|H]; [|right; now apply Sc]. destruct (in_step l1 l2 next t x Hx) as [->|Hx']; [|left; eauto].
    destruct t; try contradiction; cbn [waits] in Hw; subst.
    + cbn [WhereModel.w_step] in E2. destruct (get e); [|discriminate]. destruct (N.eqb_spec (w_marks sh e) dm) as [Ed|_]; injection E2 as <- <-.
      * right. apply Sc. now apply Jd.
      * left. exists (WMark e). split; [apply in_next; now left|reflexivity].
    + right. now apply Sm.
Qed.

Variable order : list N.
Hypothesis Horder : forall e, In e order <-> In e edge.

Lemma wI_start : wI (w_start m0 order).
Proof.
  assert (Nq : forall id, (m0 id < qm /\ m0 id < dm)%N) by (intros id; pose proof (Hm0 id); rewrite qm_val, dm_val; lia).
  split; unfold w_start; cbn [p_sh p_tasks w_marks w_tab].
  - intros t Ht. apply in_map_iff in Ht. destruct Ht as [e [<- He]]. cbn [tI]. now apply Horder.
  - auto.
  - intros n _ H. destruct (Nq n). lia.
  - intros h n [].
  - intros e _ H. destruct (Nq e). lia.
  - intros e He. left. exists (WItem e). split; [apply in_map; now apply Horder|reflexivity].
Qed.
Lemma wI_inv a : pexec w_step (w_start m0 order) a -> wI a.
Proof. apply pexec_inv; [exact wI_start|]. intros b c Hb Hs. exact (wI_step b c Hb Hs). Qed.

Lemma w_result sh : pexec w_step (w_start m0 order) (mkp sh []) ->
  forall h n, In (h, n) (w_tab sh) <-> inward n /\ exists s i, get n = Some s /\ i < length (x_verts s) /\ face_fp over s i = Val h.
Proof.
  intros Ha. destruct (wI_inv _ Ha) as [Jt Jm Jq Js Jd Jc]. cbn [p_sh p_tasks] in *. intros h n. split; [apply Js|]. intros [Hi [s [i [Eg [Hl Eh]]]]].
  destruct Hi as [e [s' [He [Eg' [Hn [Hf Hne]]]]]]. destruct (Jc e He) as [[t [[] _]]|HS]. destruct (HS s' n Eg' Hn Hf Hne) as [Hq|[t [[] _]]].
  destruct (Jq n Hne Hq s i Eg Hl) as [[h' [Eh' Hh]]|[t [[] _]]]. congruence.
Qed.

Hypothesis Hedge : forall e, In e edge -> exists s, get e = Some s.
Hypothesis Hin : forall n, inward n -> exists s, get n = Some s.
Lemma w_safe : psafe w_step (w_start m0 order).
Proof.
  intros a t Ha Hint Hbad. pose proof (j_t _ (wI_inv a Ha) t Hint) as Ht. destruct t; cbn [WhereModel.w_step tI] in *.
  - destruct (Hedge id Ht) as [s Es]. rewrite Es in Hbad. destruct (_ =? _)%N; discriminate.
  - destruct (Hedge id Ht) as [s Es]. rewrite Es in Hbad. discriminate.
  - destruct ns; discriminate.
  - destruct (Hin n ltac:(tauto)) as [s Es]. rewrite Es in Hbad. discriminate.
  - discriminate.
  - destruct (Hin n ltac:(tauto)) as [s Es]. rewrite Es in Hbad. destruct (Nat.ltb_spec i (length (x_verts s))); [|discriminate]. unfold face_fp in Hbad. destruct (nth_error_ex (x_verts s) i ltac:(assumption)) as [v Ev]. rewrite Ev in Hbad. discriminate.
Qed.

End W.

(** Termination: the tasks only get lighter. *)
Section T.
Variable over : N -> N.
Variable get : N -> option simplex.
Variable edge : list N.
Variable mark0 : N.
Variable m0 : N -> N.
Variable order : list N.
Notation w_step := (w_step over get edge mark0).
Definition wV (n : N) : nat := match get n with Some s => length (x_verts s) | None => 0 end.
Fixpoint wN (ns : list N) : nat := match ns with [] => 0 | n :: r => wV n + 5 + wN r end.
Definition w_wt (t : wtask) : nat :=
  match t with
  | WItem e | WMark e => (match get e with Some s => wN (x_nbrs s) | None => 0 end) + (match t with WItem _ => 3 | _ => 2 end)
  | WScan _ ns => wN ns + 1
  | WTest _ n ns => wN ns + wV n + 5
  | WQueue _ n ns => wN ns + wV n + 4
  | WIns _ n i ns => wN ns + (wV n - i) + 3
  end.
Lemma w_terminates : pterminates w_step (w_start m0 order).
Proof.
  apply (pterm_measure w_step (fun _ => True) (fun _ => 0) (fun _ => w_wt)); [exact I|auto|]. intros b t sh' next _ _ E. right. split; [reflexivity|]. split; [auto|].
  destruct t; cbn [WhereModel.w_step] in E.
  - cbn [w_wt]. destruct (get id) as [s|] eqn:Eg; [|discriminate]. destruct (_ =? _)%N; injection E as _ <-; cbn [total w_wt]; rewrite ?Eg; lia.
  - cbn [w_wt]. destruct (get id) as [s|] eqn:Eg; [|discriminate]. injection E as _ <-. cbn [total w_wt]. lia.
  - destruct ns as [|n ns]; injection E as _ <-; cbn [total w_wt wN]; [lia|]. destruct (s_finite n && negb (isin edge n)); cbn [w_wt]; lia.
  - destruct (get n); [|discriminate]. injection E as _ <-. destruct (_ <? _)%N; cbn [total w_wt]; lia.
  - injection E as _ <-. cbn [total w_wt]. lia.
  - cbn [w_wt]. unfold wV at 1. destruct (get n) as [s|] eqn:Eg; [|discriminate]. destruct (Nat.ltb_spec i (length (x_verts s))); [destruct (face_fp over s i); try discriminate|]; injection E as _ <-; cbn [total w_wt]; unfold wV; rewrite ?Eg; lia.
Qed.
End T.

(** The marks stay below the mark of the triangulation. *)
Lemma w_marks_le over get edge mark0 m0 order : (mark0 + 2 < 256)%N -> (forall id, (m0 id <= mark0)%N) ->
  forall sh, pexec (WhereModel.w_step over get edge mark0) (w_start m0 order) (mkp sh []) -> forall id, (w_marks sh id <= mark0 + 2)%N.
Proof.
  intros Hmark Hm0 sh He. change (forall id, (w_marks (p_sh (mkp sh (@nil wtask))) id <= mark0 + 2)%N).
  revert He. generalize (mkp sh (@nil wtask)). apply (pexec_inv _ (fun a => forall id, (w_marks (p_sh a) id <= mark0 + 2)%N)).
  - intros id. cbn [w_start p_sh w_marks]. pose proof (Hm0 id). lia.
  - intros a b I St id. destruct St as [l1 [t [l2 [sh' [next [_ [E ->]]]]]]]. cbn [p_sh].
    assert (Q : uq_mark mark0 = (mark0 + 1)%N) by (unfold uq_mark, wrap; apply N.mod_small; lia). assert (Dm : ud_mark mark0 = (mark0 + 2)%N) by (unfold ud_mark, wrap; apply N.mod_small; lia).
    destruct t; cbn [WhereModel.w_step] in E.
    + destruct (get id0); [|discriminate]. destruct (_ =? _)%N; injection E as <- _; apply I.
    + destruct (get id0); [|discriminate]. injection E as <- _. cbn [w_marks]. destruct (put_mark_cases (w_marks (p_sh a)) id0 (ud_mark mark0) id) as [[_ ->]|[_ ->]]; [lia|apply I].
    + destruct ns; injection E as <- _; apply I.
    + destruct (get n); [|discriminate]. injection E as <- _; apply I.
    + injection E as <- _. cbn [w_marks]. destruct (put_mark_cases (w_marks (p_sh a)) n (uq_mark mark0) id) as [[_ ->]|[_ ->]]; [lia|apply I].
    + destruct (get n) as [s|]; [|discriminate]. destruct (_ <? _)%nat; [destruct (face_fp over s i); try discriminate|]; injection E as <- _; apply I.
Qed.
