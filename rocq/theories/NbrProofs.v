From Verif Require Import Outcome ListUtil WordsModel SimplexModel SimplexProofs Pool NbrModel NbrSpec.
From Coq Require Import Permutation Sorted.
Local Open Scope nat_scope.

Section U.
Variable over : N -> N.
Variable get : N -> option simplex.
Variable tbl : N -> list N.
Variable mark0 : N.
Variable nbr0 : N -> nat -> N.
Variable m0 : N -> N.
Variable toCheck : list N.
Hypothesis Hwf : forall id s, get id = Some s -> id <> s_inf /\ (x_id s = s_inf \/ x_id s = id /\ sorted (x_verts s) /\ x_verts s <> []).
Lemma live_wf id s : NbrSpec.live get id s -> sorted (x_verts s) /\ x_verts s <> [].
Proof. intros [Eg [Ei Hi]]. destruct (Hwf _ _ Eg) as [_ [H|[_ H]]]; [congruence|exact H]. Qed.
Hypothesis Hgiven : forall id, In id toCheck -> exists s, live get id s.
Hypothesis Hmark : (mark0 + 2 < 256)%N.
Hypothesis Hm0 : forall id, (m0 id <= mark0)%N.

Notation uq_mark := (uq_mark mark0).
Notation ud_mark := (ud_mark mark0).
Notation u_step := (u_step over get tbl mark0).
Notation live := (live get).
Notation fits := (fits get).
Notation listed := (listed over tbl).
Notation good := (good get nbr0).
Notation visited := (visited over get tbl nbr0 toCheck).
Notation has := (has get).
Notation accepts := (accepts get).

Lemma uq_val : uq_mark = (mark0 + 1)%N.
Proof. unfold NbrModel.uq_mark, wrap. apply N.mod_small. lia. Qed.
Lemma ud_val : ud_mark = (mark0 + 2)%N.
Proof. unfold NbrModel.ud_mark, wrap. apply N.mod_small. lia. Qed.
Lemma sfin_iff n : s_finite n = true <-> n <> s_inf.
Proof. unfold s_finite. rewrite negb_true_iff, N.eqb_neq. tauto. Qed.

Lemma has_iff c : has c = true <-> exists t, live c t.
Proof.
  unfold NbrModel.has, NbrSpec.live. destruct (get c) as [t|] eqn:E.
  - destruct (Hwf _ _ E) as [Hn Hx0]. assert (Hx : x_id t = c \/ x_id t = s_inf) by tauto. rewrite sfin_iff. split.
    + intros H. exists t. destruct Hx as [Hx|Hx]; [auto|contradiction].
    + intros [t' [E' [Ht _]]]. injection E' as <-. now rewrite Ht.
  - split; [discriminate|]. intros [t [H _]]. discriminate.
Qed.

Lemma adj_val s t : sorted (x_verts s) -> sorted (x_verts t) ->
  adj s t = Val (Nat.eqb (length (common (x_verts s) (x_verts t))) (length (x_verts s) - 1)).
Proof. intros Hs Ht. unfold adj, is_neighbor, count_shared. rewrite shared_loop_spec by (auto; lia). reflexivity. Qed.

Lemma common_incl a b : incl (common a b) a.
Proof. intros x Hx. now apply common_In in Hx. Qed.

Lemma opposite_count s d t : sorted (x_verts s) -> opposite s d t -> length (common (x_verts s) (x_verts t)) = length (x_verts s) - 1.
Proof.
  intros Hs [v [Ev H]]. pose proof (sorted_NoDup _ Hs) as Hn. pose proof (without_perm d _ v Ev) as Hp.
  assert (Hn' : NoDup (v :: without d (x_verts s))) by (eapply Permutation_NoDup; eauto). inversion Hn' as [|? ? Hv Hw]; subst.
  assert (P : Permutation (common (x_verts s) (x_verts t)) (without d (x_verts s))).
  { apply NoDup_Permutation; [now apply common_NoDup|exact Hw|]. intros x. rewrite common_In. split.
    - intros [Hx Ht]. apply (Permutation_in _ Hp) in Hx as Hx'. destruct Hx' as [<-|Hx']; [|exact Hx']. now apply (H v Hx) in Ht.
    - intros Hx. assert (Hx' : In x (x_verts s)) by (apply (Permutation_in _ (Permutation_sym Hp)); now right). split; [exact Hx'|]. apply H; [exact Hx'|]. intros ->. contradiction. }
  rewrite (Permutation_length P). apply Permutation_length in Hp. cbn [length] in Hp. lia.
Qed.

Lemma count_opposite s t d v : sorted (x_verts s) -> length (common (x_verts s) (x_verts t)) = length (x_verts s) - 1 ->
  nth_error (x_verts s) d = Some v -> ~ In v (x_verts t) -> opposite s d t.
Proof.
  intros Hs Hc Ev Hv. exists v. split; [exact Ev|]. pose proof (sorted_NoDup _ Hs) as Hn. pose proof (without_perm d _ v Ev) as Hp.
  assert (Hn' : NoDup (v :: without d (x_verts s))) by (eapply Permutation_NoDup; eauto). inversion Hn' as [|? ? Hv' Hw]; subst.
  assert (I : incl (common (x_verts s) (x_verts t)) (without d (x_verts s))).
  { intros x Hx. apply common_In in Hx. destruct Hx as [Hx Ht]. apply (Permutation_in _ Hp) in Hx. destruct Hx as [<-|Hx]; [contradiction|exact Hx]. }
  assert (I' : incl (without d (x_verts s)) (common (x_verts s) (x_verts t))).
  { apply NoDup_length_incl; [now apply common_NoDup| |exact I]. apply Permutation_length in Hp. cbn [length] in Hp. lia. }
  intros w Hw'. split; [intros Hw2 ->; contradiction|]. intros Hne. apply (Permutation_in _ Hp) in Hw'. destruct Hw' as [<-|Hw']; [now elim Hne|].
  apply I' in Hw'. now apply common_In in Hw'.
Qed.

Lemma adj_iff s t : sorted (x_verts s) -> sorted (x_verts t) -> x_verts s <> [] -> exists b, adj s t = Val b /\ (b = true <-> exists d, opposite s d t).
Proof.
  intros Hs Ht Hne. rewrite adj_val by auto. eexists. split; [reflexivity|]. rewrite Nat.eqb_eq. split; [|intros [d H]; eapply opposite_count; eauto].
  intros Hc. assert (Ex : exists v, In v (x_verts s) /\ ~ In v (x_verts t)).
  { destruct (forallb (isin (x_verts t)) (x_verts s)) eqn:E.
    - exfalso. rewrite forallb_forall in E. assert (I : incl (x_verts s) (common (x_verts s) (x_verts t))) by (intros x Hx; apply common_In; split; [exact Hx|apply isin_In; auto]).
      pose proof (NoDup_incl_length (sorted_NoDup _ Hs) I). destruct (x_verts s); [now elim Hne|]. cbn [length] in *. lia.
    - assert (E' : existsb (fun v => negb (isin (x_verts t) v)) (x_verts s) = true).
      { clear - E. induction (x_verts s) as [|a l IH]; [discriminate|]. cbn [forallb existsb] in *. destruct (isin (x_verts t) a); cbn [negb orb andb] in *; auto. }
      apply existsb_exists in E'. destruct E' as [v [Hv Ev]]. exists v. split; [exact Hv|]. intros H. apply isin_In in H. rewrite H in Ev. discriminate. }
  destruct Ex as [v [Hv Hnv]]. apply In_nth_error in Hv. destruct Hv as [d Hd]. exists d. eapply count_opposite; eauto.
Qed.

Lemma accepts_iff id s d c : live id s -> d < length (x_verts s) -> exists b, accepts s d c = Val b /\ (b = true <-> fits s d c).
Proof.
  intros E Hd. destruct (live_wf _ _ E) as [Hs Hne]. unfold NbrModel.accepts, NbrSpec.fits.
  destruct (N.eqb_spec c (x_id s)) as [->|Hc]; [exists false; split; [reflexivity|]; split; [discriminate|intros [H _]; now elim H]|].
  destruct (s_finite c) eqn:Ef; cbn [negb]; [|exists false; split; [reflexivity|]; split; [discriminate|]; intros [_ [t [[_ [_ H]] _]]]; apply sfin_iff in H; congruence].
  destruct (has c) eqn:Eh; cbn [negb].
  2:{ exists false. split; [reflexivity|]. split; [discriminate|]. intros [_ [t [H _]]]. assert (has c = true) by (apply has_iff; eauto). congruence. }
  apply has_iff in Eh. destruct Eh as [t [Et [Hx Hi]]]. rewrite Et. destruct (live_wf c t (conj Et (conj Hx Hi))) as [Ht _].
  destruct (nth_error_ex (x_verts s) d Hd) as [v Ev]. rewrite Ev. rewrite adj_val by auto. cbn [rbind].
  destruct (Nat.eqb_spec (length (common (x_verts s) (x_verts t))) (length (x_verts s) - 1)) as [Hl|Hl]; cbn [negb].
  - eexists. split; [reflexivity|]. rewrite negb_true_iff. unfold s_contains. split.
    + intros H. split; [exact Hc|]. exists t. split; [repeat split; auto|]. eapply count_opposite; eauto. intros Hin. apply (contains_loop_spec _ v Ht) in Hin. congruence.
    + intros [_ [t' [[Et' _] [v' [Ev' H]]]]]. assert (t' = t) by congruence. assert (v' = v) by congruence. subst. destruct (contains_loop (x_verts t) v) eqn:Ec; [|reflexivity].
      apply contains_loop_spec in Ec; [|exact Ht]. apply H in Ec; [now elim Ec|]. eapply nth_error_In; eauto.
  - exists false. split; [reflexivity|]. split; [discriminate|]. intros [_ [t' [[Et' _] Ho]]]. assert (t' = t) by congruence. subst. elim Hl. eapply opposite_count; eauto.
Qed.

Lemma fits_live s d c : fits s d c -> exists t, live c t.
Proof. intros [_ [t [H _]]]. eauto. Qed.

(** ** The invariant *)
Lemma live_fun c t t' : live c t -> live c t' -> t = t'.
Proof. intros [H _] [H' _]. congruence. Qed.
Lemma listed_lt s d c : listed s d c -> d < length (x_verts s).
Proof. intros [h [H _]]. unfold face_fp in H. destruct (nth_error (x_verts s) d) eqn:E; [|discriminate]. eapply nth_error_lt; eauto. Qed.
Lemma face_ex s d : d < length (x_verts s) -> exists h, face_fp over s d = Val h.
Proof. intros H. unfold face_fp. destruct (nth_error_ex _ _ H) as [v ->]. eauto. Qed.

Definition marked (sh : ush) (c : N) : Prop := (uq_mark <= u_marks sh c)%N.

(** The simplex a task works on and the slot it is at. *)
Definition at_slot (t : utask) (id : N) (d : nat) : Prop :=
  match t with
  | UItem _ | UMark _ => False
  | USlot i e | UHas i e | UAdj i e | UReset i e | UCand i e _ | UWrite i e _ _ | UTest i e _ _ | UQueue i e _ _ | UAdd i e _ _ => i = id /\ e = d
  end.
(** The task has reset the slot. *)
Definition past_reset (t : utask) (id : N) (d : nat) : Prop :=
  match t with UCand i e _ | UWrite i e _ _ | UTest i e _ _ | UQueue i e _ _ | UAdd i e _ _ => i = id /\ e = d | _ => False end.
(** The task is still going to write [c]. *)
Definition will_write (t : utask) (id : N) (d : nat) (c : N) : Prop :=
  match t with UCand i e cs => i = id /\ e = d /\ In c cs | UWrite i e c' cs => i = id /\ e = d /\ (c' = c \/ In c cs) | _ => False end.
(** The task is still going to look at the mark of [c], or to set it. *)
Definition will_mark (t : utask) (id : N) (d : nat) (c : N) : Prop :=
  match t with
  | UCand i e cs | UAdd i e _ cs => i = id /\ e = d /\ In c cs
  | UWrite i e c' cs | UTest i e c' cs | UQueue i e c' cs => i = id /\ e = d /\ (c' = c \/ In c cs)
  | _ => False
  end.
Definition will_visit (t : utask) (id : N) : Prop := match t with UItem i | UMark i | UAdd _ _ i _ => i = id | _ => False end.

Definition R1 (sh : ush) (T : list utask) (id : N) (s : simplex) (d : nat) : Prop :=
  (listed s d (u_nbr sh id d) /\ fits s d (u_nbr sh id d)) \/
  (u_nbr sh id d = s_inf /\ forall c, listed s d c -> fits s d c -> exists t, In t T /\ will_write t id d c).
Definition R2 (sh : ush) (T : list utask) (id : N) (s : simplex) (d : nat) : Prop :=
  forall c, listed s d c -> fits s d c -> marked sh c \/ exists t, In t T /\ will_mark t id d c.
Definition settled (sh : ush) (T : list utask) (id : N) (s : simplex) (d : nat) : Prop :=
  (u_nbr sh id d = nbr0 id d /\ good id d) \/ (~ good id d /\ R1 sh T id s d /\ R2 sh T id s d).
Definition covered (sh : ush) (T : list utask) (id : N) (s : simplex) : Prop :=
  forall d, d < length (x_verts s) -> settled sh T id s d \/ exists t e, In t T /\ at_slot t id e /\ e <= d.

Definition tI (sh : ush) (t : utask) : Prop :=
  match t with
  | UItem id | UMark id | USlot id _ => visited id /\ exists s, live id s
  | UHas id d => visited id /\ exists s, live id s /\ d < length (x_verts s)
  | UAdj id d => visited id /\ (exists s, live id s /\ d < length (x_verts s)) /\ (u_nbr sh id d = s_inf \/ exists t, live (u_nbr sh id d) t)
  | UReset id d => visited id /\ (exists s, live id s /\ d < length (x_verts s)) /\ ~ good id d
  | UCand id d cs => visited id /\ ~ good id d /\ exists s, live id s /\ d < length (x_verts s) /\ forall c, In c cs -> listed s d c
  | UWrite id d c cs | UTest id d c cs | UQueue id d c cs | UAdd id d c cs =>
      visited id /\ ~ good id d /\ exists s, live id s /\ d < length (x_verts s) /\ listed s d c /\ fits s d c /\ forall c', In c' cs -> listed s d c'
  end.

Record uI (a : pool ush utask) : Prop := mkI {
  i_t : forall t, In t (p_tasks a) -> tI (p_sh a) t;
  i_m : forall id, u_marks (p_sh a) id = m0 id \/ u_marks (p_sh a) id = uq_mark \/ u_marks (p_sh a) id = ud_mark;
  i_s : forall id d, u_nbr (p_sh a) id d = nbr0 id d \/ (visited id /\ ~ good id d /\ exists s, live id s /\ R1 (p_sh a) (p_tasks a) id s d /\ R2 (p_sh a) (p_tasks a) id s d);
  i_r : forall t id d s, In t (p_tasks a) -> past_reset t id d -> live id s -> R1 (p_sh a) (p_tasks a) id s d /\ R2 (p_sh a) (p_tasks a) id s d;
  i_d : forall id s, u_marks (p_sh a) id = ud_mark -> live id s -> covered (p_sh a) (p_tasks a) id s;
  i_c : forall id s, In id toCheck \/ u_marks (p_sh a) id = uq_mark -> live id s ->
     (exists t, In t (p_tasks a) /\ will_visit t id) \/ covered (p_sh a) (p_tasks a) id s }.

Lemma in_step {A} l1 l2 next (t x : A) : In x (l1 ++ t :: l2) -> x = t \/ In x (l1 ++ next ++ l2).
Proof. rewrite !in_app_iff. cbn [In]. intuition. Qed.
Lemma in_next {A} l1 l2 next (x : A) : In x next -> In x (l1 ++ next ++ l2).
Proof. rewrite !in_app_iff. auto. Qed.

Lemma put_mark_same m id v : put_mark m id v id = v.
Proof. unfold put_mark. now rewrite N.eqb_refl. Qed.
Lemma put_mark_cases m id v id' : (id' = id /\ put_mark m id v id' = v) \/ (id' <> id /\ put_mark m id v id' = m id').
Proof. unfold put_mark. destruct (N.eqb_spec id' id); auto. Qed.
Lemma set_nbr_same f id d v : set_nbr f id d v id d = v.
Proof. unfold set_nbr. now rewrite N.eqb_refl, Nat.eqb_refl. Qed.
Lemma set_nbr_cases f id d v id' d' : (id' = id /\ d' = d /\ set_nbr f id d v id' d' = v) \/ ((id' <> id \/ d' <> d) /\ set_nbr f id d v id' d' = f id' d').
Proof. unfold set_nbr. destruct (N.eqb_spec id' id), (Nat.eqb_spec d' d); cbn [andb]; auto. Qed.

(** The effect of a step on the shared state. *)
Lemma step_nbr sh t sh' next id d : u_step sh t = TStep sh' next ->
  u_nbr sh' id d = u_nbr sh id d \/ (t = UReset id d /\ u_nbr sh' id d = s_inf) \/ exists c cs, t = UWrite id d c cs /\ u_nbr sh' id d = c.
Proof.
  intros E. destruct t; cbn [NbrModel.u_step] in E.
  - destruct (get id0); [|discriminate]. destruct (_ =? _)%N; injection E as <- <-; now left.
  - injection E as <- <-. now left.
  - destruct (get id0); [|discriminate]. destruct (_ <? _)%nat; injection E as <- <-; now left.
  - injection E as <- <-. now left.
  - destruct (get id0); [|discriminate]. destruct (get (u_nbr sh id0 d0)); [|discriminate]. destruct (adj _ _); try discriminate. injection E as <- <-. now left.
  - destruct (get id0) as [s|]; [|discriminate]. destruct (face_fp over s d0); try discriminate. injection E as <- <-. cbn [u_nbr].
    destruct (set_nbr_cases (u_nbr sh) id0 d0 s_inf id d) as [[-> [-> ->]]|[_ ->]]; auto.
  - destruct cs; [injection E as <- <-; now left|]. destruct (get id0) as [s|]; [|discriminate]. destruct (accepts _ _ _); try discriminate. injection E as <- <-. now left.
  - injection E as <- <-. cbn [u_nbr]. destruct (set_nbr_cases (u_nbr sh) id0 d0 c id d) as [[-> [-> ->]]|[_ ->]]; [right; right; eauto|now left].
  - injection E as <- <-. now left.
  - injection E as <- <-. now left.
  - injection E as <- <-. now left.
Qed.
Lemma step_mark sh t sh' next id : u_step sh t = TStep sh' next ->
  u_marks sh' id = u_marks sh id \/ (t = UMark id /\ u_marks sh' id = ud_mark) \/ exists i d cs, t = UQueue i d id cs /\ u_marks sh' id = uq_mark.
Proof.
  intros E. destruct t; cbn [NbrModel.u_step] in E.
  - destruct (get id0); [|discriminate]. destruct (_ =? _)%N; injection E as <- <-; now left.
  - injection E as <- <-. cbn [u_marks]. destruct (put_mark_cases (u_marks sh) id0 ud_mark id) as [[-> ->]|[_ ->]]; auto.
  - destruct (get id0); [|discriminate]. destruct (_ <? _)%nat; injection E as <- <-; now left.
  - injection E as <- <-. now left.
  - destruct (get id0); [|discriminate]. destruct (get (u_nbr sh id0 d)); [|discriminate]. destruct (adj _ _); try discriminate. injection E as <- <-. now left.
  - destruct (get id0) as [s|]; [|discriminate]. destruct (face_fp over s d); try discriminate. injection E as <- <-. now left.
  - destruct cs; [injection E as <- <-; now left|]. destruct (get id0) as [s|]; [|discriminate]. destruct (accepts _ _ _); try discriminate. injection E as <- <-. now left.
  - injection E as <- <-. now left.
  - injection E as <- <-. now left.
  - injection E as <- <-. cbn [u_marks]. destruct (put_mark_cases (u_marks sh) c uq_mark id) as [[-> ->]|[_ ->]]; [right; right; eauto|now left].
  - injection E as <- <-. now left.
Qed.
Lemma marked_step sh t sh' next c : u_step sh t = TStep sh' next -> marked sh c -> marked sh' c.
Proof.
  intros E H. unfold marked in *. destruct (step_mark _ _ _ _ c E) as [->|[[_ ->]|[i [d [cs [_ ->]]]]]]; [exact H| |lia]. rewrite uq_val, ud_val. lia.
Qed.

Lemma R1_step l1 t l2 sh sh' next id s d : live id s -> tI sh t -> u_step sh t = TStep sh' next ->
  R1 sh (l1 ++ t :: l2) id s d -> R1 sh' (l1 ++ next ++ l2) id s d.
Proof.
  intros Hl Ht E HR. destruct (step_nbr _ _ _ _ id d E) as [En|[[-> En]|[c [cs [-> En]]]]].
  - unfold R1. rewrite En. destruct HR as [HR|[H0 HR]]; [now left|]. right. split; [exact H0|]. intros c Hc Hf. destruct (HR c Hc Hf) as [x [Hx Hw]].
    destruct (in_step l1 l2 next t x Hx) as [->|Hx']; [|eauto]. destruct t; try contradiction; cbn [will_write] in Hw.
    + destruct Hw as [-> [-> Hin]]. destruct cs as [|c0 cs]; [destruct Hin|]. cbn [NbrModel.u_step] in E. pose proof Hl as [Eg _]. rewrite Eg in E.
      destruct (accepts_iff id s d c0 Hl (listed_lt _ _ _ Hc)) as [b [Eb Hb]]. rewrite Eb in E. injection E as <- <-. destruct Hin as [->|Hin].
      * rewrite (proj2 Hb Hf). exists (UWrite id d c cs). split; [apply in_next; now left|]. cbn [will_write]. auto.
      * eexists. split; [apply in_next; now left|]. destruct b; cbn [will_write]; auto.
    + destruct Hw as [-> [-> _]]. cbn [NbrModel.u_step] in E. injection E as <- <-. cbn [u_nbr] in En. rewrite set_nbr_same in En.
      cbn [tI] in Ht. destruct Ht as [_ [_ [s' [_ [_ [_ [Hf' _]]]]]]]. destruct (fits_live _ _ _ Hf') as [t [_ [_ Hi]]]. congruence.
  - cbn [NbrModel.u_step] in E. pose proof Hl as [Eg _]. rewrite Eg in E. destruct (face_fp over s d) as [h| |] eqn:Ef; try discriminate. injection E as <- <-.
    right. split; [exact En|]. intros c [h' [Eh Hin]] _. exists (UCand id d (tbl h)). split; [apply in_next; now left|]. cbn [will_write]. assert (h' = h) by congruence. subst. auto.
  - left. rewrite En. cbn [tI] in Ht. destruct Ht as [_ [_ [s' [Hl' [_ [H1 [H2 _]]]]]]]. rewrite (live_fun _ _ _ Hl Hl'). auto.
Qed.

Lemma R2_step l1 t l2 sh sh' next id s d : live id s -> tI sh t -> u_step sh t = TStep sh' next ->
  R2 sh (l1 ++ t :: l2) id s d -> R2 sh' (l1 ++ next ++ l2) id s d.
Proof.
  intros Hl Ht E HR c Hc Hf. destruct (HR c Hc Hf) as [Hm|[x [Hx Hw]]]; [left; eapply marked_step; eauto|].
  destruct (in_step l1 l2 next t x Hx) as [->|Hx']; [|right; eauto]. destruct t; try contradiction; cbn [will_mark] in Hw; destruct Hw as [-> [-> Hin]]; cbn [NbrModel.u_step] in E.
  - destruct cs as [|c0 cs]; [destruct Hin|]. pose proof Hl as [Eg _]. rewrite Eg in E.
    destruct (accepts_iff id s d c0 Hl (listed_lt _ _ _ Hc)) as [b [Eb Hb]]. rewrite Eb in E. injection E as <- <-. right. destruct Hin as [->|Hin].
    + rewrite (proj2 Hb Hf). exists (UWrite id d c cs). split; [apply in_next; now left|]. cbn [will_mark]. auto.
    + eexists. split; [apply in_next; now left|]. destruct b; cbn [will_mark]; auto.
  - injection E as <- <-. right. eexists. split; [apply in_next; now left|]. cbn [will_mark]. auto.
  - injection E as <- <-. destruct (N.ltb_spec (u_marks sh c0) uq_mark) as [L|L].
    + right. exists (UQueue id d c0 cs). split; [apply in_next; now left|]. cbn [will_mark]. auto.
    + destruct Hin as [->|Hin]; [left; exact L|]. right. exists (UCand id d cs). split; [apply in_next; now left|]. cbn [will_mark]. auto.
  - injection E as <- <-. destruct Hin as [->|Hin]; [left; unfold marked; cbn [u_marks]; rewrite put_mark_same; lia|]. right. exists (UAdd id d c0 cs). split; [apply in_next; now left|]. cbn [will_mark]. auto.
  - injection E as <- <-. right. exists (UCand id d cs). split; [apply in_next; now left|]. cbn [will_mark]. auto.
Qed.

Lemma settled_step l1 t l2 sh sh' next id s d : live id s -> tI sh t -> u_step sh t = TStep sh' next ->
  settled sh (l1 ++ t :: l2) id s d -> settled sh' (l1 ++ next ++ l2) id s d.
Proof.
  intros Hl Ht E [[H1 H2]|[Hg [H1 H2]]].
  - left. split; [|exact H2]. destruct (step_nbr _ _ _ _ id d E) as [En|[[-> En]|[c [cs [-> En]]]]]; [congruence| |]; cbn [tI] in Ht; exfalso; tauto.
  - right. split; [exact Hg|]. split; [eapply R1_step; eauto|eapply R2_step; eauto].
Qed.

(** Facts the tasks after a step need. *)
Lemma not_good_nbr a id d : uI a -> (forall s t d', live id s -> live (u_nbr (p_sh a) id d) t -> ~ opposite s d' t) -> ~ good id d.
Proof.
  intros [_ _ Is _ _ _] H [s [t [d' [H1 [H2 H3]]]]]. destruct (Is id d) as [E|[_ [Hg _]]].
  - rewrite E in H. exact (H s t d' H1 H2 H3).
  - apply Hg. exists s, t, d'. auto.
Qed.

Lemma covered_step l1 t l2 sh sh' next id s : uI (mkp sh (l1 ++ t :: l2)) -> live id s -> u_step sh t = TStep sh' next ->
  covered sh (l1 ++ t :: l2) id s -> covered sh' (l1 ++ next ++ l2) id s.
Proof.
  intros I Hl E HC d Hd. assert (Ht : tI sh t) by (apply (i_t _ I); cbn [p_tasks]; apply in_or_app; right; now left).
  destruct (HC d Hd) as [H|[x [e [Hx [Ha He]]]]]; [left; eapply settled_step; eauto|].
  destruct (in_step l1 l2 next t x Hx) as [->|Hx']; [|right; eauto 6].
  assert (Same : forall y, In y next -> at_slot y id e -> exists t e, In t (l1 ++ next ++ l2) /\ at_slot t id e /\ e <= d) by (intros y Hy H; exists y, e; split; [now apply in_next|auto]).
  assert (Next : In (USlot id (S e)) next -> (e = d -> settled sh (l1 ++ t :: l2) id s d) ->
     settled sh' (l1 ++ next ++ l2) id s d \/ exists t e, In t (l1 ++ next ++ l2) /\ at_slot t id e /\ e <= d).
  { intros Hy HK. destruct (Nat.eq_dec e d) as [->|Hne]; [left; eapply settled_step; eauto|]. right. exists (USlot id (S e)), (S e). split; [now apply in_next|]. cbn [at_slot]. split; [auto|lia]. }
  pose proof Hl as [Eg _].
  destruct t; try contradiction; cbn [at_slot] in Ha; destruct Ha as [-> ->]; cbn [NbrModel.u_step] in E.
  - rewrite Eg in E. destruct (Nat.ltb_spec e (length (x_verts s))); [|lia]. injection E as <- <-. right. eapply Same; [now left|]. destruct (s_finite _); cbn [at_slot]; auto.
  - injection E as <- <-. right. eapply Same; [now left|]. destruct (has _); cbn [at_slot]; auto.
  - rewrite Eg in E. destruct (get (u_nbr sh id e)) as [t|] eqn:Et; [|discriminate]. destruct (live_wf _ _ Hl) as [Hs Hne]. destruct (Hwf _ _ Et) as [Hi _].
    assert (Hs' : sorted (x_verts t)) by (cbn [tI] in Ht; destruct Ht as [_ [_ [H|[t' Hlt]]]]; [contradiction|]; destruct (live_wf _ _ Hlt) as [Hs' _]; destruct Hlt; congruence).
    destruct (adj_iff s t Hs Hs' Hne) as [b [Eb Hb]]. rewrite Eb in E. injection E as <- <-. destruct b; [|right; eapply Same; [now left|]; cbn [at_slot]; auto].
    apply Next; [now left|]. intros ->. destruct (proj1 Hb eq_refl) as [d' Ho]. cbn [tI] in Ht. destruct Ht as [_ [_ [H|[t' Hlt]]]]; [contradiction|].
    assert (t' = t) by (destruct Hlt; congruence). subst t'. destruct (i_s _ I id d) as [En|[_ [Hg [s' [Hl' HR]]]]]; cbn [p_sh p_tasks] in *.
    + left. split; [exact En|]. exists s, t, d'. rewrite <- En. auto.
    + right. split; [exact Hg|]. rewrite (live_fun _ _ _ Hl Hl'). exact HR.
  - rewrite Eg in E. destruct (face_fp over s e); try discriminate. injection E as <- <-. right. eapply Same; [now left|]. cbn [at_slot]. auto.
  - destruct cs as [|c cs].
    + injection E as <- <-. apply Next; [now left|]. intros ->. right. cbn [tI] in Ht. destruct Ht as [_ [Hg _]]. split; [exact Hg|].
      apply (i_r _ I (UCand id d [])); cbn [p_tasks past_reset]; auto.
    + rewrite Eg in E. destruct (accepts s e c) as [b| |]; try discriminate. injection E as <- <-. right. eapply Same; [now left|]. destruct b; cbn [at_slot]; auto.
  - injection E as <- <-. right. eapply Same; [now left|]. cbn [at_slot]. auto.
  - injection E as <- <-. right. eapply Same; [now left|]. destruct (_ <? _)%N; cbn [at_slot]; auto.
  - injection E as <- <-. right. eapply Same; [now left|]. cbn [at_slot]. auto.
  - injection E as <- <-. right. eapply Same; [now left|]. cbn [at_slot]. auto.
Qed.

Lemma tI_step a sh' next t x : uI a -> In t (p_tasks a) -> u_step (p_sh a) t = TStep sh' next -> tI (p_sh a) x -> tI sh' x.
Proof.
  intros I Hin E H. destruct x; cbn [tI] in *; auto. destruct H as [H1 [H2 H3]]. split; [exact H1|]. split; [exact H2|].
  destruct (step_nbr _ _ _ _ id d E) as [->|[[_ ->]|[c [cs [-> ->]]]]]; auto. right. apply (i_t _ I) in Hin. cbn [tI] in Hin. destruct Hin as [_ [_ [s [_ [_ [_ [Hf _]]]]]]]. eapply fits_live; eauto.
Qed.

Lemma next_ok a sh' next t : uI a -> In t (p_tasks a) -> u_step (p_sh a) t = TStep sh' next -> forall x, In x next -> tI sh' x.
Proof.
  intros I Hin E. pose proof (i_t _ I t Hin) as H. destruct t; cbn [NbrModel.u_step tI] in *.
  - destruct H as [Hv [s Hl]]. pose proof Hl as [Eg _]. rewrite Eg in E. destruct (_ =? _)%N; injection E as <- <-; intros x Hx; [destruct Hx|]. destruct Hx as [<-|[]]. cbn [tI]. eauto.
  - injection E as <- <-. intros x [<-|[]]. cbn [tI]. exact H.
  - destruct H as [Hv [s Hl]]. pose proof Hl as [Eg _]. rewrite Eg in E. destruct (Nat.ltb_spec d (length (x_verts s))); injection E as <- <-; intros x Hx; [|destruct Hx].
    destruct Hx as [<-|[]]. destruct (s_finite (u_nbr (p_sh a) id d)) eqn:Ef; cbn [tI]; [eauto|]. split; [exact Hv|]. split; [eauto|]. apply (not_good_nbr a id d I).
    intros s' t d' _ [_ [_ Hi]]. apply sfin_iff in Hi. congruence.
  - destruct H as [Hv [s [Hl Hd]]]. injection E as <- <-. intros x [<-|[]]. destruct (has (u_nbr (p_sh a) id d)) eqn:Eh; cbn [tI]; (split; [exact Hv|]; split; [eauto|]).
    + right. now apply has_iff.
    + apply (not_good_nbr a id d I). intros s' t d' _ Ht _. assert (has (u_nbr (p_sh a) id d) = true) by (apply has_iff; eauto). congruence.
  - destruct H as [Hv [[s [Hl Hd]] Hs]]. pose proof Hl as [Eg _]. rewrite Eg in E. destruct (get (u_nbr (p_sh a) id d)) as [t|] eqn:Et; [|discriminate].
    destruct (live_wf _ _ Hl) as [Hso Hne]. destruct (Hwf _ _ Et) as [Hi _].
    assert (Hs' : sorted (x_verts t)) by (destruct Hs as [H|[t' Hlt]]; [contradiction|]; destruct (live_wf _ _ Hlt) as [Hs' _]; destruct Hlt; congruence). destruct (adj_iff s t Hso Hs' Hne) as [b [Eb Hb]]. rewrite Eb in E. injection E as <- <-.
    intros x [<-|[]]. destruct b; cbn [tI]; (split; [exact Hv|]); [eauto|]. split; [eauto|]. apply (not_good_nbr a id d I). intros s' t' d' Hl1 Hl2 Ho.
    rewrite (live_fun _ _ _ Hl1 Hl) in Ho. destruct Hl2 as [Et' _]. assert (t' = t) by congruence. subst. assert (false = true) by (apply Hb; eauto). discriminate.
  - destruct H as [Hv [[s [Hl Hd]] Hg]]. pose proof Hl as [Eg _]. rewrite Eg in E. destruct (face_fp over s d) as [h| |] eqn:Ef; try discriminate. injection E as <- <-.
    intros x [<-|[]]. cbn [tI]. split; [exact Hv|]. split; [exact Hg|]. exists s. split; [exact Hl|]. split; [exact Hd|]. intros c Hc. exists h. auto.
  - destruct H as [Hv [Hg [s [Hl [Hd Hc]]]]]. pose proof Hl as [Eg _]. destruct cs as [|c cs].
    + injection E as <- <-. intros x [<-|[]]. cbn [tI]. eauto.
    + rewrite Eg in E. destruct (accepts_iff id s d c Hl Hd) as [b [Eb Hb]]. rewrite Eb in E. injection E as <- <-. intros x [<-|[]]. destruct b; cbn [tI]; (split; [exact Hv|]; split; [exact Hg|]); exists s.
      * split; [exact Hl|]. split; [exact Hd|]. split; [apply Hc; now left|]. split; [now apply Hb|]. intros c' Hc'. apply Hc. now right.
      * split; [exact Hl|]. split; [exact Hd|]. intros c' Hc'. apply Hc. now right.
  - injection E as <- <-. intros x [<-|[]]. cbn [tI]. exact H.
  - injection E as <- <-. intros x [<-|[]]. destruct (_ <? _)%N; cbn [tI]; [exact H|]. destruct H as [Hv [Hg [s [Hl [Hd [_ [_ Hc]]]]]]]. eauto 8.
  - injection E as <- <-. intros x [<-|[]]. cbn [tI]. exact H.
  - injection E as <- <-. destruct H as [Hv [Hg [s [Hl [Hd [Hc1 [Hc2 Hc]]]]]]]. intros x [<-|[<-|[]]]; cbn [tI]; [eauto 8|]. split; [eapply visited_found; eauto|]. eapply fits_live; eauto.
Qed.

Lemma uI_step a b : uI a -> pstep u_step a b -> uI b.
Proof.
  intros I (l1 & t & l2 & sh' & next & E1 & E2 & ->). destruct a as [sh T]. cbn [p_sh p_tasks] in *. subst T.
  pose proof I as [It Im Is Ir Id Ic]. cbn [p_sh p_tasks] in *.
  assert (Hin : In t (l1 ++ t :: l2)) by (apply in_or_app; right; now left).
  pose proof (It t Hin) as Ht.
  assert (HR : forall id s d, live id s -> R1 sh (l1 ++ t :: l2) id s d /\ R2 sh (l1 ++ t :: l2) id s d -> R1 sh' (l1 ++ next ++ l2) id s d /\ R2 sh' (l1 ++ next ++ l2) id s d).
  { intros id s d Hl [H1 H2]. split; [eapply R1_step; eauto|eapply R2_step; eauto]. }
  assert (Rs : forall id d s, t = UReset id d -> live id s -> R1 sh' (l1 ++ next ++ l2) id s d /\ R2 sh' (l1 ++ next ++ l2) id s d).
  { intros id d s -> Hl. cbn [NbrModel.u_step] in E2. pose proof Hl as [Eg _]. rewrite Eg in E2. destruct (face_fp over s d) as [h| |] eqn:Ef; try discriminate. injection E2 as <- <-.
    assert (W : forall c, listed s d c -> In c (tbl h)) by (intros c [h' [Eh Hc]]; congruence). split.
    - right. cbn [u_nbr]. rewrite set_nbr_same. split; [reflexivity|]. intros c Hc _. exists (UCand id d (tbl h)). split; [apply in_next; now left|]. cbn [will_write]. auto.
    - intros c Hc _. right. exists (UCand id d (tbl h)). split; [apply in_next; now left|]. cbn [will_mark]. auto. }
  assert (Dn : forall id s, u_marks sh' id = ud_mark -> live id s -> covered sh' (l1 ++ next ++ l2) id s).
  { intros id s Hm Hl. destruct (step_mark _ _ _ _ id E2) as [Hs|[[-> _]|[i [d [cs [-> Hq]]]]]].
    - eapply covered_step; eauto. apply Id; [congruence|exact Hl].
    - cbn [NbrModel.u_step] in E2. injection E2 as <- <-. intros d Hd. right. exists (USlot id 0), 0. split; [apply in_next; now left|]. cbn [at_slot]. split; [auto|lia].
    - exfalso. rewrite Hq, uq_val, ud_val in Hm. lia. }
  assert (Cv : forall id s, live id s -> (exists x, In x (l1 ++ t :: l2) /\ will_visit x id) \/ covered sh (l1 ++ t :: l2) id s ->
     (exists x, In x (l1 ++ next ++ l2) /\ will_visit x id) \/ covered sh' (l1 ++ next ++ l2) id s).
  { intros id s Hl [[x [Hx Hw]]|H]; [|right; eapply covered_step; eauto]. destruct (in_step l1 l2 next t x Hx) as [->|Hx']; [|left; eauto].
    pose proof Hl as [Eg _]. destruct t; try contradiction; cbn [will_visit] in Hw; subst; cbn [NbrModel.u_step] in E2.
    - rewrite Eg in E2. destruct (N.eqb_spec (u_marks sh id) ud_mark) as [Em|_]; injection E2 as <- <-.
      + right. apply (covered_step l1 (UItem id) l2 sh sh [] id s I Hl); [|now apply Id]. cbn [NbrModel.u_step]. rewrite Eg. apply N.eqb_eq in Em. now rewrite Em.
      + left. exists (UMark id). split; [apply in_next; now left|reflexivity].
    - injection E2 as <- <-. right. intros d Hd. right. exists (USlot id 0), 0. split; [apply in_next; now left|]. cbn [at_slot]. split; [auto|lia].
    - injection E2 as <- <-. left. exists (UItem id). split; [apply in_next; right; now left|reflexivity]. }
  split; cbn [p_sh p_tasks].
  - intros x Hx. rewrite !in_app_iff in Hx. destruct Hx as [Hx|[Hx|Hx]]; [|eapply (next_ok (mkp sh (l1 ++ t :: l2))); eauto|];
      (eapply (tI_step (mkp sh (l1 ++ t :: l2))); eauto; apply It; rewrite in_app_iff; cbn [In]; auto).
  - intros id. destruct (step_mark _ _ _ _ id E2) as [->|[[_ ->]|[i [d [cs [_ ->]]]]]]; auto.
  - intros id d. destruct (step_nbr _ _ _ _ id d E2) as [En|[[Et En]|[c [cs [Et En]]]]].
    + rewrite En. destruct (Is id d) as [H|[H1 [H2 [s [Hl H3]]]]]; [now left|]. right. split; [exact H1|]. split; [exact H2|]. exists s. split; [exact Hl|]. now apply HR.
    + right. rewrite Et in Ht. cbn [tI] in Ht. destruct Ht as [H1 [[s [Hl _]] H2]]. split; [exact H1|]. split; [exact H2|]. exists s. split; [exact Hl|]. now apply Rs.
    + right. pose proof Ht as Ht'. rewrite Et in Ht'. cbn [tI] in Ht'. destruct Ht' as [H1 [H2 [s [Hl _]]]]. split; [exact H1|]. split; [exact H2|]. exists s. split; [exact Hl|]. apply HR; [exact Hl|].
      apply (Ir t id d s Hin); [rewrite Et; cbn [past_reset]; auto|exact Hl].
  - intros x id d s Hx Hp Hl. rewrite !in_app_iff in Hx.
    destruct Hx as [Hx|[Hx|Hx]]; [apply HR; [exact Hl|]; apply (Ir x); [rewrite in_app_iff; auto|exact Hp|exact Hl]| |apply HR; [exact Hl|]; apply (Ir x); [rewrite in_app_iff; cbn [In]; auto|exact Hp|exact Hl]].
    assert (Hc : t = UReset id d \/ past_reset t id d).
    { destruct t; cbn [NbrModel.u_step] in E2.
      - destruct (get id0); [|discriminate]. destruct (_ =? _)%N; injection E2 as <- <-; [destruct Hx|]. destruct Hx as [<-|[]]. destruct Hp.
      - injection E2 as <- <-. destruct Hx as [<-|[]]. destruct Hp.
      - destruct (get id0); [|discriminate]. destruct (_ <? _)%nat; injection E2 as <- <-; [|destruct Hx]. destruct Hx as [<-|[]]. destruct (s_finite _); destruct Hp.
      - injection E2 as <- <-. destruct Hx as [<-|[]]. destruct (has _); destruct Hp.
      - destruct (get id0); [|discriminate]. destruct (get (u_nbr sh id0 d0)); [|discriminate]. destruct (adj _ _) as [b| |]; try discriminate. injection E2 as <- <-. destruct Hx as [<-|[]]. destruct b; destruct Hp.
      - destruct (get id0) as [s0|]; [|discriminate]. destruct (face_fp over s0 d0); try discriminate. injection E2 as <- <-. destruct Hx as [<-|[]]. cbn [past_reset] in Hp. destruct Hp as [-> ->]. now left.
      - destruct cs; [injection E2 as <- <-; destruct Hx as [<-|[]]; destruct Hp|]. destruct (get id0) as [s0|]; [|discriminate]. destruct (accepts _ _ _) as [b| |]; try discriminate. injection E2 as <- <-. destruct Hx as [<-|[]]. right. destruct b; exact Hp.
      - injection E2 as <- <-. destruct Hx as [<-|[]]. right. exact Hp.
      - injection E2 as <- <-. destruct Hx as [<-|[]]. right. destruct (_ <? _)%N; exact Hp.
      - injection E2 as <- <-. destruct Hx as [<-|[]]. right. exact Hp.
      - injection E2 as <- <-. destruct Hx as [<-|[<-|[]]]; [right; exact Hp|destruct Hp]. }
    destruct Hc as [Hc|Hc]; [now apply Rs|]. apply HR; [exact Hl|]. apply (Ir t id d s Hin Hc Hl).
  - exact Dn.
  - intros id s Hq Hl. destruct Hq as [Hq|Hq]; [apply Cv; [exact Hl|]; apply Ic; auto|]. destruct (step_mark _ _ _ _ id E2) as [Hs|[[_ Hd]|[i [d [cs [Et _]]]]]].
    + apply Cv; [exact Hl|]. apply Ic; [right; congruence|exact Hl].
    + exfalso. rewrite Hd, uq_val, ud_val in Hq. lia.
    + left. rewrite Et in E2. cbn [NbrModel.u_step] in E2. injection E2 as <- <-. exists (UAdd i d id cs). split; [apply in_next; now left|reflexivity].
Qed.

Lemma uI_start : uI (u_start nbr0 m0 toCheck).
Proof.
  assert (Nq : forall id, (m0 id < uq_mark /\ m0 id < ud_mark)%N) by (intros id; pose proof (Hm0 id); rewrite uq_val, ud_val; lia).
  split; unfold u_start; cbn [p_sh p_tasks u_nbr u_marks].
  - intros t Ht. apply in_map_iff in Ht. destruct Ht as [id [<- Hid]]. cbn [tI]. split; [now apply visited_given|auto].
  - auto.
  - auto.
  - intros t id d s Ht. apply in_map_iff in Ht. destruct Ht as [id' [<- _]]. intros [].
  - intros id s Hm. destruct (Nq id). lia.
  - intros id s [Hq|Hm] _; [|destruct (Nq id); lia]. left. exists (UItem id). split; [now apply in_map|reflexivity].
Qed.
Lemma uI_inv a : pexec u_step (u_start nbr0 m0 toCheck) a -> uI a.
Proof. apply pexec_inv; [exact uI_start|]. intros b c Hb Hs. exact (uI_step b c Hb Hs). Qed.

(** ** The result *)
Lemma u_result sh : pexec u_step (u_start nbr0 m0 toCheck) (mkp sh []) ->
  (forall id s d, visited id -> live id s -> d < length (x_verts s) ->
     (good id d /\ u_nbr sh id d = nbr0 id d) \/
     (~ good id d /\ listed s d (u_nbr sh id d) /\ fits s d (u_nbr sh id d)) \/
     (~ good id d /\ u_nbr sh id d = s_inf /\ forall c, listed s d c -> ~ fits s d c)) /\
  (forall id d, ~ visited id -> u_nbr sh id d = nbr0 id d).
Proof.
  intros Ha. pose proof (uI_inv _ Ha) as [It Im Is Ir Id Ic]. cbn [p_sh p_tasks] in *. split; [|intros id d Hv; destruct (Is id d) as [H|[H _]]; [exact H|contradiction]].
  assert (Cm : forall c s, live c s -> marked sh c -> covered sh [] c s).
  { intros c s Hl Hm. unfold marked in Hm. destruct (Im c) as [E|[E|E]].
    - exfalso. pose proof (Hm0 c). rewrite E, uq_val in Hm. lia.
    - destruct (Ic c s ltac:(auto) Hl) as [[t [[] _]]|H]. exact H.
    - now apply Id. }
  assert (Vc : forall id, visited id -> forall s, live id s -> covered sh [] id s).
  { intros id Hv. induction Hv as [id Hg|id s d c Hv IH Hl Hng Hli Hf]; intros s' Hl'.
    - destruct (Ic id s' ltac:(auto) Hl') as [[t [[] _]]|H]. exact H.
    - apply Cm; [exact Hl'|]. destruct (IH s Hl d (listed_lt _ _ _ Hli)) as [[[_ Hg]|[_ [_ H2]]]|[t [e [[] _]]]]; [contradiction|]. destruct (H2 c Hli Hf) as [Hm|[t [[] _]]]. exact Hm. }
  intros id s d Hv Hl Hd. destruct (Vc id Hv s Hl d Hd) as [[[H1 H2]|[Hg [H1 _]]]|[t [e [[] _]]]]; [now left|]. right. destruct H1 as [H1|[H1 H2]]; [left; tauto|]. right. split; [exact Hg|]. split; [exact H1|].
  intros c Hc Hf. destruct (H2 c Hc Hf) as [t [[] _]].
Qed.

(** The only thing that can go wrong: the third read of a slot finds it reset by another task. *)
Lemma u_bad a t : pexec u_step (u_start nbr0 m0 toCheck) a -> In t (p_tasks a) -> u_step (p_sh a) t = TBad ->
  exists id d, t = UAdj id d /\ u_nbr (p_sh a) id d = s_inf.
Proof.
  intros Ha Hin Hb. pose proof (uI_inv _ Ha) as I. pose proof (i_t _ I t Hin) as H. destruct t; cbn [NbrModel.u_step tI] in *; try discriminate.
  - destruct H as [_ [s [Eg _]]]. rewrite Eg in Hb. destruct (_ =? _)%N; discriminate.
  - destruct H as [_ [s [Eg _]]]. rewrite Eg in Hb. destruct (_ <? _)%nat; discriminate.
  - destruct H as [_ [[s [Hl Hd]] [H|[t Ht]]]]; [eauto|]. exfalso. destruct (live_wf _ _ Hl) as [Hso Hne]. destruct (live_wf _ _ Ht) as [Hs' _]. destruct Hl as [Eg _]. destruct Ht as [Et _]. rewrite Eg, Et in Hb.
    destruct (adj_iff s t Hso Hs' Hne) as [b [Eb _]]. rewrite Eb in Hb. discriminate.
  - destruct H as [_ [[s [[Eg _] Hd]] _]]. rewrite Eg in Hb. destruct (face_ex s d Hd) as [h Eh]. rewrite Eh in Hb. discriminate.
  - destruct cs as [|c cs]; [discriminate|]. destruct H as [_ [_ [s [Hl [Hd _]]]]]. pose proof (proj1 Hl) as Eg. rewrite Eg in Hb. destruct (accepts_iff id s d c Hl Hd) as [b [Eb _]]. rewrite Eb in Hb. discriminate.
Qed.

(** ** Without two tasks on one simplex nothing goes wrong *)
Lemma xexec_pexec P a b : pexec_in u_step P a b -> pexec u_step a b /\ P b.
Proof. intros H. induction H as [H|b c H [IH _] Hs Hc]; [split; [apply pexec_start|exact H]|]. split; [eapply pexec_step; eauto|exact Hc]. Qed.

Lemma excl_adj a : pexec_in u_step exclusive (u_start nbr0 m0 toCheck) a -> forall id d, In (UAdj id d) (p_tasks a) -> exists t, live (u_nbr (p_sh a) id d) t.
Proof.
  intros H. induction H as [_|b c H IH Hs Hc].
  - intros id d Hin. unfold u_start in Hin. cbn [p_tasks] in Hin. apply in_map_iff in Hin. destruct Hin as [i [E _]]. discriminate.
  - destruct (xexec_pexec _ _ _ H) as [He Hx]. pose proof (uI_inv _ He) as I. intros id d Hin. destruct Hs as (l1 & t & l2 & sh' & next & E1 & E2 & ->). cbn [p_sh p_tasks] in *.
    rewrite !in_app_iff in Hin. assert (Old : In (UAdj id d) (l1 ++ l2) -> exists t0, live (u_nbr sh' id d) t0).
    { intros Hin'. destruct (step_nbr _ _ _ _ id d E2) as [En|[[-> _]|[c [cs [-> _]]]]].
      - rewrite En. apply IH. rewrite E1. rewrite in_app_iff in *. cbn [In]. tauto.
      - exfalso. exact (Hx _ _ _ id _ E1 eq_refl Hin' eq_refl).
      - exfalso. exact (Hx _ _ _ id _ E1 eq_refl Hin' eq_refl). }
    destruct Hin as [Hin|[Hin|Hin]]; [apply Old, in_or_app; auto| |apply Old, in_or_app; auto].
    destruct t; cbn [NbrModel.u_step] in E2.
    + destruct (get id0); [|discriminate]. destruct (_ =? _)%N; injection E2 as <- <-; [destruct Hin|]. destruct Hin as [Hin|[]]. discriminate.
    + injection E2 as <- <-. destruct Hin as [Hin|[]]. discriminate.
    + destruct (get id0); [|discriminate]. destruct (_ <? _)%nat; injection E2 as <- <-; [|destruct Hin]. destruct Hin as [Hin|[]]. destruct (s_finite _); discriminate.
    + injection E2 as <- <-. destruct Hin as [Hin|[]]. destruct (has (u_nbr (p_sh b) id0 d0)) eqn:Eh; [|discriminate]. injection Hin as -> ->. now apply has_iff.
    + destruct (get id0); [|discriminate]. destruct (get (u_nbr (p_sh b) id0 d0)); [|discriminate]. destruct (adj _ _) as [x| |]; try discriminate. injection E2 as <- <-. destruct Hin as [Hin|[]]. destruct x; discriminate.
    + destruct (get id0) as [s|]; [|discriminate]. destruct (face_fp over s d0); try discriminate. injection E2 as <- <-. destruct Hin as [Hin|[]]. discriminate.
    + destruct cs; [injection E2 as <- <-; destruct Hin as [Hin|[]]; discriminate|]. destruct (get id0) as [s|]; [|discriminate]. destruct (accepts _ _ _) as [x| |]; try discriminate. injection E2 as <- <-. destruct Hin as [Hin|[]]. destruct x; discriminate.
    + injection E2 as <- <-. destruct Hin as [Hin|[]]. discriminate.
    + injection E2 as <- <-. destruct Hin as [Hin|[]]. destruct (_ <? _)%N; discriminate.
    + injection E2 as <- <-. destruct Hin as [Hin|[]]. discriminate.
    + injection E2 as <- <-. destruct Hin as [Hin|[Hin|[]]]; discriminate.
Qed.

Lemma u_exclusive_safe a t : pexec_in u_step exclusive (u_start nbr0 m0 toCheck) a -> In t (p_tasks a) -> u_step (p_sh a) t <> TBad.
Proof.
  intros H Hin Hb. destruct (xexec_pexec _ _ _ H) as [He _]. destruct (u_bad _ _ He Hin Hb) as [id [d [-> En]]].
  destruct (excl_adj a H id d Hin) as [t [_ [_ Hi]]]. congruence.
Qed.

Lemma u_marks_le sh : pexec u_step (u_start nbr0 m0 toCheck) (mkp sh []) -> forall id, (u_marks sh id <= mark0 + 2)%N.
Proof.
  intros Ha id. destruct (uI_inv _ Ha) as [_ Im _ _ _ _]. cbn [p_sh] in Im. pose proof (Hm0 id). destruct (Im id) as [->|[->| ->]]; [lia|rewrite uq_val; lia|rewrite ud_val; lia].
Qed.

(** ** Neighbors are mutual *)
Lemma opposite_sym s d t : sorted (x_verts s) -> sorted (x_verts t) -> x_verts t <> [] -> length (x_verts s) = length (x_verts t) -> opposite s d t -> exists d', opposite t d' s.
Proof.
  intros Hs Ht Hne Hlen Ho. pose proof (opposite_count s d t Hs Ho) as Hc. destruct (adj_iff t s Ht Hs Hne) as [b [Eb Hb]]. apply Hb. rewrite adj_val in Eb by auto. injection Eb as <-.
  apply Nat.eqb_eq. rewrite <- Hlen, <- Hc. apply Permutation_length, NoDup_Permutation; try (apply common_NoDup, sorted_NoDup; assumption). intros x. rewrite !common_In. tauto.
Qed.
Lemma opposite_face s d t d' : sorted (x_verts s) -> sorted (x_verts t) -> x_fp s = gen_fp over (x_verts s) -> x_fp t = gen_fp over (x_verts t) ->
  opposite s d t -> opposite t d' s -> face_fp over s d = face_fp over t d'.
Proof.
  intros Hs Ht Fs Ft [v [Ev Hv]] [w [Ew Hw]]. rewrite (face_fp_spec over s d v Fs Ev), (face_fp_spec over t d' w Ft Ew). do 2 f_equal. apply gen_fp_perm.
  pose proof (without_perm d _ v Ev) as P1. pose proof (without_perm d' _ w Ew) as P2.
  assert (N1 : NoDup (v :: without d (x_verts s))) by (eapply Permutation_NoDup; [exact P1|now apply sorted_NoDup]).
  assert (N2 : NoDup (w :: without d' (x_verts t))) by (eapply Permutation_NoDup; [exact P2|now apply sorted_NoDup]).
  inversion N1 as [|? ? N1a N1b]; subst. inversion N2 as [|? ? N2a N2b]; subst. apply NoDup_Permutation; [assumption|assumption|].
  assert (In1 : forall x, In x (without d (x_verts s)) <-> In x (x_verts s) /\ x <> v).
  { intros x. split; [intros H; split; [apply (Permutation_in _ (Permutation_sym P1)); now right|intros ->; contradiction]|]. intros [H Hx]. apply (Permutation_in _ P1) in H. destruct H as [H|H]; [congruence|exact H]. }
  assert (In2 : forall x, In x (without d' (x_verts t)) <-> In x (x_verts t) /\ x <> w).
  { intros x. split; [intros H; split; [apply (Permutation_in _ (Permutation_sym P2)); now right|intros ->; contradiction]|]. intros [H Hx]. apply (Permutation_in _ P2) in H. destruct H as [H|H]; [congruence|exact H]. }
  intros x. rewrite In1, In2. split; intros [H1 H2].
  - pose proof (proj2 (Hv x H1) H2) as H3. split; [exact H3|]. now apply (Hw x H3).
  - pose proof (proj2 (Hw x H1) H2) as H3. split; [exact H3|]. now apply (Hv x H3).
Qed.
Lemma opposite_self s d : ~ opposite s d s.
Proof. intros [v [Ev H]]. apply nth_error_In in Ev as Hin. now apply (H v Hin). Qed.
Lemma opposite_lt s d t : opposite s d t -> d < length (x_verts s).
Proof. intros [v [Ev _]]. eapply nth_error_lt; eauto. Qed.
Lemma opposite_fits id s d c t : live id s -> live c t -> opposite s d t -> fits s d c.
Proof.
  intros Hl Hc Ho. split; [|eauto]. intros E. destruct Hl as [Eg [Ex _]]. destruct Hc as [Et _]. assert (t = s) by congruence. subst t. exact (opposite_self _ _ Ho).
Qed.

Lemma u_mutual sh : one_each get -> old_right get nbr0 -> all_listed over get tbl nbr0 toCheck -> uniform over get ->
  pexec u_step (u_start nbr0 m0 toCheck) (mkp sh []) -> forall id s d, visited id -> live id s -> d < length (x_verts s) ->
  (u_nbr sh id d = s_inf /\ forall c, visited c -> ~ fits s d c) \/
  (exists t d', live (u_nbr sh id d) t /\ opposite s d t /\ opposite t d' s /\ u_nbr sh (u_nbr sh id d) d' = id).
Proof.
  intros H1 Ho Ha Hu He id s d Hv Hl Hd. destruct (u_result sh He) as [HR HU]. destruct (live_wf _ _ Hl) as [Ss Ns].
  assert (Sym : forall c t e, live c t -> opposite s e t -> exists d', opposite t d' s).
  { intros c t e Hc Hop. destruct (live_wf _ _ Hc) as [St Nt]. apply (opposite_sym s e t); auto. apply (Hu c t Hc) with (id' := id). exact Hl. }
  assert (Lst : forall c t e d', live c t -> opposite s e t -> opposite t d' s -> forall x, listed s e x <-> listed t d' x).
  { intros c t e d' Hc Hop Hop' x. destruct (live_wf _ _ Hc) as [St _]. unfold NbrSpec.listed. rewrite (opposite_face s e t d' Ss St); auto; [tauto|apply (Hu id s Hl)|apply (Hu c t Hc)]. }
  assert (Vis : forall n t, n = u_nbr sh id d -> live n t -> opposite s d t -> visited n -> exists d', opposite t d' s /\ u_nbr sh n d' = id).
  { intros n t _ Hn Hop Hvn. destruct (Sym n t d Hn Hop) as [d' Hop']. exists d'. split; [exact Hop'|]. pose proof (opposite_lt _ _ _ Hop') as Hd'.
    assert (Hf : fits t d' id) by (eapply opposite_fits; eauto).
    destruct (HR n t d' Hvn Hn Hd') as [[Hg En]|[[_ [_ Hf']]|[_ [_ Hno]]]].
    - destruct Hg as [t2 [u [e [Hn2 [Hlu Hou]]]]]. rewrite (live_fun _ _ _ Hn2 Hn) in Hou. destruct (Ho n t d' u e Hn Hd' Hlu Hou) as [Hou' _]. rewrite En. apply (H1 n t d'); auto. eapply opposite_fits; eauto.
    - apply (H1 n t d'); auto.
    - exfalso. apply (Hno id); [|exact Hf]. apply (Lst n t d d' Hn Hop Hop'). apply Ha; auto. }
  destruct (HR id s d Hv Hl Hd) as [[Hg En]|[[Hg [Hli Hf]]|[Hg [En Hno]]]].
  - right. destruct Hg as [s2 [t [e [Hl2 [Hlt Hop]]]]]. rewrite (live_fun _ _ _ Hl2 Hl) in Hop. destruct (Ho id s d t e Hl Hd Hlt Hop) as [Hop' [d' [Hd' Em]]].
    rewrite <- En in Hlt, Em.
    assert (Dec : visited (u_nbr sh id d) \/ u_nbr sh (u_nbr sh id d) d' = nbr0 (u_nbr sh id d) d').
    { destruct (i_s _ (uI_inv _ He) (u_nbr sh id d) d') as [H|[H _]]; cbn [p_sh] in *; auto. }
    destruct Dec as [Hvn|Hk].
    + destruct (Vis _ t eq_refl Hlt Hop' Hvn) as [e' [H2 H3]]. exists t, e'. auto.
    + exists t, d'. split; [exact Hlt|]. split; [exact Hop'|]. destruct (Sym _ t d Hlt Hop') as [e' He']. split; [|congruence]. apply (Ho (u_nbr sh id d) t d' s e' Hlt Hd'); [|exact He']. rewrite Em. exact Hl.
  - right. destruct Hf as [Hne [t [Hlt Hop]]]. assert (Hvn : visited (u_nbr sh id d)) by (eapply visited_found; eauto; split; eauto). destruct (Vis _ t eq_refl Hlt Hop Hvn) as [e' [H2 H3]]. exists t, e'. auto.
  - left. split; [exact En|]. intros c Hvc Hf. apply (Hno c); [|exact Hf]. destruct Hf as [_ [t [Hlt Hop]]]. destruct (Sym c t d Hlt Hop) as [d' Hop']. apply (Lst c t d d' Hlt Hop Hop'). apply Ha; auto. eapply opposite_lt; eauto.
Qed.

(** ** Termination *)
Section T.
Variable ids : list N.
Hypothesis Hids : forall id s, live id s -> In id ids.
Variables L M : nat.
Hypothesis HL : forall id s, live id s -> length (x_verts s) <= L.
Hypothesis HM : forall id s d h, live id s -> face_fp over s d = Val h -> length (tbl h) <= M.

Definition ufresh (sh : ush) (x : N) : bool := (u_marks sh x <? uq_mark)%N.
Definition u_U (sh : ush) : nat := length (filter (ufresh sh) ids).
Definition u_in (n : N) : bool := if in_dec N.eq_dec n ids then true else false.
Definition uB : nat := 4 * M + 6.
Definition uW : nat := L * uB + 3.
Definition u_wt (sh : ush) (t : utask) : nat :=
  match t with
  | UItem _ => uW
  | UMark _ => L * uB + 2
  | USlot _ d => (L - d) * uB + 1
  | UHas _ d => (L - S d) * uB + 4 * M + 6
  | UAdj _ d => (L - S d) * uB + 4 * M + 5
  | UReset _ d => (L - S d) * uB + 4 * M + 4
  | UCand _ d cs => (L - S d) * uB + 4 * length cs + 2
  | UWrite _ d _ cs => (L - S d) * uB + 4 * length cs + 5
  | UTest _ d _ cs => (L - S d) * uB + 4 * length cs + 4
  | UQueue _ d c cs => if u_in c && ufresh sh c then (L - S d) * uB + 4 * length cs + 3 else (L - S d) * uB + 4 * length cs + uW + 4
  | UAdd _ d _ cs => (L - S d) * uB + 4 * length cs + uW + 3
  end.

Lemma u_in_spec n : u_in n = true <-> In n ids.
Proof. unfold u_in. destruct (in_dec N.eq_dec n ids); intuition discriminate. Qed.
Lemma ufilter_le {A} (f g : A -> bool) l : (forall x, In x l -> f x = true -> g x = true) -> length (filter f l) <= length (filter g l).
Proof.
  induction l as [|x l IH]; intros H; cbn [filter]; [lia|]. specialize (IH ltac:(intros y Hy; apply H; now right)). pose proof (H x ltac:(now left)) as Hx.
  destruct (f x); [rewrite Hx by reflexivity; cbn [length]; lia|]. destruct (g x); cbn [length]; lia.
Qed.
Lemma ufilter_lt {A} (f g : A -> bool) l x : (forall y, In y l -> f y = true -> g y = true) -> In x l -> f x = false -> g x = true -> length (filter f l) < length (filter g l).
Proof.
  induction l as [|y l IH]; intros H Hin Hf Hg; [destruct Hin|]. cbn [filter]. destruct Hin as [->|Hin].
  - rewrite Hf, Hg. cbn [length]. pose proof (ufilter_le f g l ltac:(intros z Hz; apply H; now right)). lia.
  - specialize (IH ltac:(intros z Hz; apply H; now right) Hin Hf Hg). pose proof (H y ltac:(now left)) as Hy. destruct (f y); [rewrite Hy by reflexivity; cbn [length]; lia|]. destruct (g y); cbn [length]; lia.
Qed.

Lemma u_measure a t sh' next : uI a -> In t (p_tasks a) -> u_step (p_sh a) t = TStep sh' next ->
  u_U sh' < u_U (p_sh a) \/ (u_U sh' = u_U (p_sh a) /\ (forall x, u_wt sh' x <= u_wt (p_sh a) x) /\ total (u_wt sh') next < u_wt (p_sh a) t).
Proof.
  intros I Hin E. pose proof (i_t _ I t Hin) as Ht. destruct a as [sh T]. cbn [p_sh p_tasks] in *.
  assert (Gf : forall x, In x ids -> ufresh sh' x = true -> ufresh sh x = true).
  { intros x _. unfold ufresh. rewrite !N.ltb_lt. intros H. destruct (N.lt_ge_cases (u_marks sh x) uq_mark) as [|H']; [assumption|]. pose proof (marked_step _ _ _ _ x E H') as H2. unfold marked in H2. lia. }
  destruct (Nat.lt_ge_cases (u_U sh') (u_U sh)) as [|Hge]; [now left|]. right.
  assert (EU : u_U sh' = u_U sh) by (pose proof (ufilter_le _ _ ids Gf); unfold u_U in *; lia).
  assert (Ef : forall x, In x ids -> ufresh sh' x = ufresh sh x).
  { intros x Hx. destruct (ufresh sh' x) eqn:E1; [symmetry; auto|]. destruct (ufresh sh x) eqn:E2; [|reflexivity]. pose proof (ufilter_lt _ _ ids x Gf Hx E1 E2). unfold u_U in *. lia. }
  assert (Ew : forall x, u_wt sh' x = u_wt sh x).
  { intros x. destruct x; cbn [u_wt]; try reflexivity. destruct (u_in c) eqn:Ed; cbn [andb]; [|reflexivity]. apply u_in_spec in Ed. now rewrite Ef. }
  split; [exact EU|]. split; [intros x; now rewrite Ew|]. clear Hge.
  assert (Sd : forall d, d < L -> (L - d) * uB = (L - S d) * uB + 4 * M + 6) by (intros d Hd; replace (L - d) with (S (L - S d)) by lia; cbn [Nat.mul]; unfold uB at 1; lia).
  destruct t; cbn [NbrModel.u_step tI] in *.
  - destruct Ht as [_ [s [Eg _]]]. rewrite Eg in E. destruct (_ =? _)%N; injection E as _ <-; cbn [total u_wt]; unfold uW; lia.
  - injection E as _ <-. cbn [total u_wt]. rewrite Nat.sub_0_r. lia.
  - destruct Ht as [_ [s Hl]]. pose proof Hl as [Eg _]. rewrite Eg in E. pose proof (HL id s Hl). destruct (Nat.ltb_spec d (length (x_verts s))); injection E as _ <-; [|cbn [total u_wt]; rewrite Nat.add_1_r; apply Nat.lt_0_succ].
    pose proof (Sd d ltac:(lia)). destruct (s_finite _); cbn [total u_wt]; lia.
  - injection E as _ <-. destruct (has _); cbn [total u_wt]; lia.
  - destruct (get id); [|discriminate]. destruct (get (u_nbr sh id d)); [|discriminate]. destruct (adj _ _) as [b| |]; try discriminate. injection E as _ <-. destruct b; cbn [total u_wt]; lia.
  - destruct Ht as [_ [[s [Hl Hd]] _]]. pose proof Hl as [Eg _]. rewrite Eg in E. destruct (face_fp over s d) as [h| |] eqn:Eh; try discriminate. injection E as _ <-. pose proof (HM id s d h Hl Eh). cbn [total u_wt]. lia.
  - destruct cs as [|c cs]; [injection E as _ <-; cbn [total u_wt length]; lia|]. destruct (get id) as [s|]; [|discriminate]. destruct (accepts _ _ _) as [b| |]; try discriminate. injection E as _ <-. destruct b; cbn [total u_wt length]; lia.
  - injection E as _ <-. cbn [total u_wt]. lia.
  - injection E as <- <-. destruct (u_marks sh c <? uq_mark)%N eqn:El; cbn [total u_wt]; [|lia]. destruct Ht as [_ [_ [s [_ [_ [_ [Hf _]]]]]]]. destruct (fits_live _ _ _ Hf) as [t Hlt].
    assert (Hd : u_in c = true) by (apply u_in_spec; eauto). rewrite Hd. unfold ufresh. rewrite El. cbn [andb]. lia.
  - injection E as Es <-. cbn [total u_wt]. destruct (u_in c) eqn:Ed; cbn [andb]; [|lia]. destruct (ufresh sh c) eqn:Efr; [|lia]. exfalso. apply u_in_spec in Ed. rewrite <- (Ef _ Ed), <- Es in Efr.
    unfold ufresh in Efr. cbn [u_marks] in Efr. rewrite put_mark_same, N.ltb_irrefl in Efr. discriminate.
  - injection E as _ <-. cbn [total u_wt]. lia.
Qed.
Lemma u_terminates_LM : pterminates u_step (u_start nbr0 m0 toCheck).
Proof.
  apply (pterm_measure u_step uI u_U u_wt); [exact uI_start|intros b c Hb Hs; exact (uI_step b c Hb Hs)|]. intros b t sh' next Hb Hin Es. now apply u_measure.
Qed.
End T.

Lemma u_terminates ids : (forall id s, live id s -> In id ids) -> pterminates u_step (u_start nbr0 m0 toCheck).
Proof.
  intros Hids.
  set (sz := fun id => match get id with Some s => length (x_verts s) | None => 0 end).
  set (tz := fun id => match get id with Some s => list_max (map (fun d => match face_fp over s d with Val h => length (tbl h) | _ => 0 end) (seq 0 (length (x_verts s)))) | None => 0 end).
  assert (Mx : forall (f : N -> nat) id s, live id s -> f id <= list_max (map f ids)).
  { intros f id s Hl. pose proof (proj1 (list_max_le (map f ids) _) (Nat.le_refl _)) as Hm. rewrite Forall_forall in Hm. apply Hm, in_map. eauto. }
  apply (u_terminates_LM ids Hids (list_max (map sz ids)) (list_max (map tz ids))).
  - intros id s Hl. pose proof (Mx sz id s Hl) as H. unfold sz at 1 in H. destruct Hl as [Eg _]. rewrite Eg in H. exact H.
  - intros id s d h Hl Eh. pose proof (Mx tz id s Hl) as H. unfold tz at 1 in H. destruct Hl as [Eg _]. rewrite Eg in H. eapply Nat.le_trans; [|exact H].
    set (l := map _ _) in H |- *. pose proof (proj1 (list_max_le l _) (Nat.le_refl _)) as Hm. rewrite Forall_forall in Hm. apply Hm. apply in_map_iff. exists d. rewrite Eh. split; [reflexivity|].
    apply in_seq. unfold face_fp in Eh. destruct (nth_error (x_verts s) d) eqn:En; [|discriminate]. apply nth_error_lt in En. lia.
Qed.
End U.
