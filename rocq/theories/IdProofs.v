From Verif Require Import Outcome ListUtil WordsModel BlockProofs IdModel.
From Coq Require Import Permutation.
Local Open Scope N_scope.

(** Specification: the ids handed out and not given back. *)
Fixpoint remove_one (x : N) (l : list N) : list N :=
  match l with
  | [] => []
  | y :: t => if y =? x then t else y :: remove_one x t
  end.
Definition out1 (l : list N) (e : iev) : list N :=
  match e with Got x => x :: l | Back x => remove_one x l | Off => l end.
Definition outstanding (evs : list iev) : list N := fold_left out1 evs [].

(** The client gives back only ids it holds. *)
Definition fair (evs : list iev) : Prop := forall pre x post, evs = pre ++ Back x :: post -> In x (outstanding pre).

Definition gots (evs : list iev) : nat := length (filter (fun e => match e with Got _ => true | _ => false end) evs).

Lemma outstanding_snoc evs e : outstanding (evs ++ [e]) = out1 (outstanding evs) e.
Proof. unfold outstanding. rewrite fold_left_app. reflexivity. Qed.
Lemma fair_snoc evs e : fair (evs ++ [e]) -> fair evs /\ match e with Back x => In x (outstanding evs) | _ => True end.
Proof.
  intros H. split.
  - intros pre x post E. apply (H pre x (post ++ [e])). rewrite E, <- app_assoc. reflexivity.
  - destruct e as [|x|]; [exact I| |exact I]. apply (H evs x []). reflexivity.
Qed.
Lemma gots_snoc evs e : gots (evs ++ [e]) = (gots evs + match e with Got _ => 1 | _ => 0 end)%nat.
Proof. unfold gots. rewrite filter_app, app_length. destruct e; reflexivity. Qed.

Lemma remove_one_perm x l : In x l -> Permutation l (x :: remove_one x l).
Proof.
  induction l as [|y l IH]; [intros []|intros [<-|H]]; cbn [remove_one].
  - rewrite N.eqb_refl. reflexivity.
  - destruct (N.eqb_spec y x) as [->|]; [reflexivity|]. rewrite IH at 1 by exact H. apply perm_swap.
Qed.

(** The invariant: outstanding and free ids are all different and below m_id. *)
Definition inv (i0 : N) (evs : list iev) (s : handler) : Prop :=
  NoDup (outstanding evs ++ h_free s) /\ (forall x, In x (outstanding evs ++ h_free s) -> i0 <= x < h_id s) /\
  i0 <= h_id s <= i0 + N.of_nat (gots evs).

Lemma inv_pop i0 evs s x q : inv i0 evs s -> h_free s = x :: q -> inv i0 (evs ++ [Got x]) (mkh (h_id s) q (h_on s)).
Proof.
  intros [H1 [H2 H3]] E. unfold inv. rewrite outstanding_snoc, gots_snoc. cbn [out1 h_free h_id]. rewrite E in *.
  assert (P : Permutation (outstanding evs ++ x :: q) ((x :: outstanding evs) ++ q)) by (symmetry; apply Permutation_middle).
  split; [eapply Permutation_NoDup; eauto|]. split; [|lia]. intros y Hy. apply H2. eapply Permutation_in; [symmetry; exact P|exact Hy].
Qed.
Lemma inv_inc i0 evs s : i0 + N.of_nat (gots (evs ++ [Got (h_id s)])) < 2 ^ 64 -> inv i0 evs s ->
  inv i0 (evs ++ [Got (h_id s)]) (mkh (wrap 64 (h_id s + 1)) (h_free s) (h_on s)).
Proof.
  intros Hb [H1 [H2 H3]]. unfold inv. rewrite outstanding_snoc. rewrite gots_snoc in *. cbn [out1 h_free h_id]. rewrite wrap_small by lia.
  split.
  - cbn [app]. constructor; [|exact H1]. intros H. specialize (H2 _ H). lia.
  - split; [|lia]. intros y [<-|Hy]; [lia|]. specialize (H2 _ Hy). lia.
Qed.
Lemma inv_release i0 evs s x : In x (outstanding evs) -> inv i0 evs s -> inv i0 (evs ++ [Back x]) (h_release s x).
Proof.
  intros Hx [H1 [H2 H3]]. unfold inv. rewrite outstanding_snoc, gots_snoc. cbn [out1].
  pose proof (remove_one_perm x _ Hx) as P.
  assert (P' : Permutation (outstanding evs ++ h_free s) (x :: remove_one x (outstanding evs) ++ h_free s)) by (rewrite P at 1; reflexivity).
  unfold h_release. destruct (h_on s).
  - cbn [h_free h_id]. assert (P2 : Permutation (outstanding evs ++ h_free s) (remove_one x (outstanding evs) ++ h_free s ++ [x])).
    { rewrite P', app_assoc. apply Permutation_cons_append. }
    split; [eapply Permutation_NoDup; eauto|]. split; [|lia]. intros y Hy. apply H2. eapply Permutation_in; [symmetry; exact P2|exact Hy].
  - apply (Permutation_NoDup P') in H1. inversion H1; subst. split; [assumption|]. split; [|lia]. intros y Hy. apply H2.
    eapply Permutation_in; [symmetry; exact P'|]. now right.
Qed.
Lemma inv_off i0 evs s : inv i0 evs s -> inv i0 (evs ++ [Off]) (h_disable s).
Proof. intros [H1 [H2 H3]]. unfold inv. rewrite outstanding_snoc, gots_snoc. cbn [out1 h_disable h_free h_id]. split; [assumption|]. split; [assumption|lia]. Qed.
Lemma inv_start i0 : inv i0 [] (h_new i0).
Proof. split; [constructor|]. split; [intros x []|]. cbn. lia. Qed.

Lemma seq_inv i0 evs s : seq_run (h_new i0) evs s -> fair evs -> i0 + N.of_nat (gots evs) < 2 ^ 64 -> inv i0 evs s.
Proof.
  induction 1 as [|evs s' H IH|evs s' x H IH|evs s' H IH]; intros Hf Hb; [apply inv_start|apply fair_snoc in Hf; destruct Hf as [Hf He]..].
  - pose proof Hb as Hb'. rewrite gots_snoc in Hb'. specialize (IH Hf ltac:(lia)). unfold h_get in *. destruct (h_free s') as [|x q] eqn:E.
    + cbn [fst snd] in *. rewrite <- E. apply inv_inc; assumption.
    + cbn [fst snd]. apply inv_pop; assumption.
  - rewrite gots_snoc in Hb. apply inv_release; [exact He|]. apply IH; [exact Hf|lia].
  - rewrite gots_snoc in Hb. apply inv_off. apply IH; [exact Hf|lia].
Qed.

Lemma conc_inv i0 evs s pend : conc_run (h_new i0) evs s pend -> fair evs -> i0 + N.of_nat (gots evs) < 2 ^ 64 -> inv i0 evs s.
Proof.
  induction 1 as [|evs s' pend t x q H IH Ht E|evs s' pend t H IH Ht|evs s' p1 t p2 H IH|evs s' pend t x H IH Ht|evs s' pend t H IH Ht]; intros Hf Hb.
  - apply inv_start.
  - apply fair_snoc in Hf. destruct Hf as [Hf He]. rewrite gots_snoc in Hb. apply inv_pop; [|exact E]. apply IH; [exact Hf|lia].
  - apply IH; assumption.
  - apply fair_snoc in Hf. destruct Hf as [Hf He]. apply inv_inc; [exact Hb|]. apply IH; [exact Hf|]. rewrite gots_snoc in Hb. lia.
  - apply fair_snoc in Hf. destruct Hf as [Hf He]. rewrite gots_snoc in Hb. apply inv_release; [exact He|]. apply IH; [exact Hf|lia].
  - apply fair_snoc in Hf. destruct Hf as [Hf He]. rewrite gots_snoc in Hb. apply inv_off. apply IH; [exact Hf|lia].
Qed.

Lemma inv_facts i0 evs s : inv i0 evs s -> NoDup (outstanding evs) /\ forall x, In x (outstanding evs) -> i0 <= x < h_max s.
Proof.
  intros [H1 [H2 H3]]. split.
  - clear - H1. induction (outstanding evs) as [|x l IH]; [constructor|]. cbn [app] in H1. inversion H1; subst. constructor; [|apply IH; assumption].
    intros Hx. apply H2. apply in_or_app. now left.
  - intros x Hx. apply H2. apply in_or_app. now left.
Qed.

(** Reserved ranges. *)
Lemma reserve_spec : forall sizes next, next + fold_right N.add 0 sizes < 2 ^ 64 ->
  length (fst (reserve next sizes)) = length sizes /\
  snd (reserve next sizes) = next + fold_right N.add 0 sizes /\
  (forall k n, nth_error sizes k = Some n -> exists a b, nth_error (fst (reserve next sizes)) k = Some (a, b) /\ b = a + n /\ next <= a /\ b <= next + fold_right N.add 0 sizes) /\
  forall i j ai bi aj bj, (i < j)%nat -> nth_error (fst (reserve next sizes)) i = Some (ai, bi) ->
    nth_error (fst (reserve next sizes)) j = Some (aj, bj) -> bi <= aj.
Proof.
  induction sizes as [|n sizes IH]; intros next H; cbn [reserve fold_right fst snd length] in *.
  - split; [reflexivity|]. split; [lia|]. split; [intros [|k] n E; discriminate|]. intros i j ai bi aj bj _ E. destruct i; discriminate.
  - rewrite wrap_small by lia. destruct (IH (next + n)) as [I0 [I1 [I2 I3]]]; [lia|]. split; [lia|]. split; [lia|]. split.
    + intros [|k] m E; cbn [nth_error] in *.
      * injection E as <-. exists next, (next + n). repeat split; lia.
      * destruct (I2 k m E) as [a [b [B1 [B2 [B3 B4]]]]]. exists a, b. repeat split; [exact B1|exact B2|lia|lia].
    + intros [|i] [|j] ai bi aj bj L Ei Ej; try lia; cbn [nth_error] in *.
      * injection Ei as <- <-. destruct (nth_error_ex sizes j) as [m Em].
        { rewrite <- I0. apply nth_error_Some. congruence. }
        destruct (I2 j m Em) as [a [b [B1 [_ [B3 _]]]]]. rewrite Ej in B1. injection B1 as <- <-. exact B3.
      * apply (I3 i j ai bi aj bj); [lia|exact Ei|exact Ej].
Qed.
