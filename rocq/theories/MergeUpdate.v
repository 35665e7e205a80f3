(** The merge followed by the neighbor update. *)
From Verif Require Import Outcome ListUtil WordsModel BlockModel BlockProofs BlockSpec SimplexModel SimplexProofs Pool NbrModel NbrSpec NbrProofs MergeModel MergeSpec MergeProofs.
From Coq Require Import Permutation.
Local Open Scope nat_scope.

(** The neighbors stored in the cells. *)
Definition cell_nbr (l : list (block simplex)) (id : N) (d : nat) : N := match d_get l id with Some s => nth d (x_nbrs s) s_inf | None => s_inf end.

Section U.
Variable over : N -> N.
Variable D : N.
Variable parts : list part.
Variable partials : list dsims.
Variable edge : list N.
Variable edgeDT : dsims.
Hypothesis Hin : merge_input over D parts partials edge edgeDT.
Variable out : dsims.
Variable inserted : list N.
Variable table : list (N * N).
Variable marks : N -> N.
Hypothesis R : merge_run over D parts partials edge edgeDT out inserted table marks.
Notation get := (d_get (d_arr out)).

Lemma get_holds i s : get i = Some s <-> holds (d_arr out) i s.
Proof. apply d_get_holds. eapply out_wf; eauto. Qed.
Lemma given_well i x : stored partials i x \/ holds (d_arr edgeDT) i x -> i <> s_inf /\ (x_id x = s_inf \/ x_id x = i /\ well over x).
Proof.
  intros [H|H].
  - destruct (stored_proper over D parts partials edge edgeDT Hin i x H) as [p [_ [H1 [_ H2]]]]. auto.
  - destruct (in_wf over D parts partials edge edgeDT Hin edgeDT ltac:(now left)) as [_ P]. destruct (P i x H) as [H1 [_ H2]]. auto.
Qed.
Lemma out_well i s : get i = Some s -> i <> s_inf /\ (x_id s = s_inf \/ x_id s = i /\ well over s).
Proof.
  intros E. apply get_holds in E. destruct (run_cells over D parts partials edge edgeDT Hin out inserted table marks R i s E) as [x [Hx He]].
  destruct (given_well i x Hx) as [H1 H2]. split; [exact H1|]. destruct He as [->| ->]; [exact H2|now left].
Qed.
Lemma out_sorted i s : get i = Some s -> i <> s_inf /\ (x_id s = s_inf \/ x_id s = i /\ sorted (x_verts s) /\ x_verts s <> []).
Proof. intros E. destruct (out_well i s E) as [H1 [H2|[H2 [_ [H3 [H4 _]]]]]]; auto. Qed.
Lemma live_iff i s : live get i s <->
  (stored partials i s /\ x_id s <> s_inf /\ ~ In i edge) \/ (holds (d_arr edgeDT) i s /\ x_id s <> s_inf /\ wanted parts partials edge s).
Proof.
  rewrite <- (run_content over D parts partials edge edgeDT Hin out inserted table marks R). unfold live. rewrite get_holds. split.
  - intros [H1 [<- H3]]. auto.
  - intros [H1 H2]. split; [exact H1|]. apply get_holds in H1. destruct (out_well i s H1) as [H3 [H4|[H4 _]]]; [contradiction|auto].
Qed.
Lemma inserted_live i : In i inserted -> exists s, live get i s.
Proof.
  intros H. apply (run_inserted over D parts partials edge edgeDT Hin out inserted table marks R) in H. destruct H as [s H]. exists s. apply live_iff. now right.
Qed.

Hypothesis Hmark : forall p, In p partials -> (d_mark p + 2 < 256)%N.
Variable tbl : N -> list N.
Hypothesis Htbl : forall h c, In c (tbl h) <-> In (h, c) table.
Variable nbr0 : N -> nat -> N.
Variable order : list N.
Hypothesis Hord : Permutation order inserted.

Lemma face_def s d : d < length (x_verts s) -> exists h, face_fp over s d = Val h.
Proof. intros H. unfold face_fp. destruct (nth_error_ex _ _ H) as [v ->]. eauto. Qed.
Lemma table_all : all_listed over get tbl nbr0 order.
Proof.
  assert (T := run_table over D parts partials edge edgeDT Hin out inserted table marks R Hmark).
  assert (G : forall id, (exists h, In (h, id) table) \/ In id inserted -> forall s d, live get id s -> d < length (x_verts s) -> listed over tbl s d id).
  { intros id H s d Hl Hd. destruct (face_def s d Hd) as [h Eh]. exists h. split; [exact Eh|]. apply Htbl, T. apply live_iff in Hl.
    assert (Ins : (exists s', holds (d_arr edgeDT) id s') -> holds (d_arr edgeDT) id s /\ x_id s <> s_inf /\ wanted parts partials edge s).
    { intros [s' Hs']. destruct Hl as [[Hl _]|Hl]; [|exact Hl]. exfalso. eapply stored_apart; eauto. }
    destruct H as [[h' H]|H].
    - apply T in H. destruct H as [[H1 [t [d' [Ht _]]]]|[s' [d' [Hs' _]]]].
      + left. split; [exact H1|]. exists s, d. destruct Hl as [[Hl _]|[Hl _]]; [auto|]. exfalso. eapply stored_apart; eauto.
      + right. exists s, d. destruct (Ins ltac:(eauto)) as [I1 [I2 I3]]. auto.
    - right. exists s, d. apply (run_inserted over D parts partials edge edgeDT Hin out inserted table marks R) in H. destruct H as [s' [H _]]. destruct (Ins ltac:(eauto)) as [I1 [I2 I3]]. auto. }
  intros id s d Hv. apply G. destruct Hv as [id Hv|id s0 d0 c _ _ _ [h [_ H]] _]; [right; eapply Permutation_in; eauto|]. left. exists h. now apply Htbl.
Qed.
Lemma out_uniform : (forall i s, stored (edgeDT :: partials) i s -> x_id s <> s_inf -> length (x_verts s) = N.to_nat D + 1) -> uniform over get.
Proof.
  intros Hl. assert (L : forall id s, live get id s -> length (x_verts s) = N.to_nat D + 1).
  { intros id s H. apply live_iff in H. destruct H as [[[p [Hp Hs]] [H2 _]]|[Hs [H2 _]]]; apply (Hl id s); auto; [exists p|exists edgeDT]; (split; [|exact Hs]); [now right|now left]. }
  intros id s H. split; [|intros id' s' H'; now rewrite (L id s H), (L id' s' H')]. destruct (out_well id s (proj1 H)) as [_ [Hx|[_ [Hf _]]]]; [|exact Hf]. destruct H as [_ [He Hi]]. congruence.
Qed.

Hypothesis Hroom : forall p, In p partials -> (d_mark p + 4 < 256)%N.
Hypothesis Hroom' : (d_mark edgeDT + 2 < 256)%N.
Lemma out_room : (d_mark out + 2 < 256)%N.
Proof.
  destruct (run_marks over D parts partials edge edgeDT Hin out inserted table marks R Hmark 0%N) as [_ [p [Hp E]]]. rewrite E. pose proof (Hroom p Hp). lia.
Qed.
Lemma update_mutual : (forall i s, stored (edgeDT :: partials) i s -> x_id s <> s_inf -> length (x_verts s) = N.to_nat D + 1) -> one_each get -> old_right get nbr0 ->
  forall sh, pexec (u_step over get tbl (d_mark out)) (u_start nbr0 marks order) (mkp sh []) ->
  forall id s d, In id inserted -> live get id s -> d < length (x_verts s) ->
  (u_nbr sh id d = s_inf /\ forall c, In c inserted -> ~ fits get s d c) \/
  (exists t d', live get (u_nbr sh id d) t /\ opposite s d t /\ opposite t d' s /\ u_nbr sh (u_nbr sh id d) d' = id).
Proof.
  intros Hl H1 H2 sh He id s d Hi Hlive Hd.
  assert (V : forall c, In c inserted -> visited over get tbl nbr0 order c) by (intros c Hc; apply visited_given; eapply Permutation_in; [symmetry|]; eauto).
  destruct (u_mutual over get tbl (d_mark out) nbr0 marks order out_sorted) with (sh := sh) (id := id) (s := s) (d := d) as [[E1 E2]|E]; auto using out_room, table_all, out_uniform.
  - intros c Hc. apply inserted_live. eapply Permutation_in; eauto.
  - intros c. apply (run_marks over D parts partials edge edgeDT Hin out inserted table marks R Hmark).
Qed.
End U.
