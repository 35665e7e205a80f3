(** Proofs about crossCheck and verify. *)
From Coq Require Import Permutation.
From Verif Require Import Outcome ListUtil WordsModel SimplexModel SimplexProofs NbrModel NbrSpec NbrProofs PointModel PointProofs CheckModel CheckSpec.
Local Open Scope N_scope.

(** ** Passes *)
Lemma collect_ok {A B} (f : A -> res (list B)) (l : list A) : (forall a, In a l -> exists x, f a = Val x) ->
  exists r, collect f l = Val r /\ forall b, In b r <-> exists a x, In a l /\ f a = Val x /\ In b x.
Proof.
  induction l as [|a l IH]; intros H; cbn [collect].
  - exists []. split; [reflexivity|]. intros b. split; [intros []|intros [a [x [[] _]]]].
  - destruct (H a (or_introl eq_refl)) as [x Ex]. destruct IH as [r [Er Hr]]; [intros; apply H; now right|]. rewrite Ex, Er. cbn [rbind rmap].
    exists (x ++ r). split; [reflexivity|]. intros b. rewrite in_app_iff, Hr. split.
    + intros [Hb|[a' [x' [H1 H2]]]]; [exists a, x|exists a', x']; cbn [In]; auto.
    + intros [a' [x' [[<-|Ha] [E Hb]]]]; [left; congruence|right; eauto].
Qed.
Lemma none_iff {B} (l : list B) : none l = true <-> forall b, ~ In b l.
Proof. destruct l as [|b l]; cbn; split; auto; try discriminate. intros H. exfalso. apply (H b). now left. Qed.
Lemma none_unfold {B} (l : list B) : match l with [] => true | _ => false end = none l. Proof. reflexivity. Qed.

Lemma bucket_In tab h id : In id (bucket tab h) <-> In (h, id) tab.
Proof.
  unfold bucket. rewrite in_map_iff. split.
  - intros [[h' id'] [<- H]]. apply filter_In in H. destruct H as [H E]. cbn [fst snd] in *. apply N.eqb_eq in E. now subst.
  - intros H. exists (h, id). split; [reflexivity|]. apply filter_In. split; [exact H|]. cbn [fst]. apply N.eqb_refl.
Qed.

Lemma fin_iff n : s_finite n = true <-> n <> s_inf.
Proof. unfold s_finite. rewrite negb_true_iff, N.eqb_neq. tauto. Qed.
Lemma nfin_iff n : s_finite n = false <-> n = s_inf.
Proof. unfold s_finite. rewrite negb_false_iff, N.eqb_eq. tauto. Qed.

Lemma live_id get c s : live get c s -> x_id s = c. Proof. intros [_ [H _]]. exact H. Qed.
Lemma live_self get c s : live get c s -> live get (x_id s) s. Proof. intros H. now rewrite (live_id _ _ _ H). Qed.
Lemma live_uniq get c s t : live get c s -> live get c t -> s = t. Proof. intros [H _] [H' _]. congruence. Qed.
Lemma enum_In get ls c s : enum get ls -> live get c s -> In s ls. Proof. intros [_ H] L. apply H. now apply live_self in L. Qed.
Lemma enum_live get ls s : enum get ls -> In s ls -> live get (x_id s) s. Proof. intros [_ H] L. now apply H. Qed.

Lemma eqv_iff over s t : x_fp s = gen_fp over (x_verts s) -> x_fp t = gen_fp over (x_verts t) -> equal_vertices s t = true <-> x_verts s = x_verts t.
Proof. apply equal_vertices_spec. Qed.

(** ** crossCheck *)
Section Cross.
Variable over : N -> N.
Variables km kr : nat.
Variables mget rget : N -> option simplex.
Variables ms rs : list simplex.
Hypothesis Hm : enum mget ms.
Hypothesis Hr : enum rget rs.
Hypothesis Tm : tri over km mget.
Hypothesis Tr : tri over kr rget.
Variable tab : list (N * N).
Hypothesis Ht : Permutation tab (map entry ms ++ map entry rs).

Lemma tab_In h id : In (h, id) tab <-> exists s, (In s ms \/ In s rs) /\ x_fp s = h /\ x_id s = id.
Proof.
  assert (E : In (h, id) tab <-> In (h, id) (map entry ms ++ map entry rs)).
  { split; apply Permutation_in; [exact Ht|now apply Permutation_sym]. }
  rewrite E, in_app_iff, !in_map_iff. unfold entry. split.
  - intros [[s [Es H]]|[s [Es H]]]; injection Es as E1 E2; exists s; auto.
  - intros [s [[H|H] [E1 E2]]]; [left|right]; exists s; split; congruence.
Qed.

(** The search finds a live simplex with the same vertices if there is one. *)
Lemma find_equal_spec get ls k s : enum get ls -> tri over k get -> (forall t, In t ls -> In t ms \/ In t rs) -> x_fp s = gen_fp over (x_verts s) ->
  match find_equal get tab s with
  | Some id => exists t, live get id t /\ x_verts t = x_verts s
  | None => ~ occurs get s
  end.
Proof.
  intros He [Ti [Tl _]] Hin Fs. unfold find_equal. destruct (find _ (bucket tab (x_fp s))) as [id|] eqn:E.
  - apply find_some in E. destruct E as [_ E]. apply andb_true_iff in E. destruct E as [E E3]. apply andb_true_iff in E. destruct E as [E1 E2].
    unfold has in E2. destruct (get id) as [t|] eqn:Eg; [|discriminate]. exists t. apply fin_iff in E1, E2.
    assert (L : live get id t) by (split; [exact Eg|]; split; [|exact E1]; destruct (Ti _ _ Eg); congruence).
    split; [exact L|]. destruct (Tl _ _ L) as [_ [_ F]]. now apply (eqv_iff over).
  - intros [c [t [L Ev]]].
    assert (H : In c (bucket tab (x_fp s))).
    { apply bucket_In, tab_In. exists t. split; [apply Hin; eapply enum_In; eauto|]. split; [|now apply live_id in L].
      destruct (Tl _ _ L) as [_ [_ F]]. congruence. }
    pose proof (find_none _ _ E c H) as X. cbn beta in X. destruct L as [Eg [Ei Hi]]. rewrite Eg in X. unfold has in X. rewrite Eg in X.
    rewrite Ei in X. assert (Ef : s_finite c = true) by now apply fin_iff. rewrite Ef in X. cbn [andb] in X.
    destruct (Tl c t (conj Eg (conj Ei Hi))) as [_ [_ F]]. assert (equal_vertices t s = true) by (apply (eqv_iff over); auto). congruence.
Qed.
Lemma m_found s : x_fp s = gen_fp over (x_verts s) ->
  match find_equal mget tab s with Some id => exists t, live mget id t /\ x_verts t = x_verts s | None => ~ occurs mget s end.
Proof. apply (find_equal_spec mget ms km); auto. Qed.
Lemma r_found s : x_fp s = gen_fp over (x_verts s) ->
  match find_equal rget tab s with Some id => exists t, live rget id t /\ x_verts t = x_verts s | None => ~ occurs rget s end.
Proof. apply (find_equal_spec rget rs kr); auto. Qed.
Lemma fp_m s : In s ms -> x_fp s = gen_fp over (x_verts s).
Proof. intros H. destruct Tm as [_ [Tl _]]. now destruct (Tl _ _ (enum_live _ _ _ Hm H)) as [_ [_ F]]. Qed.
Lemma fp_r s : In s rs -> x_fp s = gen_fp over (x_verts s).
Proof. intros H. destruct Tr as [_ [Tl _]]. now destruct (Tl _ _ (enum_live _ _ _ Hr H)) as [_ [_ F]]. Qed.

(** Neighbors. *)
Definition found_for (my : simplex) (n : N) : Prop :=
  exists nn u w, In nn (x_nbrs my) /\ nn <> s_inf /\ mget nn = Some u /\ rget n = Some w /\ x_verts u = x_verts w.
Lemma find_nbr_spec n w nbrs : rget n = Some w -> x_fp w = gen_fp over (x_verts w) ->
  (forall nn, In nn nbrs -> nn <> s_inf -> exists u, mget nn = Some u /\ x_fp u = gen_fp over (x_verts u)) ->
  exists b, find_nbr mget rget n nbrs = Val b /\ (b = true <-> exists nn u, In nn nbrs /\ nn <> s_inf /\ mget nn = Some u /\ x_verts u = x_verts w).
Proof.
  intros Ew Fw. induction nbrs as [|nn r IH]; intros H; cbn [find_nbr].
  - exists false. split; [reflexivity|]. split; [discriminate|intros [? [? [[] _]]]].
  - destruct IH as [b [Eb Hb]]; [intros; apply H; [now right|assumption]|]. destruct (s_finite nn) eqn:Ef.
    + apply fin_iff in Ef. destruct (H nn (or_introl eq_refl) Ef) as [u [Eu Fu]]. unfold at_. rewrite Eu, Ew. cbn [rbind].
      destruct (equal_vertices u w) eqn:Ev.
      * apply (eqv_iff over) in Ev; auto. exists true. split; [reflexivity|]. split; [|reflexivity]. intros _. exists nn, u. cbn [In]. auto.
      * exists b. split; [exact Eb|]. rewrite Hb. split.
        -- intros [n' [u' [H1 H2]]]. exists n', u'. cbn [In]. tauto.
        -- intros [n' [u' [[<-|H1] [H2 [H3 H4]]]]]; [|exists n', u'; auto]. assert (u' = u) by congruence. subst u'.
           apply (eqv_iff over) in H4; auto. congruence.
    + apply nfin_iff in Ef. exists b. split; [exact Eb|]. rewrite Hb. split.
      * intros [n' [u' [H1 H2]]]. exists n', u'. cbn [In]. tauto.
      * intros [n' [u' [[<-|H1] [H2 H3]]]]; [contradiction|exists n', u'; auto].
Qed.
Lemma check_nbrs_spec d my nbrs : live mget d my -> (forall n, In n nbrs -> n <> s_inf -> exists w, rget n = Some w /\ x_fp w = gen_fp over (x_verts w)) ->
  exists b, check_nbrs mget rget my nbrs = Val b /\ (b = true <-> forall n, In n nbrs -> n <> s_inf -> found_for my n).
Proof.
  intros L. assert (Hn : forall nn, In nn (x_nbrs my) -> nn <> s_inf -> exists u, mget nn = Some u /\ x_fp u = gen_fp over (x_verts u)).
  { intros nn H1 H2. destruct Tm as [_ [_ Te]]. eapply Te; eauto. }
  induction nbrs as [|n r IH]; intros H; cbn [check_nbrs].
  - exists true. split; [reflexivity|]. split; [intros _ n []|reflexivity].
  - destruct IH as [b [Eb Hb]]; [intros; apply H; [now right|assumption]|]. destruct (s_finite n) eqn:Ef.
    + apply fin_iff in Ef. destruct (H n (or_introl eq_refl) Ef) as [w [Ew Fw]]. destruct (find_nbr_spec n w (x_nbrs my) Ew Fw Hn) as [b1 [E1 H1]].
      rewrite E1, Eb. cbn [rbind rmap]. exists (b1 && b). split; [reflexivity|]. rewrite andb_true_iff, H1, Hb. split.
      * intros [[nn [u [A1 [A2 [A3 A4]]]]] B] n' [<-|Hn'] Hf; [|now apply B]. exists nn, u, w. auto.
      * intros A. split; [|intros n' H' Hf; apply A; [now right|exact Hf]].
        destruct (A n (or_introl eq_refl) Ef) as [nn [u [w' [A1 [A2 [A3 [A4 A5]]]]]]]. exists nn, u. repeat (split; [assumption|]). congruence.
    + apply nfin_iff in Ef. exists b. split; [exact Eb|]. rewrite Hb. split.
      * intros A n' [<-|Hn'] Hf; [contradiction|now apply A].
      * intros A n' Hn' Hf. apply A; [now right|exact Hf].
Qed.

(** Chunks. *)
Hypothesis Hd : no_dups mget.
Definition fine (s : simplex) : Prop := occurs mget s /\ forall d t n, live mget d t -> x_verts t = x_verts s -> In n (x_nbrs s) -> n <> s_inf -> found_for t n.
Lemma check_chunk_spec chunk : incl chunk rs ->
  exists b miss, check_chunk mget rget tab chunk = Val (b, miss) /\ (b = true <-> forall s, In s chunk -> fine s) /\
    (forall s, In s miss -> In s chunk /\ ~ occurs mget s) /\ (length miss <= 1)%nat /\ (miss = [] <-> forall s, In s chunk -> occurs mget s).
Proof.
  induction chunk as [|s r IH]; intros Hi; cbn [check_chunk].
  - exists true, []. split; [reflexivity|]. split; [split; [intros _ s []|reflexivity]|]. split; [intros s []|]. split; [cbn; lia|]. split; [intros _ s []|reflexivity].
  - assert (Hs : In s rs) by (apply Hi; now left). pose proof (m_found s (fp_r s Hs)) as X. destruct (find_equal mget tab s) as [id|].
    + destruct X as [my [L Ev]]. destruct IH as [b' [miss [E' [H1 [H2 [H3 H4]]]]]]; [intros x Hx; apply Hi; now right|].
      assert (Hn : forall n, In n (x_nbrs s) -> n <> s_inf -> exists w, rget n = Some w /\ x_fp w = gen_fp over (x_verts w)).
      { intros n A B. destruct Tr as [_ [_ Te]]. eapply Te; eauto using enum_live. }
      destruct (check_nbrs_spec id my (x_nbrs s) L Hn) as [b [Eb Hb]]. unfold at_. destruct L as [Eg L']. rewrite Eg. cbn [rbind]. rewrite Eb, E'. cbn [rbind rmap].
      assert (L : live mget id my) by (split; assumption).
      assert (Ho : occurs mget s) by (exists id, my; auto).
      exists (b && b'), miss. split; [reflexivity|]. split; [|split; [|split; [exact H3|]]].
      * rewrite andb_true_iff, Hb, H1. split.
        -- intros [A B] x [<-|Hx]; [|now apply B]. split; [exact Ho|]. intros d t n Lt Et Hin Hf.
           assert (d = id) by (apply (Hd d t id my Lt L); congruence). subst d. rewrite (live_uniq _ _ _ _ Lt L). now apply A.
        -- intros A. split; [|intros x Hx; apply A; now right]. intros n Hin Hf. destruct (A s (or_introl eq_refl)) as [_ B]. now apply (B id my).
      * intros x Hx. destruct (H2 x Hx). split; [now right|assumption].
      * rewrite H4. split; [intros A x [<-|Hx]; auto|intros A x Hx; apply A; now right].
    + exists false, [s]. split; [reflexivity|]. split; [|split; [|split; [cbn; lia|]]].
      * split; [discriminate|]. intros A. exfalso. apply X. apply A. now left.
      * intros x [<-|[]]. split; [now left|exact X].
      * split; [discriminate|]. intros A. exfalso. apply X, A. now left.
Qed.
Lemma check_chunks_spec chunks : incl (concat chunks) rs ->
  exists b miss, check_chunks mget rget tab chunks = Val (b, miss) /\ (b = true <-> forall s, In s (concat chunks) -> fine s) /\
    (forall s, In s miss -> In s (concat chunks) /\ ~ occurs mget s) /\ (miss = [] <-> forall s, In s (concat chunks) -> occurs mget s).
Proof.
  induction chunks as [|c r IH]; intros Hi; cbn [check_chunks concat] in *.
  - exists true, []. split; [reflexivity|]. split; [split; [intros _ s []|reflexivity]|]. split; [intros s []|]. split; [intros _ s []|reflexivity].
  - destruct (check_chunk_spec c) as [b [m [E [H1 [H2 [_ H3]]]]]]; [intros x Hx; apply Hi, in_or_app; now left|].
    destruct IH as [b' [m' [E' [H1' [H2' H3']]]]]; [intros x Hx; apply Hi, in_or_app; now right|]. rewrite E, E'. cbn [rbind rmap].
    exists (b && b'), (m ++ m'). split; [reflexivity|]. split; [|split].
    + rewrite andb_true_iff, H1, H1'. split; [intros [A B] s Hs; apply in_app_or in Hs; destruct Hs; auto|].
      intros A. split; intros s Hs; apply A, in_or_app; auto.
    + intros s Hs. rewrite in_app_iff. apply in_app_or in Hs. destruct Hs as [Hs|Hs]; [destruct (H2 s Hs)|destruct (H2' s Hs)]; auto.
    + split.
      * intros A. apply app_eq_nil in A. destruct A as [-> ->]. intros s Hs. apply in_app_or in Hs. destruct Hs; [now apply H3|now apply H3'].
      * intros A. rewrite (proj2 H3), (proj2 H3'); [reflexivity| |]; intros s Hs; apply A, in_or_app; auto.
Qed.

Lemma surplus_In s : In s (surplus rget tab ms) <-> In s ms /\ ~ occurs rget s.
Proof.
  unfold surplus. rewrite filter_In. split.
  - intros [H E]. split; [exact H|]. pose proof (r_found s (fp_m s H)) as X. destruct (find_equal rget tab s); [discriminate|exact X].
  - intros [H E]. split; [exact H|]. pose proof (r_found s (fp_m s H)) as X. destruct (find_equal rget tab s) as [id|]; [|reflexivity].
    exfalso. apply E. destruct X as [t [L Ev]]. exists id, t. auto.
Qed.

(** Sizes. *)
Lemma verts_NoDup get ls : enum get ls -> no_dups get -> NoDup (map x_verts ls).
Proof.
  intros [Hn He] Hdd. assert (A : forall l, incl l ls -> NoDup (map x_id l) -> NoDup (map x_verts l)).
  { induction l as [|a l IH]; intros Hi H; [constructor|]. cbn [map] in *. inversion H as [|? ? H1 H2]; subst. constructor; [|apply IH; [intros x Hx; apply Hi; now right|exact H2]].
    intros Hin. apply in_map_iff in Hin. destruct Hin as [b [Eb Hb]]. apply H1. apply in_map_iff. exists b. split; [|exact Hb].
    apply (Hdd _ b _ a); [apply He, Hi; now right|apply He, Hi; now left|exact Eb]. }
  apply A; [apply incl_refl|exact Hn].
Qed.
Lemma sizes : no_dups rget -> same_simplices mget rget -> length ms = length rs.
Proof.
  intros Hdr [S1 S2]. rewrite <- (map_length x_verts ms), <- (map_length x_verts rs). apply Permutation_length, NoDup_Permutation.
  - eapply verts_NoDup; eauto.
  - eapply verts_NoDup; eauto.
  - intros vs. rewrite !in_map_iff. split; intros [s [<- H]].
    + destruct (S1 _ _ (enum_live _ _ _ Hm H)) as [c [t [L E]]]. exists t. split; [exact E|eapply enum_In; eauto].
    + destruct (S2 _ _ (enum_live _ _ _ Hr H)) as [c [t [L E]]]. exists t. split; [exact E|eapply enum_In; eauto].
Qed.

Lemma cross_spec chunks : no_dups rget -> Permutation (concat chunks) rs ->
  exists r, cross_check mget rget tab ms rs chunks = Val r /\
    (c_valid r = true <-> same_simplices mget rget /\ entries_found mget rget) /\
    (forall s, In s (c_invalid r) <-> In s ms /\ ~ occurs rget s) /\
    (forall s, In s (c_missing r) -> In s rs /\ ~ occurs mget s) /\
    (c_missing r = [] <-> forall s, In s rs -> occurs mget s).
Proof.
  intros Hdr Hp. assert (Hi : forall s, In s (concat chunks) <-> In s rs) by (intros s; split; apply Permutation_in; [exact Hp|now apply Permutation_sym]).
  destruct (check_chunks_spec chunks) as [b [miss [E [H1 [H2 H3]]]]]; [intros x; apply Hi|].
  unfold cross_check. rewrite E. cbn [rmap]. eexists. split; [reflexivity|]. cbn [c_valid c_invalid c_missing].
  split; [|split; [|split]].
  - rewrite none_unfold, !andb_true_iff, H1, none_iff, Nat.eqb_eq. split.
    + intros [[_ A] B]. split; [split|].
      * intros c s L. destruct (find_equal rget tab s) as [id|] eqn:Ef.
        -- pose proof (r_found s (fp_m s (enum_In _ _ _ _ Hm L))) as X. rewrite Ef in X. destruct X as [t [L' Ev]]. exists id, t. auto.
        -- exfalso. apply (B s). apply surplus_In. split; [eapply enum_In; eauto|].
           pose proof (r_found s (fp_m s (enum_In _ _ _ _ Hm L))) as X. now rewrite Ef in X.
      * intros c s L. apply A. apply Hi. eapply enum_In; eauto.
      * intros c s d t n Ls Lt Ev Hn Hf. destruct (A s) as [_ F]; [apply Hi; eapply enum_In; eauto|]. now apply (F d t n).
    + intros [[S1 S2] F]. split; [split|].
      * apply sizes; [exact Hdr|split; assumption].
      * intros s Hs. apply Hi in Hs. apply (enum_live _ _ _ Hr) in Hs. split; [eapply S2; eauto|]. intros d t n Lt Ev Hn Hf. eapply F; eauto.
      * intros s Hs. apply surplus_In in Hs. destruct Hs as [Hs Hno]. apply Hno. eapply S1, enum_live; eauto.
  - apply surplus_In.
  - intros s Hs. destruct (H2 s Hs) as [A B]. split; [now apply Hi|exact B].
  - rewrite H3. split; intros A s Hs; apply A, Hi, Hs.
Qed.

(** If the neighbor entries of both are right, comparing them adds nothing. *)
Lemma right_found : entries_right mget -> entries_right rget -> same_simplices mget rget -> entries_found mget rget.
Proof.
  intros Rm Rr [S1 S2] c s d t n Ls Lt Ev Hn Hf. destruct (proj1 (Rr c s n Ls) (conj Hn Hf)) as [w [Lw [j [v [Hv Hj]]]]].
  destruct (S2 _ _ Lw) as [e [u [Lu Eu]]]. destruct (proj2 (Rm d t e Lt)) as [A B].
  - exists u. split; [exact Lu|]. exists j, v. rewrite Ev, Eu. auto.
  - exists e, u, w. destruct Lu as [Eu' _], Lw as [Ew _]. auto.
Qed.
End Cross.

(** ** verify *)
Lemma adj_spec s t : sorted (x_verts s) -> sorted (x_verts t) -> x_verts s <> [] -> exists b, adj s t = Val b /\ (b = true <-> joined s t).
Proof.
  apply (adj_iff (fun x => x) (fun _ => None) (fun _ => []) 0 (fun _ _ => 0) (fun _ => 0) []); try discriminate; try (intros ? []); try lia; reflexivity.
Qed.
Lemma joined_sym s t : sorted (x_verts s) -> sorted (x_verts t) -> x_verts t <> [] -> length (x_verts s) = length (x_verts t) -> joined s t -> joined t s.
Proof.
  intros H1 H2 H3 H4 [d H]. revert H.
  apply (opposite_sym (fun x => x) (fun _ => None) (fun _ => []) 0 (fun _ _ => 0) (fun _ => 0) []); try discriminate; try (intros ? []); try lia; auto; reflexivity.
Qed.
Lemma joined_met over s t : sorted (x_verts s) -> sorted (x_verts t) -> x_verts t <> [] -> length (x_verts s) = length (x_verts t) ->
  x_fp s = gen_fp over (x_verts s) -> x_fp t = gen_fp over (x_verts t) -> joined s t -> hash_met over s t.
Proof.
  intros H1 H2 H3 H4 F1 F2 J. destruct (joined_sym s t H1 H2 H3 H4 J) as [d' O']. destruct J as [d O].
  destruct O as [v [Ev Hv]]. destruct (face_ex over s d) as [h Eh]; [eapply nth_error_lt; eauto|].
  exists d, d', h. split; [exact Eh|]. rewrite <- Eh. symmetry. apply opposite_face; auto. exists v. auto.
Qed.

Section Verify.
Context {A : Type}.
Variable over : N -> N.
Variable D : N.
Hypothesis HD : D <= 30.
Variable insph : list A -> A -> bool.
Variable get : N -> option simplex.
Variable k : nat.
Hypothesis Hk : k <> 0%nat.
Hypothesis Ht : tri over k get.
Variable ls : list simplex.
Hypothesis He : enum get ls.

Lemma live_ok c s : live get c s -> sorted (x_verts s) /\ length (x_verts s) = k /\ x_fp s = gen_fp over (x_verts s) /\ x_verts s <> [].
Proof. destruct Ht as [_ [H _]]. intros L. destruct (H c s L) as [H1 [H2 H3]]. split; [exact H1|]. split; [exact H2|]. split; [exact H3|]. intros E. rewrite E in H2. now apply Hk. Qed.
Lemma live_at c s : live get c s -> at_ get c = Val s.
Proof. intros [E _]. unfold at_. now rewrite E. Qed.

(** Duplicates. *)
Lemma dups_spec tab : Permutation tab (map entry ls) ->
  exists ds, check_dups get tab ls = Val ds /\
    (forall a b, In (a, b) ds <-> In a ls /\ In b ls /\ x_verts a = x_verts b /\ x_id a <> x_id b).
Proof.
  intros Hp. unfold check_dups.
  assert (Hb : forall a id, In id (bucket tab (x_fp a)) <-> exists b, live get id b /\ x_fp b = x_fp a).
  { intros a id. rewrite bucket_In. assert (E : In (x_fp a, id) tab <-> In (x_fp a, id) (map entry ls)) by (split; apply Permutation_in; [exact Hp|now apply Permutation_sym]).
    rewrite E, in_map_iff. unfold entry. split.
    - intros [b [Eb Hb]]. injection Eb as E1 E2. exists b. split; [|exact E1]. rewrite <- E2. eapply enum_live; eauto.
    - intros [b [L Eb]]. exists b. split; [rewrite Eb, (live_id _ _ _ L); reflexivity|eapply enum_In; eauto]. }
  set (g := fun a id => rmap (fun b => if Bool.eqb (equal_vertices a b) (x_id a =? x_id b) then [] else [(a, b)]) (at_ get id)).
  assert (Hg : forall a, In a ls -> exists r, collect (g a) (bucket tab (x_fp a)) = Val r /\
    forall x, In x r <-> exists id y, In id (bucket tab (x_fp a)) /\ g a id = Val y /\ In x y).
  { intros a Ha. apply collect_ok. intros id Hid. apply Hb in Hid. destruct Hid as [b [L _]]. unfold g. rewrite (live_at _ _ L). eexists. reflexivity. }
  destruct (collect_ok (fun a => collect (g a) (bucket tab (x_fp a))) ls) as [ds [E H]].
  { intros a Ha. destruct (Hg a Ha) as [r [Er _]]. eauto. }
  exists ds. split; [exact E|]. intros a b. rewrite H. split.
  - intros [a' [x [Ha [Ex Hx]]]]. destruct (Hg a' Ha) as [r [Er Hr]]. assert (r = x) by congruence. subst r. apply Hr in Hx.
    destruct Hx as [id [y [Hid [Ey Hy]]]]. apply Hb in Hid. destruct Hid as [b' [L Ef]]. unfold g in Ey. rewrite (live_at _ _ L) in Ey. injection Ey as <-.
    destruct (Bool.eqb (equal_vertices a' b') (x_id a' =? x_id b')) eqn:Eb; [destruct Hy|]. destruct Hy as [Hy|[]]. injection Hy as <- <-.
    split; [exact Ha|]. split; [eapply enum_In; eauto|]. pose proof (enum_live _ _ _ He Ha) as La.
    destruct (live_ok _ _ La) as [_ [_ [Fa _]]], (live_ok _ _ L) as [_ [_ [Fb _]]].
    apply Bool.eqb_false_iff in Eb. destruct (N.eqb_spec (x_id a') (x_id b')) as [Ei|Ei].
    + exfalso. apply Eb. apply (eqv_iff over); auto. rewrite (live_id _ _ _ L) in Ei. rewrite Ei in La. now rewrite (live_uniq _ _ _ _ La L).
    + split; [|exact Ei]. apply (eqv_iff over); auto. destruct (equal_vertices a' b'); congruence.
  - intros [Ha [Hb' [Ev Ei]]]. destruct (Hg a Ha) as [r [Er Hr]]. exists a, r. split; [exact Ha|]. split; [exact Er|]. apply Hr.
    pose proof (enum_live _ _ _ He Ha) as La. pose proof (enum_live _ _ _ He Hb') as Lb.
    destruct (live_ok _ _ La) as [_ [_ [Fa _]]], (live_ok _ _ Lb) as [_ [_ [Fb _]]].
    exists (x_id b), [(a, b)]. split; [apply Hb; exists b; split; [exact Lb|congruence]|]. split; [|now left]. unfold g. rewrite (live_at _ _ Lb). cbn [rmap].
    apply N.eqb_neq in Ei. rewrite Ei. rewrite (proj2 (eqv_iff over a b Fa Fb) Ev). reflexivity.
Qed.
Lemma dups_none ds : (forall a b, In (a, b) ds <-> In a ls /\ In b ls /\ x_verts a = x_verts b /\ x_id a <> x_id b) -> none ds = true <-> no_dups get.
Proof.
  intros H. rewrite none_iff. split.
  - intros Hn c s c' s' L L' E. destruct (N.eq_dec c c') as [|Hne]; [assumption|]. exfalso. apply (Hn (s, s')). apply H.
    split; [eapply enum_In; eauto|]. split; [eapply enum_In; eauto|]. split; [exact E|]. rewrite (live_id _ _ _ L), (live_id _ _ _ L'). exact Hne.
  - intros Hn [a b] Hx. apply H in Hx. destruct Hx as [Ha [Hb [E Ei]]]. apply Ei. eapply Hn; eauto using enum_live.
Qed.

(** Neighbors. *)
Lemma faces_spec : exists fe, face_entries over ls = Val fe /\
  forall h id, In (h, id) fe <-> exists a i, live get id a /\ face_fp over a i = Val h.
Proof.
  unfold face_entries. set (g := fun a i => rmap (fun h => [(h, x_id a)]) (face_fp over a i)).
  assert (Hg : forall a, exists r, collect (g a) (seq 0 (length (x_verts a))) = Val r /\
    forall x, In x r <-> exists i y, In i (seq 0 (length (x_verts a))) /\ g a i = Val y /\ In x y).
  { intros a. apply collect_ok. intros i Hi. apply in_seq in Hi. destruct (face_ex over a i) as [h Eh]; [lia|]. unfold g. rewrite Eh. eexists; reflexivity. }
  destruct (collect_ok (fun a => collect (g a) (seq 0 (length (x_verts a)))) ls) as [fe [E H]]; [intros a _; destruct (Hg a) as [r [Er _]]; eauto|].
  exists fe. split; [exact E|]. intros h id. rewrite H. split.
  - intros [a [x [Ha [Ex Hx]]]]. destruct (Hg a) as [r [Er Hr]]. assert (r = x) by congruence. subst r. apply Hr in Hx. destruct Hx as [i [y [Hi [Ey Hy]]]].
    unfold g in Ey. destruct (face_fp over a i) as [h'| |] eqn:Ef; try discriminate. cbn [rmap] in Ey. injection Ey as <-. destruct Hy as [Hy|[]]. injection Hy as <- <-.
    exists a, i. split; [eapply enum_live; eauto|exact Ef].
  - intros [a [i [L Ef]]]. destruct (Hg a) as [r [Er Hr]]. exists a, r. split; [eapply enum_In; eauto|]. split; [exact Er|]. apply Hr.
    exists i, [(h, id)]. split; [|split; [unfold g; rewrite Ef, (live_id _ _ _ L); reflexivity|now left]].
    apply in_seq. unfold face_fp in Ef. destruct (nth_error (x_verts a) i) eqn:En; [|discriminate]. apply nth_error_lt in En. lia.
Qed.

(** A pair is wrong if the two share a face but one does not list the other, or do not and one lists the other. *)
Definition bad_pair (a b : simplex) : Prop :=
  (joined a b /\ (~ In (x_id b) (x_nbrs a) \/ ~ In (x_id a) (x_nbrs b))) \/ (~ joined a b /\ (In (x_id b) (x_nbrs a) \/ In (x_id a) (x_nbrs b))).
Lemma isin_dec (l : list N) (x : N) : In x l \/ ~ In x l.
Proof. destruct (isin l x) eqn:E; [left; now apply isin_In|right; intros H; apply isin_In in H; congruence]. Qed.
Lemma isin_no (l : list N) (x : N) : isin l x = false <-> ~ In x l.
Proof. rewrite <- isin_In. destruct (isin l x); split; congruence. Qed.
Lemma joined_dec c s d t : live get c s -> live get d t -> joined s t \/ ~ joined s t.
Proof.
  intros L L'. destruct (live_ok _ _ L) as [H1 [_ [_ H4]]], (live_ok _ _ L') as [K1 _]. destruct (adj_spec s t H1 K1 H4) as [b [_ Hb]].
  destruct b; [left; now apply Hb|right; intros H; apply Hb in H; discriminate].
Qed.
Lemma wrong_pair_spec c s d t : live get c s -> live get d t -> exists w, wrong_pair s t = Val w /\ (w = true <-> bad_pair s t).
Proof.
  intros L L'. destruct (live_ok _ _ L) as [H1 [H2 [_ H4]]], (live_ok _ _ L') as [K1 [K2 [_ K4]]].
  destruct (adj_spec s t H1 K1 H4) as [b [Eb Hb]], (adj_spec t s K1 H1 K4) as [b' [Eb' Hb']].
  assert (Es : joined s t <-> joined t s) by (split; apply joined_sym; auto; congruence).
  assert (b' = b) by (apply eq_true_iff_eq; rewrite Hb, Hb'; tauto). subst b'.
  unfold wrong_pair. rewrite Eb, Eb'. cbn [rbind rmap]. eexists. split; [reflexivity|]. unfold bad_pair.
  destruct b; cbn [andb orb negb].
  - rewrite orb_false_r, orb_true_iff, !negb_true_iff, !isin_no. assert (joined s t) by now apply Hb. tauto.
  - rewrite orb_true_iff, !isin_In. assert (~ joined s t) by (intros X; apply Hb in X; discriminate). tauto.
Qed.

Lemma adj_check_spec ftab fe : face_entries over ls = Val fe -> Permutation ftab fe ->
  exists ws, check_adj over get ftab ls = Val ws /\
    (forall a b, In (a, b) ws <-> In a ls /\ In b ls /\ hash_met over a b /\ bad_pair a b).
Proof.
  intros Ef Hp. destruct faces_spec as [fe' [Ef' Hfe]]. assert (fe' = fe) by congruence. subst fe'. clear Ef'.
  assert (Hb : forall h id, In id (bucket ftab h) <-> exists b j, live get id b /\ face_fp over b j = Val h).
  { intros h id. rewrite bucket_In, <- Hfe. split; apply Permutation_in; [exact Hp|now apply Permutation_sym]. }
  unfold check_adj.
  set (g := fun a id => rbind (at_ get id) (fun b => rmap (fun w : bool => if w then [(a, b)] else []) (wrong_pair a b))).
  assert (Hg : forall a h, In a ls -> exists r, collect (g a) (bucket ftab h) = Val r /\
    forall x y, In (x, y) r <-> x = a /\ In y ls /\ (exists j, face_fp over y j = Val h) /\ bad_pair a y).
  { intros a h Ha. pose proof (enum_live _ _ _ He Ha) as La. destruct (collect_ok (g a) (bucket ftab h)) as [r [Er Hr]].
    - intros id Hid. apply Hb in Hid. destruct Hid as [b [j [L _]]]. unfold g. rewrite (live_at _ _ L). cbn [rbind].
      destruct (wrong_pair_spec _ _ _ _ La L) as [w [Ew _]]. rewrite Ew. eexists; reflexivity.
    - exists r. split; [exact Er|]. intros x y. rewrite Hr. split.
      + intros [id [z [Hid [Ez Hz]]]]. apply Hb in Hid. destruct Hid as [b [j [L Ej]]]. unfold g in Ez. rewrite (live_at _ _ L) in Ez. cbn [rbind] in Ez.
        destruct (wrong_pair_spec _ _ _ _ La L) as [w [Ew Hw]]. rewrite Ew in Ez. injection Ez as <-. destruct w; [|destruct Hz].
        destruct Hz as [Hz|[]]. injection Hz as <- <-. split; [reflexivity|]. split; [eapply enum_In; eauto|]. split; [eauto|now apply Hw].
      + intros [-> [Hy [[j Ej] Hbad]]]. pose proof (enum_live _ _ _ He Hy) as Ly. exists (x_id y), [(a, y)].
        split; [apply Hb; eauto|]. split; [|now left]. unfold g. rewrite (live_at _ _ Ly). cbn [rbind].
        destruct (wrong_pair_spec _ _ _ _ La Ly) as [w [Ew Hw]]. rewrite Ew, (proj2 Hw Hbad). reflexivity. }
  set (g2 := fun a i => rbind (face_fp over a i) (fun h => collect (g a) (bucket ftab h))).
  assert (Hg2 : forall a, In a ls -> exists r, collect (g2 a) (seq 0 (length (x_verts a))) = Val r /\
    forall x y, In (x, y) r <-> x = a /\ In y ls /\ hash_met over a y /\ bad_pair a y).
  { intros a Ha. destruct (collect_ok (g2 a) (seq 0 (length (x_verts a)))) as [r [Er Hr]].
    - intros i Hi. apply in_seq in Hi. unfold g2. destruct (face_ex over a i) as [h Eh]; [lia|]. rewrite Eh. cbn [rbind]. destruct (Hg a h Ha) as [r [Er _]]. eauto.
    - exists r. split; [exact Er|]. intros x y. rewrite Hr. split.
      + intros [i [z [Hi [Ez Hz]]]]. apply in_seq in Hi. unfold g2 in Ez. destruct (face_ex over a i) as [h Eh]; [lia|]. rewrite Eh in Ez. cbn [rbind] in Ez.
        destruct (Hg a h Ha) as [r' [Er' Hr']]. assert (r' = z) by congruence. subst r'. apply Hr' in Hz. destruct Hz as [-> [Hy [[j Ej] Hbad]]].
        split; [reflexivity|]. split; [exact Hy|]. split; [exists i, j, h; auto|exact Hbad].
      + intros [-> [Hy [[i [j [h [Ei Ej]]]] Hbad]]]. destruct (Hg a h Ha) as [r' [Er' Hr']]. exists i, r'. split; [|split].
        * apply in_seq. unfold face_fp in Ei. destruct (nth_error (x_verts a) i) eqn:En; [|discriminate]. apply nth_error_lt in En. lia.
        * unfold g2. rewrite Ei. exact Er'.
        * apply Hr'. split; [reflexivity|]. split; [exact Hy|]. split; [eauto|exact Hbad]. }
  destruct (collect_ok (fun a => collect (g2 a) (seq 0 (length (x_verts a)))) ls) as [ws [E H]]; [intros a Ha; destruct (Hg2 a Ha) as [r [Er _]]; eauto|].
  exists ws. split; [exact E|]. intros a b. rewrite H. split.
  - intros [a' [z [Ha [Ez Hz]]]]. destruct (Hg2 a' Ha) as [r [Er Hr]]. assert (r = z) by congruence. subst r. apply Hr in Hz. destruct Hz as [-> Hz]. tauto.
  - intros [Ha Hz]. destruct (Hg2 a Ha) as [r [Er Hr]]. exists a, r. split; [exact Ha|]. split; [exact Er|]. apply Hr. auto.
Qed.
Lemma adj_none ws : (forall a b, In (a, b) ws <-> In a ls /\ In b ls /\ hash_met over a b /\ bad_pair a b) ->
  none ws = true <-> entries_complete get /\ entries_met over get.
Proof.
  intros H. rewrite none_iff. split.
  - intros Hn.
    assert (Hgood : forall c s d t, live get c s -> live get d t -> hash_met over s t -> ~ bad_pair s t).
    { intros c s d t L L' M B. apply (Hn (s, t)). apply H. split; [eapply enum_In; eauto|]. split; [eapply enum_In; eauto|auto]. }
    split.
    + intros c s d t L L' J. destruct (live_ok _ _ L) as [H1 [H2 [H3 H4]]], (live_ok _ _ L') as [K1 [K2 [K3 K4]]].
      assert (M : hash_met over s t) by (apply joined_met; auto; congruence). pose proof (Hgood c s d t L L' M) as NB. unfold bad_pair in NB.
      rewrite (live_id _ _ _ L), (live_id _ _ _ L') in NB. destruct (isin_dec (x_nbrs s) d), (isin_dec (x_nbrs t) c); tauto.
    + intros c s d t L L' M J. pose proof (Hgood c s d t L L' M) as NB. unfold bad_pair in NB. rewrite (live_id _ _ _ L), (live_id _ _ _ L') in NB. tauto.
  - intros [Hc Hm] [a b] Hx. apply H in Hx. destruct Hx as [Ha [Hb [M B]]]. pose proof (enum_live _ _ _ He Ha) as La. pose proof (enum_live _ _ _ He Hb) as Lb.
    destruct B as [[J B]|[J B]]; [pose proof (Hc _ _ _ _ La Lb J)|pose proof (Hm _ _ _ _ La Lb M J)]; tauto.
Qed.

(** Hull. *)
Lemma hull_spec hull : (forall c, In c hull -> exists s, get c = Some s) ->
  exists b, check_hull D get hull ls = Val b /\ (b = true <-> hull_right D get hull).
Proof.
  intros Hh. unfold check_hull. set (g := fun id => rmap (fun s => if s_isfinite D s then [id] else []) (at_ get id)).
  destruct (collect_ok g hull) as [r [Er Hr]].
  { intros c Hc. destruct (Hh c Hc) as [s Es]. unfold g, at_. rewrite Es. eexists; reflexivity. }
  rewrite Er. cbn [rmap]. eexists. split; [reflexivity|]. rewrite andb_true_iff, forallb_forall, none_unfold, none_iff. unfold hull_right. split.
  - intros [H1 H2]. split.
    + intros c s L Ef. specialize (H1 s (enum_In _ _ _ _ He L)). rewrite Ef in H1. cbn [orb] in H1. apply isin_In in H1. now rewrite (live_id _ _ _ L) in H1.
    + intros c s Hc Es. destruct (s_isfinite D s) eqn:Ef; [|reflexivity]. exfalso. apply (H2 c). apply Hr. exists c, [c]. split; [exact Hc|]. split; [|now left].
      unfold g, at_. rewrite Es. cbn [rmap]. now rewrite Ef.
  - intros [H1 H2]. split.
    + intros s Hs. pose proof (enum_live _ _ _ He Hs) as L. destruct (s_isfinite D s) eqn:Ef; [reflexivity|]. cbn [orb]. apply isin_In. eapply H1; eauto.
    + intros c Hc. apply Hr in Hc. destruct Hc as [c' [x [Hc [Ex Hx]]]]. unfold g, at_ in Ex. destruct (Hh c' Hc) as [s Es]. rewrite Es in Ex. cbn [rmap] in Ex. injection Ex as <-.
      rewrite (H2 c' s Hc Es) in Hx. destruct Hx.
Qed.

(** Spheres. *)
Variable pts : points A.
Hypothesis Hpts : pts_ok D pts.
Hypothesis Hknown : verts_known D pts get.

Lemma get_pt v : is_id D pts v -> exists a, p_get D pts v = Val a.
Proof. intros H. destruct (get_id D HD pts v Hpts H) as [a [E _]]. eauto. Qed.
Lemma corners_spec vs : (forall v, In v vs -> is_id D pts v) ->
  exists cs, collect (fun v => rmap (fun c => [c]) (p_get D pts v)) vs = Val cs /\ Forall2 (fun w c => p_get D pts w = Val c) vs cs.
Proof.
  induction vs as [|v vs IH]; intros H; cbn [collect]; [exists []; split; [reflexivity|constructor]|].
  destruct IH as [cs [Ec Hc]]; [intros; apply H; now right|]. destruct (get_pt v) as [a Ea]; [apply H; now left|].
  rewrite Ea, Ec. cbn [rmap rbind app]. exists (a :: cs). split; [reflexivity|]. now constructor.
Qed.
Lemma corners_fun vs : forall cs cs', Forall2 (fun w c => p_get D pts w = Val c) vs cs -> Forall2 (fun w c => p_get D pts w = Val c) vs cs' -> cs = cs'.
Proof. induction vs as [|v vs IH]; intros cs cs' H H'; inversion H; inversion H'; subst; [reflexivity|]. f_equal; [congruence|now apply IH]. Qed.

(** The vertex [v] is reported for [s]. *)
Definition inside (s : simplex) (v : N) : Prop :=
  exists cs p, Forall2 (fun w c => p_get D pts w = Val c) (x_verts s) cs /\ p_get D pts v = Val p /\ insph cs p = true.
Lemma circle_spec : exists cs, check_circle D insph get pts ls = Val cs /\
  forall s v, In (s, v) cs <-> In s ls /\ exists n t, In n (x_nbrs s) /\ n <> s_inf /\ get n = Some t /\ In v (x_verts t) /\
    p_finite D v = true /\ ~ In v (x_verts s) /\ inside s v.
Proof.
  unfold check_circle.
  set (g1 := fun s v => if p_finite D v && negb (s_contains s v)
                        then rbind (p_get D pts v) (fun p => rmap (fun b : bool => if b then [(s, v)] else []) (s_insphere D insph pts s p)) else Val []).
  set (g2 := fun s n => if s_finite n then rbind (at_ get n) (fun nn => collect (g1 s) (x_verts nn)) else Val []).
  assert (H1 : forall c s v, live get c s -> is_id D pts v -> exists r, g1 s v = Val r /\
     forall x, In x r <-> x = (s, v) /\ p_finite D v = true /\ ~ In v (x_verts s) /\ inside s v).
  { intros c s v L Hv. destruct (live_ok _ _ L) as [Hs _]. unfold g1.
    destruct (p_finite D v && negb (s_contains s v)) eqn:E.
    - apply andb_true_iff in E. destruct E as [E1 E2]. apply negb_true_iff in E2.
      assert (Hni : ~ In v (x_verts s)) by (intros X; apply (contains_loop_spec _ _ Hs) in X; unfold s_contains in E2; congruence).
      destruct (get_pt v Hv) as [p Ep]. rewrite Ep. cbn [rbind]. unfold s_insphere.
      destruct (corners_spec (x_verts s)) as [cs [Ec Hc]]; [intros w Hw; destruct Hknown as [K _]; eapply K; eauto|]. rewrite Ec. cbn [rmap].
      eexists. split; [reflexivity|]. intros x. destruct (insph cs p) eqn:Ei.
      + split; [intros [<-|[]]; split; [reflexivity|]; split; [exact E1|]; split; [exact Hni|]; exists cs, p; auto|intros [-> _]; now left].
      + split; [intros []|]. intros [_ [_ [_ [cs' [p' [A1 [A2 A3]]]]]]]. assert (cs' = cs) by (eapply corners_fun; eauto). subst cs'.
        assert (p' = p) by congruence. subst p'. congruence.
    - exists []. split; [reflexivity|]. intros x. split; [intros []|]. intros [_ [E1 [E2 _]]]. rewrite E1 in E. cbn [andb] in E. apply negb_false_iff in E.
      unfold s_contains in E. apply (contains_loop_spec _ _ Hs) in E. contradiction. }
  assert (H2 : forall c s n, live get c s -> In n (x_nbrs s) -> exists r, g2 s n = Val r /\
     forall x v, In (x, v) r <-> x = s /\ exists t, n <> s_inf /\ get n = Some t /\ In v (x_verts t) /\ p_finite D v = true /\ ~ In v (x_verts s) /\ inside s v).
  { intros c s n L Hn. unfold g2. destruct (s_finite n) eqn:Ef.
    - apply fin_iff in Ef. destruct Ht as [_ [_ Te]]. destruct (Te c s n L Hn Ef) as [t [Et _]]. unfold at_. rewrite Et. cbn [rbind].
      assert (Hid : forall v, In v (x_verts t) -> is_id D pts v) by (intros v Hv; destruct Hknown as [_ K]; eapply K; eauto).
      destruct (collect_ok (g1 s) (x_verts t)) as [r [Er Hr]].
      { intros v Hv. destruct (H1 c s v L (Hid v Hv)) as [y [Ey _]]. eauto. }
      exists r. split; [exact Er|]. intros x v. rewrite Hr. split.
      + intros [v' [y [Hv' [Ey Hy]]]]. destruct (H1 c s v' L (Hid v' Hv')) as [y' [Ey' Hy']]. assert (y' = y) by congruence. subst y'.
        apply Hy' in Hy. destruct Hy as [Exv Hy]. injection Exv as -> ->. split; [reflexivity|]. exists t. tauto.
      + intros [-> [t' [_ [Et' [Hv Hy]]]]]. assert (t' = t) by congruence. subst t'. destruct (H1 c s v L (Hid v Hv)) as [y [Ey Hy']].
        exists v, y. split; [exact Hv|]. split; [exact Ey|]. apply Hy'. tauto.
    - apply nfin_iff in Ef. exists []. split; [reflexivity|]. intros x v. split; [intros []|]. intros [_ [t [Hf _]]]. contradiction. }
  destruct (collect_ok (fun s => collect (g2 s) (x_nbrs s)) ls) as [cs [E H]].
  { intros s Hs. destruct (collect_ok (g2 s) (x_nbrs s)) as [r [Er _]]; [|eauto]. intros n Hn. destruct (H2 _ s n (enum_live _ _ _ He Hs) Hn) as [y [Ey _]]. eauto. }
  exists cs. split; [exact E|]. intros s v. rewrite H. split.
  - intros [s' [x [Hs [Ex Hx]]]]. pose proof (enum_live _ _ _ He Hs) as L.
    destruct (collect_ok (g2 s') (x_nbrs s')) as [r [Er Hr]]; [intros n Hn; destruct (H2 _ s' n L Hn) as [y [Ey _]]; eauto|].
    assert (r = x) by congruence. subst r. apply Hr in Hx. destruct Hx as [n [y [Hn [Ey Hy]]]]. destruct (H2 _ s' n L Hn) as [y' [Ey' Hy']].
    assert (y' = y) by congruence. subst y'. apply Hy' in Hy. destruct Hy as [-> [t Hy]]. split; [exact Hs|]. exists n, t. tauto.
  - intros [Hs [n [t [Hn Hy]]]]. pose proof (enum_live _ _ _ He Hs) as L.
    destruct (collect_ok (g2 s) (x_nbrs s)) as [r [Er Hr]]; [intros n' Hn'; destruct (H2 _ s n' L Hn') as [y [Ey _]]; eauto|].
    exists s, r. split; [exact Hs|]. split; [exact Er|]. apply Hr. destruct (H2 _ s n L Hn) as [y [Ey Hy']]. exists n, y. split; [exact Hn|]. split; [exact Ey|].
    apply Hy'. split; [reflexivity|]. exists t. tauto.
Qed.
Lemma circle_none cs : (forall s v, In (s, v) cs <-> In s ls /\ exists n t, In n (x_nbrs s) /\ n <> s_inf /\ get n = Some t /\ In v (x_verts t) /\
    p_finite D v = true /\ ~ In v (x_verts s) /\ inside s v) -> none cs = true <-> circles_empty D insph pts get.
Proof.
  intros H. rewrite none_iff. split.
  - intros Hn c s n t v L Hin Hf Et Hv Fv Hni. destruct (corners_spec (x_verts s)) as [qs [_ Hq]]; [intros w Hw; destruct Hknown as [K _]; eapply K; eauto|].
    destruct (get_pt v) as [p Ep]; [destruct Hknown as [_ K]; eapply K; eauto|]. exists qs, p. split; [exact Hq|]. split; [exact Ep|].
    destruct (insph qs p) eqn:Ei; [|reflexivity]. exfalso. apply (Hn (s, v)). apply H. split; [eapply enum_In; eauto|].
    exists n, t. repeat (split; [assumption|]). exists qs, p. auto.
  - intros Hc [s v] Hx. apply H in Hx. destruct Hx as [Hs [n [t [H1 [H2 [H3 [H4 [H5 [H6 [qs [p [A1 [A2 A3]]]]]]]]]]]]].
    destruct (Hc _ s n t v (enum_live _ _ _ He Hs) H1 H2 H3 H4 H5 H6) as [qs' [p' [B1 [B2 B3]]]].
    assert (qs' = qs) by (eapply corners_fun; eauto). subst qs'. assert (p' = p) by congruence. subst p'. congruence.
Qed.

(** Points. *)
Hypothesis Hsize : finite_size pts + 2 ^ D < 2 ^ 64.
Variable used : list N.
Hypothesis Hused : used_list get used.
Lemma used_id v : In v used -> is_id D pts v.
Proof. destruct Hused as [_ H]. intros Hv. apply H in Hv. destruct Hv as [c [s [L Hin]]]. destruct Hknown as [K _]. eapply K; eauto. Qed.
Lemma id_lt v : is_id D pts v -> v < 2 ^ 64.
Proof. intros [H|H]; unfold is_fin_id, is_inf_id in H; destruct Hpts as [_ [H1 _]]; unfold finite_size in H1; lia. Qed.
Lemma points_eq : p_eq D pts used = true <-> forall v, In v used <-> is_id D pts v.
Proof. apply p_eq_spec; auto; [apply Hused|]. intros v Hv. apply id_lt, used_id, Hv. Qed.
Lemma unused_spec ids : (forall i, In i ids -> exists a, p_get D pts i = Val a) ->
  exists b, unused_among D pts used ids = Val b /\ (b = true <-> forall i, In i ids -> p_finite D i = true -> In i used).
Proof.
  intros H. unfold unused_among. set (g := fun i => rmap (fun _ => if negb (isin used i) && p_finite D i then [i] else []) (p_get D pts i)).
  destruct (collect_ok g ids) as [r [Er Hr]]; [intros i Hi; destruct (H i Hi) as [a Ea]; unfold g; rewrite Ea; eexists; reflexivity|].
  rewrite Er. cbn [rmap]. eexists. split; [reflexivity|]. rewrite none_unfold, none_iff. split.
  - intros Hn i Hi Fi. destruct (isin used i) eqn:E; [now apply isin_In|]. exfalso. apply (Hn i). apply Hr. destruct (H i Hi) as [a Ea].
    exists i, [i]. split; [exact Hi|]. split; [|now left]. unfold g. rewrite Ea. cbn [rmap]. now rewrite E, Fi.
  - intros Ha j Hj. apply Hr in Hj. destruct Hj as [i [y [Hi [Ey Hy]]]]. destruct (H i Hi) as [a Ea]. unfold g in Ey. rewrite Ea in Ey. cbn [rmap] in Ey. injection Ey as <-.
    destruct (p_finite D i) eqn:Fi; [|rewrite andb_false_r in Hy; destruct Hy]. apply Ha in Hi; [|exact Fi]. apply isin_In in Hi. rewrite Hi in Hy. destruct Hy.
Qed.
Lemma points_spec pointIds : match pointIds with Some ids => forall i, In i ids -> is_id D pts i | None => p_off pts = 0 end ->
  exists b, check_points D pts used pointIds = Val b /\ (b = true <-> points_right D pts used pointIds).
Proof.
  intros H. unfold check_points, points_right. destruct (p_eq D pts used) eqn:E.
  - exists true. split; [reflexivity|]. split; [|reflexivity]. intros _. left. now apply points_eq.
  - assert (Hne : ~ (forall v, In v used <-> is_id D pts v)) by (intros X; apply points_eq in X; congruence).
    destruct pointIds as [ids|].
    + destruct (unused_spec ids) as [b [Eb Hb]]; [intros i Hi; apply get_pt, H, Hi|]. rewrite Eb. cbn [rmap]. eexists. split; [reflexivity|].
      rewrite andb_true_iff, Hb, forallb_forall. split.
      * intros [H1 H2]. right. intros v Fv. split; [|auto]. intros Hv. specialize (H2 v Hv). rewrite Fv in H2. cbn [negb orb] in H2. now apply isin_In.
      * intros [X|H1]; [contradiction|]. split; [intros i Hi Fi; now apply H1|]. intros p Hp. destruct (p_finite D p) eqn:Fp; [|reflexivity].
        cbn [negb orb]. apply isin_In. now apply H1.
    + assert (Hz : forall i, In i (map N.of_nat (seq 0 (N.to_nat (finite_size pts)))) -> exists a, p_get D pts i = Val a).
      { intros i Hi. apply in_map_iff in Hi. destruct Hi as [j [<- Hj]]. apply in_seq in Hj. destruct (N.eq_dec (N.of_nat j) 0) as [Ej|Ej].
        - rewrite Ej. unfold p_get. assert (Ef : p_finite D 0 = true) by (unfold p_finite; rewrite N.land_0_l; destruct (N.eqb_spec 0 (p_inf D)) as [X|]; [|reflexivity];
            exfalso; assert (Y : p_finite D 0 = true) by (apply (p_finite_spec D HD); [lia|]; pose proof (N.pow_le_mono_r 2 D 30 ltac:(lia) HD); change (2 ^ 64) with 18446744073709551616; change (2 ^ 30) with 1073741824 in *; lia); unfold p_finite in Y; rewrite N.land_0_l, X, N.eqb_refl in Y; discriminate).
          rewrite Ef. rewrite (fin_idx_val D HD pts 0 Hpts) by lia. destruct Hpts as [Hne' _]. destruct (p_vec pts); [congruence|]. cbn. eauto.
        - apply get_pt. left. unfold is_fin_id. rewrite H. unfold finite_size in Hj. lia. }
      destruct (unused_spec _ Hz) as [b [Eb Hb]]. rewrite Eb. cbn [rmap]. eexists. split; [reflexivity|].
      split; [|intros [X|[]]; contradiction]. rewrite andb_true_iff, Hb. intros [H1 _]. exfalso.
      assert (H0 : In 0 used).
      { apply H1.
        - apply in_map_iff. exists 0%nat. split; [reflexivity|]. apply in_seq. destruct Hpts as [Hne' _]. unfold finite_size. destruct (p_vec pts); [congruence|]. cbn [length]. lia.
        - apply (p_finite_spec D HD); [lia|]. pose proof (N.pow_le_mono_r 2 D 30 ltac:(lia) HD). change (2 ^ 64) with 18446744073709551616. change (2 ^ 30) with 1073741824 in *. lia. }
      apply used_id in H0. destruct H0 as [X|X]; unfold is_fin_id, is_inf_id in X; [lia|]. destruct Hpts as [_ [X1 _]].
      pose proof (N.pow_le_mono_r 2 D 30 ltac:(lia) HD). change (2 ^ 64) with 18446744073709551616 in *. change (2 ^ 30) with 1073741824 in *. lia.
Qed.

(** All of it. *)
Variable hull : list N.
Hypothesis Hhull : forall c, In c hull -> exists s, get c = Some s.
Variable pointIds : option (list N).
Hypothesis Hids : match pointIds with Some ids => forall i, In i ids -> is_id D pts i | None => p_off pts = 0 end.
Lemma verify_spec tab ftab fe : Permutation tab (map entry ls) -> face_entries over ls = Val fe -> Permutation ftab fe ->
  exists r, verify over D insph get pts hull ls used pointIds tab ftab = Val r /\
    (v_valid r = true <-> points_right D pts used pointIds /\ hull_right D get hull /\ no_dups get /\
       entries_complete get /\ entries_met over get /\ circles_empty D insph pts get) /\
    (forall a b, In (a, b) (v_dups r) <-> In a ls /\ In b ls /\ x_verts a = x_verts b /\ x_id a <> x_id b) /\
    (forall a b, In (a, b) (v_wrong r) <-> In a ls /\ In b ls /\ hash_met over a b /\ bad_pair a b) /\
    (forall s v, In (s, v) (v_circle r) <-> In s ls /\ exists n t, In n (x_nbrs s) /\ n <> s_inf /\ get n = Some t /\ In v (x_verts t) /\
       p_finite D v = true /\ ~ In v (x_verts s) /\ inside s v).
Proof.
  intros Hp Ef Hf. destruct (points_spec pointIds Hids) as [b1 [E1 H1]], (hull_spec hull Hhull) as [b2 [E2 H2]], (dups_spec tab Hp) as [ds [E3 H3]],
    (adj_check_spec ftab fe Ef Hf) as [ws [E4 H4]], circle_spec as [cs [E5 H5]].
  unfold verify. rewrite E1, E2, E3, E4, E5. cbn [rbind rmap]. eexists. split; [reflexivity|]. cbn [v_valid v_dups v_wrong v_circle].
  split; [|auto]. rewrite !andb_true_iff, H1, H2, (dups_none ds H3), (adj_none ws H4), (circle_none cs H5). tauto.
Qed.
End Verify.

(** ** The fingerprint of a triangulation *)
Lemma lxor_all (l : list N) : forall w, fold_left N.lxor l w = N.lxor w (fold_left N.lxor l 0).
Proof.
  induction l as [|x l IH]; intros w; cbn [fold_left]; [now rewrite N.lxor_0_r|]. rewrite IH, (IH (N.lxor 0 x)), N.lxor_0_l. now rewrite N.lxor_assoc.
Qed.
Lemma tri_fp_spec ls : length (tri_fp ls) = 256%nat /\
  forall i, (i < 256)%nat -> nth_error (tri_fp ls) i = Some (fold_left N.lxor (filter (fun h => N.land h 255 =? N.of_nat i) (map x_fp ls)) 0).
Proof.
  unfold tri_fp. set (f := fun h s => let i := N.to_nat (N.land (x_fp s) 255) in match nth_error h i with Some w => upd h i (N.lxor w (x_fp s)) | None => h end).
  assert (G : forall ls h, length h = 256%nat -> length (fold_left f ls h) = 256%nat /\ forall i w, nth_error h i = Some w ->
    nth_error (fold_left f ls h) i = Some (N.lxor w (fold_left N.lxor (filter (fun h => N.land h 255 =? N.of_nat i) (map x_fp ls)) 0))).
  { induction ls0 as [|s r IH]; intros h Hh; cbn [fold_left map filter].
    - split; [exact Hh|]. intros i w E. cbn. now rewrite N.lxor_0_r.
    - assert (Hb : N.land (x_fp s) 255 < 256).
      { change 255 with (N.ones 8). rewrite N.land_ones. apply N.mod_lt. discriminate. }
      set (j := N.to_nat (N.land (x_fp s) 255)). assert (Hj : (j < 256)%nat) by (unfold j; lia).
      destruct (nth_error_ex h j) as [wj Ej]; [lia|]. assert (Ef : f h s = upd h j (N.lxor wj (x_fp s))) by (unfold f; fold j; now rewrite Ej). rewrite Ef.
      destruct (IH (upd h j (N.lxor wj (x_fp s)))) as [L1 L2]; [now rewrite upd_length|]. split; [exact L1|]. intros i w E.
      destruct (N.eqb_spec (N.land (x_fp s) 255) (N.of_nat i)) as [Ei|Ei].
      + assert (j = i) by (unfold j; lia). subst i. assert (wj = w) by congruence. subst wj. cbn [fold_left].
        rewrite (L2 j (N.lxor w (x_fp s))); [|apply nth_error_upd_eq; lia]. rewrite (lxor_all _ (N.lxor 0 (x_fp s))), N.lxor_0_l. now rewrite N.lxor_assoc.
      + apply L2. rewrite nth_error_upd_neq; [exact E|]. unfold j. lia. }
  destruct (G ls (repeat 0 256)) as [G1 G2]; [apply repeat_length|]. split; [exact G1|]. intros i Hi. rewrite (G2 i 0).
  - now rewrite N.lxor_0_l.
  - apply nth_error_repeat. exact Hi.
Qed.
Lemma xor_perm l l' : Permutation l l' -> forall w, fold_left N.lxor l w = fold_left N.lxor l' w.
Proof.
  induction 1 as [|x l l' H IH|x y l|l1 l2 l3 H1 IH1 H2 IH2]; intros w; cbn [fold_left]; auto.
  - f_equal. rewrite !N.lxor_assoc. f_equal. apply N.lxor_comm.
  - now rewrite IH1.
Qed.
Lemma filter_perm {B} (p : B -> bool) l l' : Permutation l l' -> Permutation (filter p l) (filter p l').
Proof.
  induction 1 as [|x l l' H IH|x y l|l1 l2 l3 H1 IH1 H2 IH2]; cbn [filter]; [constructor| | |eapply perm_trans; eauto].
  - destruct (p x); [now constructor|assumption].
  - destruct (p x), (p y); try apply Permutation_refl. apply perm_swap.
Qed.
Lemma tri_fp_perm ls ls' : Permutation (map x_fp ls) (map x_fp ls') -> tri_fp ls = tri_fp ls'.
Proof.
  intros H. destruct (tri_fp_spec ls) as [A1 A2], (tri_fp_spec ls') as [B1 B2]. apply nth_ext with (d := 0) (d' := 0); [congruence|].
  intros i Hi. rewrite A1 in Hi. specialize (A2 i Hi). specialize (B2 i Hi). rewrite (nth_error_nth _ _ 0 A2), (nth_error_nth _ _ 0 B2).
  apply xor_perm, filter_perm, H.
Qed.
(** Triangulations with the same simplices have the same fingerprints. *)
Lemma same_fps over km kr g h ms rs : enum g ms -> enum h rs -> tri over km g -> tri over kr h -> no_dups g -> no_dups h ->
  same_simplices g h -> Permutation (map x_fp ms) (map x_fp rs).
Proof.
  intros Em Er [_ [Tm _]] [_ [Tr _]] Dm Dr [S1 S2].
  assert (E1 : map x_fp ms = map (gen_fp over) (map x_verts ms)).
  { rewrite map_map. apply map_ext_in. intros s Hs. now destruct (Tm _ _ (enum_live _ _ _ Em Hs)) as [_ [_ F]]. }
  assert (E2 : map x_fp rs = map (gen_fp over) (map x_verts rs)).
  { rewrite map_map. apply map_ext_in. intros s Hs. now destruct (Tr _ _ (enum_live _ _ _ Er Hs)) as [_ [_ F]]. }
  rewrite E1, E2. apply Permutation_map, NoDup_Permutation.
  - eapply verts_NoDup; eauto.
  - eapply verts_NoDup; eauto.
  - intros vs. rewrite !in_map_iff. split; intros [s [<- H]].
    + destruct (S1 _ _ (enum_live _ _ _ Em H)) as [c [t [L E]]]. exists t. split; [exact E|eapply enum_In; eauto].
    + destruct (S2 _ _ (enum_live _ _ _ Er H)) as [c [t [L E]]]. exists t. split; [exact E|eapply enum_In; eauto].
Qed.
