From Verif Require Import Outcome ListUtil WordsModel RangeModel BlockModel BlockProofs BlockIter BlockSpec SimplexModel SimplexProofs PointProofs Pool VisitModel VisitProofs NbrModel WhereModel WhereSpec WhereProofs MergeModel MergeSpec.
From Coq Require Import Permutation.
Local Open Scope nat_scope.

(** ** Arrays. *)
Lemma wf_pos {A} (l : list (block A)) : wf l -> 0 < length l.
Proof. intros [H _]. destruct l; [congruence|]. cbn [length]. lia. Qed.
Lemma d_get_holds l i s : wf l -> d_get l i = Some s <-> holds l i s.
Proof.
  intros W. unfold d_get. split.
  - intros E. destruct (ba_contains l i 0) as [[b h]| |] eqn:Ec.
    + destruct (contains_spec l i 0 W (wf_pos l W)) as [r [h' [E' [_ Hr]]]]. rewrite E' in Ec. injection Ec as -> ->. destruct b.
      * destruct Hr as [Hr _]. destruct (Hr eq_refl) as [a Ha]. destruct (at_spec l i a 0 W Ha (wf_pos l W)) as [h2 [Ea _]]. rewrite Ea in E. injection E as <-. now apply holds_cell.
      * destruct Hr as [_ Hr]. rewrite at_out in E; [destruct (forallb _ l); discriminate|exact W|apply wf_pos, W|]. intros a Ha. specialize (Hr (ex_intro _ a Ha)). discriminate.
    + destruct (contains_spec l i 0 W (wf_pos l W)) as [r [h' [E' _]]]. congruence.
    + destruct (contains_spec l i 0 W (wf_pos l W)) as [r [h' [E' _]]]. congruence.
  - intros H. apply holds_cell in H. destruct (at_spec l i s 0 W H (wf_pos l W)) as [h [E _]]. now rewrite E.
Qed.
Lemma holds_fun {A} (l : list (block A)) i a b : wf l -> holds l i a -> holds l i b -> a = b.
Proof. intros W H1 H2. apply holds_cell in H1, H2. eapply cell_fun; eauto. Qed.

Lemma merge_holds (a b c : list (block simplex)) : wf a -> wf b -> no_common a b -> (N.of_nat (length a + length b) < 2 ^ 32)%N -> ba_merge a b c ->
  wf c /\ length c = length a + length b /\ forall i s, holds c i s <-> holds a i s \/ holds b i s.
Proof.
  intros Wa Wb Hn Hl Hm. destruct (merge_wf a b c Wa Wb (no_common_disjoint a b Wa Wb Hn) Hl Hm) as [W [_ M]]. split; [exact W|]. split.
  - destruct Hm as [P _]. apply Permutation_length in P. rewrite app_length in P. lia.
  - intros i s. rewrite !holds_cell. apply M.
Qed.

Lemma blocks_cons a r : blocks (a :: r) = length (d_arr a) + blocks r. Proof. reflexivity. Qed.
Lemma merge_rest_spec : forall r a d, (forall p, In p (a :: r) -> wf (d_arr p)) -> ForallOrdPairs no_shared (a :: r) -> (N.of_nat (blocks (a :: r)) < 2 ^ 32)%N -> merge_rest a r d ->
  wf (d_arr d) /\ length (d_arr d) = blocks (a :: r) /\ (forall i s, holds (d_arr d) i s <-> stored (a :: r) i s) /\
  (forall i, In i (d_hull d) <-> exists p, In p (a :: r) /\ In i (d_hull p)) /\
  (forall p, In p (a :: r) -> (d_mark p <= d_mark d)%N) /\ exists p, In p (a :: r) /\ d_mark d = d_mark p.
Proof.
  induction r as [|b r IH]; intros a d W Ap Hb H; inversion H; subst.
  - split; [apply W; now left|]. split; [rewrite blocks_cons; unfold blocks; cbn [map list_sum fold_right]; lia|]. split; [|split; [|split]].
    + intros i s. split; [intros Hh; exists d; split; [now left|exact Hh]|intros [p [[<-|[]] Hh]]; exact Hh].
    + intros i. split; [intros Hh; exists d; split; [now left|exact Hh]|intros [p [[<-|[]] Hh]]; exact Hh].
    + intros p [<-|[]]. lia.
    + exists d. split; [now left|reflexivity].
  - match goal with H1 : d_merge _ _ _ _, H2 : merge_rest _ _ _ |- _ => destruct H1 as [M1 [M2 M3]]; rename H2 into Hr end.
    inversion Ap as [|? ? Aa Ar]; subst. inversion Ar as [|? ? Ab Arr]; subst. rewrite Forall_forall in Aa, Ab.
    assert (Hbl : blocks (a :: b :: r) = length (d_arr a) + length (d_arr b) + blocks r) by (rewrite !blocks_cons; lia).
    destruct (merge_holds (d_arr a) (d_arr b) (d_arr c)) as [Wc [Lc Hc]]; [apply W; now left|apply W; right; now left|apply Aa; now left|lia|exact M1|].
    destruct (IH c d) as (I1 & I2 & I3 & I4 & I5 & I6); [| | |exact Hr|].
    + intros p [<-|Hp]; [exact Wc|apply W; right; now right].
    + constructor; [|exact Arr]. rewrite Forall_forall. intros p Hp i x y Hx Hy. apply Hc in Hx. destruct Hx as [Hx|Hx]; [apply (Aa p ltac:(now right) i x y Hx Hy)|apply (Ab p Hp i x y Hx Hy)].
    + rewrite !blocks_cons in *. lia.
    + split; [exact I1|]. split; [rewrite !blocks_cons in *; lia|]. split; [|split; [|split]].
      * intros i s. rewrite I3. split.
        -- intros [p [[<-|Hp] Hh]]; [apply Hc in Hh; destruct Hh as [Hh|Hh]; [exists a|exists b]; cbn [In]; auto|exists p; cbn [In]; auto].
        -- intros [p [[<-|[<-|Hp]] Hh]]; [exists c|exists c|exists p]; cbn [In]; (split; [auto|]); try (apply Hc; auto); exact Hh.
      * intros i. rewrite I4. split.
        -- intros [p [[<-|Hp] Hh]]; [rewrite M2 in Hh; apply in_app_or in Hh; destruct Hh as [Hh|Hh]; [exists a|exists b]; cbn [In]; auto|exists p; cbn [In]; auto].
        -- intros [p [[<-|[<-|Hp]] Hh]]; [exists c|exists c|exists p]; cbn [In]; (split; [auto|]); try (rewrite M2; apply in_or_app; auto); exact Hh.
      * intros p [<-|[<-|Hp]]; [specialize (I5 c ltac:(now left)); lia|specialize (I5 c ltac:(now left)); lia|apply I5; now right].
      * destruct I6 as [p [[<-|Hp] E]]; [|exists p; cbn [In]; auto]. destruct (N.max_spec (d_mark a) (d_mark b)) as [[_ E']|[_ E']]; [exists b|exists a]; cbn [In]; (split; [auto|]); congruence.
Qed.

Lemma killed_twice s : killed (killed s) = killed s. Proof. reflexivity. Qed.
Lemma kill_all_spec : forall ids l, wf l -> (forall e, In e ids -> exists s, holds l e s) -> exists l', kill_all l ids = Val (Some l') /\ wf l' /\ length l' = length l /\
  forall i y, holds l' i y <-> exists x, holds l i x /\ y = if isin ids i then killed x else x.
Proof.
  induction ids as [|e ids IH]; intros l W Hs.
  - exists l. split; [reflexivity|]. split; [exact W|]. split; [reflexivity|]. intros i y. split; [intros H; exists y; auto|intros [x [H ->]]; exact H].
  - destruct (Hs e ltac:(now left)) as [s Hse]. pose proof Hse as Hc. apply holds_cell in Hc. destruct (at_spec l e s 0 W Hc (wf_pos l W)) as [h [Ea Hh]].
    destruct (set_spec l e s (killed s) h W Hc Hh) as [l1 [h1 [Es [_ [W1 [L1 C1]]]]]].
    assert (H1 : forall i y, holds l1 i y <-> (i = e /\ y = killed s) \/ (i <> e /\ holds l i y)) by (intros i y; rewrite !holds_cell; apply C1).
    destruct (IH l1 W1) as [l' [E' [W' [L' H']]]].
    { intros e' He'. destruct (Hs e' ltac:(now right)) as [s' Hs']. destruct (N.eq_dec e' e) as [->|Hne]; [exists (killed s); apply H1; auto|exists s'; apply H1; auto]. }
    exists l'. split; [cbn [kill_all]; unfold kill; rewrite Ea; cbn [rbind]; rewrite Es; cbn [rmap option_map fst rbind]; exact E'|]. split; [exact W'|]. split; [congruence|].
    intros i y. rewrite H'. split.
    + intros [x [Hx ->]]. apply H1 in Hx. rewrite isin_cons. destruct Hx as [[-> ->]|[Hne Hx]].
      * exists s. split; [exact Hse|]. rewrite N.eqb_refl. cbn [orb]. destruct (isin ids e); reflexivity.
      * exists x. split; [exact Hx|]. destruct (N.eqb_spec i e); [contradiction|reflexivity].
    + intros [x [Hx ->]]. rewrite isin_cons. destruct (N.eqb_spec i e) as [->|Hne]; cbn [orb].
      * rewrite (holds_fun l e x s W Hx Hse). exists (killed s). split; [apply H1; auto|]. destruct (isin ids e); reflexivity.
      * exists x. split; [apply H1; auto|reflexivity].
Qed.

(** ** The decision. *)
Section Dec.
Variable over : N -> N.
Variable merged : list (block simplex).
Variable del : list N.
Hypothesis Hdel : forall e, In e del -> exists t, d_get merged e = Some t.
Hypothesis Hsort : fp_sorted merged del.

Lemma fp_sorted_tail i r : fp_sorted merged (i :: r) -> fp_sorted merged r.
Proof. intros H j k a b s t Hjk Ea Eb. apply (H (S j) (S k)); [lia|exact Ea|exact Eb]. Qed.
Lemma found_spec s : forall l acc, (forall e, In e l -> exists t, d_get merged e = Some t) -> fp_sorted merged l ->
  (forall e t, In e l -> d_get merged e = Some t -> (x_fp s <= x_fp t)%N) ->
  exists b, found merged l s acc = Some b /\ (b = true <-> acc = true \/ exists e t, In e l /\ d_get merged e = Some t /\ equal_vertices s t = true).
Proof.
  induction l as [|i r IH]; intros acc Hl Hs Hge; cbn [found].
  - exists acc. split; [reflexivity|]. split; [auto|]. intros [H|[e [t [[] _]]]]. exact H.
  - destruct (Hl i ltac:(now left)) as [t Et]. rewrite Et. destruct (N.eqb_spec (x_fp t) (x_fp s)) as [Ef|Nf].
    + destruct (IH (if equal_vertices s t then true else acc)) as [b [Eb Hb]].
      * intros e He. apply Hl. now right.
      * eapply fp_sorted_tail; eauto.
      * intros e t' He. apply Hge. now right.
      * exists b. split; [exact Eb|]. rewrite Hb. destruct (equal_vertices s t) eqn:Eq.
        -- split; [intros _; right; exists i, t; cbn [In]; auto|auto].
        -- split; [intros [H|[e [t' [He H]]]]; [auto|right; exists e, t'; cbn [In]; auto]|].
           intros [H|[e [t' [[<-|He] [Et' H]]]]]; [auto| |right; eauto]. rewrite Et in Et'. injection Et' as <-. congruence.
    + exists acc. split; [reflexivity|]. split; [auto|]. intros [H|[e [t' [He [Et' H]]]]]; [exact H|]. exfalso.
      assert (Efp : x_fp s = x_fp t') by (unfold equal_vertices in H; destruct (N.eqb_spec (x_fp s) (x_fp t')); [assumption|discriminate]).
      pose proof (Hge i t ltac:(now left) Et). destruct He as [<-|He]; [rewrite Et in Et'; injection Et' as <-; congruence|].
      apply In_nth_error in He. destruct He as [k Ek]. pose proof (Hs 0 (S k) i e t t' ltac:(lia) eq_refl Ek Et Et'). lia.
Qed.
Lemma lower_spec h : forall l, (forall e, In e l -> exists t, d_get merged e = Some t) -> fp_sorted merged l ->
  exists l1 l2, l = l1 ++ l2 /\ lower merged l h = Some l2 /\ (forall e t, In e l1 -> d_get merged e = Some t -> (x_fp t < h)%N) /\ forall e t, In e l2 -> d_get merged e = Some t -> (h <= x_fp t)%N.
Proof.
  induction l as [|i r IH]; intros Hl Hs; cbn [lower].
  - exists [], []. split; [reflexivity|]. split; [reflexivity|]. split; intros e t [].
  - destruct (Hl i ltac:(now left)) as [t Et]. rewrite Et. destruct (N.ltb_spec (x_fp t) h) as [L|L].
    + destruct IH as (l1 & l2 & -> & E & H1 & H2); [intros e He; apply Hl; now right|eapply fp_sorted_tail; eauto|].
      exists (i :: l1), l2. split; [reflexivity|]. split; [exact E|]. split; [|exact H2]. intros e t' [<-|He] E'; [congruence|eauto].
    + exists [], (i :: r). split; [reflexivity|]. split; [reflexivity|]. split; [intros e t' []|]. intros e t' [<-|He] E'; [congruence|].
      apply In_nth_error in He. destruct He as [k Ek]. pose proof (Hs 0 (S k) i e t t' ltac:(lia) eq_refl Ek Et E'). lia.
Qed.
Lemma search_spec s : exists l2 b, lower merged del (x_fp s) = Some l2 /\ found merged l2 s false = Some b /\
  (b = true <-> exists e t, In e del /\ d_get merged e = Some t /\ equal_vertices s t = true).
Proof.
  destruct (lower_spec (x_fp s) del Hdel Hsort) as (l1 & l2 & E & E1 & H1 & H2).
  destruct (found_spec s l2 false) as [b [Eb Hb]].
  - intros e He. apply Hdel. rewrite E. apply in_or_app. auto.
  - intros i j a b u t Hij Ea Eb. apply (Hsort (length l1 + i) (length l1 + j)); [lia| |]; rewrite E, nth_error_app2 by lia; [replace (length l1 + i - length l1) with i by lia|replace (length l1 + j - length l1) with j by lia]; assumption.
  - exact H2.
  - exists l2, b. split; [exact E1|]. split; [exact Eb|]. rewrite Hb. split.
    + intros [H|[e [t [He H]]]]; [discriminate|]. exists e, t. split; [rewrite E; apply in_or_app; auto|exact H].
    + intros [e [t [He [Et H]]]]. right. rewrite E in He. apply in_app_or in He. destruct He as [He|He]; [|eauto]. exfalso. specialize (H1 e t He Et).
      unfold equal_vertices in H. destruct (N.eqb_spec (x_fp s) (x_fp t)); [lia|discriminate].
Qed.

Variable D : N.
Variable parts : list part.
Hypothesis HD : (D <= 30)%N.
Hypothesis Hp : parts_ok D parts.
Lemma part_of_spec v : (exists id pts, In (id, pts) parts /\ In v pts) -> exists k pts, part_of parts v = Some k /\ nth_error parts k = Some (k, pts) /\ In v pts.
Proof.
  intros H. destruct Hp as [Hnum _].
  assert (G : forall l, (exists id pts, In (id, pts) l /\ In v pts) -> exists id pts, part_of l v = Some id /\ In (id, pts) l /\ In v pts).
  { induction l as [|[id pts] l IH]; [intros [id [pts [[] _]]]|]. intros [id' [pts' [Hin Hv]]]. cbn [part_of]. destruct (isin pts v) eqn:Ei.
    - exists id, pts. split; [reflexivity|]. split; [now left|]. now apply isin_In.
    - destruct Hin as [E|Hin]; [injection E as -> ->; apply isin_In in Hv; congruence|]. destruct IH as [a [b [E [H1 H2]]]]; [eauto|]. exists a, b. split; [exact E|]. split; [now right|exact H2]. }
  destruct (G parts H) as [id [pts [E [Hin Hv]]]]. apply In_nth_error in Hin. destruct Hin as [k Ek]. pose proof (Hnum k id pts Ek) as ->. exists k, pts. auto.
Qed.

Lemma insert_spec s : x_fp s = gen_fp over (x_verts s) -> (forall e t, In e del -> d_get merged e = Some t -> x_fp t = gen_fp over (x_verts t)) ->
  sorted (x_verts s) -> x_verts s <> [] -> (forall v, In v (x_verts s) -> (v < 2 ^ 64)%N) -> (forall v r, x_verts s = v :: r -> exists id pts, In (id, pts) parts /\ In v pts) ->
  exists b, insert_it parts merged del s = Some b /\ (b = true <-> ~ in_one_part parts s \/ exists e t, In e del /\ d_get merged e = Some t /\ x_verts t = x_verts s).
Proof.
  intros Hfs Hft Hsrt Hne H64 Hfst. unfold insert_it. destruct (x_verts s) as [|v r] eqn:Ev; [congruence|]. destruct (part_of_spec v (Hfst v r eq_refl)) as [k [pts [-> [Ek Hv]]]]. rewrite Ek.
  assert (One : in_one_part parts s <-> forallb (isin pts) (v :: r) = true).
  { unfold in_one_part. rewrite Ev, forallb_forall. split.
    - intros [id' [pts' [Hin Hall]]] w Hw. apply isin_In. destruct Hp as [Hnum [Hone Hinf]]. pose proof (nth_error_In _ _ Ek) as Hk.
      destruct (p_finite D v) eqn:Fv.
      + pose proof (Hone k pts id' pts' v Hk Hin Hv (Hall v ltac:(now left)) Fv) as <-. apply In_nth_error in Hin. destruct Hin as [k' Ek']. pose proof (Hnum _ _ _ Ek') as E2. rewrite <- E2 in Ek'. pose proof (eq_trans (eq_sym Ek) Ek') as E3. injection E3 as <-. now apply Hall.
      + apply (Hinf id' pts' k pts w Hin Hk); [|now apply Hall]. destruct (p_finite D w) eqn:Fw; [|reflexivity]. exfalso.
        apply p_finite_spec in Fw; [|exact HD|now apply H64]. assert (p_finite D v = true); [|congruence]. apply p_finite_spec; [exact HD|apply H64; now left|].
        destruct Hw as [<-|Hw]; [exact Fw|]. assert (v < w)%N; [|lia]. apply sorted_cons in Hsrt. now apply Hsrt.
    - intros H. exists k, pts. split; [eapply nth_error_In; eauto|]. intros w Hw. apply isin_In. now apply H. }
  destruct (forallb (isin pts) (v :: r)) eqn:Ef; cbn [negb].
  - destruct (search_spec s) as [l2 [b [-> [-> Hb]]]]. exists b. split; [reflexivity|]. rewrite Hb. split.
    + intros [e [t [He [Et Heq]]]]. right. exists e, t. split; [exact He|]. split; [exact Et|]. rewrite <- Ev. symmetry. apply (equal_vertices_spec over s t); [now rewrite Ev|eauto|exact Heq].
    + intros [H|[e [t [He [Et Heq]]]]]; [exfalso; apply H; now apply One|]. exists e, t. split; [exact He|]. split; [exact Et|]. apply (equal_vertices_spec over s t); [now rewrite Ev|eauto|congruence].
  - exists true. split; [reflexivity|]. split; [|auto]. intros _. left. intros H. apply One in H. discriminate.
Qed.
End Dec.

(** ** The merge. *)
Lemma forallb_exists_false {A} (f : A -> bool) l : forallb f l = false -> exists x, In x l /\ f x = false.
Proof.
  induction l as [|x l IH]; cbn [forallb]; intros H; [discriminate|]. destruct (f x) eqn:E; [|exists x; split; [now left|exact E]]. destruct (IH H) as [y [Hy Ey]]. exists y. split; [now right|exact Ey].
Qed.
Section Main.
Variable over : N -> N.
Variable D : N.
Variable parts : list part.
Variable partials : list dsims.
Variable edge : list N.
Variable edgeDT : dsims.
Hypothesis Hin : merge_input over D parts partials edge edgeDT.

Lemma in_wf p : In p (edgeDT :: partials) -> wf (d_arr p) /\ proper over p.
Proof. intros H. exact (mi_made _ _ _ _ _ _ Hin p H). Qed.
Lemma stored_fun i s t : stored partials i s -> stored partials i t -> s = t.
Proof.
  pose proof (mi_apart _ _ _ _ _ _ Hin) as Ap. inversion Ap as [|? ? _ Ap']; subst. assert (Wf : forall p, In p partials -> wf (d_arr p)) by (intros p Hp; apply in_wf; now right).
  clear - Ap' Wf. induction Ap' as [|a r Ha Hr IH]; intros [p [Hp Hs]] [q [Hq Ht]]; [destruct Hp|]. rewrite Forall_forall in Ha.
  destruct Hp as [<-|Hp], Hq as [<-|Hq].
  - eapply holds_fun; [apply Wf; now left| |]; eauto.
  - exfalso. apply (Ha q Hq i s t Hs Ht).
  - exfalso. apply (Ha p Hp i t s Ht Hs).
  - apply IH; [intros x Hx; apply Wf; now right|exists p; auto|exists q; auto].
Qed.
Lemma stored_apart i s t : stored partials i s -> holds (d_arr edgeDT) i t -> False.
Proof.
  intros [p [Hp Hs]] Ht. pose proof (mi_apart _ _ _ _ _ _ Hin) as Ap. inversion Ap as [|? ? Ha _]; subst. rewrite Forall_forall in Ha. exact (Ha p Hp i t s Ht Hs).
Qed.
Lemma stored_proper i s : stored partials i s -> exists p, In p partials /\ i <> s_inf /\ (x_mark s <= d_mark p)%N /\ (x_id s = s_inf \/ x_id s = i /\ well over s).
Proof. intros [p [Hp Hs]]. exists p. split; [exact Hp|]. destruct (in_wf p ltac:(now right)) as [_ P]. exact (P i s Hs). Qed.

Variable all : dsims.
Variable order : list N.
Hypothesis Hall : merge_all partials all.
Hypothesis Hord : Permutation order edge.

Lemma all_spec : wf (d_arr all) /\ length (d_arr all) = blocks partials /\ (forall i s, holds (d_arr all) i s <-> stored partials i s) /\
  (forall i, In i (d_hull all) <-> exists p, In p partials /\ In i (d_hull p)) /\ (forall p, In p partials -> (d_mark p <= d_mark all)%N) /\ exists p, In p partials /\ d_mark all = d_mark p.
Proof.
  assert (Wf : forall p, In p partials -> wf (d_arr p)) by (intros p Hp; apply in_wf; now right).
  pose proof (mi_apart _ _ _ _ _ _ Hin) as Ap. inversion Ap as [|? ? _ Ap']; subst. pose proof (mi_blocks _ _ _ _ _ _ Hin) as Hb. rewrite blocks_cons in Hb.
  destruct partials as [|a r]; [destruct Hall|]. apply merge_rest_spec; auto. lia.
Qed.
Lemma isin_perm a b i : Permutation a b -> isin a i = isin b i.
Proof. intros P. apply eq_true_iff_eq. rewrite !isin_In. split; apply Permutation_in; [|symmetry]; exact P. Qed.
Lemma filter_ok : exists d, d_filter all edge order = Val (Some d).
Proof.
  destruct all_spec as (W & _ & H & _). unfold d_filter. destruct (kill_all_spec order (d_arr all) W) as [l [-> _]]; [|cbn [rmap option_map]; eauto].
  intros e He. destruct (mi_edge _ _ _ _ _ _ Hin e) as [s [Hs _]]; [eapply Permutation_in; eauto|]. exists s. now apply H.
Qed.

Variable flt : dsims.
Hypothesis Hflt : d_filter all edge order = Val (Some flt).
Lemma flt_spec : wf (d_arr flt) /\ length (d_arr flt) = blocks partials /\ d_mark flt = d_mark all /\
  (forall i y, holds (d_arr flt) i y <-> exists x, stored partials i x /\ y = if isin edge i then killed x else x) /\
  (forall i, In i (d_hull flt) <-> (exists p, In p partials /\ In i (d_hull p)) /\ ~ In i edge).
Proof.
  destruct all_spec as (W & L & H & Hu & _). unfold d_filter in Hflt. destruct (kill_all_spec order (d_arr all) W) as [l [E [Wl [Ll Hl]]]].
  { intros e He. destruct (mi_edge _ _ _ _ _ _ Hin e) as [s [Hs _]]; [eapply Permutation_in; eauto|]. exists s. now apply H. }
  rewrite E in Hflt. cbn [rmap option_map] in Hflt. injection Hflt as <-. cbn [d_arr d_hull d_mark]. split; [exact Wl|]. split; [congruence|]. split; [reflexivity|]. split.
  - intros i y. rewrite Hl. rewrite (isin_perm order edge i Hord). split; intros [x [Hx E']]; exists x; (split; [now apply H|exact E']).
  - intros i. rewrite filter_In, Hu, negb_true_iff. split; intros [H1 H2]; (split; [exact H1|]).
    + intros Hi. apply isin_In in Hi. congruence.
    + now apply isin_false.
Qed.
Lemma flt_get i y : d_get (d_arr flt) i = Some y <-> exists x, stored partials i x /\ y = if isin edge i then killed x else x.
Proof. destruct flt_spec as (W & _ & _ & H & _). rewrite d_get_holds by exact W. apply H. Qed.

Variable del : list N.
Hypothesis Hdel : Permutation del edge.
Hypothesis Hsort : fp_sorted (d_arr flt) del.

Lemma decide i s : holds (d_arr edgeDT) i s -> x_id s <> s_inf -> exists b, insert_it parts (d_arr flt) del s = Some b /\ (b = true <-> wanted parts partials edge s).
Proof.
  intros Hs Hl. destruct (in_wf edgeDT ltac:(now left)) as [_ P]. destruct (P i s Hs) as (P1 & P2 & [P3|(P4 & P5 & P6 & P7 & P8)]); [contradiction|].
  destruct (insert_spec over (d_arr flt) del) with (D := D) (parts := parts) (s := s) as [b [E Hb]]; auto.
  - intros e He. destruct (mi_edge _ _ _ _ _ _ Hin e) as [t [Ht _]]; [eapply Permutation_in; eauto|]. eexists. apply flt_get. eauto.
  - apply (mi_D _ _ _ _ _ _ Hin).
  - apply (mi_parts _ _ _ _ _ _ Hin).
  - intros e t He Et. apply flt_get in Et. destruct Et as [x [Hx ->]]. destruct (stored_proper e x Hx) as [p [_ [_ [_ F]]]].
    destruct (mi_edge _ _ _ _ _ _ Hin e) as [x' [Hx' Lx']]; [eapply Permutation_in; eauto|]. rewrite (stored_fun e x' x Hx' Hx) in Lx'. destruct F as [F|[_ [F _]]]; [contradiction|]. destruct (isin edge e); exact F.
  - intros v r Ev. eapply (mi_first _ _ _ _ _ _ Hin); eauto.
  - exists b. split; [exact E|]. rewrite Hb. unfold wanted. split; (intros [H|[e [t [He [Ht Ev]]]]]; [now left|right]).
    + apply flt_get in Ht. destruct Ht as [x [Hx ->]]. exists e, x. split; [eapply Permutation_in; eauto|]. split; [exact Hx|]. destruct (isin edge e); exact Ev.
    + exists e, (if isin edge e then killed t else t). split; [eapply Permutation_in; [symmetry|]; eauto|]. split; [apply flt_get; eauto|]. destruct (isin edge e); exact Ev.
Qed.
Lemma took_iff i s : holds (d_arr edgeDT) i s -> x_id s <> s_inf -> took parts (d_arr flt) del s = true <-> wanted parts partials edge s.
Proof. intros Hs Hl. destruct (decide i s Hs Hl) as [b [E Hb]]. unfold took. now rewrite E. Qed.

Variable grain : N.
Variable tree : splits.
Variable start : pool (vsh simplex) vtask.
Hypothesis Hstart : v_start d_valid (d_arr edgeDT) grain tree = Val start.
Notation step := (v_step d_valid (m_body parts (d_arr flt) del)).

Lemma valid_iff s : d_valid s = true <-> x_id s <> s_inf.
Proof. unfold d_valid, s_finite. rewrite negb_true_iff, N.eqb_neq. tauto. Qed.
Lemma body_some i x : cell (d_arr edgeDT) i x -> d_valid x = true -> m_body parts (d_arr flt) del x <> None.
Proof.
  intros Hx Hv. apply holds_cell in Hx. apply valid_iff in Hv. destruct (decide i x Hx Hv) as [b [E _]]. unfold m_body. rewrite E. destruct b; discriminate.
Qed.
Lemma loop_safe : psafe step start.
Proof. exact (v_safe d_valid _ (d_arr edgeDT) (proj1 (in_wf edgeDT ltac:(now left))) grain tree start Hstart body_some). Qed.
Lemma loop_ends : pterminates step start.
Proof. exact (v_terminates d_valid _ (d_arr edgeDT) (proj1 (in_wf edgeDT ltac:(now left))) grain tree start Hstart body_some). Qed.

Variable fin : vsh simplex.
Hypothesis Hfin : pexec step start (mkp fin []).
Lemma fin_spec : wf (v_arr fin) /\ length (v_arr fin) = length (d_arr edgeDT) /\ NoDup (map fst (v_log fin)) /\
  (forall i s, In (i, s) (v_log fin) <-> holds (d_arr edgeDT) i s /\ x_id s <> s_inf) /\
  forall i y, holds (v_arr fin) i y <-> exists x, holds (d_arr edgeDT) i x /\ y = if d_valid x && negb (took parts (d_arr flt) del x) then killed x else x.
Proof.
  destruct (v_final d_valid _ (d_arr edgeDT) (proj1 (in_wf edgeDT ltac:(now left))) grain tree start Hstart fin Hfin) as (W & L & Nd & Lg & Ce).
  split; [exact W|]. split; [exact L|]. split; [exact Nd|]. split.
  - intros i s. now rewrite Lg, valid_iff, holds_cell.
  - intros i y. rewrite holds_cell, Ce. split; intros [x [Hx E]]; exists x; (split; [now apply holds_cell|]).
    + destruct (d_valid x) eqn:Ev; cbn [andb]; [|congruence]. apply holds_cell in Hx. apply valid_iff in Ev. unfold m_body, took in *. destruct (decide i x Hx Ev) as [b [Eb _]]. rewrite Eb in *. destruct b; cbn [negb]; congruence.
    + subst y. destruct (d_valid x) eqn:Ev; cbn [andb]; [|reflexivity]. apply valid_iff in Ev. destruct (decide i x Hx Ev) as [b [Eb _]]. unfold m_body, took. rewrite Eb. destruct b; reflexivity.
Qed.

Lemma log_id i s : In (i, s) (v_log fin) -> x_id s = i.
Proof.
  intros H. destruct fin_spec as (_ & _ & _ & Lg & _). apply Lg in H. destruct H as [H1 H2]. destruct (in_wf edgeDT ltac:(now left)) as [_ P]. destruct (P i s H1) as (_ & _ & [E|[E _]]); [contradiction|exact E].
Qed.
Lemma inserted_spec : NoDup (m_inserted parts (d_arr flt) del (v_log fin)) /\
  forall i, In i (m_inserted parts (d_arr flt) del (v_log fin)) <-> exists s, holds (d_arr edgeDT) i s /\ x_id s <> s_inf /\ wanted parts partials edge s.
Proof.
  destruct fin_spec as (_ & _ & Nd & Lg & _). unfold m_inserted. split.
  - assert (G : forall l, (forall e, In e l -> x_id (snd e) = fst e) -> NoDup (map fst l) -> NoDup (map (fun e => x_id (snd e)) (filter (fun e => took parts (d_arr flt) del (snd e)) l))).
    { intros l. induction l as [|e l IH]; intros He N0; cbn [map filter]; [constructor|]. cbn [map] in N0. inversion N0; subst.
      assert (IH' := IH ltac:(intros x Hx; apply He; now right) ltac:(assumption)). destruct (took parts (d_arr flt) del (snd e)); [|exact IH']. cbn [map]. constructor; [|exact IH'].
      rewrite (He e ltac:(now left)). rewrite in_map_iff. intros [x [Ex Hx]]. apply filter_In in Hx. destruct Hx as [Hx _]. rewrite (He x ltac:(now right)) in Ex.
      match goal with H : ~ In _ (map fst l) |- _ => apply H end. rewrite in_map_iff. eauto. }
    apply G; [|exact Nd]. intros [i s] H. cbn [fst snd]. now apply log_id.
  - intros i. rewrite in_map_iff. split.
    + intros [[j s] [E H]]. apply filter_In in H. destruct H as [H1 H2]. cbn [snd] in *. rewrite (log_id j s H1) in E. subst j. apply Lg in H1. destruct H1 as [H1 H3]. exists s. split; [exact H1|]. split; [exact H3|]. now apply (took_iff i).
    + intros [s [H1 [H2 H3]]]. exists (i, s). assert (Hin' : In (i, s) (v_log fin)) by now apply Lg. cbn [snd]. split; [now apply log_id|]. apply filter_In. split; [exact Hin'|]. now apply (took_iff i).
Qed.
Lemma hull_spec i : In i (m_hull D parts (d_arr flt) del (v_log fin)) <-> exists s v, holds (d_arr edgeDT) i s /\ x_id s <> s_inf /\ wanted parts partials edge s /\ In v (x_verts s) /\ p_finite D v = false.
Proof.
  destruct fin_spec as (_ & _ & _ & Lg & _). unfold m_hull. rewrite in_map_iff. split.
  - intros [[j s] [E H]]. apply filter_In in H. destruct H as [H1 H2]. cbn [snd] in *. apply andb_prop in H2. destruct H2 as [H2 H4]. rewrite (log_id j s H1) in E. subst j. apply Lg in H1. destruct H1 as [H1 H3].
    unfold s_isfinite in H4. rewrite negb_true_iff in H4. destruct (forallb_exists_false (p_finite D) (rev (x_verts s)) H4) as [v [Hv Fv]]. exists s, v. split; [exact H1|]. split; [exact H3|]. split; [now apply (took_iff i)|]. split; [now apply in_rev|exact Fv].
  - intros [s [v [H1 [H2 [H3 [H4 H5]]]]]]. exists (i, s). assert (Hin' : In (i, s) (v_log fin)) by now apply Lg. cbn [snd]. split; [now apply log_id|]. apply filter_In. split; [exact Hin'|]. cbn [snd].
    apply andb_true_intro. split; [now apply (took_iff i)|]. rewrite negb_true_iff. destruct (s_isfinite D s) eqn:E; [|reflexivity]. exfalso. pose proof (proj1 (isfinite_spec D s) E v H4). congruence.
Qed.
Lemma faces_spec h i : In (h, i) (m_faces over parts (d_arr flt) del (v_log fin)) <-> exists s d, holds (d_arr edgeDT) i s /\ x_id s <> s_inf /\ wanted parts partials edge s /\ d < length (x_verts s) /\ face_fp over s d = Val h.
Proof.
  destruct fin_spec as (_ & _ & _ & Lg & _). unfold m_faces, faces. rewrite in_flat_map. split.
  - intros [[j s] [H1 H2]]. cbn [snd] in H2. destruct (took parts (d_arr flt) del s) eqn:Et; [|destruct H2]. rewrite in_flat_map in H2. destruct H2 as [d [Hd H2]]. apply in_seq in Hd.
    destruct (face_fp over s d) as [h'| |] eqn:Ef; try (destruct H2; fail). destruct H2 as [E|[]]. injection E as -> Ei. rewrite (log_id j s H1) in Ei. subst j. apply Lg in H1. destruct H1 as [H1 H3].
    exists s, d. split; [exact H1|]. split; [exact H3|]. split; [now apply (took_iff i)|]. split; [lia|exact Ef].
  - intros [s [d [H1 [H2 [H3 [H4 H5]]]]]]. assert (Hin' : In (i, s) (v_log fin)) by now apply Lg. exists (i, s). split; [exact Hin'|]. cbn [snd].
    rewrite (proj2 (took_iff i s H1 H2) H3). rewrite in_flat_map. exists d. split; [apply in_seq; lia|]. rewrite H5. left. f_equal. now apply log_id.
Qed.

Variable joined : dsims.
Hypothesis Hjoin : d_merge (mkd (d_arr flt) (d_hull flt) (ud_mark (d_mark flt))) (mkd (v_arr fin) (d_hull edgeDT) (d_mark edgeDT)) false joined.
Lemma join_spec : wf (d_arr joined) /\ (forall i y, holds (d_arr joined) i y <-> holds (d_arr flt) i y \/ holds (v_arr fin) i y) /\ d_hull joined = d_hull flt.
Proof.
  destruct flt_spec as (Wf & Lf & _ & Hf & _). destruct fin_spec as (Wn & Ln & _ & _ & Hn). destruct Hjoin as [M1 [M2 M3]]. cbn [d_arr d_hull d_mark] in *.
  destruct (merge_holds (d_arr flt) (v_arr fin) (d_arr joined)) as [W [_ H]]; auto.
  - intros i a b Ha Hb. apply Hf in Ha. apply Hn in Hb. destruct Ha as [x [Hx _]], Hb as [y [Hy _]]. eapply stored_apart; eauto.
  - rewrite Lf, Ln. pose proof (mi_blocks _ _ _ _ _ _ Hin) as Hb. rewrite blocks_cons in Hb. lia.
  - split; [exact W|]. split; [exact H|]. rewrite M2. apply app_nil_r.
Qed.
Lemma content i s : holds (d_arr joined) i s /\ x_id s <> s_inf <->
  (stored partials i s /\ x_id s <> s_inf /\ ~ In i edge) \/ (holds (d_arr edgeDT) i s /\ x_id s <> s_inf /\ wanted parts partials edge s).
Proof.
  destruct flt_spec as (_ & _ & _ & Hf & _). destruct fin_spec as (_ & _ & _ & _ & Hn). destruct join_spec as (_ & Hj & _). split.
  - intros [H Hl]. apply Hj in H. destruct H as [H|H].
    + apply Hf in H. destruct H as [x [Hx ->]]. left. destruct (isin edge i) eqn:Ei; [cbn [killed x_id] in Hl; congruence|]. split; [exact Hx|]. split; [exact Hl|]. intros He. apply isin_In in He. congruence.
    + apply Hn in H. destruct H as [x [Hx ->]]. right. destruct (d_valid x && negb (took parts (d_arr flt) del x)) eqn:E; [cbn [killed x_id] in Hl; congruence|].
      split; [exact Hx|]. split; [exact Hl|]. apply (took_iff i x Hx Hl). apply valid_iff in Hl. rewrite Hl in E. cbn [andb] in E. now apply negb_false_iff.
  - intros [[H1 [H2 H3]]|[H1 [H2 H3]]]; (split; [apply Hj|exact H2]).
    + left. apply Hf. exists s. split; [exact H1|]. now rewrite (isin_false edge i H3).
    + right. apply Hn. exists s. split; [exact H1|]. rewrite (proj2 (took_iff i s H1 H2) H3). now rewrite andb_false_r.
Qed.

Variable worder : list N.
Variable w : wsh.
Hypothesis Hword : Permutation worder edge.
Notation wget := (d_get (d_arr flt)).
Notation wm0 := (fun id => match wget id with Some s => x_mark s | None => 0%N end).
Notation wstep := (w_step over wget edge (d_mark flt)).

Lemma wm0_le id : (wm0 id <= d_mark flt)%N.
Proof.
  cbv beta. destruct (wget id) as [y|] eqn:E; [|apply N.le_0_l]. apply flt_get in E. destruct E as [x [Hx ->]]. destruct (stored_proper id x Hx) as [p [Hp [_ [Hm _]]]].
  destruct flt_spec as (_ & _ & -> & _). destruct all_spec as (_ & _ & _ & _ & Hle & _). pose proof (Hle p Hp). destruct (isin edge id); cbn [killed x_mark]; lia.
Qed.
Lemma worder_iff e : In e worder <-> In e edge.
Proof. split; apply Permutation_in; [|symmetry]; exact Hword. Qed.
Lemma inward_iff n : inward wget edge n <-> exists e s, In e edge /\ stored partials e s /\ In n (x_nbrs s) /\ n <> s_inf /\ ~ In n edge.
Proof.
  unfold inward. split; intros [e [s [He [Hs [Hn Hr]]]]].
  - apply flt_get in Hs. destruct Hs as [x [Hx ->]]. exists e, x. split; [exact He|]. split; [exact Hx|]. split; [destruct (isin edge e); exact Hn|exact Hr].
  - exists e, (if isin edge e then killed s else s). split; [exact He|]. split; [apply flt_get; eauto|]. split; [destruct (isin edge e); exact Hn|exact Hr].
Qed.
Lemma faceof_iff n h : face_of over wget n h <-> exists s d, stored partials n s /\ d < length (x_verts s) /\ face_fp over s d = Val h.
Proof.
  unfold face_of. split; intros [s [d [Hs [Hd Hf]]]].
  - apply flt_get in Hs. destruct Hs as [x [Hx ->]]. exists x, d. split; [exact Hx|]. destruct (isin edge n); [|split; assumption]. cbn [killed x_verts] in Hd. split; [exact Hd|]. unfold face_fp in *. exact Hf.
  - exists (if isin edge n then killed s else s), d. split; [apply flt_get; eauto|]. destruct (isin edge n); [|split; assumption]. cbn [killed x_verts]. split; [exact Hd|]. unfold face_fp in *. exact Hf.
Qed.
Lemma where_ends : pterminates wstep (w_start wm0 worder).
Proof. apply w_terminates. Qed.
Lemma where_safe : (d_mark flt + 2 < 256)%N -> (forall e s n, In e edge -> stored partials e s -> In n (x_nbrs s) -> n <> s_inf -> exists t, stored partials n t) -> psafe wstep (w_start wm0 worder).
Proof.
  intros Hm Hn. apply w_safe; [exact Hm|exact wm0_le|exact worder_iff| |].
  - intros e He. destruct (mi_edge _ _ _ _ _ _ Hin e He) as [s [Hs _]]. eexists. apply flt_get. eauto.
  - intros n Hi. apply inward_iff in Hi. destruct Hi as [e [s [He [Hs [Hi [Hf _]]]]]]. destruct (Hn e s n He Hs Hi Hf) as [t Ht]. eexists. apply flt_get. eauto.
Qed.
Hypothesis Hm : (d_mark flt + 2 < 256)%N.
Hypothesis Hw : pexec wstep (w_start wm0 worder) (mkp w []).
Lemma where_spec h n : In (h, n) (w_tab w) <->
  (exists e s, In e edge /\ stored partials e s /\ In n (x_nbrs s) /\ n <> s_inf /\ ~ In n edge) /\ exists t d, stored partials n t /\ d < length (x_verts t) /\ face_fp over t d = Val h.
Proof.
  rewrite <- inward_iff, <- faceof_iff. apply (w_result over wget edge (d_mark flt) wm0 Hm wm0_le worder worder_iff w Hw).
Qed.
End Main.

(** ** Runs. *)
Section Run.
Variable over : N -> N.
Variable D : N.
Variable parts : list part.
Variable partials : list dsims.
Variable edge : list N.
Variable edgeDT : dsims.
Hypothesis Hin : merge_input over D parts partials edge edgeDT.
Variable out : dsims.
Variable inserted : list N.
Variable table : list (N * N).
Variable marks : N -> N.
Hypothesis R : merge_run over D parts partials edge edgeDT out inserted table marks.

Lemma out_wf : wf (d_arr out).
Proof. destruct R as [all order flt worder w del grain tree start fin joined R1 R2 R3 R4 R5 R6 R7 R8 R9 R10 R11 R12 [hull [R13 ->]] R14]. exact (proj1 (join_spec over D parts partials edge edgeDT Hin all order R1 R2 flt R3 del R6 R7 grain tree start R8 fin R9 joined R12)). Qed.
Lemma run_len : length (d_arr out) = blocks (edgeDT :: partials).
Proof.
  destruct R as [all order flt worder w del grain tree start fin joined R1 R2 R3 R4 R5 R6 R7 R8 R9 R10 R11 R12 [hull [R13 ->]] R14]. cbn [d_arr]. rewrite blocks_cons.
  destruct (flt_spec over D parts partials edge edgeDT Hin all order R1 R2 flt R3) as (Wf & Lf & _ & Hf & _).
  destruct (fin_spec over D parts partials edge edgeDT Hin all order R1 R2 flt R3 del R6 R7 grain tree start R8 fin R9) as (Wn & Ln & _ & _ & Hn). destruct R12 as [M1 _]. cbn [d_arr] in M1.
  destruct (merge_holds (d_arr flt) (v_arr fin) (d_arr joined)) as [_ [L _]]; auto; [| |lia].
  - intros i a b Ha Hb. apply Hf in Ha. apply Hn in Hb. destruct Ha as [x [Hx _]], Hb as [y [Hy _]]. eapply stored_apart; eauto.
  - rewrite Lf, Ln. pose proof (mi_blocks _ _ _ _ _ _ Hin) as Hb. rewrite blocks_cons in Hb. lia.
Qed.
Lemma run_held i : (exists y, holds (d_arr out) i y) <-> (exists x, stored partials i x) \/ exists x, holds (d_arr edgeDT) i x.
Proof.
  destruct R as [all order flt worder w del grain tree start fin joined R1 R2 R3 R4 R5 R6 R7 R8 R9 R10 R11 R12 [hull [R13 ->]] R14]. cbn [d_arr].
  destruct (join_spec over D parts partials edge edgeDT Hin all order R1 R2 flt R3 del R6 R7 grain tree start R8 fin R9 joined R12) as (_ & Hj & _).
  destruct (flt_spec over D parts partials edge edgeDT Hin all order R1 R2 flt R3) as (_ & _ & _ & Hf & _).
  destruct (fin_spec over D parts partials edge edgeDT Hin all order R1 R2 flt R3 del R6 R7 grain tree start R8 fin R9) as (_ & _ & _ & _ & Hn). split.
  - intros [y Hy]. apply Hj in Hy as [Hy|Hy]; [apply Hf in Hy as [x [Hx _]]; left; eauto|apply Hn in Hy as [x [Hx _]]; right; eauto].
  - intros [[x Hx]|[x Hx]]; eexists; apply Hj; [left; apply Hf; eauto|right; apply Hn; eauto].
Qed.
Lemma run_content i s : holds (d_arr out) i s /\ x_id s <> s_inf <->
  (stored partials i s /\ x_id s <> s_inf /\ ~ In i edge) \/ (holds (d_arr edgeDT) i s /\ x_id s <> s_inf /\ wanted parts partials edge s).
Proof. destruct R as [all order flt worder w del grain tree start fin joined R1 R2 R3 R4 R5 R6 R7 R8 R9 R10 R11 R12 [hull [R13 ->]] R14]. exact (content over D parts partials edge edgeDT Hin all order R1 R2 flt R3 del R6 R7 grain tree start R8 fin R9 joined R12 i s). Qed.
(** Every cell is one of the cells given, perhaps with the id removed. *)
Lemma run_cells i y : holds (d_arr out) i y -> exists x, (stored partials i x \/ holds (d_arr edgeDT) i x) /\ (y = x \/ y = killed x).
Proof.
  destruct R as [all order flt worder w del grain tree start fin joined R1 R2 R3 R4 R5 R6 R7 R8 R9 R10 R11 R12 [hull [R13 ->]] R14]. cbn [d_arr]. intros H.
  destruct (join_spec over D parts partials edge edgeDT Hin all order R1 R2 flt R3 del R6 R7 grain tree start R8 fin R9 joined R12) as (_ & Hj & _). apply Hj in H. destruct H as [H|H].
  - apply (flt_spec over D parts partials edge edgeDT Hin all order R1 R2 flt R3) in H. destruct H as [x [Hx ->]]. exists x. split; [now left|]. destruct (isin edge i); auto.
  - apply (fin_spec over D parts partials edge edgeDT Hin all order R1 R2 flt R3 del R6 R7 grain tree start R8 fin R9) in H. destruct H as [x [Hx ->]]. exists x. split; [now right|]. destruct (_ && _); auto.
Qed.
Lemma run_inserted : NoDup inserted /\ forall i, In i inserted <-> exists s, holds (d_arr edgeDT) i s /\ x_id s <> s_inf /\ wanted parts partials edge s.
Proof.
  destruct R as [all order flt worder w del grain tree start fin joined R1 R2 R3 R4 R5 R6 R7 R8 R9 R10 R11 R12 [hull [R13 ->]] R14].
  destruct (inserted_spec over D parts partials edge edgeDT Hin all order R1 R2 flt R3 del R6 R7 grain tree start R8 fin R9) as [Nd H]. split; [eapply Permutation_NoDup; [symmetry|]; eauto|].
  intros i. rewrite <- H. split; apply Permutation_in; [|symmetry]; exact R10.
Qed.
Lemma run_hull i : In i (d_hull out) <-> ((exists p, In p partials /\ In i (d_hull p)) /\ ~ In i edge) \/
  exists s v, holds (d_arr edgeDT) i s /\ x_id s <> s_inf /\ wanted parts partials edge s /\ In v (x_verts s) /\ p_finite D v = false.
Proof.
  destruct R as [all order flt worder w del grain tree start fin joined R1 R2 R3 R4 R5 R6 R7 R8 R9 R10 R11 R12 [hull [R13 ->]] R14]. cbn [d_hull]. rewrite in_app_iff.
  destruct (join_spec over D parts partials edge edgeDT Hin all order R1 R2 flt R3 del R6 R7 grain tree start R8 fin R9 joined R12) as (_ & _ & ->).
  rewrite <- (hull_spec over D parts partials edge edgeDT Hin all order R1 R2 flt R3 del R6 R7 grain tree start R8 fin R9).
  destruct (flt_spec over D parts partials edge edgeDT Hin all order R1 R2 flt R3) as (_ & _ & _ & _ & Hh). rewrite Hh.
  assert (P : In i hull <-> In i (m_hull D parts (d_arr flt) del (v_log fin))) by (split; apply Permutation_in; [|symmetry]; exact R13). rewrite P. tauto.
Qed.

Hypothesis Hmark : forall p, In p partials -> (d_mark p + 2 < 256)%N.
Lemma run_table h i : In (h, i) table <->
  ((exists e s, In e edge /\ stored partials e s /\ In i (x_nbrs s) /\ i <> s_inf /\ ~ In i edge) /\ exists t d, stored partials i t /\ d < length (x_verts t) /\ face_fp over t d = Val h) \/
  exists s d, holds (d_arr edgeDT) i s /\ x_id s <> s_inf /\ wanted parts partials edge s /\ d < length (x_verts s) /\ face_fp over s d = Val h.
Proof.
  destruct R as [all order flt worder w del grain tree start fin joined R1 R2 R3 R4 R5 R6 R7 R8 R9 R10 R11 R12 [hull [R13 ->]] R14].
  assert (Hm : (d_mark flt + 2 < 256)%N).
  { destruct (flt_spec over D parts partials edge edgeDT Hin all order R1 R2 flt R3) as (_ & _ & -> & _). destruct (all_spec over D parts partials edge edgeDT Hin all R1) as (_ & _ & _ & _ & _ & [p [Hp ->]]). now apply Hmark. }
  rewrite <- (faces_spec over D parts partials edge edgeDT Hin all order R1 R2 flt R3 del R6 R7 grain tree start R8 fin R9).
  rewrite <- (where_spec over D parts partials edge edgeDT Hin all order R1 R2 flt R3 worder w R4 Hm R5). rewrite <- in_app_iff.
  split; apply Permutation_in; [|symmetry]; exact R11.
Qed.
Lemma run_marks id : (marks id <= d_mark out)%N /\ exists p, In p partials /\ d_mark out = N.max (d_mark p + 2) (d_mark edgeDT).
Proof.
  destruct R as [all order flt worder w del grain tree start fin joined R1 R2 R3 R4 R5 R6 R7 R8 R9 R10 R11 R12 [hull [R13 ->]] R14]. cbn [d_mark].
  destruct (flt_spec over D parts partials edge edgeDT Hin all order R1 R2 flt R3) as (_ & _ & Ef & _). destruct (all_spec over D parts partials edge edgeDT Hin all R1) as (_ & _ & _ & _ & _ & [p [Hp Ep]]).
  assert (Hm : (d_mark flt + 2 < 256)%N) by (rewrite Ef, Ep; now apply Hmark). destruct R12 as [_ [_ M]]. cbn [d_mark] in M. rewrite M.
  assert (Dm : ud_mark (d_mark flt) = (d_mark flt + 2)%N) by (unfold ud_mark, wrap; apply N.mod_small; lia). rewrite Dm. split; [|exists p; split; [exact Hp|]; congruence].
  rewrite R14. unfold m_marks. destruct (d_get (d_arr flt) id) as [y|] eqn:E1.
  - pose proof (w_marks_le over _ edge (d_mark flt) _ worder Hm (wm0_le over D parts partials edge edgeDT Hin all order R1 R2 flt R3) w R5 id). lia.
  - destruct (d_get (v_arr fin) id) as [y|] eqn:E2; [|lia]. destruct (fin_spec over D parts partials edge edgeDT Hin all order R1 R2 flt R3 del R6 R7 grain tree start R8 fin R9) as (Wn & _ & _ & _ & Hn).
    apply d_get_holds in E2; [|exact Wn]. apply Hn in E2. destruct E2 as [x [Hx ->]]. destruct (in_wf over D parts partials edge edgeDT Hin edgeDT ltac:(now left)) as [_ P].
    destruct (P id x Hx) as (_ & P7 & _). destruct (_ && _); cbn [killed x_mark]; lia.
Qed.
End Run.
