(** A step can always be made: each of its loops ends, so there are edge and merge runs. *)
From Coq Require Import Permutation Classical Sorted.
From Verif Require Import Outcome ListUtil WordsModel RangeModel BlockModel BlockProofs BlockSpec SimplexModel SimplexProofs Pool VisitModel VisitProofs EdgeModel EdgeSpec EdgeProofs WhereModel NbrModel NbrSpec NbrProofs MergeModel MergeSpec MergeProofs MergeUpdate GeoModel GeoSpec DelSpec StepModel TriSpec StepBase StepEdge StepJoin StepProofs.
Local Open Scope nat_scope.

(** ** Pools *)
Section Pool_.
Context {Sh Task : Type}.
Variable tstep : Sh -> Task -> tres Sh Task.
Notation pool := (pool Sh Task).
Definition head_next (b : pool) : pool :=
  match p_tasks b with
  | [] => b
  | t :: l => match tstep (p_sh b) t with TStep sh' next => mkp sh' (next ++ l) | TBad => b end
  end.
(** Taking the first task each time. *)
Lemma head_ends (P : pool -> Prop) a : P a ->
  (forall b t l, pexec tstep a b -> P b -> p_tasks b = t :: l -> exists sh' next, tstep (p_sh b) t = TStep sh' next /\ P (mkp sh' (next ++ l))) ->
  pterminates tstep a -> exists sh, pexec tstep a (mkp sh []).
Proof.
  intros Pa HP HT. apply NNPP. intros Hno.
  assert (Q : forall n, pexec tstep a (Nat.iter n head_next a) /\ P (Nat.iter n head_next a)).
  { induction n as [|n [E I]]; [split; [apply pexec_start|exact Pa]|]. cbn [Nat.iter nat_rect]. set (b := Nat.iter n head_next a) in *. change (nat_rect _ a (fun _ => head_next) n) with b.
    unfold head_next. destruct (p_tasks b) as [|t l] eqn:Et; [split; assumption|]. destruct (HP b t l E I Et) as (sh' & next & Es & I'). rewrite Es. split; [|exact I'].
    eapply pexec_step; [exact E|]. exists [], t, l, sh', next. auto. }
  apply (HT (fun n => Nat.iter n head_next a) eq_refl). intros n. destruct (Q n) as [E I]. cbn [Nat.iter nat_rect]. set (b := Nat.iter n head_next a) in *. change (nat_rect _ a (fun _ => head_next) n) with b.
  unfold head_next. destruct (p_tasks b) as [|t l] eqn:Et.
  - exfalso. apply Hno. exists (p_sh b). destruct b as [sh ts]. cbn [p_sh p_tasks] in *. now rewrite Et in E.
  - destruct (HP b t l E I Et) as (sh' & next & Es & _). rewrite Es. exists [], t, l, sh', next. auto.
Qed.
Lemma safe_ends a : psafe tstep a -> pterminates tstep a -> exists sh, pexec tstep a (mkp sh []).
Proof.
  intros HS. apply (head_ends (fun _ => True) a I). intros b t l Hb _ Et. destruct (tstep (p_sh b) t) as [sh' next|] eqn:E; [eauto|].
  exfalso. apply (HS b t Hb); [rewrite Et; now left|exact E].
Qed.
End Pool_.

(** ** Sorting *)
Section Sort_.
Context {A : Type}.
Variable key : A -> N.
Lemma sorted_ex : forall l : list A, exists l', Permutation l l' /\ StronglySorted (fun a b => (key a <= key b)%N) l'.
Proof.
  assert (Ins : forall a l, StronglySorted (fun a b => (key a <= key b)%N) l -> exists l', Permutation (a :: l) l' /\ StronglySorted (fun a b => (key a <= key b)%N) l').
  { intros a. induction l as [|b l IH]; intros Hs; [exists [a]; split; [reflexivity|repeat constructor]|]. inversion Hs as [|? ? Hs' Hb]; subst. destruct (N.le_gt_cases (key a) (key b)) as [Hle|Hlt].
    - exists (a :: b :: l). split; [reflexivity|]. constructor; [exact Hs|]. constructor; [exact Hle|]. eapply Forall_impl; [|exact Hb]. cbn beta. intros x Hx. lia.
    - destruct (IH Hs') as (l' & P & S'). exists (b :: l'). split; [rewrite perm_swap; now constructor|]. constructor; [exact S'|].
      apply Forall_forall. intros x Hx. apply (Permutation_in x (Permutation_sym P)) in Hx. rewrite Forall_forall in Hb. destruct Hx as [<-|Hx]; [lia|auto]. }
  induction l as [|a l (l' & P & S')]; [exists []; split; [reflexivity|constructor]|]. destruct (Ins a l' S') as (l2 & P2 & S2). exists l2. split; [rewrite <- P2; now constructor|exact S2].
Qed.
Lemma sorted_nth : forall l, StronglySorted (fun a b => (key a <= key b)%N) l -> forall i j a b, i < j -> nth_error l i = Some a -> nth_error l j = Some b -> (key a <= key b)%N.
Proof.
  induction l as [|x l IH]; intros Hs i j a b Hij Ha Hb; [destruct i; discriminate|]. inversion Hs as [|? ? Hs' Hx]; subst. destruct j as [|j]; [lia|]. destruct i as [|i]; cbn [nth_error] in *.
  - injection Ha as <-. rewrite Forall_forall in Hx. apply Hx. eapply nth_error_In; eauto.
  - apply (IH Hs' i j); auto. lia.
Qed.
End Sort_.
Lemma merge_ex {A} (a b : list (block A)) : exists c, ba_merge a b c.
Proof. destruct (sorted_ex (fun x : block A => b_min x) (a ++ b)) as (c & P & S). exists c. split; [exact P|]. exact (sorted_nth _ c S). Qed.
Lemma d_merge_ex a b h : exists c, d_merge a b h c.
Proof. destruct (merge_ex (d_arr a) (d_arr b)) as [c Hc]. exists (mkd c (d_hull a ++ (if h then d_hull b else [])) (N.max (d_mark a) (d_mark b))). split; [exact Hc|]. split; reflexivity. Qed.
Lemma merge_rest_ex : forall r a, exists d, merge_rest a r d.
Proof. induction r as [|b r IH]; intros a; [exists a; constructor|]. destruct (d_merge_ex a b true) as [c Hc]. destruct (IH c) as [d Hd]. exists d. econstructor; eauto. Qed.
Lemma fp_sorted_ex l edge : exists del, Permutation del edge /\ fp_sorted l del.
Proof.
  destruct (sorted_ex (fun i => match d_get l i with Some s => x_fp s | None => 0%N end) edge) as (del & P & S). exists del. split; [now symmetry|].
  intros i j a b s t Hij Ha Hb Hs Ht. pose proof (sorted_nth _ del S i j a b Hij Ha Hb) as H. cbn beta in H. now rewrite Hs, Ht in H.
Qed.
Lemma rewritten_wf f l : wf l -> exists l', rewritten f l l'.
Proof.
  intros W. destruct (exact_size_spec l W) as (ids & Hn & Hi & _). assert (Hi' : forall i, In i ids <-> exists s, holds l i s).
  { intros i. rewrite Hi. split; intros [x Hx]; exists x; now apply holds_cell. }
  destruct (set_cells_spec f ids l W Hn) as (l' & E & _); [intros i; apply Hi'|]. exists l', ids. auto.
Qed.
Lemma stored_ids l : wf l -> exists ids, forall i s, d_get l i = Some s -> In i ids.
Proof. intros W. destruct (exact_size_spec l W) as (ids & _ & Hi & _). exists ids. intros i s E. apply Hi. exists s. apply holds_cell. now apply (d_get_holds l i s W). Qed.

(** ** The merge *)
Section Merge_.
Variable over : N -> N.
Variable D : N.
Variable parts : list part.
Variable partials : list dsims.
Variable edge : list N.
Variable edgeDT : dsims.
Hypothesis Hin : merge_input over D parts partials edge edgeDT.
Hypothesis Hm : forall p, In p partials -> (d_mark p + 2 < 256)%N.
Hypothesis Hn : forall e s n, In e edge -> stored partials e s -> In n (x_nbrs s) -> n <> s_inf -> exists t, stored partials n t.
Lemma merge_run_ex : exists out inserted table marks, merge_run over D parts partials edge edgeDT out inserted table marks.
Proof.
  assert (exists all, merge_all partials all) as [all Ha].
  { pose proof (mi_some _ _ _ _ _ _ Hin) as Hs. destruct partials as [|p r]; [contradiction|]. apply merge_rest_ex. }
  destruct (filter_ok over D parts partials edge edgeDT Hin all edge Ha (Permutation_refl _)) as [flt Hf].
  assert (Hfm : (d_mark flt + 2 < 256)%N).
  { destruct (flt_spec over D parts partials edge edgeDT Hin all edge Ha (Permutation_refl _) flt Hf) as (_ & _ & -> & _). destruct (all_spec over D parts partials edge edgeDT Hin all Ha) as (_ & _ & _ & _ & _ & p & Hp & ->). auto. }
  destruct (safe_ends _ _ (where_safe over D parts partials edge edgeDT Hin all edge Ha (Permutation_refl _) flt Hf edge (Permutation_refl _) Hfm Hn) (where_ends over edge flt edge)) as [w Hw].
  destruct (fp_sorted_ex (d_arr flt) edge) as (del & Pd & Sd).
  destruct (in_wf over D parts partials edge edgeDT Hin edgeDT ltac:(now left)) as [We _].
  destruct (v_start_ok d_valid (m_body parts (d_arr flt) del) (d_arr edgeDT) We 1 Run) as (start & Hs & _).
  destruct (safe_ends _ _ (loop_safe over D parts partials edge edgeDT Hin all edge Ha (Permutation_refl _) flt Hf del Pd Sd 1%N Run start Hs) (loop_ends over D parts partials edge edgeDT Hin all edge Ha (Permutation_refl _) flt Hf del Pd Sd 1%N Run start Hs)) as [fin Hfin].
  destruct (d_merge_ex (mkd (d_arr flt) (d_hull flt) (ud_mark (d_mark flt))) (mkd (v_arr fin) (d_hull edgeDT) (d_mark edgeDT)) false) as [joined Hj].
  exists (mkd (d_arr joined) (d_hull joined ++ m_hull D parts (d_arr flt) del (v_log fin)) (d_mark joined)), (m_inserted parts (d_arr flt) del (v_log fin)), (w_tab w ++ m_faces over parts (d_arr flt) del (v_log fin)), (m_marks (d_arr flt) (v_arr fin) w).
  econstructor; [exact Ha|apply (Permutation_refl edge)|exact Hf|apply (Permutation_refl edge)|exact Hw|exact Pd|exact Sd|exact Hs|exact Hfin|apply Permutation_refl|apply Permutation_refl|exact Hj| |reflexivity].
  eexists. split; [apply Permutation_refl|reflexivity].
Qed.

(** ** The update *)
Variable out : dsims.
Variable inserted : list N.
Variable table : list (N * N).
Variable marks : N -> N.
Hypothesis R : merge_run over D parts partials edge edgeDT out inserted table marks.
Hypothesis Hroom : (d_mark out + 2 < 256)%N.
Notation get := (d_get (d_arr out)).
Definition tbl_of (h : N) : list N := map snd (filter (fun e => (fst e =? h)%N) table).
Lemma tbl_of_spec h c : In c (tbl_of h) <-> In (h, c) table.
Proof.
  unfold tbl_of. rewrite in_map_iff. split.
  - intros ([h' c'] & <- & H). apply filter_In in H as [H E]. cbn [fst snd] in *. apply N.eqb_eq in E. now subst h'.
  - intros H. exists (h, c). split; [reflexivity|]. apply filter_In. split; [exact H|]. cbn [fst]. apply N.eqb_refl.
Qed.
Definition idle (t : utask) : Prop := exists id, t = UItem id.
Definition only_head (a : pool ush utask) : Prop := match p_tasks a with [] => True | _ :: l => forall t, In t l -> idle t end.
Lemma only_head_excl a : only_head a -> exclusive a.
Proof.
  intros H l1 t l2 id x E Ht Hx Hw. unfold only_head in H. rewrite E in H. destruct l1 as [|y l1]; cbn [app] in *.
  - destruct (H x Hx) as [i ->]. exact Hw.
  - destruct (H t) as [i ->]; [apply in_or_app; right; now left|exact Ht].
Qed.
Lemma u_ends nbr0 : exists sh, pexec (u_step over get tbl_of (d_mark out)) (u_start nbr0 marks inserted) (mkp sh []).
Proof.
  pose proof (out_sorted over D parts partials edge edgeDT Hin out inserted table marks R) as Hso.
  pose proof (inserted_live over D parts partials edge edgeDT Hin out inserted table marks R) as Hli.
  assert (Hma : forall id, (marks id <= d_mark out)%N) by (intros id; apply (run_marks over D parts partials edge edgeDT Hin out inserted table marks R Hm id)).
  set (a := u_start nbr0 marks inserted). set (st := u_step over get tbl_of (d_mark out)).
  apply (head_ends st (fun b => only_head b /\ pexec_in st exclusive a b)).
  - assert (H : only_head a) by (unfold only_head, a, u_start; cbn [p_tasks]; destruct inserted as [|i l]; cbn [map]; [exact I|]; intros t Ht; apply in_map_iff in Ht; destruct Ht as (j & <- & _); now exists j).
    split; [exact H|]. constructor. now apply only_head_excl.
  - intros b t l Hb [Ho Hx] Et.
    assert (Hsafe : st (p_sh b) t <> TBad) by (apply (u_exclusive_safe over get tbl_of (d_mark out) nbr0 marks inserted Hso Hli Hroom Hma b t Hx); rewrite Et; now left).
    destruct (st (p_sh b) t) as [sh' next|] eqn:Es; [|contradiction]. exists sh', next. split; [reflexivity|].
    assert (Ho' : only_head (mkp sh' (next ++ l))).
    { unfold only_head in *. rewrite Et in Ho. cbn [p_tasks].
      assert (Hl : forall n, In n l -> idle n) by exact Ho. clear Ho.
      assert (Hnx : next = [] \/ (exists x, next = [x]) \/ exists x c, next = [x; UItem c]).
      { clear - Es. unfold st in Es. destruct t; cbn [u_step] in Es.
        - destruct (get id); [|discriminate]. destruct (_ =? _)%N; injection Es as _ <-; eauto.
        - injection Es as _ <-; eauto.
        - destruct (get id); [|discriminate]. destruct (_ <? _); injection Es as _ <-; eauto.
        - injection Es as _ <-; eauto.
        - destruct (get id), (get (u_nbr (p_sh b) id d)); try discriminate. destruct (adj _ _); try discriminate. injection Es as _ <-; eauto.
        - destruct (get id); [|discriminate]. destruct (face_fp _ _ _); try discriminate. injection Es as _ <-; eauto.
        - destruct cs as [|c cs]; [injection Es as _ <-; eauto|]. destruct (get id); [|discriminate]. destruct (accepts _ _ _ _); try discriminate. injection Es as _ <-; eauto.
        - injection Es as _ <-; eauto.
        - injection Es as _ <-; eauto.
        - injection Es as _ <-; eauto.
        - injection Es as _ <-; eauto 6. }
      destruct Hnx as [->|[(x & ->)|(x & c & ->)]]; cbn [app].
      - destruct l as [|y l]; [exact I|]. intros n H. apply Hl. now right.
      - exact Hl.
      - intros n [<-|H]; [now exists c|auto]. }
    split; [exact Ho'|]. eapply pexec_in_step; [exact Hx| |now apply only_head_excl]. exists [], t, l, sh', next. auto.
  - assert (W : wf (d_arr out)) by (eapply out_wf; eauto). destruct (stored_ids (d_arr out) W) as [ids Hids].
    apply (u_terminates over get tbl_of (d_mark out) nbr0 marks inserted Hso Hli Hroom Hma ids). intros id s [H _]. eauto.
Qed.
End Merge_.

(** ** Edge and join *)
Section Step_.
Variable over : N -> N.
Variable D : N.
Hypothesis HD : (D <= 30)%N.
Variable co : N -> vec.
Variable hgt : N -> R.
Notation Dn := (N.to_nat D).
Notation tri := (triangulation over D co hgt).

Lemma edge_run_ex np pt hits ps : length ps = np -> (forall i, i < np -> tri (pt i) (p_at ps i)) -> (forall i, i < np -> (d_mark (p_at ps i) + 2 < 256)%N) ->
  exists ps' edge W, edge_run D hits ps ps' edge W.
Proof.
  intros Hlen Ht Hm. subst np. pose proof (e_linked over D co hgt (length ps) pt ps Ht) as Hl. assert (Hs : forall i e, i < length ps -> (p_marks ps i e <= MergeModel.d_mark (p_at ps i))%N).
  { intros i e Hi. unfold p_marks. destruct (p_get ps i e) as [s|] eqn:E; [|lia]. apply (get_iff over D co hgt (length ps) pt ps Ht) in E; [|exact Hi]. destruct (tr_proper _ _ _ _ _ _ (Ht i Hi) e s E) as [_ [H _]]. exact H. }
  assert (exists ids, forall p id s, p < length ps -> p_get ps p id = Some s -> In id ids) as [ids Hids].
  { assert (X : forall n, n <= length ps -> exists ids, forall p id s, p < n -> p_get ps p id = Some s -> In id ids).
    { induction n as [|n IH]; intros Hn; [exists []; intros p id s Hp; lia|]. destruct (IH ltac:(lia)) as [ids Hids]. destruct (stored_ids (d_arr (p_at ps n)) (tr_wf _ _ _ _ _ _ (Ht n ltac:(lia)))) as [ids' Hids'].
      exists (ids ++ ids'). intros p id s Hp E. apply in_or_app. destruct (Nat.eq_dec p n) as [->|Hne]; [right; eapply Hids'; eauto|left; apply (Hids p id s); [lia|exact E]]. }
    apply (X (length ps) (le_n _)). }
  destruct (safe_ends _ _ (e_safe D HD (length ps) (p_get ps) _ _ hits (p_marks ps) Hl Hm Hs) (e_terminates D HD (length ps) (p_get ps) _ _ hits (p_marks ps) Hl Hm Hs ids Hids)) as [sh Hex].
  assert (X : forall n, n <= length ps -> exists ps', length ps' = n /\ forall p, p < n -> rewritten (fun i => with_mark (e_marks sh p i)) (d_arr (p_at ps p)) (d_arr (p_at ps' p)) /\
       d_hull (p_at ps' p) = d_hull (p_at ps p) /\ MergeModel.d_mark (p_at ps' p) = EdgeModel.d_mark (fun p => MergeModel.d_mark (p_at ps p)) p).
  { induction n as [|n IH]; intros Hn; [exists []; split; [reflexivity|intros p Hp; lia]|]. destruct (IH ltac:(lia)) as (ps' & Hl' & Hp').
    destruct (rewritten_wf (fun i => with_mark (e_marks sh n i)) (d_arr (p_at ps n)) (tr_wf _ _ _ _ _ _ (Ht n ltac:(lia)))) as [l Hr].
    set (q := mkd l (d_hull (p_at ps n)) (EdgeModel.d_mark (fun p => MergeModel.d_mark (p_at ps p)) n)).
    exists (ps' ++ [q]). split; [rewrite app_length; cbn [length]; lia|]. intros p Hp. destruct (Nat.eq_dec p n) as [->|Hne].
    - assert (E : p_at (ps' ++ [q]) n = q) by (unfold p_at; rewrite app_nth2 by lia; now rewrite Hl', Nat.sub_diag). rewrite E. split; [exact Hr|split; reflexivity].
    - assert (E : p_at (ps' ++ [q]) p = p_at ps' p) by (unfold p_at; apply app_nth1; lia). rewrite E. apply Hp'. lia. }
  destruct (X (length ps) (le_n _)) as (ps' & Hl' & Hp').
  exists ps', (nodup N.eq_dec (e_simp sh)), (nodup N.eq_dec (e_pts sh)). econstructor; eauto using NoDup_nodup; intros x; apply nodup_In.
Qed.

Variable parts : list part.
Hypothesis Hnum : forall k id pts, nth_error parts k = Some (id, pts) -> id = k.
Hypothesis Hnp : 0 < length parts.
Variable all : list N.
Hypothesis Hdiv : division Dn co hgt (p_finite D) (length parts) (points_of parts) all.
Lemma join_run_ex ps edge W edgeDT : length ps = length parts -> (forall i, i < length parts -> tri (points_of parts i) (p_at ps i)) ->
  edge_ok D co hgt (length parts) (points_of parts) all (p_at ps) edge W -> tri W edgeDT -> ForallOrdPairs no_shared (edgeDT :: ps) ->
  (N.of_nat (blocks (edgeDT :: ps)) < 2 ^ 32)%N -> (forall i, i < length parts -> (MergeModel.d_mark (p_at ps i) + 4 < 256)%N) -> (MergeModel.d_mark edgeDT + 2 < 256)%N ->
  exists out, join_run over D parts ps edge edgeDT out.
Proof.
  intros Hlen Htri He Hw Hap Hbl Hr Hr'.
  pose proof (j_input over D HD co hgt parts Hnum all Hdiv ps Hlen Hnp Htri edge W He edgeDT Hw Hap Hbl Hr Hr') as Hin.
  assert (Hm : forall p, In p ps -> (MergeModel.d_mark p + 4 < 256)%N) by (intros p Hp; apply (In_nth _ _ no_d) in Hp as [k [Hk Ek]]; rewrite Hlen in Hk; pose proof (Hr k Hk) as H; unfold p_at in H; now rewrite Ek in H).
  assert (Hm2 : forall p, In p ps -> (MergeModel.d_mark p + 2 < 256)%N) by (intros p Hp; specialize (Hm p Hp); lia).
  destruct (merge_run_ex over D parts ps edge edgeDT Hin Hm2) as (m & inserted & table & marks & R).
  { intros e s n Hed Hs Hn Hf. destruct (eo_stored _ _ _ _ _ _ _ _ _ He e Hed) as (i & x & Hi & Hx).
    assert (s = x). { eapply (stored_fun over D parts ps edge edgeDT Hin e); [exact Hs|]. exists (p_at ps i). split; [apply nth_In; lia|apply Hx]. } subst s.
    apply In_nth_error in Hn as [k Ek]. destruct (tr_nbrs _ _ _ _ _ _ (Htri i Hi) e x k n Hx Ek) as [[C _]|(t & Ht & _)]; [contradiction|]. exists t, (p_at ps i). split; [apply nth_In; lia|apply Ht]. }
  assert (Hro : (MergeModel.d_mark m + 2 < 256)%N) by (destruct (run_marks over D parts ps edge edgeDT Hin m inserted table marks R Hm2 0%N) as [_ [p [Hp ->]]]; pose proof (Hm p Hp); lia).
  destruct (u_ends over D parts ps edge edgeDT Hin Hm2 m inserted table marks R Hro (cell_nbr (d_arr m))) as [sh Hu].
  destruct (rewritten_wf (fun i s => with_mark (u_marks sh i) (with_nbrs (u_nbr sh i) s)) (d_arr m)) as [cells Hc]; [eapply out_wf; eauto|].
  eexists. econstructor; [exact R|exact (tbl_of_spec table)|apply Permutation_refl|exact Hu|exact Hc|reflexivity].
Qed.
End Step_.
