(** C43: the neighbor update. *)
From Verif Require Import Outcome ListUtil WordsModel SimplexModel SimplexProofs Pool NbrModel NbrSpec NbrProofs.
From Coq Require Import Sorted.
Local Open Scope nat_scope.

(** When the update is through, for every execution: each simplex looked at has in each slot its old neighbor if that one still exists
    and still shares a face, or else a simplex listed for the face that shares just that face, or infinity if none is listed; and the
    slots of the other simplices are as before.
    Hypotheses: a cell either has the infinite id (deleted, or never filled) or holds a simplex with sorted vertices under its id; those to
    check are of the second kind; marks
    are not above the mark of the triangulation, which has room for two more. *)
Theorem C43_result : forall over get tbl mark0 nbr0 m0 toCheck,
  (forall id s, get id = Some s -> id <> s_inf /\ (x_id s = s_inf \/ x_id s = id /\ sorted (x_verts s) /\ x_verts s <> [])) ->
  (forall id, In id toCheck -> exists s, live get id s) -> (mark0 + 2 < 256)%N -> (forall id, m0 id <= mark0)%N ->
  forall sh, pexec (u_step over get tbl mark0) (u_start nbr0 m0 toCheck) (mkp sh []) ->
  (forall id s d, visited over get tbl nbr0 toCheck id -> live get id s -> d < length (x_verts s) ->
     (good get nbr0 id d /\ u_nbr sh id d = nbr0 id d) \/
     (~ good get nbr0 id d /\ listed over tbl s d (u_nbr sh id d) /\ fits get s d (u_nbr sh id d)) \/
     (~ good get nbr0 id d /\ u_nbr sh id d = s_inf /\ forall c, listed over tbl s d c -> ~ fits get s d c)) /\
  (forall id d, ~ visited over get tbl nbr0 toCheck id -> u_nbr sh id d = nbr0 id d).
Proof. exact u_result. Qed.
Print Assumptions C43_result.

(** If no face is shared by more than two simplices, old neighbors that still exist sit in the right slot and were mutual, and the table
    lists every simplex looked at for each of its faces, then each simplex looked at has in each slot a simplex sharing exactly the face
    opposite to that vertex, which has it as its neighbor in turn; or infinity, when no simplex looked at shares the face. *)
Theorem C43_mutual : forall over get tbl mark0 nbr0 m0 toCheck,
  (forall id s, get id = Some s -> id <> s_inf /\ (x_id s = s_inf \/ x_id s = id /\ sorted (x_verts s) /\ x_verts s <> [])) ->
  (forall id, In id toCheck -> exists s, live get id s) -> (mark0 + 2 < 256)%N -> (forall id, m0 id <= mark0)%N ->
  forall sh, one_each get -> old_right get nbr0 -> all_listed over get tbl nbr0 toCheck -> uniform over get ->
  pexec (u_step over get tbl mark0) (u_start nbr0 m0 toCheck) (mkp sh []) ->
  forall id s d, visited over get tbl nbr0 toCheck id -> live get id s -> d < length (x_verts s) ->
  (u_nbr sh id d = s_inf /\ forall c, visited over get tbl nbr0 toCheck c -> ~ fits get s d c) \/
  (exists t d', live get (u_nbr sh id d) t /\ opposite s d t /\ opposite t d' s /\ u_nbr sh (u_nbr sh id d) d' = id).
Proof. exact u_mutual. Qed.
Print Assumptions C43_mutual.

(** No execution goes on for ever, ... *)
Theorem C43_terminates : forall over get tbl mark0 nbr0 m0 toCheck,
  (forall id s, get id = Some s -> id <> s_inf /\ (x_id s = s_inf \/ x_id s = id /\ sorted (x_verts s) /\ x_verts s <> [])) ->
  (forall id, In id toCheck -> exists s, live get id s) -> (mark0 + 2 < 256)%N -> (forall id, m0 id <= mark0)%N ->
  forall ids, (forall id s, live get id s -> In id ids) -> pterminates (u_step over get tbl mark0) (u_start nbr0 m0 toCheck).
Proof. exact u_terminates. Qed.
Print Assumptions C43_terminates.

(** ... and the only step that can be undefined is the third read of a slot, when another task working on the same simplex has
    reset the slot since the second. *)
Theorem C43_safe_partial : forall over get tbl mark0 nbr0 m0 toCheck,
  (forall id s, get id = Some s -> id <> s_inf /\ (x_id s = s_inf \/ x_id s = id /\ sorted (x_verts s) /\ x_verts s <> [])) ->
  (forall id, In id toCheck -> exists s, live get id s) -> (mark0 + 2 < 256)%N -> (forall id, m0 id <= mark0)%N ->
  forall a t, pexec (u_step over get tbl mark0) (u_start nbr0 m0 toCheck) a -> In t (p_tasks a) -> u_step over get tbl mark0 (p_sh a) t = TBad ->
  exists id d, t = UAdj id d /\ u_nbr (p_sh a) id d = s_inf.
Proof. exact u_bad. Qed.
Print Assumptions C43_safe_partial.

(** As long as no simplex is worked on by two tasks at once, no step is undefined. *)
Theorem C43_exclusive_safe : forall over get tbl mark0 nbr0 m0 toCheck,
  (forall id s, get id = Some s -> id <> s_inf /\ (x_id s = s_inf \/ x_id s = id /\ sorted (x_verts s) /\ x_verts s <> [])) ->
  (forall id, In id toCheck -> exists s, live get id s) -> (mark0 + 2 < 256)%N -> (forall id, m0 id <= mark0)%N ->
  forall a t, pexec_in (u_step over get tbl mark0) exclusive (u_start nbr0 m0 toCheck) a -> In t (p_tasks a) -> u_step over get tbl mark0 (p_sh a) t <> TBad.
Proof. exact u_exclusive_safe. Qed.
Print Assumptions C43_exclusive_safe.

(** A case: the triangles 10, 11, 12 form a strip; 13 is deleted.  The table lists 10 and 11. *)
Definition ov (_ : N) : N := 0.
Definition tri (id : N) (vs : list N) : simplex := mks id vs [] (gen_fp ov vs) 0.
Definition ex_get (id : N) : option simplex :=
  if (id =? 10)%N then Some (tri 10 [1; 2; 3]%N) else if (id =? 11)%N then Some (tri 11 [2; 3; 4]%N)
  else if (id =? 12)%N then Some (tri 12 [3; 4; 5]%N) else if (id =? 13)%N then Some (tri s_inf [1; 3; 6]%N) else None.
Definition ex_tbl_of (l : list N) (h : N) : list N :=
  filter (fun id => match ex_get id with
                    | Some s => existsb (fun d => match face_fp ov s d with Val h' => (h' =? h)%N | _ => false end) [0; 1; 2]
                    | None => false
                    end) l.
Definition ex_nbr0 (id : N) (d : nat) : N :=
  if (id =? 10)%N then match d with 1 => 13%N | _ => s_inf end
  else if (id =? 11)%N then match d with 0 => 12%N | 2 => 13%N | _ => s_inf end
  else if (id =? 12)%N then match d with 2 => 11%N | _ => s_inf end else s_inf.
Lemma ex_cases id s : ex_get id = Some s -> (id = 10%N /\ s = tri 10 [1; 2; 3]%N) \/ (id = 11%N /\ s = tri 11 [2; 3; 4]%N) \/ (id = 12%N /\ s = tri 12 [3; 4; 5]%N) \/ (id = 13%N /\ s = tri s_inf [1; 3; 6]%N).
Proof.
  unfold ex_get. destruct (N.eqb_spec id 10) as [->|_]; [intros H; injection H as <-; auto|]. destruct (N.eqb_spec id 11) as [->|_]; [intros H; injection H as <-; auto|].
  destruct (N.eqb_spec id 12) as [->|_]; [intros H; injection H as <-; auto|]. destruct (N.eqb_spec id 13) as [->|_]; [intros H; injection H as <-; auto 6|discriminate].
Qed.
Lemma ex_live id s : live ex_get id s <-> (id = 10%N /\ s = tri 10 [1; 2; 3]%N) \/ (id = 11%N /\ s = tri 11 [2; 3; 4]%N) \/ (id = 12%N /\ s = tri 12 [3; 4; 5]%N).
Proof.
  unfold live. split.
  - intros [E [Hx Hi]]. apply ex_cases in E. destruct E as [H|[H|[H|[-> ->]]]]; auto. discriminate Hx.
  - intros [[-> ->]|[[-> ->]|[-> ->]]]; (split; [reflexivity|split; [reflexivity|discriminate]]).
Qed.
Lemma ex_wf : forall id s, ex_get id = Some s -> id <> s_inf /\ (x_id s = s_inf \/ x_id s = id /\ sorted (x_verts s) /\ x_verts s <> []).
Proof.
  intros id s E. apply ex_cases in E. destruct E as [[-> ->]|[[-> ->]|[[-> ->]|[-> ->]]]];
    (split; [discriminate|]); [right|right|right|now left]; (split; [reflexivity|]; split; [repeat constructor|discriminate]).
Qed.
Definition oppb (s : simplex) (d : nat) (t : simplex) : bool :=
  match nth_error (x_verts s) d with None => false | Some v => forallb (fun w => Bool.eqb (isin (x_verts t) w) (negb (w =? v)%N)) (x_verts s) end.
Lemma oppb_spec s d t : oppb s d t = true <-> opposite s d t.
Proof.
  unfold oppb, opposite. destruct (nth_error (x_verts s) d) as [v|]; [|split; [discriminate|intros [v [H _]]; discriminate]]. rewrite forallb_forall. split.
  - intros H. exists v. split; [reflexivity|]. intros w Hw. specialize (H w Hw). apply Bool.eqb_prop in H. rewrite <- isin_In, H, negb_true_iff. apply N.eqb_neq.
  - intros [v' [E H]] w Hw. injection E as <-. specialize (H w Hw). rewrite <- isin_In in H. apply Bool.eqb_true_iff. destruct (isin (x_verts t) w), (N.eqb_spec w v); cbn [negb]; try reflexivity; exfalso.
    + now apply (proj1 H eq_refl).
    + assert (false = true) by now apply H. discriminate.
Qed.
Lemma ex_one : one_each ex_get.
Proof.
  intros id s d c c' Hl [_ [t [Hc Ho]]] [_ [t' [Hc' Ho']]]. apply oppb_spec in Ho, Ho'. apply ex_live in Hl, Hc, Hc'.
  destruct d as [|[|[|d]]]; destruct Hl as [[-> ->]|[[-> ->]|[-> ->]]]; destruct Hc as [[-> ->]|[[-> ->]|[-> ->]]]; destruct Hc' as [[-> ->]|[[-> ->]|[-> ->]]];
    try reflexivity; exfalso; (discriminate Ho || discriminate Ho' || (unfold oppb in Ho; cbn [tri x_verts nth_error] in Ho; destruct d; discriminate Ho)).
Qed.
Lemma ex_old : old_right ex_get ex_nbr0.
Proof.
  intros id s d t e Hl Hd Ht Ho. apply oppb_spec in Ho. apply ex_live in Hl. pose proof Ht as Ht'. apply ex_live in Ht'.
  destruct Hl as [[-> ->]|[[-> ->]|[-> ->]]]; cbn [tri x_verts length] in Hd; destruct d as [|[|[|d]]]; try lia; cbn in Ht'; destruct Ht' as [[E ->]|[[E ->]|[E ->]]]; try discriminate E;
    (split; [now apply oppb_spec|]); [exists 2|exists 0]; (split; [cbn [tri x_verts length]; lia|reflexivity]).
Qed.
Lemma ex_uniform : uniform ov ex_get.
Proof.
  intros id s Hl. apply ex_live in Hl. split; [destruct Hl as [[-> ->]|[[-> ->]|[-> ->]]]; reflexivity|]. intros id' s' Hl'. apply ex_live in Hl'.
  destruct Hl as [[-> ->]|[[-> ->]|[-> ->]]]; destruct Hl' as [[-> ->]|[[-> ->]|[-> ->]]]; reflexivity.
Qed.
Lemma ex_visited id : visited ov ex_get (ex_tbl_of [10; 11]%N) ex_nbr0 [10%N] id -> id = 10%N \/ id = 11%N.
Proof.
  intros H. destruct H as [id [<-|[]]|id s d c _ _ _ [h [_ Hin]] _]; [now left|]. unfold ex_tbl_of in Hin. apply filter_In in Hin. destruct Hin as [[<-|[<-|[]]] _]; auto.
Qed.
Lemma ex_all_listed : all_listed ov ex_get (ex_tbl_of [10; 11]%N) ex_nbr0 [10%N].
Proof.
  intros id s d Hv Hl Hd. apply ex_live in Hl. apply ex_visited in Hv. destruct Hv as [-> | ->]; destruct Hl as [[E ->]|[[E ->]|[E ->]]]; try discriminate E; cbn [tri x_verts length] in Hd;
    destruct d as [|[|[|d]]]; try lia; (eexists; split; [reflexivity|]; vm_compute; auto).
Qed.
Example C43_ex : exists sh, pexec (u_step ov ex_get (ex_tbl_of [10; 11]%N) 3) (u_start ex_nbr0 (fun _ => 3%N) [10%N]) (mkp sh []) /\
  map (u_nbr sh 10%N) [0; 1; 2] = [11%N; s_inf; s_inf] /\ map (u_nbr sh 11%N) [0; 1; 2] = [12%N; s_inf; 10%N] /\
  visited ov ex_get (ex_tbl_of [10; 11]%N) ex_nbr0 [10%N] 11.
Proof.
  assert (E : exists sh, prun (u_step ov ex_get (ex_tbl_of [10; 11]%N) 3) (u_start ex_nbr0 (fun _ => 3%N) [10%N]) (repeat 0 39) = Some (mkp sh []) /\
    map (u_nbr sh 10%N) [0; 1; 2] = [11%N; s_inf; s_inf] /\ map (u_nbr sh 11%N) [0; 1; 2] = [12%N; s_inf; 10%N]).
  { eexists. split; [vm_compute; reflexivity|]. split; vm_compute; reflexivity. }
  destruct E as [sh [E [E1 E2]]]. exists sh. split; [eapply prun_exec; [apply pexec_start|exact E]|]. split; [exact E1|]. split; [exact E2|].
  assert (L10 : live ex_get 10 (tri 10 [1; 2; 3]%N)) by (apply ex_live; auto). assert (L11 : live ex_get 11 (tri 11 [2; 3; 4]%N)) by (apply ex_live; auto).
  apply (visited_found _ _ _ _ _ 10%N (tri 10 [1; 2; 3]%N) 0 11%N); [apply visited_given; now left|exact L10| | |].
  - intros [s [t [d' [_ [[_ [_ H]] _]]]]]. now apply H.
  - eexists. split; [reflexivity|]. vm_compute. auto.
  - split; [discriminate|]. exists (tri 11 [2; 3; 4]%N). split; [exact L11|]. now apply oppb_spec.
Qed.

(** An execution in which no simplex is worked on twice at a time: one item after the other. *)
Definition busy (t : utask) : bool := match t with UItem _ => false | _ => true end.
Definition calm (a : pool ush utask) : bool := Nat.leb (length (filter busy (p_tasks a))) 1.
Lemma calm_exclusive a : calm a = true -> exclusive a.
Proof.
  unfold calm. rewrite Nat.leb_le. intros H l1 t l2 id x E Ht Hx Hw. rewrite E in H.
  assert (Bt : busy t = true) by (destruct t; [destruct Ht|reflexivity..]). assert (Bx : busy x = true) by (destruct x; [destruct Hw|reflexivity..]).
  assert (Hf : In x (filter busy l1 ++ filter busy l2)) by (apply in_app_or in Hx; apply in_or_app; rewrite !filter_In; tauto).
  rewrite filter_app, app_length in H. cbn [filter] in H. rewrite Bt in H. cbn [length] in H. apply in_app_or in Hf. destruct Hf as [Hf|Hf]; [destruct (filter busy l1)|destruct (filter busy l2)]; try destruct Hf; cbn [length] in H; lia.
Qed.
Lemma calm_run step a0 : forall n a b, pexec_in step exclusive a0 a -> (forall k c, k <= n -> prun step a (repeat 0 k) = Some c -> calm c = true) -> prun step a (repeat 0 n) = Some b -> pexec_in step exclusive a0 b.
Proof.
  induction n as [|n IH]; intros a b Ha Hc E; cbn [repeat prun] in E; [injection E as <-; exact Ha|].
  destruct (nth_error (p_tasks a) 0) as [t|] eqn:Et; [|discriminate]. destruct (step (p_sh a) t) as [sh' next|] eqn:Es; [|discriminate].
  refine (IH _ b _ _ E).
  - eapply pexec_in_step; [exact Ha| |].
    + destruct (p_tasks a) as [|t' l] eqn:El; [discriminate|]. cbn [nth_error] in Et. injection Et as ->. exists [], t, l, sh', next. auto.
    + apply calm_exclusive. apply (Hc 1); [lia|]. cbn [repeat prun]. rewrite Et, Es. reflexivity.
  - intros k c Hk Ek. apply (Hc (S k)); [lia|]. cbn [repeat prun]. rewrite Et, Es. exact Ek.
Qed.
Example C43_exclusive_ex : exists sh, pexec_in (u_step ov ex_get (ex_tbl_of [10; 11]%N) 3) exclusive (u_start ex_nbr0 (fun _ => 3%N) [10%N]) (mkp sh []).
Proof.
  assert (E : exists sh, prun (u_step ov ex_get (ex_tbl_of [10; 11]%N) 3) (u_start ex_nbr0 (fun _ => 3%N) [10%N]) (repeat 0 39) = Some (mkp sh [])) by (eexists; vm_compute; reflexivity).
  destruct E as [sh E]. exists sh. refine (calm_run _ _ 39 _ _ (pexec_in_start _ _ _ _) _ E); [now apply calm_exclusive|].
  assert (C : forallb (fun k => match prun (u_step ov ex_get (ex_tbl_of [10; 11]%N) 3) (u_start ex_nbr0 (fun _ => 3%N) [10%N]) (repeat 0 k) with Some c => calm c | None => true end) (seq 0 40) = true) by (vm_compute; reflexivity).
  intros k c Hk Ec. rewrite forallb_forall in C. specialize (C k ltac:(apply in_seq; lia)). rewrite Ec in C. exact C.
Qed.

(** Undefined behaviour is reachable: the triangles 10, 11, 12 with all neighbors unknown and all listed.  11 is to be checked and is found by
    both 10 and 12, which test its mark before either sets it, so that three tasks work on 11.  The third finds its neighbor 12 in slot 0 (written
    by the second) to be stored; the first resets the slot; the third then asks for the simplex with the infinite id. *)
Definition race_sched : list nat := repeat 1 8 ++ repeat 2 15 ++ [1; 1; 3; 3; 0; 2; 4; 0; 0; 2; 2] ++ repeat 2 5 ++ [4; 4; 4; 0].
Theorem C43_safe_refuted : exists a, (forall id, In id [11; 10; 12]%N -> exists s, live ex_get id s) /\
  pexec (u_step ov ex_get (ex_tbl_of [10; 11; 12]%N) 3) (u_start (fun _ _ => s_inf) (fun _ => 3%N) [11; 10; 12]%N) a /\
  exists t, In t (p_tasks a) /\ u_step ov ex_get (ex_tbl_of [10; 11; 12]%N) 3 (p_sh a) t = TBad.
Proof.
  assert (E : exists a, prun (u_step ov ex_get (ex_tbl_of [10; 11; 12]%N) 3) (u_start (fun _ _ => s_inf) (fun _ => 3%N) [11; 10; 12]%N) race_sched = Some a /\
    exists t, nth_error (p_tasks a) 4 = Some t /\ u_step ov ex_get (ex_tbl_of [10; 11; 12]%N) 3 (p_sh a) t = TBad).
  { eexists. split; [vm_compute; reflexivity|]. eexists. split; vm_compute; reflexivity. }
  destruct E as [a [E [t [Et Hb]]]]. exists a. split; [|split; [eapply prun_exec; [apply pexec_start|exact E]|]].
  - intros id [<-|[<-|[<-|[]]]]; eexists; apply ex_live; auto.
  - exists t. split; [eapply nth_error_In; eauto|exact Hb].
Qed.
Print Assumptions C43_safe_refuted.

(** With the mark of the triangulation at 254 the value for done is 0: simplices never marked pass for done and nothing is updated. *)
Theorem C43_mark_wrap_refuted : exists sh, pexec (u_step ov ex_get (ex_tbl_of [10; 11]%N) 254) (u_start ex_nbr0 (fun _ => 0%N) [10%N]) (mkp sh []) /\
  u_nbr sh 10%N 1 = 13%N /\ forall s, ~ live ex_get 13 s.
Proof.
  assert (E : exists sh, prun (u_step ov ex_get (ex_tbl_of [10; 11]%N) 254) (u_start ex_nbr0 (fun _ => 0%N) [10%N]) [0] = Some (mkp sh []) /\ u_nbr sh 10%N 1 = 13%N).
  { eexists. split; [vm_compute; reflexivity|]. reflexivity. }
  destruct E as [sh [E E1]]. exists sh. split; [eapply prun_exec; [apply pexec_start|exact E]|]. split; [exact E1|]. intros s H. apply ex_live in H. destruct H as [[H _]|[[H _]|[H _]]]; discriminate H.
Qed.
Print Assumptions C43_mark_wrap_refuted.
