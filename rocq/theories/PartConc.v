(** The parallel distribution of CyclePartitioner and ExtendPartitioner: every schedule of the inserting threads, by
    projection to the executions of each of the two concurrent sets. *)
From Verif Require Import Outcome ListUtil WordsModel WordsProofs LPSetModel ProbeTheory LPSetProofs LPSetHistory Conc ConcProbe ConcSetModel ConcSetProofs ConcSetWait ConcSetSpec ConcSetMerge ConcSetPhase PartModel.
From Coq Require Import Permutation.
Local Open Scope nat_scope.

(** A call followed by the rest of a program. *)
Definition addp (l : csloc) (p : list csop) : csloc :=
  match l with
  | LIdle q => LIdle (q ++ p)
  | LEntry o q => LEntry o (q ++ p)
  | LProbe o i cols q => LProbe o i cols (q ++ p)
  | LCas o i cols q => LCas o i cols (q ++ p)
  | LCount o q => LCount o (q ++ p)
  | LRet o r q => LRet o r (q ++ p)
  end.

Lemma step_addp w g s l p : match cs_step w g s l with
  | Step s' l' evs => cs_step w g s (addp l p) = Step s' (addp l' p) evs
  | Bad => cs_step w g s (addp l p) = Bad
  | Stop => l = LIdle []
  end.
Proof.
  destruct l as [[|o q]|o q|o i cols q|o i cols q|o q|o r q]; cbn [cs_step addp app]; unfold cs_next, cs_head;
  repeat match goal with
   | |- context [nth_error ?a ?b] => destruct (nth_error a b)
   | o : csop |- _ => destruct o
   | |- context [if ?x then _ else _] => destruct x
   end; reflexivity.
Qed.

Lemma upd_same {A} (l : list A) : forall i x, nth_error l i = Some x -> upd l i x = l.
Proof. induction l as [|a t IH]; intros [|i] x H; cbn [nth_error] in H; try discriminate; cbn [upd]; [congruence|f_equal; now apply IH]. Qed.
Lemma map_upd {A B} (f : A -> B) (l : list A) : forall i x, map f (upd l i x) = upd (map f l) i (f x).
Proof. induction l as [|a t IH]; intros [|i] x; cbn [upd map]; try reflexivity. f_equal. apply IH. Qed.

Lemma w64 : (64 <= 64)%N. Proof. discriminate. Qed.

Section R.
Variable route : N -> res (option nat).
Notation pst := (pstep route).

(** The calls of a thread on table [b]. *)
Definition calls (b : nat) (ids : list N) : list csop :=
  flat_map (fun i => match route i with Val (Some j) => if Nat.eqb j b then [SInsert i] else [] | _ => [] end) ids.
(** The thread as table [b] sees it. *)
Definition proj (b : nat) (l : ploc) : csloc :=
  match pl_cur l with
  | Some (j, c) => if Nat.eqb j b then addp c (calls b (pl_ids l)) else LIdle (calls b (pl_ids l))
  | None => LIdle (calls b (pl_ids l))
  end.

Lemma calls_In b ids o : In o (calls b ids) <-> exists i, o = SInsert i /\ In i ids /\ route i = Val (Some b).
Proof.
  unfold calls. rewrite in_flat_map. split.
  - intros [i [Hi Ho]]. destruct (route i) as [[j|]| |] eqn:E; try destruct Ho. destruct (Nat.eqb_spec j b) as [->|]; [|destruct Ho]. destruct Ho as [<-|[]]. eauto.
  - intros [i [-> [Hi E]]]. exists i. split; [exact Hi|]. rewrite E, Nat.eqb_refl. now left.
Qed.

(** One step of the distribution: one step on one table, or none. *)
Lemma pstep_proj ts l ts' l' evs : pst ts l = Step ts' l' evs ->
  length ts' = length ts /\
  ((ts' = ts /\ S (length (pl_ids l')) = length (pl_ids l) /\ forall b, proj b l' = proj b l) \/
   exists j s s' evs', nth_error ts j = Some s /\ ts' = upd ts j s' /\ pl_ids l' = pl_ids l /\
     cs_step 64 false s (proj j l) = Step s' (proj j l') evs' /\ forall b, b <> j -> proj b l' = proj b l).
Proof.
  destruct l as [cur ids]. unfold pstep. cbn [pl_cur pl_ids]. destruct cur as [[j c]|].
  - destruct (nth_error ts j) as [s|] eqn:Ej; [|discriminate]. destruct (cs_step 64 false s c) as [s' c' evs'| |] eqn:Es; try discriminate.
    intros H; injection H as <- <- <-. split; [apply upd_length|]. right. exists j, s, s', evs'. split; [exact Ej|]. split; [reflexivity|]. split; [reflexivity|].
    pose proof (step_addp 64 false s c (calls j ids)) as HA. rewrite Es in HA. unfold proj. cbn [pl_cur pl_ids]. split.
    + rewrite Nat.eqb_refl, HA. f_equal. destruct c' as [[|o q]|o q|o i cols q|o i cols q|o q|o r q]; cbn [addp app]; try rewrite Nat.eqb_refl; reflexivity.
    + intros b Hb. destruct (Nat.eqb_spec j b) as [E|_]; [congruence|]. destruct c' as [[|o q]|o q|o i cols q|o i cols q|o q|o r q];
        try reflexivity; destruct (Nat.eqb_spec j b); congruence.
  - destruct ids as [|i t]; [discriminate|]. destruct (route i) as [[j|]| |] eqn:Er; try discriminate; intros H; injection H as <- <- <-; (split; [reflexivity|]); left;
     (split; [reflexivity|]); (split; [reflexivity|]); intros b; unfold proj; cbn [pl_cur pl_ids]; unfold calls; cbn [flat_map]; rewrite Er; [|reflexivity].
    destruct (Nat.eqb_spec j b); reflexivity.
Qed.

Variables (ts : list lpset) (work : list (list N)).
Definition pinit : config (list lpset) ploc := mkc ts (map (mkpl None) work).

(** Every execution of the distribution is, for each table, an execution of that table's calls. *)
Lemma proj_exec c tr : exec pst pinit c tr -> length (c_sh c) = length ts /\ forall b s0, nth_error ts b = Some s0 ->
  exists s trb, nth_error (c_sh c) b = Some s /\ exec (cs_step 64 false) (cs_start s0 (map (calls b) work)) (mkc s (map (proj b) (c_loc c))) trb.
Proof.
  intros H. induction H as [|c tr t l sh' l' evs H [IL IH] Et Es].
  - split; [reflexivity|]. intros b s0 Hb. exists s0, []. split; [exact Hb|]. cbn [pinit c_loc]. rewrite map_map. unfold cs_start. rewrite map_map. constructor.
  - destruct (pstep_proj _ _ _ _ _ Es) as [HL Hc]. cbn [c_sh c_loc]. split; [congruence|]. intros b s0 Hb. destruct (IH b s0 Hb) as [s [trb [Hs He]]].
    destruct Hc as [[-> [_ Hp]]|[j [s1 [s1' [evs' [Hj [-> [_ [Hst Hp]]]]]]]]].
    + exists s, trb. split; [exact Hs|]. rewrite map_upd, Hp, upd_same; [exact He|]. now apply map_nth_error.
    + destruct (Nat.eq_dec b j) as [->|Hne].
      * rewrite Hs in Hj. injection Hj as <-. exists s1', (map (fun e => (t, e)) evs' ++ trb). split; [apply nth_error_upd_eq; eapply nth_error_lt; exact Hs|].
        rewrite map_upd. apply (exec_step _ _ _ (cs_step 64 false) _ (mkc s (map (proj j) (c_loc c))) trb t (proj j l) s1' (proj j l') evs' He); [cbn [c_loc]; now apply map_nth_error|exact Hst].
      * exists s, trb. split; [rewrite nth_error_upd_neq by congruence; exact Hs|]. rewrite map_upd, (Hp b Hne), upd_same; [exact He|]. now apply map_nth_error.
Qed.

(** The tables are as made, hold nothing yet, and have room for all ids. *)
Variable ids : list N.
Hypothesis Hwork : Permutation (concat work) ids.
Hypothesis Hnz : ~ In 0%N ids.
Hypothesis Hmade : forall b s, nth_error ts b = Some s -> cs_made 64 false s /\ keys_of (s_arr s) = [] /\ length ids <= length (s_arr s).
Hypothesis Hroute : forall i, In i ids -> exists r, route i = Val r /\ forall j, r = Some j -> j < length ts.

Lemma work_In p i : In p work -> In i p -> In i ids.
Proof. intros Hp Hi. eapply Permutation_in; [exact Hwork|]. apply in_concat. eauto. Qed.

Lemma calls_nz b : keys_nz (map (calls b) work).
Proof.
  intros p o Hp Ho. apply in_map_iff in Hp. destruct Hp as [q [<- Hq]]. apply calls_In in Ho. destruct Ho as [i [-> [Hi _]]]. cbn [cs_key]. intros ->. apply Hnz. eapply work_In; eassumption.
Qed.
Lemma calls_fits b s : nth_error ts b = Some s -> fits s (map (calls b) work) ids.
Proof.
  intros Hs. destruct (Hmade b s Hs) as [_ [Hk Hl]]. split.
  - intros k [Hk1 Hk2]. exfalso. assert (In k (keys_of (s_arr s))) by (apply in_keys_of; auto). rewrite Hk in H. destruct H.
  - intros p o Hp Ho. apply in_map_iff in Hp. destruct Hp as [q [<- Hq]]. apply calls_In in Ho. destruct Ho as [i [-> [Hi _]]]. cbn [cs_key].
    pose proof (work_In q i Hq Hi) as Hin. split; [auto|]. assert (E : distinct (i :: ids) <= length ids); [|lia].
    rewrite (distinct_same (i :: ids) ids); [apply distinct_length|]. intros x. cbn [In]. split; [intros [<-|]; auto|auto].
Qed.
Lemma calls_adds b : forall p o, In p (map (calls b) work) -> In o p -> adds false o.
Proof. intros p o Hp Ho. apply in_map_iff in Hp. destruct Hp as [q [<- Hq]]. apply calls_In in Ho. destruct Ho as [i [-> _]]. right. split; [reflexivity|exact I]. Qed.

(** Threads are between calls, or in a call on an existing table. *)
Definition ploc_ok (l : ploc) : Prop :=
  (forall i, In i (pl_ids l) -> In i ids) /\
  match pl_cur l with Some (j, c) => j < length ts /\ c <> LIdle [] | None => True end.
Lemma ploc_inv c tr : exec pst pinit c tr -> forall l, In l (c_loc c) -> ploc_ok l.
Proof.
  intros H. induction H as [|c tr t l sh' l' evs H IH Et Es].
  - intros l Hl. cbn [pinit c_loc] in Hl. apply in_map_iff in Hl. destruct Hl as [p [<- Hp]]. split; [|exact I]. cbn [pl_ids]. intros i Hi. eapply work_In; eassumption.
  - cbn [c_loc]. intros x Hx. apply In_upd_any in Hx. destruct Hx as [->|Hx]; [|now apply IH]. pose proof (IH l (nth_error_In _ _ Et)) as [H1 H2].
    destruct l as [[[j cl]|] is]; unfold pstep in Es; cbn [pl_cur pl_ids] in *.
    + destruct (nth_error (c_sh c) j); [|discriminate]. destruct (cs_step 64 false l cl) as [s' c' e'| |]; try discriminate. injection Es as <- <- <-.
      split; [exact H1|]. cbn [pl_cur]. destruct c' as [[|o q]|o q|o i cols q|o i cols q|o q|o r q]; try exact I; (split; [apply H2|discriminate]).
    + destruct is as [|i t']; [discriminate|]. destruct (Hroute i) as [r [Er Hj]]; [apply H1; now left|]. rewrite Er in Es.
      destruct r as [j|]; injection Es as <- <- <-; (split; [intros y Hy; apply H1; now right|]); cbn [pl_cur]; [|exact I].
      split; [now apply Hj|discriminate].
Qed.

Lemma pconc_safe : safe pst pinit.
Proof.
  intros c tr t l H Et Hb. pose proof (ploc_inv c tr H l (nth_error_In _ _ Et)) as [H1 H2]. destruct (proj_exec c tr H) as [HL HP].
  destruct l as [[[j cl]|] is]; unfold pstep in Hb; cbn [pl_cur pl_ids] in *.
  - destruct H2 as [Hj _]. destruct (nth_error_ex ts j Hj) as [s0 Hs0]. destruct (HP j s0 Hs0) as [s [trb [Hs He]]]. rewrite Hs in Hb.
    destruct (cs_step 64 false s cl) as [s' c' e'| |] eqn:Es; try discriminate. pose proof (step_addp 64 false s cl (calls j is)) as HA. rewrite Es in HA.
    destruct (Hmade j s0 Hs0) as [Hm _]. refine (cs_safe 64 w64 false s0 (memb s0) (map (calls j) work) Hm (memb_same s0) (calls_nz j) _ _ t (proj j (mkpl (Some (j, cl)) is)) He _ _).
    + cbn [c_loc]. now apply map_nth_error.
    + unfold proj. cbn [pl_cur pl_ids c_sh]. rewrite Nat.eqb_refl. exact HA.
  - destruct is as [|i t']; [discriminate|]. destruct (Hroute i) as [r [Er Hj]]; [apply H1; now left|]. rewrite Er in Hb. destruct r; discriminate.
Qed.

Definition pdone (c : config (list lpset) ploc) : Prop := forall l, In l (c_loc c) -> l = mkpl None [].

Lemma pconc_progress c tr : exec pst pinit c tr -> (exists c', cstep pst c c') \/ pdone c.
Proof.
  intros H. destruct (cstep_or_stopped _ _ _ pst c) as [Hs|Hs].
  - intros t l Hl. eapply pconc_safe; eassumption.
  - left. exact Hs.
  - right. intros l Hl. pose proof (ploc_inv c tr H l Hl) as [H1 H2]. apply In_nth_error in Hl. destruct Hl as [t Ht]. specialize (Hs t l Ht).
    destruct (proj_exec c tr H) as [HL _].
    destruct l as [[[j cl]|] is]; unfold pstep in Hs; cbn [pl_cur pl_ids] in *.
    + exfalso. destruct H2 as [Hj Hc]. destruct (nth_error (c_sh c) j) as [s|]; [|discriminate]. destruct (cs_step 64 false s cl) as [? ? ?| |] eqn:Es; try discriminate. apply cs_not_stop in Es. contradiction.
    + destruct is as [|i t']; [reflexivity|]. destruct (route i) as [[j|]| |]; discriminate.
Qed.

(** When all threads are done, table [b] holds exactly the ids routed to it. *)
Lemma pconc_done c tr : exec pst pinit c tr -> pdone c -> length (c_sh c) = length ts /\
  forall b s, nth_error (c_sh c) b = Some s -> cs_made 64 false s /\ (exists s0, nth_error ts b = Some s0 /\ length (s_arr s) = length (s_arr s0)) /\
    forall k, stored s k <-> In k ids /\ route k = Val (Some b).
Proof.
  intros H Hd. destruct (proj_exec c tr H) as [HL HP]. split; [exact HL|]. intros b s Hs.
  destruct (nth_error_ex ts b) as [s0 Hs0]; [apply nth_error_lt in Hs; congruence|]. destruct (HP b s0 Hs0) as [s' [trb [Hs' He]]]. rewrite Hs in Hs'. injection Hs' as <-.
  destruct (Hmade b s0 Hs0) as [Hm [Hk Hl]].
  destruct (phase_done 64 w64 false s0 (map (calls b) work) ids Hm (calls_nz b) (calls_fits b s0 Hs0) (calls_adds b) _ _ He) as [P1 [P2 P3]].
  - intros l Hin. cbn [c_loc] in Hin. apply in_map_iff in Hin. destruct Hin as [x [<- Hx]]. rewrite (Hd x Hx). reflexivity.
  - cbn [c_sh] in *. split; [exact P1|]. split; [eauto|]. intros k. rewrite P3. split.
    + intros [[Hk1 Hk2]|[p [o [Hp [Ho <-]]]]].
      * exfalso. assert (Hx : In k (keys_of (s_arr s0))) by (apply in_keys_of; auto). rewrite Hk in Hx. destruct Hx.
      * apply in_map_iff in Hp. destruct Hp as [q [<- Hq]]. apply calls_In in Ho. destruct Ho as [i [-> [Hi Er]]]. cbn [cs_key]. split; [eapply work_In; eassumption|exact Er].
    + intros [Hin Er]. right. apply (Permutation_in _ (Permutation_sym Hwork)) in Hin. apply in_concat in Hin. destruct Hin as [q [Hq Hi]].
      exists (calls b q), (SInsert k). split; [apply in_map_iff; eauto|]. split; [|reflexivity]. apply calls_In. eauto.
Qed.

(** *** termination *)
Definition total (f : nat -> nat) (m : nat) : nat := list_sum (map f (seq 0 m)).
Lemma total_S f m : total f (S m) = total f m + f m.
Proof. unfold total. rewrite seq_S, map_app, list_sum_app. cbn. lia. Qed.
Lemma total_bump f m j x : j < m -> total (fun i => (if Nat.eqb i j then x else 0) + f i) m = x + total f m.
Proof.
  induction m as [|m IH]; intros Hj; [lia|]. rewrite !total_S. destruct (Nat.eqb_spec m j) as [->|Hne].
  - assert (E : forall q, q <= j -> total (fun i => (if Nat.eqb i j then x else 0) + f i) q = total f q).
    { induction q as [|q IHq]; intros Hq; [reflexivity|]. rewrite !total_S, IHq by lia. destruct (Nat.eqb_spec q j); lia. }
    rewrite E by lia. lia.
  - rewrite IH by lia. lia.
Qed.
Lemma total_le f h m : (forall i, i < m -> f i <= h i) -> total f m <= total h m.
Proof. induction m as [|m IH]; intros H; [cbn; lia|]. rewrite !total_S. pose proof (H m ltac:(lia)). specialize (IH ltac:(intros; apply H; lia)). lia. Qed.
Lemma total_0 m : total (fun _ => 0) m = 0.
Proof. induction m as [|m IH]; [reflexivity|]. rewrite total_S, IH. reflexivity. Qed.

(** Own steps: those on the tables, and one per id. *)
Lemma proj_own t c tr k : exec_own pst t pinit c tr k -> exists kb,
  k + match nth_error (c_loc c) t with Some l => length (pl_ids l) | None => 0 end = total kb (length ts) + match nth_error work t with Some p => length p | None => 0 end /\
  length (c_sh c) = length ts /\
  forall b s0, nth_error ts b = Some s0 -> exists s trb, nth_error (c_sh c) b = Some s /\
    exec_own (cs_step 64 false) t (cs_start s0 (map (calls b) work)) (mkc s (map (proj b) (c_loc c))) trb (kb b).
Proof.
  intros H. induction H as [|c tr k u l sh' l' evs H [kb [Ek [IL IH]]] Et Es].
  - exists (fun _ => 0). split; [|split; [reflexivity|]].
    + rewrite total_0. cbn [pinit c_loc]. rewrite nth_error_map. destruct (nth_error work t); reflexivity.
    + intros b s0 Hb. exists s0, []. split; [exact Hb|]. cbn [pinit c_loc]. rewrite map_map. unfold cs_start. rewrite map_map. constructor.
  - destruct (pstep_proj _ _ _ _ _ Es) as [HL Hc]. cbn [c_sh c_loc].
    assert (Hu : u < length (c_loc c)) by (eapply nth_error_lt; exact Et).
    destruct Hc as [[-> [Hlen Hp]]|[j [s1 [s1' [evs' [Hj [-> [Hids [Hst Hp]]]]]]]]].
    + exists kb. split; [|split; [congruence|]].
      * destruct (Nat.eqb_spec u t) as [->|Hne].
        -- rewrite nth_error_upd_eq by exact Hu. rewrite Et in Ek. lia.
        -- rewrite nth_error_upd_neq by congruence. exact Ek.
      * intros b s0 Hb. destruct (IH b s0 Hb) as [s [trb [Hs He]]]. exists s, trb. split; [exact Hs|]. rewrite map_upd, Hp, upd_same; [exact He|]. now apply map_nth_error.
    + assert (Hjl : j < length ts) by (apply nth_error_lt in Hj; congruence).
      exists (fun b => (if Nat.eqb b j then if Nat.eqb u t then 1 else 0 else 0) + kb b). split; [|split].
      * rewrite (total_bump kb (length ts) j _ Hjl). destruct (Nat.eqb_spec u t) as [->|Hne].
        -- rewrite nth_error_upd_eq by exact Hu. rewrite Et in Ek. rewrite Hids. lia.
        -- rewrite nth_error_upd_neq by congruence. lia.
      * rewrite upd_length. exact IL.
      * intros b s0 Hb. destruct (IH b s0 Hb) as [s [trb [Hs He]]]. destruct (Nat.eqb_spec b j) as [->|Hne].
        -- rewrite Hs in Hj. injection Hj as <-. exists s1', (map (fun e => (u, e)) evs' ++ trb). split; [apply nth_error_upd_eq; eapply nth_error_lt; exact Hs|].
           rewrite map_upd. apply (own_step _ _ _ (cs_step 64 false) t _ (mkc s (map (proj j) (c_loc c))) trb (kb j) u (proj j l) s1' (proj j l') evs' He); [cbn [c_loc]; now apply map_nth_error|exact Hst].
        -- exists s, trb. split; [rewrite nth_error_upd_neq by congruence; exact Hs|]. rewrite map_upd, (Hp b Hne), upd_same; [exact He|]. now apply map_nth_error.
Qed.

Lemma calls_length b p : length (calls b p) <= length p.
Proof. induction p as [|i t IH]; [cbn; lia|]. unfold calls in *. cbn [flat_map]. rewrite app_length. cbn [length]. destruct (route i) as [[j|]| |]; try (cbn [length]; lia). destruct (Nat.eqb j b); cbn [length]; lia. Qed.

(** A bound on the own steps of a thread with [p] ids. *)
Definition own_max (p : list N) : nat := total (fun b => match nth_error ts b with Some s => length p * (2 * length (s_arr s) + 8) | None => 0 end) (length ts) + length p.
Lemma pconc_own t p c tr k : nth_error work t = Some p -> exec_own pst t pinit c tr k -> k <= own_max p.
Proof.
  intros Hp H. destruct (proj_own t c tr k H) as [kb [Ek [_ HB]]]. rewrite Hp in Ek.
  assert (Hle : total kb (length ts) <= total (fun b => match nth_error ts b with Some s => length p * (2 * length (s_arr s) + 8) | None => 0 end) (length ts)); [|unfold own_max; lia].
  apply total_le. intros b Hb. destruct (nth_error_ex ts b Hb) as [s0 Hs0]. rewrite Hs0. destruct (HB b s0 Hs0) as [s [trb [_ He]]]. destruct (Hmade b s0 Hs0) as [Hm _].
  pose proof (cs_own 64 w64 false s0 (memb s0) (map (calls b) work) Hm (memb_same s0) (calls_nz b) ids t (calls b p) _ _ _ (calls_fits b s0 Hs0) (map_nth_error _ _ _ Hp) He) as Hk.
  pose proof (calls_length b p). nia.
Qed.

(** A run of the distribution with its steps counted per thread. *)
Lemma run_counts f : f 0 = pinit -> (forall n, cstep pst (f n) (f (S n))) -> forall n, exists ks,
  total ks (length work) = n /\ forall t, exists tr, exec_own pst t pinit (f n) tr (ks t).
Proof.
  intros H0 Hs n. induction n as [|n [ks [Hn Hks]]].
  - exists (fun _ => 0). split; [apply total_0|]. intros t. exists []. rewrite H0. constructor.
  - destruct (Hs n) as (u & l & sh' & l' & evs & Et & Es & ->). exists (fun t => (if Nat.eqb t u then 1 else 0) + ks t). split.
    + rewrite total_bump; [lia|]. destruct (Hks 0) as [tr He]. apply exec_own_exec, exec_length in He. apply nth_error_lt in Et. rewrite He in Et. cbn [pinit c_loc] in Et. now rewrite map_length in Et.
    + intros t. destruct (Hks t) as [tr He]. eexists. rewrite (Nat.eqb_sym t u). apply (own_step _ _ _ pst t pinit (f n) tr (ks t) u l sh' l' evs He Et Es).
Qed.
Lemma pconc_terminates : terminates pst pinit.
Proof.
  intros f H0 Hs. set (B := total (fun t => match nth_error work t with Some p => own_max p | None => 0 end) (length work)).
  destruct (run_counts f H0 Hs (S B)) as [ks [Hn Hks]]. assert (total ks (length work) <= B); [|lia].
  apply total_le. intros t Ht. destruct (nth_error_ex work t Ht) as [p Hp]. rewrite Hp. destruct (Hks t) as [tr He]. eapply pconc_own; eassumption.
Qed.
End R.
