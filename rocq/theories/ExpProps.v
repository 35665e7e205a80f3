(** C88, C89: the text form of experiment runs and their comparison. *)
From Coq Require Import Ascii String.
From Verif Require Import Outcome WordsModel ExpModel ExpSpec ExpProofs.
Local Open Scope nat_scope.

(** A run that is written and read again, on any host and with any program version, is the same experiment; host and git-rev are those of the reading program and
    start-time, end-time and run-number are gone. *)
Theorem C88_round_trip ts is m host rev : ts <> [] -> is <> [] -> keyed m -> writable ts is m -> (slen (run_str ts is m) + slen ts + 1 < 2 ^ 64)%N ->
  exists o, returns (fun f => run_parse host rev f ts is (run_str ts is m)) (Some o) /\ keyed o /\ same_exp m o /\
    forall k v, volatile k -> (trait o k v <-> k = txt "host" /\ v = host \/ k = txt "git-rev" /\ v = rev).
Proof.
  intros Ht Hi K W L. exists (adds (run_new host rev) m).
  assert (A : asc (adds (run_new host rev) m)) by (apply adds_asc, run_new_asc).
  split; [now apply parse_returns|]. split; [now apply asc_keyed|].
  assert (G : forall k v, trait (adds (run_new host rev) m) k v <-> match (if str_eq (txt "host") k then Some host else if str_eq (txt "git-rev") k then Some rev else None) with Some w => w = v
     | None => is_ignored k = false /\ trait m k v end).
  { intros k v. rewrite <- t_get_iff by (now apply asc_keyed). rewrite adds_get by (try apply run_new_asc; exact K). rewrite run_new_get.
    destruct (str_eq (txt "host") k); [split; congruence|]. destruct (str_eq (txt "git-rev") k); [split; congruence|]. rewrite <- (t_get_iff m) by exact K. destruct (is_ignored k); [split; [discriminate|intros [? _]; discriminate]|]. tauto. }
  split; intros k v Hv; rewrite G.
  - assert (N1 : str_eq (txt "host") k = false) by (apply str_eq_neq; intros <-; apply Hv; now left).
    assert (N2 : str_eq (txt "git-rev") k = false) by (apply str_eq_neq; intros <-; apply Hv; right; now left). rewrite N1, N2. apply ignored_not in Hv. tauto.
  - apply ignored_iff in Hv. destruct (str_eq (txt "host") k) eqn:E1; [apply str_eq_iff in E1; subst k|].
    { split; [intros <-; now left|]. intros [[_ ->]|[H _]]; [reflexivity|discriminate H]. }
    destruct (str_eq (txt "git-rev") k) eqn:E2; [apply str_eq_iff in E2; subst k|].
    { split; [intros <-; now right|]. intros [[H _]|[_ ->]]; [discriminate H|reflexivity]. }
    split; [intros [H _]; congruence|]. intros [[-> _]|[-> _]]; [now rewrite str_eq_refl in E1|now rewrite str_eq_refl in E2].
Qed.
Print Assumptions C88_round_trip.

Lemma stands_nth w s i j c : stands w s i -> nth_error w j = Some c -> nth_error s (i + j) = Some c.
Proof.
  intros (a & b & -> & <-) H. rewrite nth_error_app2 by lia. replace (length a + j - length a) with j by lia. rewrite nth_error_app1; [exact H|]. apply nth_error_Some. congruence.
Qed.
Lemma stands_len w s i : stands w s i -> i + length w <= length s.
Proof. intros (a & b & -> & <-). rewrite !app_length. lia. Qed.

(** With the default separators it is enough that no name and no value has a blank or a colon in it, and no value is empty. *)
Theorem C88_plain m : (forall k v, In (k, v) m -> (forall c, In c (k ++ v) -> c <> " "%char /\ c <> ":"%char) /\ v <> []) -> writable trait_sep inner_sep m.
Proof.
  intros H k v I. destruct (H k v I) as [C Hv]. clear H.
  assert (Ck : forall i c, nth_error k i = Some c -> c <> " "%char /\ c <> ":"%char). { intros i c E. apply C, in_or_app. left. now apply nth_error_In in E. }
  assert (Cv : forall i c, nth_error v i = Some c -> c <> " "%char /\ c <> ":"%char). { intros i c E. apply C, in_or_app. right. now apply nth_error_In in E. }
  split; intros i S.
  - pose proof (stands_len _ _ _ S) as L. rewrite app_length in L. cbn in L.
    pose proof (stands_nth _ _ _ 0 ":"%char S eq_refl) as E. rewrite Nat.add_0_r in E.
    destruct (Nat.lt_ge_cases i (length k)) as [Hl|Hl]; [|lia]. rewrite nth_error_app1 in E by exact Hl. now apply Ck in E.
  - pose proof (stands_len _ _ _ S) as L. rewrite !app_length in *. cbn in L.
    pose proof (stands_nth _ _ _ 0 " "%char S eq_refl) as E0. pose proof (stands_nth _ _ _ 1 " "%char S eq_refl) as E1. rewrite Nat.add_0_r in E0.
    rewrite <- !app_assoc in E0, E1.
    destruct (Nat.lt_ge_cases i (length k)) as [Hl|Hl]. { rewrite nth_error_app1 in E0 by exact Hl. now apply Ck in E0. }
    rewrite nth_error_app2 in E0, E1 by lia.
    destruct (Nat.lt_ge_cases (i - length k) 2) as [H2|H2].
    + destruct (i - length k) as [|[|d]] eqn:Ed; [discriminate E0| |lia]. replace (i + 1 - length k) with 2 in E1 by lia. cbn in E1. destruct v as [|c v]; [congruence|]. cbn in E1. specialize (Cv 0 c eq_refl). injection E1 as ->. now destruct Cv.
    + rewrite nth_error_app2 in E0 by exact H2. change (length inner_sep) with 2 in E0. change (length inner_sep) with 2.
      destruct (Nat.lt_ge_cases (i - length k - 2) (length v)) as [H3|H3]; [|lia]. rewrite nth_error_app1 in E0 by exact H3. now apply Cv in E0.
Qed.
Print Assumptions C88_plain.

(** Read back, it is equal as long as the run has not started. *)
Theorem C88_equal m o host rev : keyed m -> keyed o -> same_exp m o ->
  (forall k v, volatile k -> (trait o k v <-> k = txt "host" /\ v = host \/ k = txt "git-rev" /\ v = rev)) ->
  (forall k, volatile k -> ((exists v, trait m k v) <-> k = txt "host" \/ k = txt "git-rev")) -> run_eq m o = true /\ run_eq o m = true.
Proof.
  intros Km Ko S Vo Vm.
  assert (Lv : length (vol m) = length (vol o)).
  { assert (Hi : incl (vol m) (vol o) /\ incl (vol o) (vol m)).
    { split; intros k I; unfold vol in *; apply filter_In in I as [I G]; apply filter_In; (split; [|exact G]); apply ignored_iff in G; apply in_map_iff in I as ([k' v] & <- & I); cbn [fst] in *.
      - assert (Hk : k' = txt "host" \/ k' = txt "git-rev") by (apply Vm; [exact G|now exists v]).
        destruct Hk as [->| ->]; [apply (in_map fst o (txt "host", host))|apply (in_map fst o (txt "git-rev", rev))]; apply Vo; auto.
      - assert (Hk : k' = txt "host" \/ k' = txt "git-rev") by (apply Vo in I; [tauto|exact G]). apply Vm in Hk; [|exact G]. destruct Hk as [w Hw]. exact (in_map fst m (k', w) Hw). }
    destruct Hi as [H1 H2]. apply Nat.le_antisymm; apply NoDup_incl_length; trivial; apply NoDup_filter; assumption. }
  assert (L : length m = length o) by (rewrite (split_len m), (split_len o), Lv, (same_len m o); trivial).
  split; apply run_eq_iff; trivial; (split; [congruence|]); intros k v Hv; now apply S.
Qed.
Print Assumptions C88_equal.

(** Once it has a start time (Benchmark.cpp:79) it is not equal to what is read back. *)
Theorem C88_started_refuted m o host rev : keyed m -> keyed o -> same_exp m o ->
  (forall k v, volatile k -> (trait o k v <-> k = txt "host" /\ v = host \/ k = txt "git-rev" /\ v = rev)) ->
  (exists v, trait m (txt "host") v) -> (exists v, trait m (txt "git-rev") v) -> (exists v, trait m (txt "start-time") v) -> run_eq m o = false /\ run_eq o m = false.
Proof.
  intros Km Ko S Vo (h & Hh) (g & Hg) (t & Hst).
  assert (Lo : length (vol o) <= 2).
  { change 2 with (length [txt "host"; txt "git-rev"]). apply NoDup_incl_length; [apply NoDup_filter; exact Ko|]. intros k I. unfold vol in I. apply filter_In in I as [I G]. apply ignored_iff in G.
    apply in_map_iff in I as ([k' v] & <- & I). cbn [fst] in *. apply Vo in I; [|exact G]. destruct I as [[-> _]|[-> _]]; [now left|right; now left]. }
  assert (Lm : 3 <= length (vol m)).
  { change 3 with (length [txt "host"; txt "git-rev"; txt "start-time"]). apply NoDup_incl_length; [repeat constructor; cbn; intuition discriminate|].
    intros k [<-|[<-|[<-|[]]]]; (apply filter_In; split; [|reflexivity]); [exact (in_map fst _ _ Hh)|exact (in_map fst _ _ Hg)|exact (in_map fst _ _ Hst)]. }
  assert (L : length m <> length o) by (rewrite (split_len m), (split_len o), (same_len m o); trivial; lia).
  unfold run_eq. assert (E1 : (length m =? length o) = false) by (now apply Nat.eqb_neq). assert (E2 : (length o =? length m) = false) by (apply Nat.eqb_neq; congruence). now rewrite E1, E2.
Qed.
Print Assumptions C88_started_refuted.

(** A run as the programs make it; it meets what the theorems ask for. *)
Definition run1 : traits := t_add (t_add (run_new (txt "box") (txt "0a1b")) (txt "alg") (txt "d")) (txt "nP") (txt "100").
Example C88_ex : run_str trait_sep inner_sep run1 = txt "alg: d   git-rev: 0a1b   host: box   nP: 100" /\ keyed run1 /\ writable trait_sep inner_sep run1 /\
  (forall k, volatile k -> ((exists v, trait run1 k v) <-> k = txt "host" \/ k = txt "git-rev")) /\
  (slen (run_str trait_sep inner_sep run1) + slen trait_sep + 1 < 2 ^ 64)%N /\
  run_parse (txt "pc") (txt "77") 9 trait_sep inner_sep (run_str trait_sep inner_sep run1) = Val (Some (t_add (t_add (run_new (txt "pc") (txt "77")) (txt "alg") (txt "d")) (txt "nP") (txt "100"))).
Proof.
  split; [reflexivity|]. split. { apply asc_keyed. unfold run1. apply t_add_asc, t_add_asc, run_new_asc. }
  split. { apply C88_plain. intros k v [H|[H|[H|[H|[]]]]]; injection H as <- <-; (split; [|discriminate]); cbn; intros c Hc; repeat (destruct Hc as [<-|Hc]; [split; discriminate|]); destruct Hc. }
  split. { intros k Hk. split; [|intros [->| ->]; [exists (txt "box")|exists (txt "0a1b")]; cbn; auto]. intros [v Hv]. unfold volatile in Hk. destruct Hv as [H|[H|[H|[H|[]]]]]; injection H as <- <-; auto; cbn in Hk; intuition discriminate. }
  split; reflexivity.
Qed.
(** A run that has started. *)
Example C88_started_ex : let m := t_add run1 (txt "start-time") (txt "now") in let o := t_add (t_add (run_new (txt "pc") (txt "77")) (txt "alg") (txt "d")) (txt "nP") (txt "100") in
  run_parse (txt "pc") (txt "77") 9 trait_sep inner_sep (run_str trait_sep inner_sep m) = Val (Some o) /\ (exists v, trait m (txt "start-time") v) /\ run_eq m o = false.
Proof. cbn zeta. split; [reflexivity|]. split; [exists (txt "now"); cbn; auto 10|reflexivity]. Qed.

(** The value must not be empty: with the default separators the rest of the line becomes the value. *)
Theorem C88_empty_refuted host rev : exists m, keyed m /\ trait m (txt "nP") (txt "100") /\ exists o, returns (fun f => run_parse host rev f trait_sep inner_sep (run_str trait_sep inner_sep m)) (Some o) /\
  trait o (txt "alg") (txt "   nP: 100") /\ ~ exists v, trait o (txt "nP") v.
Proof.
  exists [(txt "alg", []); (txt "nP", txt "100")]. split. { repeat constructor; cbn; intuition discriminate. } split; [now right; left|].
  exists (t_add (t_add (run_new host rev) (txt "alg") (txt "   nP: 100")) (txt " nP") (txt "100")). split.
  { exists 3. intros [|[|[|f]]] Hf; try lia. reflexivity. }
  split; [cbn; auto 10|]. intros [v Hv]. cbn in Hv. intuition discriminate.
Qed.
Print Assumptions C88_empty_refuted.

(** C89.  Runs with the same volatile traits are equal if and only if they are the same experiment, and then in both directions. *)
Theorem C89_same_partial m o : keyed m -> keyed o -> (forall k, volatile k -> ((exists v, trait m k v) <-> (exists v, trait o k v))) ->
  (run_eq m o = true <-> same_exp m o) /\ run_eq m o = run_eq o m /\ run_eq m m = true.
Proof.
  intros Km Ko V.
  assert (Lv : length (vol m) = length (vol o)).
  { assert (Hi : forall a b, (forall k, volatile k -> ((exists v, trait a k v) -> (exists v, trait b k v))) -> incl (vol a) (vol b)).
    { intros a b Hab k I. unfold vol in *. apply filter_In in I as [I G]. apply filter_In. split; [|exact G]. apply ignored_iff in G. apply in_map_iff in I as ([k' v] & <- & I). destruct (Hab k' G (ex_intro _ v I)) as [w Hw]. exact (in_map fst b (k', w) Hw). }
    apply Nat.le_antisymm; apply NoDup_incl_length; try (apply NoDup_filter; assumption); apply Hi; intros k Hk; now apply V. }
  assert (Hs : forall a b, keyed a -> keyed b -> length (vol a) = length (vol b) -> (run_eq a b = true <-> same_exp a b)).
  { intros a b Ka Kb L. rewrite run_eq_iff by assumption. rewrite (split_len a), (split_len b), L. split.
    - intros [L' H]. apply incl_same; trivial. lia.
    - intros S. split; [rewrite (same_len a b); trivial|]. intros k v Hv. now apply S. }
  split; [now apply Hs|]. split.
  - destruct (run_eq m o) eqn:E1, (run_eq o m) eqn:E2; try reflexivity; exfalso.
    + apply Hs in E1; trivial. assert (E : same_exp o m) by (intros k v Hv; symmetry; now apply E1). apply Hs in E; congruence.
    + apply Hs in E2; trivial; [|congruence]. assert (E : same_exp m o) by (intros k v Hv; symmetry; now apply E2). apply Hs in E; congruence.
  - apply Hs; trivial. intros k v Hv. reflexivity.
Qed.
Print Assumptions C89_same_partial.

(** In general == is not symmetric, and different experiments are equal: a run that has started against a longer one. *)
Theorem C89_symmetric_refuted (host rev : list ascii) : exists m o, keyed m /\ keyed o /\ run_eq m o = true /\ run_eq o m = false /\ ~ same_exp m o.
Proof.
  exists (t_add (t_add (run_new host rev) (txt "alg") (txt "d")) (txt "start-time") (txt "now")), (t_add (t_add (run_new host rev) (txt "alg") (txt "d")) (txt "nP") (txt "100")).
  split; [apply asc_keyed, t_add_asc, t_add_asc, run_new_asc|]. split; [apply asc_keyed, t_add_asc, t_add_asc, run_new_asc|]. split; [reflexivity|]. split; [reflexivity|].
  intros S. destruct (S (txt "nP") (txt "100")) as [_ S']; [cbn; unfold volatile; intuition discriminate|]. assert (H : trait (t_add (t_add (run_new host rev) (txt "alg") (txt "d")) (txt "start-time") (txt "now")) (txt "nP") (txt "100")) by (apply S'; cbn; auto 10).
  cbn in H. intuition discriminate.
Qed.
Print Assumptions C89_symmetric_refuted.
Example C89_ex : let m := run1 in let o := t_add (t_add (run_new (txt "pc") (txt "77")) (txt "alg") (txt "d")) (txt "nP") (txt "101") in
  (forall k, volatile k -> ((exists v, trait m k v) <-> (exists v, trait o k v))) /\ run_eq m o = false /\ run_eq m (t_set o (txt "nP") (txt "100")) = true.
Proof.
  cbn zeta. split; [|split; reflexivity]. intros k Hk. split; intros [v Hv].
  - destruct Hv as [H|[H|[H|[H|[]]]]]; injection H as <- <-; [unfold volatile in Hk; cbn in Hk; intuition discriminate|exists (txt "77")|exists (txt "pc")|unfold volatile in Hk; cbn in Hk; intuition discriminate]; cbn; auto.
  - destruct Hv as [H|[H|[H|[H|[]]]]]; injection H as <- <-; [unfold volatile in Hk; cbn in Hk; intuition discriminate|exists (txt "0a1b")|exists (txt "box")|unfold volatile in Hk; cbn in Hk; intuition discriminate]; cbn; auto.
Qed.
