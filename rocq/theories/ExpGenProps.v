(** C90: the experiments that the benchmark generates. *)
From Coq Require Import Ascii String DecimalPos.
From Verif Require Import Outcome WordsModel ExpModel ExpSpec ExpProofs ExpGen ExpProps.
Local Open Scope N_scope.

(** One digit and zeros, at least ten. *)
Definition round_number (maxn n : N) : Prop := n <= maxn /\ exists d k, 1 <= d <= 9 /\ 1 <= k /\ n = d * 10 ^ k.
(** A number of threads: [lo] doubled some times. *)
Definition doubled (lo hi t : N) : Prop := t <= hi /\ exists j, t = lo * 2 ^ j.
(** The values of parallel-edge that the option asks for. *)
Definition edge_asked (pe : tristate) (b : bool) : Prop := match pe with Indef => True | No => b = false | Yes => b = true end.

Lemma asked_ext sps algs dists occs pb (E E' : bool -> Prop) (N1 N2 T T' : N -> Prop) e : (forall x, E x <-> E' x) -> (forall x, N1 x <-> N2 x) -> (forall x, T x <-> T' x) ->
  asked sps algs dists occs pb E N1 T e <-> asked sps algs dists occs pb E' N2 T' e.
Proof. intros HE HN HT. split; intros H; destruct H; constructor; trivial; try (now apply HE); try (now apply HN); now apply HT. Qed.

Section Runs.
  Variables (host rev : list ascii) (sps algs dists : list ascii) (occs : list N) (pb : bool) (pe : tristate) (hw maxt mint : Z).
  (** Bounds for the threads after -1 has been replaced. *)
  Let hi := if (maxt =? -1)%Z then hw else maxt.
  Let lo := if (mint =? -1)%Z then hi else mint.

  Lemma conv z : (0 <= z < 2 ^ 31)%Z -> Z.to_N (z mod 2 ^ 32) = Z.to_N z.
  Proof. intros H. rewrite Z.mod_small; [reflexivity|lia]. Qed.

  Lemma alg_runs ths k : (forall dist n alg f, (k < f)%nat -> thr_loop host rev sps occs pb pe f dist n alg (Z.to_N lo) (Z.to_N hi) = Val (flat_map (fun th => occ_loop host rev sps pb pe true dist n alg th occs) ths)) ->
    forall dist f n, (k < f)%nat -> alg_loop host rev sps algs occs pb pe f dist n (Z.to_N lo) (Z.to_N hi) = Val (map (run_of host rev) (flat_map (alg_e sps occs pb pe ths dist n) algs)).
  Proof.
    intros H dist f n Hf. unfold alg_loop. rewrite (each_val _ (fun a => map (run_of host rev) (alg_e sps occs pb pe ths dist n a))).
    - f_equal. symmetry. apply map_flat.
    - intros a _. unfold alg_e. destruct (Ascii.eqb a "c") eqn:E; [apply Ascii.eqb_eq in E; now subst|]. rewrite H by exact Hf. f_equal. rewrite map_flat. apply flat_ext. intros t _. apply occ_runs.
  Qed.

  (** The generator finishes; its runs are, one for one, the experiments asked for, no experiment occurs twice, and each run has the traits of its experiment, the host and the version. *)
  Theorem C90_runs maxn : maxn < 4000000000 -> (1 <= lo < 2 ^ 31)%Z -> (0 <= hi < 2 ^ 31)%Z -> NoDup sps -> NoDup algs -> NoDup dists -> NoDup occs ->
    exists es l, returns (fun f => gen_runs host rev sps algs dists occs pb pe f hw maxn 10 maxt mint) l /\ NoDup es /\
      (forall e, In e es <-> asked sps algs dists occs pb (edge_asked pe) (round_number maxn) (doubled (Z.to_N lo) (Z.to_N hi)) e) /\
      Forall2 (fun e r => keyed r /\ forall k v, trait r k v <-> In (k, v) (exp_traits show e ++ [(txt "host", host); (txt "git-rev", rev)])) es l.
  Proof.
    intros Hmax Hlo Hhi Ns Na Nd No.
    destruct (threads_list (Z.to_N hi) ltac:(lia) (S (Z.to_nat hi)) (Z.to_N lo) ltac:(lia) ltac:(lia)) as (ths & Nt & Ht & Hrun).
    set (ns := filter (fun n => n <=? maxn) rounds).
    exists (all_e sps algs dists occs pb pe ns ths), (map (run_of host rev) (all_e sps algs dists occs pb pe ns ths)).
    split; [|split; [|split]].
    - exists (S (S (Z.to_nat hi) + length rounds)). intros f Hf. unfold gen_runs. fold hi. fold lo. rewrite !conv by lia. unfold all_e. rewrite map_flat. apply each_val. intros d _.
      change 10 with (hd 0 rounds) at 1. rewrite (pts_chain host rev sps algs occs pb pe d (Z.to_N lo) (Z.to_N hi) maxn (fun n => map (run_of host rev) (flat_map (alg_e sps occs pb pe ths d n) algs)) (S (Z.to_nat hi))).
      + f_equal. now rewrite map_flat.
      + intros f' n Hf'. apply (alg_runs ths (S (Z.to_nat hi))); [|exact Hf']. intros dist n' a f2 Hf2. apply Hrun. exact Hf2.
      + discriminate.
      + apply rounds_chain.
      + exact Hmax.
      + lia.
    - apply all_nodup; trivial. apply NoDup_filter, rounds_nodup.
    - intros e. rewrite all_in. apply asked_ext.
      + intros b. unfold edge_asked. destruct pe, b; cbn; intuition congruence.
      + intros n. unfold ns, round_number. rewrite filter_In, N.leb_le. split.
        * intros [H1 H2]. split; [exact H2|]. apply rounds_in; [lia|exact H1].
        * intros [H1 H2]. split; [|exact H1]. apply rounds_in; [lia|exact H2].
      + intros t. apply Ht.
    - induction (all_e sps algs dists occs pb pe ns ths) as [|e es IH]; cbn [map]; constructor; [apply run_of_traits|exact IH].
  Qed.

  (** With 4000000000 points or more the next number does not fit. *)
  Theorem C90_overflow_refuted maxn : 4000000000 <= maxn -> dists <> [] -> (1 <= lo < 2 ^ 31)%Z -> (0 <= hi < 2 ^ 31)%Z ->
    undefined (fun f => gen_runs host rev sps algs dists occs pb pe f hw maxn 10 maxt mint).
  Proof.
    intros Hmax Hd Hlo Hhi.
    destruct (threads_list (Z.to_N hi) ltac:(lia) (S (Z.to_nat hi)) (Z.to_N lo) ltac:(lia) ltac:(lia)) as (ths & Nt & Ht & Hrun).
    assert (Hb : forall dist f n, (S (Z.to_nat hi) < f)%nat -> alg_loop host rev sps algs occs pb pe f dist n (Z.to_N lo) (Z.to_N hi) = Val (map (run_of host rev) (flat_map (alg_e sps occs pb pe ths dist n) algs))).
    { intros dist f n Hf. apply (alg_runs ths (S (Z.to_nat hi))); [|exact Hf]. intros d' n' a f2 Hf2. now apply Hrun. }
    assert (Hp : forall dist l, l <> [] -> chain l = true -> (forall x, In x l -> x <= maxn) -> 2 ^ 32 <= last l 0 + step (last l 0) -> forall f, (S (Z.to_nat hi) + length l < f)%nat ->
      pts_loop host rev sps algs occs pb pe f dist (hd 0 l) maxn (Z.to_N lo) (Z.to_N hi) = Undef).
    { intros dist. induction l as [|a l IH]; intros Hne Hc Hm Hl f Hf; [congruence|]. destruct f as [|f]; [lia|]. cbn [hd pts_loop]. rewrite (proj2 (N.leb_le a maxn)) by (apply Hm; now left).
      rewrite Hb by (cbn [length] in Hf; lia). cbn [rbind]. destruct l as [|b l].
      - cbn [last] in Hl. rewrite (proj2 (N.ltb_ge _ _)) by exact Hl. reflexivity.
      - cbn [chain] in Hc. apply Bool.andb_true_iff in Hc as [H Hc]. apply Bool.andb_true_iff in H as [H H3]. apply Bool.andb_true_iff in H as [H1 H2]. apply N.eqb_eq in H1. rewrite <- H1, H3.
        change b with (hd 0 (b :: l)) at 1. rewrite IH; try easy; [intros x Hx; apply Hm; now right|cbn [length] in *; lia]. }
    exists (S (S (Z.to_nat hi) + length rounds)). intros f Hf. unfold gen_runs. fold hi. fold lo. rewrite !conv by lia. destruct dists as [|d ds]; [congruence|]. cbn [each].
    change 10 with (hd 0 rounds) at 1. rewrite Hp; [reflexivity|discriminate|apply rounds_chain| |vm_compute; discriminate|lia].
    intros x Hx. transitivity 4000000000; [|exact Hmax].
    assert (F : forallb (fun x => x <=? 4000000000) rounds = true) by (vm_compute; reflexivity). rewrite forallb_forall in F. apply N.leb_le. now apply F.
  Qed.

  Lemma thr_not_undef f d n a t m : thr_loop host rev sps occs pb pe f d n a t m <> Undef.
  Proof. revert t. induction f as [|f IH]; intros t; cbn [thr_loop]; [discriminate|]. destruct (t <=? m); [|discriminate]. specialize (IH (wrap 32 (2 * t))). destruct (thr_loop _ _ _ _ _ _ f _ _ _ _ _); cbn [rmap]; congruence. Qed.
  Lemma each_not_undef {A} (g : A -> res (list traits)) l : (forall a, g a <> Undef) -> each g l <> Undef.
  Proof. intros H. induction l as [|a l IH]; cbn [each]; [discriminate|]. specialize (H a). destruct (g a); cbn [rbind]; try congruence. destruct (each g l); cbn [rmap]; congruence. Qed.
  Lemma alg_not_undef f d n t m : alg_loop host rev sps algs occs pb pe f d n t m <> Undef.
  Proof. apply each_not_undef. intros a. destruct (Ascii.eqb a "c"); [discriminate|apply thr_not_undef]. Qed.

  (** From 0 points, or from 0 threads, the loop never ends. *)
  Theorem C90_zero_points_refuted maxn : dists <> [] -> diverges (fun f => gen_runs host rev sps algs dists occs pb pe f hw maxn 0 maxt mint).
  Proof.
    intros Hd f. unfold gen_runs. fold hi. fold lo. destruct dists as [|d ds]; [congruence|]. cbn [each].
    assert (H : forall f d a b, pts_loop host rev sps algs occs pb pe f d 0 maxn a b = NoFuel).
    { clear. induction f as [|f IH]; intros d a b; [reflexivity|]. cbn [pts_loop]. rewrite (proj2 (N.leb_le 0 maxn)) by apply N.le_0_l.
      pose proof (alg_not_undef (S f) d 0 a b). destruct (alg_loop _ _ _ _ _ _ _ _ _ _ _ _); cbn [rbind]; try congruence. change (0 + step 0) with 0. change (0 <? 2 ^ 32) with true. cbv iota. now rewrite IH. }
    now rewrite H.
  Qed.
  Theorem C90_zero_threads_refuted maxn minn a : dists <> [] -> In a algs -> a <> "c"%char -> minn <= maxn -> mint = 0%Z -> diverges (fun f => gen_runs host rev sps algs dists occs pb pe f hw maxn minn maxt mint).
  Proof.
    intros Hd Ha Hc Hn Hz f. unfold gen_runs. fold hi. assert (El : (if (mint =? -1)%Z then hi else mint) = 0%Z) by (rewrite Hz; reflexivity). rewrite El.
    change (Z.to_N (0 mod 2 ^ 32)) with 0. generalize (Z.to_N (hi mod 2 ^ 32)). intros m. destruct dists as [|d ds]; [congruence|]. cbn [each].
    assert (Ht : forall f d n a m, thr_loop host rev sps occs pb pe f d n a 0 m = NoFuel).
    { clear. induction f as [|f IH]; intros d n a m; [reflexivity|]. cbn [thr_loop]. rewrite (proj2 (N.leb_le 0 m)) by apply N.le_0_l. change (wrap 32 (2 * 0)) with 0. now rewrite IH. }
    assert (He : forall f n, alg_loop host rev sps algs occs pb pe f d n 0 m = NoFuel).
    { clear - Ha Hc Ht. intros f n. unfold alg_loop. induction algs as [|b l IH]; [destruct Ha|]. cbn [each]. destruct (Ascii.eqb b "c") eqn:E.
      - cbn [rbind]. destruct Ha as [->|Ha]; [apply Ascii.eqb_eq in E; contradiction|]. now rewrite (IH Ha).
      - now rewrite Ht. }
    destruct f as [|f]; [reflexivity|]. cbn [pts_loop]. rewrite (proj2 (N.leb_le _ _)) by exact Hn. now rewrite He.
  Qed.
End Runs.
Print Assumptions C90_runs.
Print Assumptions C90_overflow_refuted.
Print Assumptions C90_zero_points_refuted.
Print Assumptions C90_zero_threads_refuted.

(** Each run is made once, in either direction. *)
Theorem C90_visit n reverse : exists l, returns (fun f => visit f n reverse) l /\ NoDup l /\ forall i, In i l <-> (0 <= i < Z.of_N n)%Z.
Proof.
  assert (U : forall k i, (i + Z.of_nat k = Z.of_N n)%Z -> exists l, (forall f, (k < f)%nat -> visit_loop f i (Z.of_N n) 1 = Val l) /\ NoDup l /\ forall j, In j l <-> (i <= j < Z.of_N n)%Z).
  { induction k as [|k IH]; intros i Hi.
    - exists []. split; [|split; [constructor|intros j; cbn; lia]]. intros [|f] Hf; [lia|]. cbn [visit_loop]. rewrite (proj2 (Z.eqb_eq _ _)) by lia. reflexivity.
    - destruct (IH (i + 1)%Z ltac:(lia)) as (l & Hr & Nd & Hin). exists (i :: l). split; [|split].
      + intros [|f] Hf; [lia|]. cbn [visit_loop]. rewrite (proj2 (Z.eqb_neq _ _)) by lia. now rewrite Hr by lia.
      + constructor; [rewrite Hin; lia|exact Nd].
      + intros j. cbn [In]. rewrite Hin. lia. }
  assert (V : forall k i, (i + 1 = Z.of_nat k)%Z -> exists l, (forall f, (k < f)%nat -> visit_loop f i (-1) (-1) = Val l) /\ NoDup l /\ forall j, In j l <-> (0 <= j <= i)%Z).
  { induction k as [|k IH]; intros i Hi.
    - exists []. split; [|split; [constructor|intros j; cbn; lia]]. intros [|f] Hf; [lia|]. cbn [visit_loop]. rewrite (proj2 (Z.eqb_eq _ _)) by lia. reflexivity.
    - destruct (IH (i + -1)%Z ltac:(lia)) as (l & Hr & Nd & Hin). exists (i :: l). split; [|split].
      + intros [|f] Hf; [lia|]. cbn [visit_loop]. rewrite (proj2 (Z.eqb_neq _ _)) by lia. now rewrite Hr by lia.
      + constructor; [rewrite Hin; lia|exact Nd].
      + intros j. cbn [In]. rewrite Hin. lia. }
  destruct reverse.
  - destruct (V (N.to_nat n) (Z.of_N n - 1)%Z ltac:(lia)) as (l & Hr & Nd & Hin). exists l. split; [exists (S (N.to_nat n)); intros f Hf; apply Hr; lia|]. split; [exact Nd|]. intros i. rewrite Hin. lia.
  - destruct (U (N.to_nat n) 0%Z ltac:(lia)) as (l & Hr & Nd & Hin). exists l. split; [exists (S (N.to_nat n)); intros f Hf; apply Hr; lia|]. split; [exact Nd|]. exact Hin.
Qed.
Print Assumptions C90_visit.

(** Letters that can be written: no blank and no colon. *)
Definition plain (s : list ascii) : Prop := s <> [] /\ forall c, In c s -> c <> " "%char /\ c <> ":"%char.
Lemma show_plain n : plain (show n).
Proof.
  split.
  - unfold show. intros H. assert (E : forall u, digits u = [] -> u = Decimal.Nil) by (intros [] E; discriminate || reflexivity). apply E in H. destruct n; [discriminate H|]. cbn in H. now apply (DecimalPos.Unsigned.to_uint_nonnil p).
  - unfold show. induction (N.to_uint n) as [|u IH|u IH|u IH|u IH|u IH|u IH|u IH|u IH|u IH|u IH]; cbn [digits In]; [intros c []|..]; intros c [<-|H]; try (split; discriminate); now apply IH.
Qed.

(** What gen-only prints can be read back (options gen-only and runs), on any machine and by any version, to equal runs. *)
Theorem C90_read_back r e host rev host' rev' : (forall d, In d [host; rev] -> plain d) ->
  match e with Seq d _ => plain [d] | Grid d _ _ _ => plain [d] | Dac d _ a _ _ s _ _ => plain [d] /\ plain [a] /\ plain [s] end ->
  keyed r -> (forall k v, trait r k v <-> In (k, v) (exp_traits show e ++ [(txt "host", host); (txt "git-rev", rev)])) -> slen (run_str trait_sep inner_sep r) + slen trait_sep + 1 < 2 ^ 64 ->
  exists o, returns (fun f => run_parse host' rev' f trait_sep inner_sep (run_str trait_sep inner_sep r)) (Some o) /\ run_eq r o = true /\ run_eq o r = true.
Proof.
  intros Hp He Kr Hr HL.
  assert (Hk : forall k v, In (k, v) (exp_traits show e ++ [(txt "host", host); (txt "git-rev", rev)]) -> plain k /\ plain v).
  { assert (Hl : forall s, forallb (fun c => negb (Ascii.eqb c " ") && negb (Ascii.eqb c ":")) s = true -> s <> [] -> plain s).
    { intros s F Hn. split; [exact Hn|]. intros c Hc. rewrite forallb_forall in F. specialize (F c Hc). apply Bool.andb_true_iff in F as [F1 F2]. apply Bool.negb_true_iff in F1, F2. apply Ascii.eqb_neq in F1, F2. now split. }
    assert (Hc : plain ["c"%char] /\ plain ["m"%char]) by (split; apply Hl; (reflexivity || discriminate)). destruct Hc as [Hcc Hcm].
    pose proof (Hp host (or_introl eq_refl)) as Hph. pose proof (Hp rev (or_intror (or_introl eq_refl))) as Hpr.
    intros k v I. apply in_app_iff in I as [I|I].
    - destruct e as [d n|d n t o|d n a t o s b ed]; cbn [exp_traits] in I; [| |destruct He as (He1 & He2 & He3)]; repeat (destruct I as [I|I]; [injection I as <- <-; split; [apply Hl; [reflexivity|discriminate]|first [apply show_plain|assumption]]|]); destruct I.
    - destruct I as [I|[I|[]]]; injection I as <- <-; (split; [apply Hl; [reflexivity|discriminate]|assumption]). }
  assert (W : writable trait_sep inner_sep r).
  { apply C88_plain. intros k v I. apply Hr in I. apply Hk in I as [[_ I1] [I2 I3]]. split; [|exact I2]. intros c Hc. apply in_app_iff in Hc as [Hc|Hc]; auto. }
  destruct (C88_round_trip trait_sep inner_sep r host' rev') as (o & Ho & Ko & So & Vo); trivial; try discriminate.
  exists o. split; [exact Ho|]. apply (C88_equal r o host' rev'); trivial. intros k Hv. split.
  - intros [v Hv']. apply Hr in Hv'. apply in_app_iff in Hv' as [I|I].
    + exfalso. destruct e as [d n|d n t o'|d n a t o' s b ed]; cbn [exp_traits] in I; unfold volatile in Hv; repeat (destruct I as [I|I]; [injection I as <- <-; cbn in Hv; intuition discriminate|]); destruct I.
    + destruct I as [I|[I|[]]]; injection I as <- <-; auto.
  - intros [->| ->]; [exists host|exists rev]; apply Hr, in_app_iff; right; cbn; auto.
Qed.
Print Assumptions C90_read_back.

(** The defaults of the program with two algorithms, up to 20 points, 1 and 2 threads. *)
Example C90_ex : let h := txt "box" in let g := txt "0a1b" in
  rmap (map (run_str trait_sep inner_sep)) (gen_runs h g ["c"%char] ["c"; "d"]%char ["u"%char] [10; 50] false Yes 90 4 20 10 2 1) =
  Val [txt "alg: c   dist: u   git-rev: 0a1b   host: box   nP: 10   threads: 1";
       txt "alg: d   dist: u   git-rev: 0a1b   host: box   nP: 10   occupancy: 1   parallel-base: 0   parallel-edge: 1   splitter: c   threads: 1";
       txt "alg: d   dist: u   git-rev: 0a1b   host: box   nP: 10   occupancy: 1   parallel-base: 0   parallel-edge: 1   splitter: c   threads: 2";
       txt "alg: c   dist: u   git-rev: 0a1b   host: box   nP: 20   threads: 1";
       txt "alg: d   dist: u   git-rev: 0a1b   host: box   nP: 20   occupancy: 1   parallel-base: 0   parallel-edge: 1   splitter: c   threads: 1";
       txt "alg: d   dist: u   git-rev: 0a1b   host: box   nP: 20   occupancy: 1   parallel-base: 0   parallel-edge: 1   splitter: c   threads: 2"].
Proof. vm_compute. reflexivity. Qed.
