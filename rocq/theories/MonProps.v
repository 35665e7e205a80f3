(** C93, C94, C95: counting during a run. *)
From Coq Require Import Permutation String.
From Verif Require Import Outcome WordsModel WordsProofs MonModel.
Local Open Scope N_scope.

Definition sum (l : list N) : N := fold_right N.add 0 l.
Lemma sum_app a b : sum (a ++ b) = sum a + sum b.
Proof. unfold sum. induction a as [|x a IH]; cbn [app fold_right]; [reflexivity|]. rewrite IH. lia. Qed.
Lemma sum_cons x l : sum (x :: l) = x + sum l.
Proof. reflexivity. Qed.
Lemma sum_perm a b : Permutation a b -> sum a = sum b.
Proof. unfold sum. induction 1; cbn [fold_right]; lia. Qed.
Lemma wrap_add a b : wrap 64 (wrap 64 a + b) = wrap 64 (a + b).
Proof. unfold wrap. apply N.add_mod_idemp_l. discriminate. Qed.

Lemma runs_inv {X} (step : X -> X -> Prop) (I : X -> Prop) : (forall x y, I x -> step x y -> I y) -> forall n x y, I x -> runs step n x y -> I y.
Proof. intros H n x y Hx R. induction R; [assumption|]. apply IHR. now apply (H x). Qed.
Lemma runs_app {X} (step : X -> X -> Prop) n x y : runs step n x y -> forall m z, runs step m y z -> runs step (n + m) x z.
Proof. induction 1; intros m w R; [exact R|]. cbn. econstructor; [eassumption|]. now apply IHruns. Qed.
Lemma runs_measure {X} (step : X -> X -> Prop) (f : X -> nat) : (forall x y, step x y -> (f y < f x)%nat) -> forall n x y, runs step n x y -> (n + f y <= f x)%nat.
Proof. intros H n x y R. induction R as [|n x y z S R IH]; [lia|]. apply H in S. lia. Qed.

(** * The monitor *)
Section Monitor.
  Context {P : Type}.
  Notation thread := (place * list (N * P))%type (only parsing).
  Definition outside (t : thread) : Prop := fst t = Outside.
  (** The calls that are not yet in the list. *)
  Definition open (t : thread) : list (N * P) := match fst t with Listed => tl (snd t) | _ => snd t end.
  Definition nums (l : list (N * P)) : N := sum (map fst l).
  Definition mid (t : thread) (a : acc P) : Prop := snd t <> [] /\
    match fst t with
    | Outside => False
    | Inside | Listed => a_num a = wrap 64 (nums (a_list a))
    | Read r => r = a_num a /\ a_num a = wrap 64 (nums (a_list a))
    | Counted => a_num a = wrap 64 (nums (a_list a ++ firstn 1 (snd t)))
    end.
  Definition minv (all : list (N * P)) (x : list thread * acc P) : Prop :=
    Permutation (a_list (snd x) ++ concat (map open (fst x))) all /\
    ((a_lock (snd x) = false /\ Forall outside (fst x) /\ a_num (snd x) = wrap 64 (nums (a_list (snd x)))) \/
     (a_lock (snd x) = true /\ exists l1 t l2, fst x = l1 ++ t :: l2 /\ Forall outside (l1 ++ l2) /\ mid t (snd x))).

  Lemma split_same (Q : thread -> Prop) l1 t l2 : forall k1 u k2, l1 ++ t :: l2 = k1 ++ u :: k2 -> Forall Q (k1 ++ k2) -> ~ Q t -> l1 = k1 /\ t = u /\ l2 = k2.
  Proof.
    induction l1 as [|x l1 IH]; intros [|y k1] u k2 E F N0; cbn [app] in *; injection E as E1 E2.
    - now subst.
    - subst. inversion F; subst. contradiction.
    - subst. exfalso. apply N0. rewrite Forall_forall in F. apply F. apply in_app_iff. right. now left.
    - subst. inversion F; subst. destruct (IH k1 u k2 E2) as (-> & -> & ->); auto.
  Qed.
  Lemma nums_snoc l c : nums (l ++ [c]) = nums l + fst c.
  Proof. unfold nums. rewrite map_app, sum_app. cbn. lia. Qed.

  Lemma minv_step all x y : minv all x -> interleave reg x y -> minv all y.
  Proof.
    intros [HP HI] S. destruct S as [l1 t l2 s t' s' R]. cbn [fst snd] in *.
    assert (Mid : ~ outside t -> a_lock s = true /\ Forall outside (l1 ++ l2) /\ mid t s).
    { intros No. destruct HI as [(_ & F & _)|(L & k1 & u & k2 & E & F & M)].
      - exfalso. apply No. rewrite Forall_forall in F. apply F. apply in_app_iff. right. now left.
      - destruct (split_same outside l1 t l2 k1 u k2 E F No) as (-> & -> & ->). split; [exact L|]. split; [exact F|exact M]. }
    split; cbn [fst snd].
    - rewrite map_app, concat_app in *. cbn [map concat] in *. rewrite <- HP. clear HP HI Mid. destruct R; cbn [open fst snd a_list tl]; try reflexivity.
      rewrite <- app_assoc. apply Permutation_app_head. cbn [app].
      rewrite (Permutation_middle (concat (map open l1)) (cs ++ concat (map open l2)) c). reflexivity.
    - destruct R; cbn [a_lock a_num a_list] in *.
      + destruct HI as [(_ & F & E)|(L & _)]; [|discriminate L]. right. split; [reflexivity|]. exists l1, (Inside, c :: cs), l2. split; [reflexivity|]. split.
        * rewrite Forall_app in F |- *. destruct F as [F1 F2]. inversion F2; subst. now split.
        * split; [discriminate|exact E].
      + destruct Mid as (L & F & _ & M); [discriminate|]. right. split; [exact L|]. exists l1, (Read num, c :: cs), l2. split; [reflexivity|]. split; [exact F|]. split; [discriminate|]. now split.
      + destruct Mid as (L & F & _ & M1 & M2); [discriminate|]. right. split; [exact L|]. exists l1, (Counted, c :: cs), l2. split; [reflexivity|]. split; [exact F|]. split; [discriminate|].
        cbn [fst snd a_num a_list firstn] in *. rewrite nums_snoc, M1, M2. apply wrap_add.
      + destruct Mid as (L & F & _ & M); [discriminate|]. right. split; [exact L|]. exists l1, (Listed, c :: cs), l2. split; [reflexivity|]. split; [exact F|]. split; [discriminate|exact M].
      + destruct Mid as (L & F & _ & M); [discriminate|]. left. split; [reflexivity|]. split; [|exact M]. rewrite Forall_app in F |- *. destruct F as [F1 F2]. split; [exact F1|]. now constructor.
  Qed.
  Lemma open_start calls : concat (map open (map (pair Outside) calls)) = concat calls.
  Proof. induction calls as [|c calls IH]; [reflexivity|]. cbn [map concat]. now rewrite IH. Qed.
  Lemma minv_start calls : minv (concat calls) (mon_start calls).
  Proof.
    split; cbn [mon_start fst snd a_list a_lock a_num].
    - rewrite open_start. reflexivity.
    - left. split; [reflexivity|]. split; [|reflexivity]. apply Forall_forall. intros t I. apply in_map_iff in I as (c & <- & _). reflexivity.
  Qed.

  Definition place_left (p : place) : nat := match p with Outside => 5 | Inside => 4 | Read _ => 3 | Counted => 2 | Listed => 1 end.
  Definition t_left (t : thread) : nat := match snd t with [] => 0 | _ :: cs => place_left (fst t) + 5 * length cs end.
  Definition left_of (x : list thread * acc P) : nat := fold_right Nat.add 0%nat (map t_left (fst x)).
  Lemma left_step x y : interleave reg x y -> (left_of y < left_of x)%nat.
  Proof.
    intros [l1 t l2 s t' s' R]. unfold left_of. cbn [fst]. rewrite !map_app, !fold_right_app. cbn [map fold_right].
    assert (L : (t_left t' < t_left t)%nat) by (destruct R; unfold t_left; cbn [snd fst place_left length]; try lia; destruct cs; cbn [length place_left]; lia).
    assert (G : forall l a b, (a < b)%nat -> (fold_right Nat.add a (map t_left l) < fold_right Nat.add b (map t_left l))%nat) by (intros l; induction l as [|z l IH]; intros a b H; cbn [map fold_right]; [exact H|apply IH in H; lia]).
    apply G. lia.
  Qed.

  (** In every reached state at most one thread is inside; the run is at most five times as long as there are calls; and either some thread can go on, or all
      calls are made, the number is the sum of all (modulo 2^64) and the list has every call exactly once. *)
  Theorem C93_monitor (calls : list (list (N * P))) n x : runs (interleave reg) n (mon_start calls) x ->
    (forall l1 t l2 u l3, fst x = l1 ++ t :: l2 ++ u :: l3 -> fst t = Outside \/ fst u = Outside) /\
    (n <= 5 * length (concat calls))%nat /\
    ((exists y, interleave reg x y) \/
     (Forall (fun t => t = (Outside, [])) (fst x) /\ a_lock (snd x) = false /\
      a_num (snd x) = sum (map fst (concat calls)) mod 2 ^ 64 /\ Permutation (a_list (snd x)) (concat calls))).
  Proof.
    intros R. pose proof (runs_inv _ _ (minv_step (concat calls)) _ _ _ (minv_start calls) R) as [HP HI]. destruct x as [ts a]. cbn [fst snd] in *. split.
    { intros l1 t l2 u l3 ->. destruct HI as [(_ & F & _)|(_ & k1 & v & k2 & E & F & _)].
      - left. rewrite Forall_forall in F. apply F. apply in_app_iff. right. now left.
      - destruct t as [p cs]. destruct p; try (now left); right; destruct (split_same outside l1 _ _ k1 v k2 E F ltac:(discriminate)) as (-> & _ & <-); rewrite Forall_forall in F; apply F; apply in_app_iff; right; apply in_app_iff; right; now left. }
    split.
    { pose proof (runs_measure _ left_of left_step _ _ _ R) as M. assert (left_of (mon_start calls) = 5 * length (concat calls))%nat; [|lia].
      clear. unfold left_of, mon_start. cbn [fst]. induction calls as [|c calls IH]; [reflexivity|]. cbn [map fold_right concat]. rewrite IH, app_length. destruct c; cbn [t_left fst snd place_left length]; lia. }
    destruct HI as [(L & F & E)|(L & l1 & t & l2 & -> & F & Hne & M)].
    - destruct (Forall_Exists_dec (fun t : thread => snd t = [])) with (l := ts) as [A|A].
      { intros [p [|c cs]]; [now left|right; discriminate]. }
      + right. assert (Forall (fun t => t = (Outside, [])) ts). { rewrite Forall_forall in *. intros [p cs] I. specialize (A _ I). specialize (F _ I). cbn in A, F. unfold outside in F. cbn in F. now subst. }
        assert (O : concat (map open ts) = []). { clear - H. induction H as [|t ts -> H IH]; [reflexivity|]. cbn [map concat]. now rewrite IH. }
        rewrite O, app_nil_r in HP. split; [assumption|]. split; [exact L|]. split; [|exact HP]. rewrite E. unfold nums, wrap. f_equal. apply sum_perm. now apply Permutation_map.
      + left. apply Exists_exists in A as ([p cs] & I & A). pose proof (proj1 (Forall_forall _ _) F _ I) as Fp. unfold outside in Fp. cbn [fst snd] in *. subst p. destruct cs as [|c cs]; [now destruct A|].
        apply in_split in I as (l1 & l2 & ->). destruct a as [k num l]. cbn in L. subst k. eexists. apply i_step. apply g_lock.
    - left. destruct t as [p [|c cs]]; cbn [fst snd] in *; [congruence|]. destruct a as [k num l]. destruct p; [now destruct M|..]; eexists; apply i_step; constructor.
  Qed.
End Monitor.
Print Assumptions C93_monitor.

(** * The counter *)
Notation cthread := (option N * list N)%type (only parsing).
Definition pending (ts : list cthread) : N := sum (concat (map snd ts)).
Lemma pending_app a b : pending (a ++ b) = pending a + pending b.
Proof. unfold pending. now rewrite map_app, concat_app, sum_app. Qed.
Lemma pending_cons t l : pending (t :: l) = sum (snd t) + pending l.
Proof. unfold pending. cbn [map concat]. apply sum_app. Qed.
Lemma pending_start calls : pending (map (pair None) calls) = sum (concat calls).
Proof. unfold pending. f_equal. f_equal. induction calls as [|c l IH]; [reflexivity|]. cbn [map snd]. now rewrite IH. Qed.

(** What is counted and what was read is at most [all] less what is still to come. *)
Definition cinv (all : N) (x : list cthread * N) : Prop := snd x + pending (fst x) <= all /\ Forall (fun t => match fst t with Some r => r + pending (fst x) <= all | None => True end) (fst x).
Lemma cinv_step all x y : cinv all x -> interleave inc x y -> cinv all y.
Proof.
  intros [H F] S. destruct S as [l1 t l2 s t' s' R]. unfold cinv in *. cbn [fst snd] in *. rewrite pending_app, pending_cons in *. apply Forall_app in F as [F1 F2]. inversion F2 as [|? ? F3 F4]; subst.
  destruct R; cbn [fst snd] in *.
  - split; [exact H|]. apply Forall_app. split; [exact F1|]. constructor; [exact H|exact F4].
  - cbn [sum fold_right] in *. fold (sum vs) in *. assert (wrap 64 (r + v) <= r + v) by (unfold wrap; apply N.mod_le; discriminate). split; [lia|].
    assert (G : forall l : list cthread, Forall (fun t => match fst t with Some r => r + (pending l1 + (v + sum vs + pending l2)) <= all | None => True end) l -> Forall (fun t => match fst t with Some r => r + (pending l1 + (sum vs + pending l2)) <= all | None => True end) l).
    { intros l Fl. eapply Forall_impl; [|exact Fl]. intros [[q|] w] Hq; cbn [fst] in *; [lia|exact I]. }
    apply Forall_app. split; [now apply G|]. constructor; [exact I|now apply G].
Qed.
Lemma cinv_start s calls : cinv (s + sum (concat calls)) (map (pair None) calls, s).
Proof. split; cbn [fst snd]; rewrite pending_start; [lia|]. apply Forall_forall. intros t I. apply in_map_iff in I as (c & <- & _). exact Logic.I. Qed.

Definition finished (ts : list cthread) : Prop := Forall (fun t => t = (None, [])) ts.
Definition c_left (t : cthread) : nat := match t with (Some _, vs) => 2 * length vs - 1 | (None, vs) => 2 * length vs end.
Lemma cleft_step x y : interleave inc x y -> (fold_right Nat.add 0%nat (map c_left (fst y)) < fold_right Nat.add 0%nat (map c_left (fst x)))%nat.
Proof.
  intros [l1 t l2 s t' s' R]. cbn [fst]. rewrite !map_app, !fold_right_app. cbn [map fold_right].
  assert (L : (c_left t' < c_left t)%nat) by (destruct R; cbn [c_left length]; lia).
  assert (G : forall l a b, (a < b)%nat -> (fold_right Nat.add a (map c_left l) < fold_right Nat.add b (map c_left l))%nat) by (intros l; induction l as [|z l IH]; intros a b H; cbn [map fold_right]; [exact H|apply IH in H; lia]).
  apply G. lia.
Qed.

(** For every schedule: a run has at most two steps per call, the counter is never more than the sum of all calls, and it is exactly that (modulo 2^64)
    at the end of a run in which calls do not overlap. *)
Theorem C94_counter_partial (calls : list (list N)) n x : runs (interleave inc) n (cnt_start calls) x -> (n <= 2 * length (concat calls))%nat /\ snd x <= sum (concat calls).
Proof.
  intros R. split.
  - pose proof (runs_measure _ (fun x => fold_right Nat.add 0%nat (map c_left (fst x))) cleft_step _ _ _ R) as M. cbn beta in M. assert (fold_right Nat.add 0%nat (map c_left (fst (cnt_start calls))) = 2 * length (concat calls))%nat; [|lia].
    clear. unfold cnt_start. cbn [fst]. induction calls as [|c calls IH]; [reflexivity|]. cbn [map fold_right concat]. rewrite IH, app_length. cbn [c_left]. lia.
  - pose proof (runs_inv _ _ (cinv_step (0 + sum (concat calls))) _ _ _ (cinv_start 0 calls) R) as [H _]. lia.
Qed.

(** Calls do not overlap: in no state two threads have read. *)
Definition calm (x : list cthread * N) : Prop := forall l1 t l2 u l3, fst x = l1 ++ t :: l2 ++ u :: l3 -> fst t = None \/ fst u = None.
Definition calm_step (x y : list cthread * N) : Prop := interleave inc x y /\ calm y.
Definition einv (all : N) (x : list cthread * N) : Prop := calm x /\ snd x < 2 ^ 64 /\ (exists k, all = k + pending (fst x) /\ snd x = wrap 64 k) /\ Forall (fun t => match fst t with Some r => r = snd x | None => True end) (fst x).
Lemma einv_step all x y : einv all x -> calm_step x y -> einv all y.
Proof.
  intros (C & B & (k & K1 & K2) & F) [S C']. split; [exact C'|]. destruct S as [l1 t l2 s t' s' R]. cbn [fst snd] in *. rewrite pending_app, pending_cons in *. apply Forall_app in F as [F1 F2]. pose proof (Forall_inv F2) as F3. pose proof (Forall_inv_tail F2) as F4. cbn beta in F3.
  destruct R; cbn [fst snd] in *.
  - split; [exact B|]. split; [exists k; now split|]. apply Forall_app. split; [exact F1|]. now constructor.
  - split; [apply wrap_lt|]. split.
    + exists (k + v). cbn [sum fold_right] in *. fold (sum vs) in *. split; [lia|]. rewrite F3, K2. apply wrap_add.
    + apply Forall_app. split; [|constructor; [exact I|]].
      * apply Forall_forall. intros [[q|] w] Hq; [|exact I]. exfalso. apply in_split in Hq as (a & b & ->). destruct (C a (Some q, w) b (Some r, v :: vs) l2) as [H|H]; [|discriminate H..]. cbn [fst]. now rewrite <- app_assoc.
      * apply Forall_forall. intros [[q|] w] Hq; [|exact I]. exfalso. apply in_split in Hq as (a & b & ->). destruct (C l1 (Some r, v :: vs) a (Some q, w) b) as [H|H]; [reflexivity|discriminate H..].
Qed.
Lemma finished_pending ts : finished ts -> pending ts = 0.
Proof. induction 1 as [|t ts -> H IH]; [reflexivity|]. rewrite pending_cons, IH. reflexivity. Qed.
Theorem C94_calm (calls : list (list N)) n x : runs calm_step n (cnt_start calls) x -> finished (fst x) -> snd x = sum (concat calls) mod 2 ^ 64.
Proof.
  intros R F. assert (S : einv (sum (concat calls)) (cnt_start calls)).
  { split; [|split; [reflexivity|split]]; cbn [cnt_start fst snd].
    - intros l1 t l2 u l3 E. left. assert (I : In t (map (pair None) calls)) by (cbn in E; rewrite E; apply in_app_iff; right; now left). apply in_map_iff in I as (c & <- & _). reflexivity.
    - exists 0. rewrite pending_start. split; [lia|reflexivity].
    - apply Forall_forall. intros t I. apply in_map_iff in I as (c & <- & _). exact Logic.I. }
  destruct (runs_inv _ _ (einv_step _) _ _ _ S R) as (_ & _ & (k & K1 & K2) & _). rewrite finished_pending in K1 by exact F. rewrite K2. unfold wrap. f_equal. lia.
Qed.

(** From every state with no call under way the threads can finish. *)
Lemma finish1 l1 vs l2 s : exists n s', runs (interleave inc) n (l1 ++ (None, vs) :: l2, s) (l1 ++ (None, []) :: l2, s').
Proof.
  revert s. induction vs as [|v vs IH]; intros s; [exists 0%nat, s; constructor|]. destruct (IH (wrap 64 (s + v))) as (n & s' & R). exists (S (S n)), s'.
  econstructor; [apply i_step, n_read|]. econstructor; [apply i_step, n_write|exact R].
Qed.
Lemma finish (calls : list (list N)) : forall l1 s, finished l1 -> exists n y, runs (interleave inc) n (l1 ++ map (pair None) calls, s) y /\ finished (fst y).
Proof.
  induction calls as [|c calls IH]; intros l1 s F.
  - eexists 0%nat, _. split; [constructor|]. cbn [fst map]. now rewrite app_nil_r.
  - cbn [map]. destruct (finish1 l1 c (map (pair None) calls) s) as (n & s' & R). destruct (IH (l1 ++ [(None, [])]) s') as (m & y & R' & Fy).
    { apply Forall_app. split; [exact F|]. now constructor. }
    exists (n + m)%nat, y. split; [|exact Fy]. eapply runs_app; [exact R|]. now rewrite <- app_assoc in R'.
Qed.
(** Whenever two threads count, there is a run that loses the first increment of the second for good. *)
Theorem C94_lost_refuted (l1 : list (list N)) a A l2 b B l3 : exists n x, let calls := l1 ++ (a :: A) :: l2 ++ (b :: B) :: l3 in
  runs (interleave inc) n (cnt_start calls) x /\ finished (fst x) /\ snd x + b <= sum (concat calls).
Proof.
  set (calls' := l1 ++ A :: l2 ++ B :: l3).
  destruct (finish calls' [] (wrap 64 (0 + a)) (Forall_nil _)) as (n & x & R & F). cbn [app] in R. exists (4 + n)%nat, x. cbn zeta. split; [|split; [exact F|]].
  - unfold cnt_start. rewrite !map_app. cbn [map]. rewrite map_app. cbn [map]. cbn [Nat.add].
    econstructor; [apply i_step, n_read|]. 
    econstructor. { rewrite app_comm_cons, app_assoc. apply i_step, n_read. }
    econstructor. { apply i_step, n_write. }
    rewrite <- app_assoc, <- app_comm_cons.
    econstructor. { apply i_step, n_write. }
    unfold calls' in R. rewrite map_app in R. cbn [map] in R. rewrite map_app in R. cbn [map] in R. exact R.
  - pose proof (runs_inv _ _ (cinv_step _) _ _ _ (cinv_start (wrap 64 (0 + a)) calls') R) as [H _].
    assert (wrap 64 (0 + a) <= a) by (unfold wrap; apply N.mod_le; discriminate).
    assert (E : sum (concat (l1 ++ (a :: A) :: l2 ++ (b :: B) :: l3)) = a + b + sum (concat calls')).
    { unfold calls'. rewrite !concat_app. cbn [concat]. rewrite !concat_app. cbn [concat app]. rewrite ?sum_app, ?sum_cons, ?sum_app, ?sum_cons, ?sum_app. lia. }
    rewrite E. lia.
Qed.
Print Assumptions C94_counter_partial.
Print Assumptions C94_calm.
Print Assumptions C94_lost_refuted.

(** * Averages *)
Lemma avg_fold ms : forall a, fold_left (fun a m => wrap 64 (a + m)) ms (wrap 64 a) = wrap 64 (a + sum ms).
Proof. induction ms as [|m ms IH]; intros a; cbn [fold_left sum fold_right]; [f_equal; lia|]. fold (sum ms). rewrite wrap_add, IH. f_equal. lia. Qed.
(** The average is rounded down, lies between the least and the greatest measurement, if the sum fits. *)
Theorem C95_avg_partial ms : ms <> [] -> sum ms < 2 ^ 64 ->
  avg ms * N.of_nat (length ms) <= sum ms /\ sum ms < (avg ms + 1) * N.of_nat (length ms) /\
  (forall lo, (forall m, In m ms -> lo <= m) -> lo <= avg ms) /\ (forall hi, (forall m, In m ms -> m <= hi) -> avg ms <= hi).
Proof.
  intros Hne Hs. assert (L : 0 < N.of_nat (length ms)) by (destruct ms; [congruence|cbn [length]; lia]).
  assert (E : avg ms = sum ms / N.of_nat (length ms)). { unfold avg. rewrite (proj2 (N.ltb_lt _ _) L). change 0 with (wrap 64 0) at 1. rewrite avg_fold, wrap_id; [reflexivity|exact Hs]. }
  rewrite E. clear E Hs Hne. pose proof (N.div_mod (sum ms) (N.of_nat (length ms)) ltac:(lia)) as D. pose proof (N.mod_lt (sum ms) (N.of_nat (length ms)) ltac:(lia)) as M.
  split; [lia|]. split; [lia|]. split; intros x H.
  - apply N.div_le_lower_bound; [lia|]. clear - H. induction ms as [|m ms IH]; cbn [sum fold_right length]; [lia|]. fold (sum ms). pose proof (H m (or_introl eq_refl)). specialize (IH (fun z Hz => H z (or_intror Hz))). lia.
  - apply N.div_le_upper_bound; [lia|]. clear - H. induction ms as [|m ms IH]; cbn [sum fold_right length]; [lia|]. fold (sum ms). pose proof (H m (or_introl eq_refl)). specialize (IH (fun z Hz => H z (or_intror Hz))). lia.
Qed.
(** Otherwise not: an even number of measurements of 2^63 has the average 0. *)
Theorem C95_overflow_refuted n : avg (repeat (2 ^ 63) (2 * n)) = 0.
Proof.
  assert (E : wrap 64 (0 + sum (repeat (2 ^ 63) (2 * n))) = 0).
  { unfold wrap. replace (0 + sum (repeat (2 ^ 63) (2 * n))) with (N.of_nat n * 2 ^ 64); [apply N.mod_mul; discriminate|]. induction n as [|n IH]; [reflexivity|].
    replace (2 * S n)%nat with (S (S (2 * n))) by lia. cbn [repeat]. unfold sum in *. cbn [fold_right]. lia. }
  unfold avg. pose proof (avg_fold (repeat (2 ^ 63) (2 * n)) 0) as H. change (wrap 64 0) with 0 in H. rewrite H, E. clear.
  set (k := N.of_nat _). destruct (N.ltb_spec 0 k) as [H|H]; [|reflexivity]. apply N.div_0_l. lia.
Qed.
Print Assumptions C95_avg_partial.
Print Assumptions C95_overflow_refuted.

(** Two threads with two and one calls: a run of the monitor with its result, and one of the counter that loses 5 of 8. *)
Local Open Scope string_scope.
Example C93_ex : exists n x, runs (interleave reg) n (mon_start [[(3, "0"); (4, "00")]; [(5, "1")]]) x /\ a_num (snd x) = 12 /\ a_list (snd x) = [(3, "0"); (5, "1"); (4, "00")].
Proof.
  eexists 15%nat, _. split.
  - unfold mon_start. cbn [map].
    do 5 (econstructor; [apply (i_step reg []); constructor|]). cbn [app].
    do 5 (econstructor; [match goal with |- interleave _ ([?t; ?u], _) _ => apply (i_step reg [t]); constructor end|]; cbn [app]).
    do 5 (econstructor; [apply (i_step reg []); constructor|]). constructor.
  - now split.
Qed.
Example C94_ex : exists n x, runs (interleave inc) n (cnt_start [[3]; [5]]) x /\ finished (fst x) /\ snd x + 5 <= 8.
Proof. exact (C94_lost_refuted [] 3 [] [] 5 [] []). Qed.
Example C94_calm_ex : exists n x, runs calm_step n (cnt_start [[3]; []]) x /\ finished (fst x) /\ snd x = 3.
Proof.
  assert (C : forall t s, calm ([t; (None, [])], s)).
  { intros t s l1 a l2 b l3 E. cbn [fst] in E. right. assert (L : (length [t; (@None N, @nil N)] = length (l1 ++ a :: l2 ++ b :: l3))%nat) by now rewrite E.
    rewrite app_length in L. cbn [length] in L. rewrite app_length in L. cbn [length] in L.
    destruct l1; [|cbn [length] in L; lia]. destruct l2; [|cbn [length] in L; lia]. cbn [app] in E. injection E as _ <- _. reflexivity. }
  eexists 2%nat, _. split; [|split]. 
  - econstructor. { split; [apply (i_step inc []), n_read|apply C]. } econstructor. { split; [apply (i_step inc []), n_write|apply C]. } constructor.
  - now repeat constructor.
  - reflexivity.
Qed.
Example C95_ex : avg [3; 4; 6] = 4.
Proof. reflexivity. Qed.
