(** C97: sums of expansions. *)
From Coq Require Import Reals Lra.
From Verif Require Import Outcome GeoModel PredModel ExpansModel.
Local Open Scope R_scope.

Definition rsum (l : list R) : R := fold_right Rplus 0 l.
Lemma rsum_app a b : rsum (a ++ b) = rsum a + rsum b.
Proof. unfold rsum. induction a as [|x a IH]; cbn [app fold_right]; [lra|]. rewrite IH. lra. Qed.

(** The components grow in magnitude, zeros aside. *)
Definition rising (a : list R) : Prop := forall i j, (i < j < length a)%nat -> nth j a 0 = 0 \/ Rabs (nth i a 0) <= Rabs (nth j a 0).

Section Sum.
  Variable rnd : R -> R.
  (** The machine numbers. *)
  Variable F : R -> Prop.
  (** Additions are without error: Two_Sum for all numbers, Fast_Two_Sum if the first is not smaller than the second, or zero. *)
  Hypothesis TS : forall a b, F a -> F b -> F (fst (two_sum rnd a b)) /\ F (snd (two_sum rnd a b)) /\ fst (two_sum rnd a b) + snd (two_sum rnd a b) = a + b.
  Hypothesis FTS : forall a b, F a -> F b -> a = 0 \/ Rabs b <= Rabs a ->
    F (fst (fast_two_sum rnd a b)) /\ F (snd (fast_two_sum rnd a b)) /\ fst (fast_two_sum rnd a b) + snd (fast_two_sum rnd a b) = a + b.
  Variables (elen : nat) (e : list R) (flen : nat) (f : list R).
  Hypothesis He : (0 < elen < length e)%nat.
  Hypothesis Hf : (0 < flen < length f)%nat.
  Hypothesis Fe : forall i, (i < elen)%nat -> F (nth i e 0).
  Hypothesis Ff : forall i, (i < flen)%nat -> F (nth i f 0).

  Definition tail (len : nat) (a : list R) (i : nat) : R := rsum (skipn i (firstn len a)).
  Lemma tail_step len a i : (i < len)%nat -> (len < length a)%nat -> tail len a i = nth i a 0 + tail len a (i + 1).
  Proof.
    unfold tail. intros Hi Hl. assert (L : (i < length (firstn len a))%nat) by (rewrite firstn_length; lia).
    assert (E : nth i (firstn len a) 0 = nth i a 0). { rewrite <- (firstn_skipn len a) at 2. now rewrite app_nth1 by exact L. }
    rewrite <- E. clear E Hi Hl. revert i L. generalize (firstn len a). intros l. induction l as [|x l IH]; intros i L; cbn [length] in L; [lia|]. destruct i as [|i].
    - cbn [Nat.add skipn nth]. reflexivity.
    - cbn [Nat.add skipn nth]. apply IH. lia.
  Qed.
  Lemma tail_end len a i : (len <= i)%nat -> tail len a i = 0.
  Proof. intros H. unfold tail. rewrite skipn_all2; [reflexivity|]. rewrite firstn_length. lia. Qed.
  Lemma rd_val a i : (i < length a)%nat -> rd a i = Val (nth i a 0).
  Proof. intros H. unfold rd. now rewrite (nth_error_nth' a 0 H). Qed.

  (** All outputs are machine numbers and not zero. *)
  Definition clean (h : list R) : Prop := Forall (fun x => F x /\ x <> 0) h.
  Lemma out_ok h x : clean h -> F x -> clean (out h x) /\ rsum (out h x) = rsum h + x /\ (length (out h x) <= length h + 1)%nat.
  Proof.
    intros C Fx. unfold out. destruct (Req_EM_T x 0) as [E|E].
    - split; [exact C|]. split; [lra|lia].
    - split; [apply Forall_app; split; [exact C|]; now repeat constructor|]. split; [rewrite rsum_app; unfold rsum at 2; cbn [fold_right]; lra|]. rewrite app_length. cbn [length]. lia.
  Qed.
  Definition total : R := rsum (firstn elen e) + rsum (firstn flen f).
  Definition inv (s : est) : Prop := (x_ei s <= elen)%nat /\ (x_fi s <= flen)%nat /\ x_e s = nth (x_ei s) e 0 /\ x_f s = nth (x_fi s) f 0 /\ F (x_q s) /\ clean (x_h s) /\
    (length (x_h s) + 1 <= x_ei s + x_fi s)%nat /\ x_q s + rsum (x_h s) + tail elen e (x_ei s) + tail flen f (x_fi s) = total.

  Lemma both_ok n : forall s, inv s -> (elen - x_ei s + (flen - x_fi s) <= n)%nat -> exists s', both rnd elen e flen f n s = Val s' /\ inv s' /\ (x_ei s' = elen \/ x_fi s' = flen).
  Proof.
    induction n as [|n IH]; intros s (I1 & I2 & I3 & I4 & I5 & I6 & I7 & I8) Hn.
    - exists s. cbn [both]. replace ((x_ei s <? elen)%nat && (x_fi s <? flen)%nat) with false by lia. repeat split; auto; lia.
    - cbn [both]. destruct ((x_ei s <? elen)%nat && (x_fi s <? flen)%nat) eqn:L.
      2:{ exists s. repeat split; auto; lia. }
      apply andb_prop in L as [L1 L2]. apply Nat.ltb_lt in L1, L2. destruct (pick_e (x_e s) (x_f s)).
      + assert (Fx : F (x_e s)) by (rewrite I3; now apply Fe). destruct (TS _ _ I5 Fx) as (T1 & T2 & T3). destruct (two_sum rnd (x_q s) (x_e s)) as [q hh]. cbn [fst snd] in *.
        rewrite rd_val by lia. cbn [rbind]. destruct (out_ok (x_h s) hh I6 T2) as (O1 & O2 & O3). apply IH; [|cbn [x_ei x_fi]; lia].
        unfold inv. cbn [x_ei x_fi x_e x_f x_q x_h]. rewrite (tail_step elen e (x_ei s)) in I8 by lia. rewrite <- I3 in I8. repeat split; auto; try lia. rewrite O2. lra.
      + assert (Fx : F (x_f s)) by (rewrite I4; now apply Ff). destruct (TS _ _ I5 Fx) as (T1 & T2 & T3). destruct (two_sum rnd (x_q s) (x_f s)) as [q hh]. cbn [fst snd] in *.
        rewrite rd_val by lia. cbn [rbind]. destruct (out_ok (x_h s) hh I6 T2) as (O1 & O2 & O3). apply IH; [|cbn [x_ei x_fi]; lia].
        unfold inv. cbn [x_ei x_fi x_e x_f x_q x_h]. rewrite (tail_step flen f (x_fi s)) in I8 by lia. rewrite <- I4 in I8. repeat split; auto; try lia. rewrite O2. lra.
  Qed.
  Lemma rest_ok len a n : (0 < len < length a)%nat -> (forall i, (i < len)%nat -> F (nth i a 0)) -> forall i now q h, (i <= len)%nat -> (len - i <= n)%nat -> now = nth i a 0 -> F q -> clean h ->
    exists q' h', rest rnd n len a i now q h = Val (q', h') /\ F q' /\ clean h' /\ q' + rsum h' = q + rsum h + tail len a i /\ (length h' <= length h + (len - i))%nat.
  Proof.
    intros Ha Fa. induction n as [|n IH]; intros i now q h Hi Hn En Fq C.
    - exists q, h. cbn [rest]. replace (i <? len)%nat with false by lia. rewrite tail_end by lia. repeat split; auto; try lra; lia.
    - cbn [rest]. destruct (Nat.ltb_spec i len) as [L|L].
      2:{ exists q, h. rewrite tail_end by lia. repeat split; auto; try lra; lia. }
      assert (Fx : F now) by (rewrite En; now apply Fa). destruct (TS _ _ Fq Fx) as (T1 & T2 & T3). destruct (two_sum rnd q now) as [q1 hh]. cbn [fst snd] in *.
      rewrite rd_val by lia. cbn [rbind]. destruct (out_ok h hh C T2) as (O1 & O2 & O3).
      destruct (IH (i + 1)%nat (nth (i + 1) a 0) q1 (out h hh)) as (q' & h' & R1 & R2 & R3 & R4 & R5); auto; try lia. exists q', h'. rewrite (tail_step len a i) by lia. rewrite <- En. repeat split; auto; [lra|lia].
  Qed.

  Hypothesis Re : rising (firstn elen e).
  Hypothesis Rf : rising (firstn flen f).
  Lemma nth_first len (a : list R) i : (i < len)%nat -> nth i (firstn len a) 0 = nth i a 0.
  Proof. revert len i. induction a as [|x a IH]; intros [|len] i H; try lia; [now destruct i|]. destruct i as [|i]; [reflexivity|]. cbn [firstn nth]. apply IH. lia. Qed.
  Lemma pick_true a b : pick_e a b = true -> Rabs a <= Rabs b.
  Proof. unfold pick_e, rltb. destruct (Rlt_dec a b), (Rlt_dec (- a) b); try discriminate; intros _; unfold Rabs; destruct (Rcase_abs a), (Rcase_abs b); lra. Qed.
  Lemma pick_false a b : pick_e a b = false -> Rabs b <= Rabs a.
  Proof. unfold pick_e, rltb. destruct (Rlt_dec a b), (Rlt_dec (- a) b); try discriminate; intros _; unfold Rabs; destruct (Rcase_abs a), (Rcase_abs b); lra. Qed.

  (** After the first component: the sum is not yet rounded, and both next components are not smaller, or zero. *)
  Lemma first_ok : exists s, first e f = Val s /\ inv s /\ ((x_ei s < elen)%nat -> x_e s = 0 \/ Rabs (x_q s) <= Rabs (x_e s)) /\ ((x_fi s < flen)%nat -> x_f s = 0 \/ Rabs (x_q s) <= Rabs (x_f s)).
  Proof.
    unfold first. rewrite (rd_val e 0), (rd_val f 0) by lia. cbn [rbind].
    assert (T1 : total = nth 0 e 0 + tail elen e 1 + tail flen f 0) by (unfold total; change (rsum (firstn elen e)) with (tail elen e 0); change (rsum (firstn flen f)) with (tail flen f 0); rewrite (tail_step elen e 0) by lia; reflexivity).
    assert (T2 : total = nth 0 f 0 + tail elen e 0 + tail flen f 1) by (unfold total; change (rsum (firstn elen e)) with (tail elen e 0); change (rsum (firstn flen f)) with (tail flen f 0); rewrite (tail_step flen f 0) by lia; cbn [Nat.add]; lra).
    destruct (pick_e (nth 0 e 0) (nth 0 f 0)) eqn:P.
    - rewrite rd_val by lia. cbn [rbind]. eexists. split; [reflexivity|]. cbn [x_ei x_fi x_e x_f x_q x_h]. split; [|split].
      + unfold inv. cbn [x_ei x_fi x_e x_f x_q x_h length]. repeat split; try lia; [apply Fe; lia|constructor|]. unfold rsum at 1. cbn [fold_right]. lra.
      + intros L. specialize (Re 0%nat 1%nat). rewrite !nth_first in Re by lia. apply Re. rewrite firstn_length. lia.
      + intros _. right. now apply pick_true.
    - rewrite rd_val by lia. cbn [rbind]. eexists. split; [reflexivity|]. cbn [x_ei x_fi x_e x_f x_q x_h]. split; [|split].
      + unfold inv. cbn [x_ei x_fi x_e x_f x_q x_h length]. repeat split; try lia; [apply Ff; lia|constructor|]. unfold rsum at 1. cbn [fold_right]. lra.
      + intros _. right. now apply pick_false.
      + intros L. specialize (Rf 0%nat 1%nat). rewrite !nth_first in Rf by lia. apply Rf. rewrite firstn_length. lia.
  Qed.
  Lemma second_ok s : inv s -> ((x_ei s < elen)%nat -> x_e s = 0 \/ Rabs (x_q s) <= Rabs (x_e s)) -> ((x_fi s < flen)%nat -> x_f s = 0 \/ Rabs (x_q s) <= Rabs (x_f s)) ->
    exists s', second rnd elen e flen f s = Val s' /\ inv s'.
  Proof.
    intros (I1 & I2 & I3 & I4 & I5 & I6 & I7 & I8) G1 G2. unfold second. destruct ((x_ei s <? elen)%nat && (x_fi s <? flen)%nat) eqn:L.
    2:{ exists s. repeat split; auto. }
    apply andb_prop in L as [L1 L2]. apply Nat.ltb_lt in L1, L2. destruct (pick_e (x_e s) (x_f s)).
    - assert (Fx : F (x_e s)) by (rewrite I3; now apply Fe). destruct (FTS _ _ Fx I5 (G1 L1)) as (T1 & T2 & T3). destruct (fast_two_sum rnd (x_e s) (x_q s)) as [q hh]. cbn [fst snd] in *.
      rewrite rd_val by lia. cbn [rbind]. destruct (out_ok (x_h s) hh I6 T2) as (O1 & O2 & O3). eexists. split; [reflexivity|].
      unfold inv. cbn [x_ei x_fi x_e x_f x_q x_h]. rewrite (tail_step elen e (x_ei s)) in I8 by lia. rewrite <- I3 in I8. repeat split; auto; try lia. rewrite O2. lra.
    - assert (Fx : F (x_f s)) by (rewrite I4; now apply Ff). destruct (FTS _ _ Fx I5 (G2 L2)) as (T1 & T2 & T3). destruct (fast_two_sum rnd (x_f s) (x_q s)) as [q hh]. cbn [fst snd] in *.
      rewrite rd_val by lia. cbn [rbind]. destruct (out_ok (x_h s) hh I6 T2) as (O1 & O2 & O3). eexists. split; [reflexivity|].
      unfold inv. cbn [x_ei x_fi x_e x_f x_q x_h]. rewrite (tail_step flen f (x_fi s)) in I8 by lia. rewrite <- I4 in I8. repeat split; auto; try lia. rewrite O2. lra.
  Qed.

  (** If the arrays are longer than their expansions and additions are without error: the function returns, the components add up to the sum of both expansions, there
      are at least one and at most as many as in both, all machine numbers, and none is zero unless it is the only one. *)
  Theorem C97_value_partial : exists h, returns (expansion_sum rnd elen e flen f) h /\ rsum h = rsum (firstn elen e) + rsum (firstn flen f) /\
    (1 <= length h <= elen + flen)%nat /\ Forall F h /\ (forall x, In x h -> x = 0 -> h = [0]).
  Proof.
    destruct first_ok as (s1 & E1 & J1 & G1 & G2). destruct (second_ok s1 J1 G1 G2) as (s2 & E2 & J2).
    assert (X : exists s3, inv s3 /\ (forall n, (elen + flen <= n)%nat -> both rnd elen e flen f n s2 = Val s3)).
    { destruct (both_ok (elen + flen) s2 J2) as (s3 & E3 & J3 & _); [lia|]. exists s3. split; [exact J3|].
      clear - E3. intros n Hn. revert n s2 Hn E3. generalize (elen + flen)%nat as m. intros m. induction m as [|m IH]; intros n s Hn E.
      - cbn [both] in E. destruct n; cbn [both]; destruct (_ && _); try discriminate; exact E.
      - destruct n as [|n]; [lia|]. cbn [both] in *. destruct (_ && _); [|exact E]. destruct (pick_e _ _); destruct (two_sum _ _ _) as [q hh]; [destruct (rd e _)|destruct (rd f _)]; cbn [rbind] in *; try discriminate; (apply IH; [lia|exact E]). }
    destruct X as (s3 & (I1 & I2 & I3 & I4 & I5 & I6 & I7 & I8) & E3).
    assert (RX : forall len a i now q h m v, rest rnd m len a i now q h = Val v -> forall n, (m <= n)%nat -> rest rnd n len a i now q h = Val v).
    { clear. intros len a i now q h m. revert i now q h. induction m as [|m IH]; intros i now q h v E n Hn.
      - cbn [rest] in E. destruct n; cbn [rest]; destruct (i <? len)%nat; try discriminate; exact E.
      - destruct n as [|n]; [lia|]. cbn [rest] in *. destruct (i <? len)%nat; [|exact E]. destruct (two_sum _ _ _) as [q1 hh]. destruct (rd a _); cbn [rbind] in *; try discriminate. apply IH; [exact E|lia]. }
    destruct (rest_ok elen e (elen + flen) He Fe (x_ei s3) (x_e s3) (x_q s3) (x_h s3)) as (q4 & h4 & E4 & Fq4 & C4 & S4 & L4); auto; [lia|].
    destruct (rest_ok flen f (elen + flen) Hf Ff (x_fi s3) (x_f s3) q4 h4) as (q5 & h5 & E5 & Fq5 & C5 & S5 & L5); auto; [lia|].
    exists (if Req_EM_T q5 0 then match h5 with [] => [q5] | _ => h5 end else h5 ++ [q5]).
    split.
    { exists (elen + flen)%nat. intros m Hm. unfold expansion_sum. rewrite E1. cbn [rbind]. rewrite E2. cbn [rbind]. rewrite E3 by exact Hm. cbn [rbind]. rewrite (RX _ _ _ _ _ _ _ _ E4 m Hm). cbn [rbind]. rewrite (RX _ _ _ _ _ _ _ _ E5 m Hm). reflexivity. }
    assert (T : q5 + rsum h5 = rsum (firstn elen e) + rsum (firstn flen f)) by (fold total; lra).
    assert (L : (length h5 + 1 <= elen + flen)%nat) by lia.
    assert (NZ : forall x, In x h5 -> x <> 0) by (intros x Hx; apply (proj1 (Forall_forall _ _) C5 x Hx)).
    assert (FH : Forall F h5) by (eapply Forall_impl; [|exact C5]; now intros x [? _]).
    destruct (Req_EM_T q5 0) as [Z|Z].
    - destruct h5 as [|x h5].
      + subst q5. split; [rewrite <- T; reflexivity|]. split; [cbn [length]; lia|]. split; [now repeat constructor|]. intros x [<-|[]] _. reflexivity.
      + split; [lra|]. split; [cbn [length] in *; lia|]. split; [exact FH|]. intros y Hy E. now destruct (NZ y Hy).
    - split; [rewrite rsum_app; unfold rsum at 2; cbn [fold_right]; lra|]. split; [rewrite app_length; cbn [length]; lia|]. split; [apply Forall_app; split; [exact FH|now repeat constructor]|].
      intros y Hy E. apply in_app_iff in Hy as [Hy|[<-|[]]]; [now destruct (NZ y Hy)|contradiction].
  Qed.
End Sum.
Print Assumptions C97_value_partial.

(** If one of the arrays is not longer than its expansion, one element behind its end is read, whatever the values and the rounding. *)
Section Bounds.
  Variables (rnd : R -> R) (elen : nat) (e : list R) (flen : nat) (f : list R).
  Hypothesis He : (0 < elen <= length e)%nat.
  Hypothesis Hf : (0 < flen <= length f)%nat.
  Definition upto (s : est) : Prop := (x_ei s <= elen)%nat /\ (x_fi s <= flen)%nat /\ (x_ei s < length e)%nat /\ (x_fi s < length f)%nat.
  Lemma rd_cases a i : (exists x, rd a i = Val x /\ (i < length a)%nat) \/ rd a i = Undef.
  Proof. unfold rd. destruct (nth_error a i) eqn:E; [left; eexists; split; [reflexivity|]; apply nth_error_Some; congruence|now right]. Qed.
  Lemma both_cases n : forall s, upto s -> (elen - x_ei s + (flen - x_fi s) <= n)%nat -> both rnd elen e flen f n s = Undef \/ exists s', both rnd elen e flen f n s = Val s' /\ upto s'.
  Proof.
    induction n as [|n IH]; intros s (U1 & U2 & U3 & U4) Hn; cbn [both].
    - right. exists s. replace ((x_ei s <? elen)%nat && (x_fi s <? flen)%nat) with false by lia. now repeat split.
    - destruct ((x_ei s <? elen)%nat && (x_fi s <? flen)%nat) eqn:L; [|right; exists s; now repeat split]. apply andb_prop in L as [L1 L2]. apply Nat.ltb_lt in L1, L2.
      destruct (pick_e _ _); destruct (two_sum _ _ _) as [q hh].
      + destruct (rd_cases e (x_ei s + 1)) as [(x & E & Hx)|E]; rewrite E; cbn [rbind]; [|now left]. apply IH; [|cbn [x_ei x_fi]; lia]. unfold upto. cbn [x_ei x_fi]. lia.
      + destruct (rd_cases f (x_fi s + 1)) as [(x & E & Hx)|E]; rewrite E; cbn [rbind]; [|now left]. apply IH; [|cbn [x_ei x_fi]; lia]. unfold upto. cbn [x_ei x_fi]. lia.
  Qed.
  Lemma rest_cases len a n : forall i now q h, (i <= len)%nat -> (i < length a)%nat -> (len - i <= n)%nat -> rest rnd n len a i now q h = Undef \/ ((len < length a)%nat /\ exists r, rest rnd n len a i now q h = Val r).
  Proof.
    induction n as [|n IH]; intros i now q h Hi Ha Hn; cbn [rest].
    - right. replace (i <? len)%nat with false by lia. split; [lia|now eexists].
    - destruct (Nat.ltb_spec i len) as [L|L]; [|right; split; [lia|now eexists]]. destruct (two_sum _ _ _) as [q1 hh].
      destruct (rd_cases a (i + 1)) as [(x & E & Hx)|E]; rewrite E; cbn [rbind]; [|now left]. apply IH; lia.
  Qed.
  Theorem C97_bounds_refuted : length e = elen \/ length f = flen -> exists n, forall m, (n <= m)%nat -> expansion_sum rnd elen e flen f m = Undef.
  Proof.
    intros H. exists (elen + flen)%nat. intros m Hm. unfold expansion_sum.
    assert (X1 : first e f = Undef \/ exists s, first e f = Val s /\ upto s).
    { unfold first. destruct (rd_cases e 0) as [(x & E & Hx)|E]; rewrite E; cbn [rbind]; [|now left]. destruct (rd_cases f 0) as [(y & E' & Hy)|E']; rewrite E'; cbn [rbind]; [|now left].
      destruct (pick_e x y); [destruct (rd_cases e 1) as [(z & Ez & Hz)|Ez]|destruct (rd_cases f 1) as [(z & Ez & Hz)|Ez]]; rewrite Ez; cbn [rbind]; try (now left); right; eexists; (split; [reflexivity|]); unfold upto; cbn [x_ei x_fi]; lia. }
    destruct X1 as [->|(s1 & -> & U1)]; [reflexivity|]. cbn [rbind].
    assert (X2 : second rnd elen e flen f s1 = Undef \/ exists s, second rnd elen e flen f s1 = Val s /\ upto s).
    { destruct U1 as (U1 & U2 & U3 & U4). unfold second. destruct ((x_ei s1 <? elen)%nat && (x_fi s1 <? flen)%nat) eqn:L; [|right; exists s1; now repeat split]. apply andb_prop in L as [L1 L2]. apply Nat.ltb_lt in L1, L2.
      destruct (pick_e _ _); destruct (fast_two_sum _ _ _) as [q hh]; [destruct (rd_cases e (x_ei s1 + 1)) as [(z & Ez & Hz)|Ez]|destruct (rd_cases f (x_fi s1 + 1)) as [(z & Ez & Hz)|Ez]]; rewrite Ez; cbn [rbind]; try (now left); right; eexists; (split; [reflexivity|]); unfold upto; cbn [x_ei x_fi]; lia. }
    destruct X2 as [->|(s2 & -> & U2)]; [reflexivity|]. cbn [rbind].
    destruct (both_cases m s2 U2) as [->|(s3 & -> & U3)]; [lia|reflexivity|]. cbn [rbind]. destruct U3 as (V1 & V2 & V3 & V4).
    destruct (rest_cases elen e m (x_ei s3) (x_e s3) (x_q s3) (x_h s3)) as [->|(Le & [q h] & ->)]; try lia; [reflexivity|]. cbn [rbind].
    destruct (rest_cases flen f m (x_fi s3) (x_f s3) q h) as [->|(Lf & r & ->)]; try lia. reflexivity.
  Qed.
End Bounds.
Print Assumptions C97_bounds_refuted.

(** A toy arithmetic with the numbers 0, 1 and 8 in which sums are rounded: 1 + 8 gives 8 and the error 1. *)
Definition toy (x : R) : R := if Req_EM_T x 2 then 1 else if Req_EM_T x 16 then 8 else if Req_EM_T x 9 then 8 else if Req_EM_T x 7 then 8 else x.
Lemma toy_id x : x <> 2 -> x <> 16 -> x <> 9 -> x <> 7 -> toy x = x.
Proof. intros. unfold toy. repeat (destruct (Req_EM_T _ _); try contradiction). reflexivity. Qed.
Lemma toy2 : toy 2 = 1. Proof. unfold toy. destruct (Req_EM_T 2 2); [reflexivity|lra]. Qed.
Lemma toy16 : toy 16 = 8. Proof. unfold toy. destruct (Req_EM_T 16 2); [lra|]. destruct (Req_EM_T 16 16); [reflexivity|lra]. Qed.
Lemma toy9 : toy 9 = 8. Proof. unfold toy. destruct (Req_EM_T 9 2); [lra|]. destruct (Req_EM_T 9 16); [lra|]. destruct (Req_EM_T 9 9); [reflexivity|lra]. Qed.
Lemma toy7 : toy 7 = 8. Proof. unfold toy. destruct (Req_EM_T 7 2); [lra|]. destruct (Req_EM_T 7 16); [lra|]. destruct (Req_EM_T 7 9); [lra|]. destruct (Req_EM_T 7 7); [reflexivity|lra]. Qed.
Ltac toy1 := match goal with |- context [toy ?x] => lazymatch x with context [toy _] => fail | _ => first
  [replace (toy x) with 1 by (replace x with 2 by lra; symmetry; apply toy2)|replace (toy x) with 8 by (replace x with 16 by lra; symmetry; apply toy16)
  |replace (toy x) with 8 by (replace x with 9 by lra; symmetry; apply toy9)|replace (toy x) with 8 by (replace x with 7 by lra; symmetry; apply toy7)|rewrite (toy_id x) by lra] end end.
Definition toyF (x : R) : Prop := x = 0 \/ x = 1 \/ x = 8.
Lemma toy_TS a b : toyF a -> toyF b -> toyF (fst (two_sum toy a b)) /\ toyF (snd (two_sum toy a b)) /\ fst (two_sum toy a b) + snd (two_sum toy a b) = a + b.
Proof.
  unfold toyF, two_sum, fadd, fsub. intros [-> | [-> | ->]] [-> | [-> | ->]]; cbn [fst snd]; repeat toy1; lra.
Qed.
Lemma toy_FTS a b : toyF a -> toyF b -> a = 0 \/ Rabs b <= Rabs a -> toyF (fst (fast_two_sum toy a b)) /\ toyF (snd (fast_two_sum toy a b)) /\ fst (fast_two_sum toy a b) + snd (fast_two_sum toy a b) = a + b.
Proof.
  unfold toyF, fast_two_sum, fadd, fsub. intros [-> | [-> | ->]] [-> | [-> | ->]] H; cbn [fst snd]; try (exfalso; destruct H as [H|H]; [lra|rewrite !Rabs_pos_eq in H by lra; lra]); repeat toy1; lra.
Qed.
(** 1 + 8 and 8, each with a place behind it: three components, none of which is zero, with the sum 17. *)
Example C97_ex : exists h, returns (expansion_sum toy 2 [1; 8; 0] 1 [8; 0]) h /\ rsum h = 17 /\ (1 <= length h <= 3)%nat /\ Forall toyF h.
Proof.
  destruct (C97_value_partial toy toyF toy_TS toy_FTS 2 [1; 8; 0] 1 [8; 0]) as (h & R & S & L & Fh & _).
  - cbn. lia.
  - cbn. lia.
  - intros [|[|i]] H; [right; now left|right; now right|lia].
  - intros [|i] H; [right; now right|lia].
  - intros [|[|i]] [|[|j]] [H1 H2]; cbn [firstn length nth] in *; try lia. right. rewrite !Rabs_pos_eq by lra. lra.
  - intros [|i] [|j] [H1 H2]; cbn [firstn length nth] in *; lia.
  - exists h. split; [exact R|]. split; [rewrite S; unfold rsum; cbn [firstn fold_right]; lra|]. split; [exact L|exact Fh].
Qed.
(** The call in line 1330: both arrays have four elements. *)
Example C97_call : forall rnd B0 B1 B2 B3 u0 u1 u2 u3, exists n, forall m, (n <= m)%nat -> expansion_sum rnd 4 [B0; B1; B2; B3] 4 [u0; u1; u2; u3] m = Undef.
Proof. intros. apply C97_bounds_refuted; cbn [length]; [lia|lia|now left]. Qed.
