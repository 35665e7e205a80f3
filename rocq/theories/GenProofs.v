From Coq Require Import Reals Lra Psatz Permutation.
From Verif Require Import Outcome ListUtil WordsModel GeoModel GeoSpec GeoProofs GeoBox GenModel.
Local Open Scope R_scope.
Open Scope list_scope.
Import ListNotations.

(** Every point 1 to n is written and lies in the box. *)
Definition filled (D : nat) (b : box) (n : nat) (c : cells) : Prop :=
  length c = S n /\ forall i, (1 <= i <= n)%nat -> exists p, nth_error c i = Some (Some p) /\ in_box D b p.

Section G.
Context {Eng : Type}.
Variable mk : nat -> Eng -> res (vec * Eng).

Lemma gen_each_ok (P : vec -> Prop) : forall ids c e c' e', gen_each mk ids c e = Val (c', e') ->
  (forall i e p e', In i ids -> mk i e = Val (p, e') -> P p) ->
  length c' = length c /\ (forall i, In i ids -> exists p, nth_error c' i = Some (Some p) /\ P p) /\ (forall i, ~ In i ids -> nth_error c' i = nth_error c i).
Proof.
  induction ids as [|i ids IH]; intros c e c' e' H HP; cbn [gen_each] in H.
  - injection H as <- <-. split; [reflexivity|]. split; [intros i Hi; destruct Hi|reflexivity].
  - destruct (mk i e) as [[p e1]| |] eqn:Em; cbn [rbind] in H; try discriminate. unfold write in H. destruct (Nat.ltb_spec i (length c)) as [Li|Li]; cbn [rbind] in H; [|discriminate].
    destruct (IH _ _ _ _ H) as (H1 & H2 & H3). { intros. eapply HP; [right|]; eassumption. }
    rewrite upd_length in H1. split; [exact H1|]. split.
    + intros j [<-|Hj]; [|auto]. destruct (in_dec Nat.eq_dec i ids) as [Hi|Hi]; [auto|]. exists p. rewrite (H3 i Hi), nth_error_upd_eq by exact Li. split; [reflexivity|].
      eapply HP; [now left|exact Em].
    + intros j Hj. rewrite (H3 j) by (intros X; apply Hj; now right). apply nth_error_upd_neq. intros X. apply Hj. now left.
Qed.
Lemma gen_each_def : forall ids c e c' e', gen_each mk ids c e = Val (c', e') ->
  forall i, In i ids -> (i < length c)%nat /\ exists e1 p e2, mk i e1 = Val (p, e2).
Proof.
  induction ids as [|i ids IH]; intros c e c' e' H j Hj; [destruct Hj|]. cbn [gen_each] in H.
  destruct (mk i e) as [[p e1]| |] eqn:Em; cbn [rbind] in H; try discriminate. unfold write in H. destruct (Nat.ltb_spec i (length c)) as [Li|Li]; cbn [rbind] in H; [|discriminate].
  destruct Hj as [<-|Hj]; [eauto 6|]. destruct (IH _ _ _ _ H j Hj) as [H1 H2]. rewrite upd_length in H1. auto.
Qed.
Lemma gen_each_total : forall ids c e, (forall i e, In i ids -> exists p e', mk i e = Val (p, e')) -> (forall i, In i ids -> (i < length c)%nat) ->
  exists c' e', gen_each mk ids c e = Val (c', e').
Proof.
  induction ids as [|i ids IH]; intros c e H L; cbn [gen_each]; [eauto|]. destruct (H i e (or_introl eq_refl)) as (p & e1 & ->). cbn [rbind]. unfold write.
  destruct (Nat.ltb_spec i (length c)) as [_|X]; [|specialize (L i (or_introl eq_refl)); lia]. cbn [rbind]. apply IH.
  - intros. apply H. now right.
  - intros j Hj. rewrite upd_length. apply L. now right.
Qed.
End G.

Lemma init_length n : length (init n) = S n.
Proof. unfold init. cbn [length]. now rewrite repeat_length. Qed.
Lemma init_unset n i : (1 <= i <= n)%nat -> nth_error (init n) i = Some None.
Proof. intros H. unfold init. destruct i; [lia|]. cbn [nth_error]. apply nth_error_repeat. lia. Qed.

Lemma filled_sorted D b n c srt : filled D b n c -> (forall l, Permutation l (srt l)) -> exists c', sort_points srt c = Val c' /\ filled D b n c' /\ Permutation (tl c) (tl c') /\ hd_error c' = hd_error c.
Proof.
  intros [L H] HP. destruct c as [|z t]; [discriminate|]. cbn [length] in L. injection L as L. unfold sort_points.
  assert (Sf : forallb is_set t = true).
  { apply forallb_forall. intros o Ho. apply In_nth_error in Ho. destruct Ho as [i Hi]. assert (Li := nth_error_lt _ _ _ Hi). destruct (H (S i)) as (p & Hp & _); [lia|]. cbn [nth_error] in Hp. rewrite Hi in Hp. injection Hp as ->. reflexivity. }
  rewrite Sf. exists (z :: srt t). split; [reflexivity|]. split; [|split; [apply HP|reflexivity]]. split; [cbn [length]; now rewrite <- (Permutation_length (HP t)), L|].
  intros i Hi. destruct i as [|i]; [lia|]. cbn [nth_error]. destruct (nth_error_ex (srt t) i) as [o Ho]; [rewrite <- (Permutation_length (HP t)); lia|]. rewrite Ho.
  assert (Hin : In o t) by (eapply Permutation_in; [symmetry; apply HP|]; eapply nth_error_In, Ho). apply In_nth_error in Hin. destruct Hin as [j Hj]. assert (Lj := nth_error_lt _ _ _ Hj).
  destruct (H (S j)) as (p & Hp & Hin); [lia|]. cbn [nth_error] in Hp. rewrite Hj in Hp. injection Hp as ->. eauto.
Qed.
Lemma unset_sorted n c srt i : (1 <= i <= n)%nat -> nth_error c i = Some None -> sort_points srt c = Undef.
Proof.
  intros Hi H. destruct c as [|z t]; [reflexivity|]. destruct i as [|i]; [lia|]. cbn [nth_error] in H. unfold sort_points.
  destruct (forallb is_set t) eqn:E; [|reflexivity]. rewrite forallb_forall in E. specialize (E None (nth_error_In _ _ H)). discriminate.
Qed.

Section B.
Context {Eng : Type}.
Variables (D : nat) (b : box).
Section One.
Variable draw : Eng -> R * Eng.
Lemma draws_length : forall k e, length (fst (draws draw k e)) = k.
Proof. induction k as [|k IH]; intros e; cbn [draws]; [reflexivity|]. destruct (draw e) as [x e1]. specialize (IH e1). destruct (draws draw k e1). cbn in *. lia. Qed.
Lemma draws_in (P : R -> Prop) : (forall e, P (fst (draw e))) -> forall k e d, (d < k)%nat -> P (nth d (fst (draws draw k e)) 0).
Proof.
  intros H. induction k as [|k IH]; intros e d Hd; [lia|]. cbn [draws]. pose proof (H e) as He. destruct (draw e) as [x e1]. specialize (IH e1). destruct (draws draw k e1) as [l e2]. cbn [fst] in *.
  destruct d as [|d]; cbn [nth]; [exact He|]. apply IH. lia.
Qed.

Lemma uniform_ok n e : box_ok D b -> (forall e, 0 <= fst (draw e) <= 1) -> exists c, gen_uniform D b draw n e = Val (c, e) /\ filled D b n c.
Proof.
  intros Hb Hd. unfold gen_uniform.
  destruct (gen_each_total (uniform_point D b draw) (seq 1 n) (init n) e) as (c & e' & E).
  { intros i e0 _. unfold uniform_point. destruct (draws draw D e0). eauto. }
  { intros i Hi. apply in_seq in Hi. rewrite init_length. lia. }
  rewrite E. cbn [rmap fst]. exists c. split; [reflexivity|]. destruct (gen_each_ok _ (in_box D b) _ _ _ _ _ E) as (H1 & H2 & _).
  { intros i e0 p e1 _ Hp. unfold uniform_point in Hp. pose proof (draws_in (fun x => 0 <= x <= 1) Hd D e0) as Hx. destruct (draws draw D e0) as [l e2]. injection Hp as <- _. cbn [fst] in Hx.
    intros d Hd'. specialize (Hx d Hd'). specialize (Hb d Hd'). cbn beta in *. nra. }
  split; [now rewrite H1, init_length|]. intros i Hi. apply H2, in_seq. lia.
Qed.

Lemma reject_in fuel mid span : forall e p e', reject D b draw fuel mid span e = Val (p, e') -> in_box D b p.
Proof.
  induction fuel as [|f IH]; intros e p e' H; cbn [reject] in H; [discriminate|]. destruct (draws draw D e) as [l e1].
  destruct (box_has D b (fun d => mid d + span d * nth d l 0)) eqn:E; [|eauto]. injection H as <- _. now apply box_has_spec in E.
Qed.
Lemma normal_ok fuel n e c e' : gen_normal D b draw fuel n e = Val (c, e') -> filled D b n c.
Proof.
  unfold gen_normal. intros H. destruct (gen_each _ (seq 1 n) (init n) e) as [[c0 e0]| |] eqn:E; try discriminate. cbn in H. injection H as <- _.
  destruct (gen_each_ok _ (in_box D b) _ _ _ _ _ E) as (H1 & H2 & _). { intros i e1 p e2 _ Hp. eapply reject_in, Hp. }
  split; [now rewrite H1, init_length|]. intros i Hi. apply H2, in_seq. lia.
Qed.

Lemma bubble_loop fuel pp : forall ks c e c' e',
  fold_left (fun st k => rbind st (fun '(c, e1) => gen_each (fun _ => reject D b draw fuel (mid_of (bubble b k)) (span_of (bubble b k))) (seq (k * pp + 1) pp) c e1)) ks (Val (c, e)) = Val (c', e') ->
  length c' = length c /\ (forall i, (exists k, In k ks /\ (k * pp + 1 <= i <= k * pp + pp)%nat) -> exists p, nth_error c' i = Some (Some p) /\ in_box D b p) /\
  (forall i, (forall k, In k ks -> ~ (k * pp + 1 <= i <= k * pp + pp)%nat) -> nth_error c' i = nth_error c i).
Proof.
  induction ks as [|k ks IH]; intros c e c' e' H; cbn [fold_left] in H.
  - injection H as <- <-. split; [reflexivity|]. split; [intros i (k & [] & _)|reflexivity].
  - cbn [rbind] in H. set (mk := fun _ : nat => reject D b draw fuel (mid_of (bubble b k)) (span_of (bubble b k))) in *.
    destruct (gen_each mk (seq (k * pp + 1) pp) c e) as [[c1 e1]| |] eqn:E.
    2:{ exfalso. clear - H. induction ks as [|k ks IH]; [discriminate|]. apply IH, H. }
    2:{ exfalso. clear - H. induction ks as [|k ks IH]; [discriminate|]. apply IH, H. }
    destruct (IH _ _ _ _ H) as (H1 & H2 & H3). destruct (gen_each_ok _ (in_box D b) _ _ _ _ _ E) as (G1 & G2 & G3). { intros i e2 p e3 _ Hp. eapply reject_in, Hp. }
    split; [congruence|]. split.
    + intros i (k' & Hk' & Hi). destruct (Exists_dec (fun k0 => (k0 * pp + 1 <= i <= k0 * pp + pp)%nat) ks) as [Ex|Nex].
      { intros x. destruct (le_dec (x * pp + 1) i), (le_dec i (x * pp + pp)); [left; lia|right; lia..]. }
      * apply Exists_exists in Ex. apply H2. exact Ex.
      * rewrite H3; [|intros k0 Hk0 X; apply Nex, Exists_exists; eauto]. apply G2. apply in_seq. destruct Hk' as [<-|Hk']; [lia|]. exfalso. apply Nex, Exists_exists. eauto.
    + intros i Hi. rewrite H3 by (intros k0 Hk0; apply Hi; now right). apply G3. rewrite in_seq. specialize (Hi k (or_introl eq_refl)). lia.
Qed.
Lemma bubble_ok fuel n e c e' : gen_bubble D b draw fuel n e = Val (c, e') ->
  length c = S n /\ (forall i, (1 <= i <= n / 2 ^ D * 2 ^ D)%nat -> exists p, nth_error c i = Some (Some p) /\ in_box D b p) /\
  (forall i, (n / 2 ^ D * 2 ^ D < i <= n)%nat -> nth_error c i = Some None).
Proof.
  unfold gen_bubble. intros H. set (pp := (n / 2 ^ D)%nat) in *.
  destruct (fold_left _ (seq 0 (2 ^ D)) _) as [[c0 e0]| |] eqn:E; try discriminate. cbn in H. injection H as <- _. destruct (bubble_loop _ _ _ _ _ _ _ E) as (H1 & H2 & H3).
  split; [now rewrite H1, init_length|]. split.
  - intros i Hi. apply H2. assert (Hpp : (0 < pp)%nat) by (destruct pp; lia). exists ((i - 1) / pp)%nat. pose proof (Nat.div_mod (i - 1) pp ltac:(lia)) as E1. pose proof (Nat.mod_upper_bound (i - 1) pp ltac:(lia)) as E2.
    split; [|set (q := ((i - 1) / pp)%nat) in *; lia]. apply in_seq. split; [apply Nat.le_0_l|]. cbn [Nat.add]. apply Nat.div_lt_upper_bound; [lia|]. rewrite Nat.mul_comm. lia.
  - intros i Hi. rewrite H3, init_unset; [reflexivity|lia|]. intros k Hk X. apply in_seq in Hk. assert ((k + 1) * pp <= 2 ^ D * pp)%nat by (apply Nat.mul_le_mono_r; lia). lia.
Qed.

Lemma sum_sq_nonneg f : forall k, 0 <= sum_loop k (fun d => f d * f d).
Proof. intros k. unfold sum_loop. induction k as [|k IH]; [cbn; lra|]. rewrite seq_S, fold_left_app. cbn [fold_left Nat.add]. pose proof (Rle_0_sqr (f k)). unfold Rsqr in *. lra. Qed.
Lemma sum_sq_ge f : forall k d, (d < k)%nat -> f d * f d <= sum_loop k (fun d => f d * f d).
Proof.
  intros k d. unfold sum_loop. induction k as [|k IH]; intros Hd; [lia|]. rewrite seq_S, fold_left_app. cbn [fold_left Nat.add]. pose proof (Rle_0_sqr (f k)) as Q. unfold Rsqr in Q.
  destruct (Nat.eq_dec d k) as [->|Hne]; [|assert (d < k)%nat by lia; specialize (IH ltac:(assumption)); lra]. pose proof (sum_sq_nonneg f k) as Z. unfold sum_loop in Z. lra.
Qed.
Lemma ellipsoid_in i e p e' : box_ok D b -> ellipsoid_point D b draw i e = Val (p, e') -> in_box D b p.
Proof.
  intros Hb H. unfold ellipsoid_point in H. destruct (draws draw D e) as [l e1]. set (f := fun d => nth d l 0) in *. set (r := sqrt (sum_loop D (fun d => f d * f d))) in *.
  change (sqrt (sum_loop D (fun d => nth d l 0 * nth d l 0))) with r in H. unfold reqb in H. destruct (Req_EM_T r 0) as [|Hr]; [discriminate|]. injection H as <- _.
  intros d Hd. specialize (Hb d Hd). cbn beta. unfold mid_of. fold (f d). assert (R0 : 0 < r) by (pose proof (sqrt_pos (sum_loop D (fun d => f d * f d))); fold r in H; lra).
  assert (Q : -1 <= f d / r <= 1).
  { assert (S : f d * f d <= r * r) by (unfold r; rewrite sqrt_sqrt by apply sum_sq_nonneg; now apply sum_sq_ge). assert (A : - r <= f d <= r) by nra.
    split; apply (Rmult_le_reg_r r); try exact R0; unfold Rdiv; rewrite Rmult_assoc, Rinv_l by lra; lra. }
  assert (W : 0 <= b_hi b d - b_lo b d) by lra. pose proof (Rmult_le_compat_l _ _ _ W (proj1 Q)). pose proof (Rmult_le_compat_l _ _ _ W (proj2 Q)).
  replace (45 / 100 * (b_hi b d - b_lo b d) * (f d / r)) with (45 / 100 * ((b_hi b d - b_lo b d) * (f d / r))) by ring. lra.
Qed.
Lemma ellipsoid_ok n e c e' : box_ok D b -> gen_ellipsoid D b draw n e = Val (c, e') -> filled D b n c.
Proof.
  unfold gen_ellipsoid. intros Hb H. destruct (gen_each _ (seq 1 n) (init n) e) as [[c0 e0]| |] eqn:E; try discriminate. cbn in H. injection H as <- _.
  destruct (gen_each_ok _ (in_box D b) _ _ _ _ _ E) as (H1 & H2 & _). { intros i e1 p e2 _ Hp. eapply ellipsoid_in; eassumption. }
  split; [now rewrite H1, init_length|]. intros i Hi. apply H2, in_seq. lia.
Qed.
(** No vector drawn is zero. *)
Lemma ellipsoid_total n e : (0 < D)%nat -> (forall e, fst (draw e) <> 0) -> exists c, gen_ellipsoid D b draw n e = Val (c, e).
Proof.
  intros HD Hd. unfold gen_ellipsoid. destruct (gen_each_total (ellipsoid_point D b draw) (seq 1 n) (init n) e) as (c & e' & E).
  - intros i e0 _. unfold ellipsoid_point. pose proof (draws_in (fun x => x <> 0) Hd D e0 0%nat HD) as H0. destruct (draws draw D e0) as [l e1]. cbn [fst] in H0. set (f := fun d => nth d l 0).
    unfold reqb. destruct (Req_EM_T _ 0) as [Z|_]; [|eauto]. exfalso. apply sqrt_eq_0 in Z; [|apply (sum_sq_nonneg f)]. pose proof (sum_sq_ge f D 0%nat HD) as G. unfold f in G. rewrite Z in G.
    pose proof (Rlt_0_sqr _ H0) as S. unfold Rsqr in S. lra.
  - intros i Hi. apply in_seq in Hi. rewrite init_length. lia.
  - rewrite E. cbn. eauto.
Qed.

Lemma line_in a x r : in_box D b a -> in_box D b x -> 0 <= r <= 1 -> in_box D b (line a x r).
Proof. intros Ha Hx Hr d Hd. specialize (Ha d Hd). specialize (Hx d Hd). unfold line. cbn in *. nra. Qed.
Lemma skew_loop_ok : (2 <= D)%nat -> box_ok D b -> (forall e, 0 <= fst (draw e) <= 1) -> forall todo i c e, (1 <= i)%nat -> (i + 2 * todo <= length c)%nat -> exists c', skew_loop b draw todo i c e = Val c' /\ length c' = length c /\
  (forall j, (i <= j < i + 2 * todo)%nat -> exists p, nth_error c' j = Some (Some p) /\ in_box D b p) /\ (forall j, ~ (i <= j < i + 2 * todo)%nat -> nth_error c' j = nth_error c j).
Proof.
  intros HD Hb Hd. assert (A : in_box D b (skew_a b)). { intros d Hd'. unfold skew_a. pose proof (Hb d Hd'). pose proof (Hb 1%nat ltac:(lia)). destruct (Nat.eqb_spec d 1) as [->|]; cbn beta in *; lra. }
  assert (B : in_box D b (skew_b b)). { intros d Hd'. unfold skew_b. pose proof (Hb d Hd'). destruct (Nat.eqb_spec d 0) as [->|]; lra. }
  assert (H : in_box D b (skew_h b)). { intros d Hd'. unfold skew_h. pose proof (Hb d Hd'). destruct (Nat.eqb_spec d 0) as [->|]; lra. }
  assert (X : in_box D b (b_hi b)). { intros d Hd'. pose proof (Hb d Hd'). lra. }
  induction todo as [|t IH]; intros i c e Hi Hl; cbn [skew_loop].
  - exists c. split; [reflexivity|]. split; [reflexivity|]. split; [intros j Hj; lia|reflexivity].
  - pose proof (Hd e) as He. destruct (draw e) as [r e']. cbn [fst] in He. unfold write at 1. destruct (Nat.ltb_spec i (length c)) as [_|Y]; [|lia]. cbn [rbind]. unfold write at 1. rewrite upd_length.
    destruct (Nat.ltb_spec (i + 1) (length c)) as [_|Y]; [|lia]. cbn [rbind].
    destruct (IH (i + 2)%nat (upd (upd c i (Some (line (skew_a b) (b_hi b) r))) (i + 1) (Some (line (skew_b b) (skew_h b) r))) e') as (c' & E & L & Q1 & Q2); [lia|rewrite !upd_length; lia|].
    exists c'. split; [exact E|]. rewrite !upd_length in L. split; [exact L|]. split.
    + intros j Hj. destruct (Nat.eq_dec j i) as [->|N1].
      { exists (line (skew_a b) (b_hi b) r). split; [|now apply line_in]. rewrite Q2 by lia. rewrite nth_error_upd_neq by lia. apply nth_error_upd_eq. lia. }
      destruct (Nat.eq_dec j (i + 1)) as [->|N2].
      { exists (line (skew_b b) (skew_h b) r). split; [|now apply line_in]. rewrite Q2 by lia. apply nth_error_upd_eq. rewrite upd_length. lia. }
      apply Q1. lia.
    + intros j Hj. rewrite Q2 by lia. rewrite !nth_error_upd_neq by lia. reflexivity.
Qed.
Lemma skew_ok n e : (2 <= D)%nat -> box_ok D b -> (forall e, 0 <= fst (draw e) <= 1) -> exists c, gen_skew b draw n e = Val (c, e) /\ length c = S n /\
  (forall i, (1 <= i <= 2 * (n / 2))%nat -> exists p, nth_error c i = Some (Some p) /\ in_box D b p) /\ (forall i, (2 * (n / 2) < i <= n)%nat -> nth_error c i = Some None).
Proof.
  intros HD Hb Hd. unfold gen_skew. pose proof (Nat.div_mod n 2 ltac:(lia)) as E1. destruct (skew_loop_ok HD Hb Hd (n / 2) 1 (init n) e) as (c & E & L & Q1 & Q2); [lia|rewrite init_length; lia|].
  rewrite E. cbn [rmap]. exists c. split; [reflexivity|]. rewrite init_length in L. split; [exact L|]. split; [intros i Hi; apply Q1; lia|]. intros i Hi. rewrite Q2, init_unset by lia. reflexivity.
Qed.
End One.
End B.

(** The load balancing generators. *)
Section L.
Context {Eng : Type}.
Variables (D : nat) (b : box).

Lemma unbound_centers_in draw rad : (forall e, 0 <= fst (draw e) <= 1) -> (forall d, (d < D)%nat -> 2 * rad <= b_hi b d - b_lo b d) ->
  forall k (e : Eng) c, In c (fst (unbound_centers D b draw rad k e)) -> forall d, (d < D)%nat -> b_lo b d + rad <= c d <= b_hi b d - rad.
Proof.
  intros Hd Hr. induction k as [|k IH]; intros e c Hc; cbn [unbound_centers] in Hc; [destruct Hc|].
  pose proof (draws_in draw (fun x => 0 <= x <= 1) Hd D e) as Hx. destruct (draws draw D e) as [l e1]. specialize (IH e1). destruct (unbound_centers D b draw rad k e1) as [r e2]. cbn [fst] in *.
  destruct Hc as [<-|Hc]; [|now apply IH]. intros d Hd'. specialize (Hx d Hd'). specialize (Hr d Hd'). cbn beta in *. cbn [shrunk b_lo b_hi]. nra.
Qed.
Lemma unbound_centers_length draw rad : forall k (e : Eng), length (fst (unbound_centers D b draw rad k e)) = k.
Proof.
  induction k as [|k IH]; intros e; cbn [unbound_centers]; [reflexivity|]. destruct (draws draw D e) as [l e1]. specialize (IH e1). destruct (unbound_centers D b draw rad k e1). cbn in *. lia.
Qed.
Lemma unbound_inside draw draw2 rad k n (e : Eng) c e' : (forall e, 0 <= fst (draw e) <= 1) -> (forall e, - rad <= fst (draw2 e) <= rad) -> (forall d, (d < D)%nat -> 2 * rad <= b_hi b d - b_lo b d) ->
  gen_unbound D b draw draw2 rad k n e = Val (c, e') -> length c = S n /\ forall i, (i < n)%nat -> exists p, nth_error c i = Some (Some p) /\ in_box D b p.
Proof.
  intros Hd Hd2 Hr H. unfold gen_unbound in H. pose proof (unbound_centers_in draw rad Hd Hr k e) as Hc. destruct (unbound_centers D b draw rad k e) as [centers e1]. cbn [fst] in Hc.
  destruct (gen_each_ok _ (in_box D b) _ _ _ _ _ H) as (H1 & H2 & _).
  - intros i e0 p e2 _ Hp. unfold unbound_point in Hp. pose proof (draws_in draw2 (fun x => - rad <= x <= rad) Hd2 D e0) as Hx. destruct (draws draw2 D e0) as [l e3]. cbn [fst] in Hx.
    destruct (center_index _ _ _) as [q|]; [|discriminate]. destruct (nth_error centers (N.to_nat q)) as [m|] eqn:Em; [|discriminate]. injection Hp as <- _.
    intros d Hd'. specialize (Hx d Hd'). pose proof (Hc m (nth_error_In _ _ Em) d Hd'). cbn beta in *. lra.
  - split; [now rewrite H1, init_length|]. intros i Hi. apply H2, in_seq. lia.
Qed.
Lemma unbound_unset draw draw2 rad k n (e : Eng) c e' : (1 <= n)%nat -> gen_unbound D b draw draw2 rad k n e = Val (c, e') -> nth_error c n = Some None.
Proof.
  intros Hn H. unfold gen_unbound in H. destruct (unbound_centers D b draw rad k e) as [centers e1]. destruct (gen_each_ok _ (fun _ => True) _ _ _ _ _ H) as (_ & _ & H3); [auto|].
  rewrite H3, init_unset; [reflexivity|lia|]. rewrite in_seq. lia.
Qed.
Lemma unbound_index draw draw2 rad k n (e : Eng) c e' i q : (i < n)%nat -> center_index (N.of_nat i) (N.of_nat k) (N.of_nat n) = Some q -> (N.of_nat k <= q)%N -> gen_unbound D b draw draw2 rad k n e <> Val (c, e').
Proof.
  intros Hi Hq Hk H. unfold gen_unbound in H. pose proof (unbound_centers_length draw rad k e) as L. destruct (unbound_centers D b draw rad k e) as [centers e1]. cbn [fst] in L. assert (Hin : In i (seq 0 n)) by (apply in_seq; split; [apply Nat.le_0_l|exact Hi]).
  destruct (gen_each_def _ _ _ _ _ _ H i Hin) as (_ & e2 & p & e3 & Hp). unfold unbound_point in Hp. destruct (draws draw2 D e2) as [l e4]. rewrite L, Hq in Hp.
  destruct (nth_error centers (N.to_nat q)) eqn:E; [|discriminate]. apply nth_error_lt in E. lia.
Qed.
Lemma unbound_answers draw draw2 rad k n (e : Eng) : gen_unbound D b draw draw2 rad k n e <> NoFuel.
Proof.
  unfold gen_unbound. destruct (unbound_centers D b draw rad k e) as [centers e1]. generalize (seq 0 n) (init n) e1. clear. induction l as [|i l IH]; intros c e; cbn [gen_each]; [discriminate|].
  unfold unbound_point at 1. destruct (draws draw2 D e) as [x e1]. destruct (center_index _ _ _) as [q|]; [|discriminate]. destruct (nth_error centers (N.to_nat q)) as [m|]; [|discriminate]. cbn [rbind].
  unfold write. destruct (Nat.ltb i (length c)); [|discriminate]. cbn [rbind]. apply IH.
Qed.
Lemma iter_plus {A} (f : A -> A) m : forall k x, Nat.iter (m + k) f x = Nat.iter m f (Nat.iter k f x).
Proof. intros. induction m as [|m IH]; [reflexivity|]. exact (f_equal f IH). Qed.
Lemma draws_iter draw adv : (forall e, snd (draw e) = adv e) -> forall k (e : Eng), snd (draws draw k e) = Nat.iter k adv e.
Proof.
  intros H. induction k as [|k IH]; intros e; cbn [draws]; [reflexivity|]. specialize (H e). destruct (draw e) as [x e1]. specialize (IH e1). destruct (draws draw k e1). cbn [snd] in *. subst.
  replace (S k) with (k + 1)%nat by lia. now rewrite iter_plus.
Qed.
Lemma unbound_engine draw draw2 adv rad k n (e : Eng) c e' : (forall e, snd (draw e) = adv e) -> (forall e, snd (draw2 e) = adv e) -> gen_unbound D b draw draw2 rad k n e = Val (c, e') -> e' = Nat.iter (D * k + D * n) adv e.
Proof.
  intros H1 H2 H. unfold gen_unbound in H. assert (C : snd (unbound_centers D b draw rad k e) = Nat.iter (D * k) adv e).
  { clear - H1. revert e. induction k as [|k IH]; intros e; cbn [unbound_centers]; [now rewrite Nat.mul_0_r|]. pose proof (draws_iter draw adv H1 D e) as X. destruct (draws draw D e) as [l e1]. specialize (IH e1). destruct (unbound_centers D b draw rad k e1) as [r e2]. cbn [snd] in *.
    rewrite IH, X, <- iter_plus. f_equal. lia. }
  destruct (unbound_centers D b draw rad k e) as [centers e1]. cbn [snd] in C. subst e1. rewrite Nat.add_comm, iter_plus.
  remember (Nat.iter (D * k) adv e) as e1. clear Heqe1. assert (G : forall ids c0 e0, gen_each (unbound_point D draw2 centers n) ids c0 e0 = Val (c, e') -> e' = Nat.iter (D * length ids) adv e0).
  { induction ids as [|i ids IH]; intros c0 e0 G; cbn [gen_each] in G.
    - injection G as _ <-. cbn [length]. now rewrite Nat.mul_0_r.
    - unfold unbound_point at 1 in G. pose proof (draws_iter draw2 adv H2 D e0) as X. destruct (draws draw2 D e0) as [x e2]. cbn [snd] in X. destruct (center_index _ _ _) as [q|]; [|discriminate]. destruct (nth_error centers (N.to_nat q)) as [m|]; [|discriminate]. cbn [rbind] in G.
      unfold write in G. destruct (Nat.ltb i (length c0)); [|discriminate]. cbn [rbind] in G. rewrite (IH _ _ G), X, <- iter_plus. f_equal. cbn [length]. lia. }
  rewrite (G _ _ _ H), seq_length. reflexivity.
Qed.

Lemma reject_at_in draw fuel m rad : forall (e : Eng) p e', reject_at D b draw fuel m rad e = Val (p, e') -> in_box D b p.
Proof.
  induction fuel as [|f IH]; intros e p e' H; cbn [reject_at] in H; [discriminate|]. destruct (draws draw D e) as [l e1]. cbv zeta in H.
  destruct (box_has D b _) eqn:E; [|eauto]. injection H as <- _. now apply box_has_spec in E.
Qed.
Lemma reject_at_zero draw fuel m : forall (e : Eng) p e', reject_at D b draw fuel m 0 e = Val (p, e') -> forall d, p d = m d.
Proof.
  induction fuel as [|f IH]; intros e p e' H; cbn [reject_at] in H; [discriminate|]. destruct (draws draw D e) as [l e1]. cbv zeta in H.
  destruct (box_has D b _) eqn:E; [|eauto]. injection H as <- _. intros d. unfold vplus, vscale. ring.
Qed.
Lemma malicious_unset draw fuel per k n (e : Eng) c e' : (1 <= n)%nat -> gen_malicious D b draw fuel per k n e = Val (c, e') ->
  length c = S n /\ nth_error c n = Some None /\ forall i, (i < n)%nat -> exists p, nth_error c i = Some (Some p) /\ in_box D b p.
Proof.
  intros Hn H. unfold gen_malicious in H. destruct (gen_each_ok _ (in_box D b) _ _ _ _ _ H) as (H1 & H2 & H3).
  - intros i e0 p e1 _ Hp. unfold malicious_point in Hp. destruct (center_index _ _ _) as [q|]; [|discriminate]. destruct (nth_error _ (N.to_nat q)) as [m|]; [|discriminate].
    destruct (radius D b 4 _ m) as [rad| |]; try discriminate. cbn [rbind] in Hp. eapply reject_at_in, Hp.
  - split; [now rewrite H1, init_length|]. split; [rewrite H3, init_unset; [reflexivity|lia|]; rewrite in_seq; lia|]. intros i Hi. apply H2, in_seq. lia.
Qed.
Lemma malicious_index draw fuel per k n (e : Eng) c e' i q : (i < n)%nat -> center_index (N.of_nat i) (N.of_nat k) (N.of_nat n) = Some q -> (N.of_nat k <= q)%N -> gen_malicious D b draw fuel per k n e <> Val (c, e').
Proof.
  intros Hi Hq Hk H. unfold gen_malicious in H. assert (Hin : In i (seq 0 n)) by (apply in_seq; split; [apply Nat.le_0_l|exact Hi]).
  destruct (gen_each_def _ _ _ _ _ _ H i Hin) as (_ & e2 & p & e3 & Hp). unfold malicious_point in Hp. rewrite map_length, seq_length, Hq in Hp.
  destruct (nth_error _ (N.to_nat q)) eqn:E; [|discriminate]. apply nth_error_lt in E. rewrite map_length, seq_length in E. lia.
Qed.
Lemma least_nonneg : forall l x, 0 <= x -> Forall (fun y => 0 <= y) l -> 0 <= least x l.
Proof. induction l as [|y l IH]; intros x Hx H; cbn [least]; [exact Hx|]. inversion H; subst. apply IH; [now apply Rmin_glb|assumption]. Qed.
Lemma drop_one_nonneg x : forall l, Forall (fun y => 0 <= y) l -> Forall (fun y => 0 <= y) (drop_one x l).
Proof. induction l as [|y l IH]; intros H; cbn [drop_one]; [constructor|]. inversion H; subst. destruct (reqb x y); [assumption|]. constructor; auto. Qed.
Lemma second_nonneg l z : Forall (fun y => 0 <= y) l -> second l = Val z -> 0 <= z.
Proof.
  intros H E. unfold second in E. destruct l as [|x r]; [discriminate|]. pose proof (drop_one_nonneg (least x r) _ H) as G. destruct (drop_one (least x r) (x :: r)) as [|y s]; [discriminate|]. injection E as <-.
  inversion G; subst. now apply least_nonneg.
Qed.
Lemma radius_zero q centers rad : (0 < D)%nat -> box_ok D b -> radius D b q centers (b_lo b) = Val rad -> rad = 0.
Proof.
  intros HD Hb H. unfold radius in H. destruct (second _) as [z| |] eqn:Ez; try discriminate. cbn [rmap] in H. injection H as <-.
  assert (Hz : 0 <= z). { eapply second_nonneg, Ez. apply Forall_forall. intros y Hy. apply in_map_iff in Hy. destruct Hy as (o & <- & _). unfold len2. apply sum_sq_nonneg. }
  assert (B : len2 D (vec_box_boundary D (b_lo b) b) = 0).
  { apply Rle_antisym; [|unfold len2; apply sum_sq_nonneg]. destruct (vec_box_boundary_dist D (b_lo b) b HD Hb) as [_ H]. eapply Rle_trans; [apply (H (b_lo b))|].
    - split; [intros d Hd; specialize (Hb d Hd); lra|]. exists 0%nat. split; [exact HD|]. now left.
    - right. unfold dist2. rewrite (sumn_ext D _ (fun _ => 0)) by (intros; ring). assert (Z : forall n, sumn n (fun _ => 0) = 0) by (induction n; cbn [sumn]; lra). apply Z. }
  rewrite B, Rmin_right by exact Hz. rewrite sqrt_0. unfold Rdiv. ring.
Qed.
Lemma malicious_coincide draw fuel per k n (e : Eng) c e' : (0 < D)%nat -> box_ok D b -> (0 < k)%nat -> (0 < per)%nat -> gen_malicious D b draw fuel per k n e = Val (c, e') ->
  forall i, (i < n)%nat -> center_index (N.of_nat i) (N.of_nat k) (N.of_nat n) = Some 0%N -> exists p, nth_error c i = Some (Some p) /\ forall d, (d < D)%nat -> p d = b_lo b d.
Proof.
  intros HD Hb Hk Hper H i Hi Hc. unfold gen_malicious in H. set (centers := map (malicious_center b per) (seq 0 k)) in *.
  assert (L0 : length centers = k) by (unfold centers; now rewrite map_length, seq_length).
  (* the points of the first bubble all equal the corner *)
  set (P := fun j (p : vec) => center_index (N.of_nat j) (N.of_nat k) (N.of_nat n) = Some 0%N -> forall d, (d < D)%nat -> p d = b_lo b d).
  assert (G : forall ids c0 e0 c1 e1, NoDup ids -> gen_each (malicious_point D b draw fuel centers n) ids c0 e0 = Val (c1, e1) -> forall j, In j ids -> exists p, nth_error c1 j = Some (Some p) /\ P j p).
  { induction ids as [|j ids IH]; intros c0 e0 c1 e1 ND G j' Hj'; [destruct Hj'|]. pose proof (NoDup_cons_iff j ids) as [ND' _]. specialize (ND' ND). destruct ND' as [N1 N2]. cbn [gen_each] in G.
    destruct (malicious_point D b draw fuel centers n j e0) as [[p e2]| |] eqn:Em; try discriminate. cbn [rbind] in G. unfold write in G. destruct (Nat.ltb_spec j (length c0)) as [Lj|]; [|discriminate]. cbn [rbind] in G.
    destruct Hj' as [<-|Hj']; [|eapply IH; eassumption]. exists p. destruct (gen_each_ok _ (fun _ => True) _ _ _ _ _ G) as (_ & _ & H3); [auto|]. rewrite (H3 j N1), nth_error_upd_eq by exact Lj. split; [reflexivity|].
    intros Hc0. unfold malicious_point in Em. rewrite L0, Hc0 in Em. change (N.to_nat 0) with 0%nat in Em. unfold centers at 1 in Em. destruct k as [|k']; [lia|]. cbn [seq map nth_error] in Em.
    destruct (radius D b 4 centers (malicious_center b per 0)) as [rad| |] eqn:Er; try discriminate. cbn [rbind] in Em.
    assert (M : malicious_center b per 0 = b_lo b).
    { apply FunctionalExtensionality.functional_extensionality. intros d. unfold malicious_center. rewrite Nat.div_0_l by (apply Nat.pow_nonzero; lia). rewrite Nat.mod_0_l by lia. cbn [INR]. ring. }
    rewrite M in *. apply radius_zero in Er; [|exact HD|exact Hb]. subst rad. intros d _. exact (reject_at_zero _ _ _ _ _ _ Em d). }
  destruct (G _ _ _ _ _ (seq_NoDup n 0) H i) as (p & Hp & HP); [apply in_seq; lia|]. exists p. split; [exact Hp|]. now apply HP.
Qed.

Lemma patch_count_ok draw2 rem left (e : Eng) pp e' : (forall e, 0 <= fst (draw2 e) <= 2) -> patch_count draw2 rem left e = Val (pp, e') -> (pp <= rem)%N /\ ((left <= 1)%nat -> pp = rem).
Proof.
  intros Hd H. unfold patch_count in H. destruct (Nat.ltb_spec 1 left) as [L|L]; [|injection H as <- _; split; [lia|auto]].
  specialize (Hd e). destruct (draw2 e) as [g e1]. cbn [fst] in Hd. set (q := (rem / N.of_nat left)%N) in *. set (x := IZR (Z.of_N q) * g) in *.
  destruct (rltb (-1) x && rltb x (2 ^ 64))%bool; [|discriminate]. injection H as <- _. split; [|lia].
  assert (Q : (q * 2 <= rem)%N). { unfold q. pose proof (N.mul_div_le rem (N.of_nat left) ltac:(lia)). nia. }
  assert (X : 0 <= x <= IZR (Z.of_N rem)).
  { assert (0 <= IZR (Z.of_N q)) by (apply IZR_le; lia). assert (IZR (Z.of_N q) * 2 <= IZR (Z.of_N rem)) by (rewrite <- mult_IZR; apply IZR_le; lia). unfold x. nra. }
  destruct (rleb 0 x) eqn:E; [|lia]. destruct (base_Int_part x) as [I1 _]. assert (IZR (Int_part x) <= IZR (Z.of_N rem)) as I2 by lra. apply le_IZR in I2. lia.
Qed.
Lemma patch_loop_ok draw draw2 fuel centers : (forall e, 0 <= fst (draw2 e) <= 2) -> forall todo idx rem c (e : Eng) c' e', todo <> [] -> (rem < 2 ^ 64)%N -> length c = (idx + N.to_nat rem)%nat ->
  patch_loop D b draw draw2 fuel centers todo idx rem c e = Val (c', e') -> length c' = length c /\ (forall i, (idx <= i < length c)%nat -> exists p, nth_error c' i = Some (Some p) /\ in_box D b p) /\
  (forall i, (i < idx)%nat -> nth_error c' i = nth_error c i).
Proof.
  intros Hd. induction todo as [|m todo IH]; intros idx rem c e c' e' Hne Hr L H; [contradiction|]. cbn [patch_loop] in H.
  destruct (patch_count draw2 rem (length (m :: todo)) e) as [[pp e1]| |] eqn:Ec; try discriminate. cbn [rbind] in H. destruct (patch_count_ok _ _ _ _ _ _ Hd Ec) as [P1 P2].
  destruct (radius D b 2 centers m) as [rad| |] eqn:Er; try discriminate. cbn [rbind] in H.
  destruct (gen_each _ (seq idx (N.to_nat pp)) c e1) as [[c1 e2]| |] eqn:Eg; try discriminate. cbn [rbind] in H.
  destruct (gen_each_ok _ (in_box D b) _ _ _ _ _ Eg) as (G1 & G2 & G3). { intros i e3 p e4 _ Hp. eapply reject_at_in, Hp. }
  assert (W : wrap 64 (rem + 2 ^ 64 - pp) = (rem - pp)%N).
  { unfold wrap. replace (rem + 2 ^ 64 - pp)%N with ((rem - pp) + 1 * 2 ^ 64)%N by lia. rewrite N.mod_add by (apply N.pow_nonzero; lia). apply N.mod_small. lia. }
  rewrite W in H. destruct todo as [|m' todo].
  - cbn [patch_loop] in H. injection H as <- _. rewrite P2 in * by (cbn [length]; lia). split; [exact G1|]. split; [intros i Hi; apply G2, in_seq; lia|]. intros i Hi. apply G3. rewrite in_seq. lia.
  - destruct (IH (idx + N.to_nat pp)%nat (rem - pp)%N c1 e2 c' e') as (H1 & H2 & H3); [discriminate|lia|rewrite G1, L; lia|exact H|].
    split; [congruence|]. split.
    + intros i Hi. destruct (Nat.lt_ge_cases i (idx + N.to_nat pp)) as [X|X]; [|apply H2; lia]. rewrite H3 by exact X. apply G2, in_seq. lia.
    + intros i Hi. rewrite H3 by lia. apply G3. rewrite in_seq. lia.
Qed.
Lemma patch_ok draw draw2 draw3 fuel k n (e : Eng) c e' : (1 <= k)%nat -> (N.of_nat n < 2 ^ 64)%N -> (forall e, 0 <= fst (draw2 e) <= 2) -> gen_patch D b draw draw2 draw3 fuel k n e = Val (c, e') -> filled D b n c.
Proof.
  intros Hk Hn Hd H. unfold gen_patch in H. destruct (patch_centers D b draw3 k e) as [centers e1] eqn:Ep. assert (Ne : centers <> []).
  { destruct k as [|k]; [lia|]. cbn [patch_centers] in Ep. destruct (draws draw3 D e) as [l e2]. destruct (patch_centers D b draw3 k e2) as [r e3]. injection Ep as <- _. discriminate. }
  destruct (patch_loop_ok draw draw2 fuel centers Hd centers 1 (N.of_nat n) (init n) e1 c e' Ne Hn) as (H1 & H2 & _); [rewrite init_length; lia|exact H|].
  rewrite init_length in *. split; [exact H1|]. intros i Hi. apply H2. lia.
Qed.
End L.
