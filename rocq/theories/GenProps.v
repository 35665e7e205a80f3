(** C48: the point generators write every point 1 to n inside the bounds.  C59: they use up the random numbers of the engine. *)
From Coq Require Import Reals Lra Permutation.
From Verif Require Import Outcome ListUtil WordsModel GeoModel GeoSpec GeoProofs GeoBox GenModel GenProofs GeoProps.
Local Open Scope R_scope.
Open Scope list_scope.
Import ListNotations.

(** An engine for the examples: it counts; the numbers are 0, 1/2, 1 in turn. *)
Definition ex_draw (e : nat) : R * nat := (INR (e mod 3) / 2, S e).
Definition ex_box : box := mkbox (v2 (-1) 2) (v2 3 10).
Lemma ex_draw_in e : 0 <= fst (ex_draw e) <= 1.
Proof. unfold ex_draw. cbn [fst]. pose proof (Nat.mod_upper_bound e 3 ltac:(lia)) as H. destruct (e mod 3)%nat as [|[|[|k]]]; [cbn; lra..|lia]. Qed.
Lemma ex_box_ok : box_ok 2 ex_box.
Proof. dims2. Qed.

(** Uniform: always, and _sort keeps it. *)
Theorem C48_uniform : forall (Eng : Type) (draw : Eng -> R * Eng) D b n e srt, box_ok D b -> (forall e, 0 <= fst (draw e) <= 1) -> (forall l, Permutation l (srt l)) ->
  exists c e' c', gen_uniform D b draw n e = Val (c, e') /\ filled D b n c /\ sort_points srt c = Val c' /\ filled D b n c'.
Proof. intros Eng draw D b n e srt Hb Hd Hs. destruct (uniform_ok D b draw n e Hb Hd) as (c & E & F). destruct (filled_sorted D b n c srt F Hs) as (c' & S & F' & _). eauto 7. Qed.
Print Assumptions C48_uniform.
Example C48_uniform_case : exists c e' c', gen_uniform 2 ex_box ex_draw 7 0%nat = Val (c, e') /\ filled 2 ex_box 7 c /\ sort_points (@rev _) c = Val c' /\ filled 2 ex_box 7 c'.
Proof. apply C48_uniform; [apply ex_box_ok|apply ex_draw_in|apply Permutation_rev]. Qed.

(** Normal: if the rejection loops end. *)
Theorem C48_normal : forall (Eng : Type) (draw : Eng -> R * Eng) D b fuel n e c e' srt, gen_normal D b draw fuel n e = Val (c, e') -> (forall l, Permutation l (srt l)) ->
  filled D b n c /\ exists c', sort_points srt c = Val c' /\ filled D b n c'.
Proof. intros Eng draw D b fuel n e c e' srt H Hs. pose proof (normal_ok D b draw fuel n e c e' H) as F. split; [exact F|]. destruct (filled_sorted D b n c srt F Hs) as (c' & S & F' & _). eauto. Qed.
Print Assumptions C48_normal.
(** Four numbers 3, then 1/4: the third attempt is inside. *)
Definition ex_norm (e : nat) : R * nat := ((if Nat.ltb e 4 then 3 else 1 / 4), S e).
Example C48_normal_case : exists c e', gen_normal 2 ex_box ex_norm 3 1 0%nat = Val (c, e') /\ exists p, nth_error c 1 = Some (Some p) /\ p 0%nat = 2 /\ p 1%nat = 8.
Proof.
  assert (O : box_has 2 ex_box (fun d => mid_of ex_box d + span_of ex_box d * nth d [3; 3] 0) = false).
  { destruct (box_has 2 ex_box _) eqn:E; [|reflexivity]. apply box_has_spec in E. specialize (E 0%nat ltac:(lia)). unfold mid_of, span_of in E. cbn in E. lra. }
  assert (I : box_has 2 ex_box (fun d => mid_of ex_box d + span_of ex_box d * nth d [1 / 4; 1 / 4] 0) = true) by (apply box_has_spec; unfold mid_of, span_of; dims2).
  eexists _, _. split.
  - unfold gen_normal. cbn [seq gen_each reject draws ex_norm Nat.ltb Nat.leb rmap rbind fst snd]. rewrite O, I. cbn [rbind write init length repeat Nat.ltb Nat.leb rmap fst snd upd]. reflexivity.
  - eexists. split; [reflexivity|]. unfold mid_of, span_of, bubble, mid_of. cbn. lra.
Qed.

(** Ellipsoid: if no vector drawn is zero. *)
Theorem C48_ellipsoid : forall (Eng : Type) (draw : Eng -> R * Eng) D b n e c e', box_ok D b -> gen_ellipsoid D b draw n e = Val (c, e') -> filled D b n c.
Proof. intros. eapply ellipsoid_ok; eassumption. Qed.
Print Assumptions C48_ellipsoid.
Theorem C48_ellipsoid_returns : forall (Eng : Type) (draw : Eng -> R * Eng) D b n e, (0 < D)%nat -> (forall e, fst (draw e) <> 0) -> exists c e', gen_ellipsoid D b draw n e = Val (c, e').
Proof. intros. destruct (ellipsoid_total D b draw n e) as [c E]; [assumption..|]. eauto. Qed.
Print Assumptions C48_ellipsoid_returns.
Example C48_ellipsoid_case : exists c e', gen_ellipsoid 2 ex_box (fun e => (1 + fst (ex_draw e), S e)) 5 0%nat = Val (c, e') /\ filled 2 ex_box 5 c.
Proof. destruct (C48_ellipsoid_returns nat (fun e => (1 + fst (ex_draw e), S e)) 2 ex_box 5 0%nat) as (c & e' & E); [lia|intros e; pose proof (ex_draw_in e); cbn [fst] in *; lra|]. exists c, e'. split; [exact E|]. eapply C48_ellipsoid; [apply ex_box_ok|exact E]. Qed.

(** Skew lines: for even n every point; for odd n point n is never written, so sorting reads indeterminate coordinates. *)
Theorem C48_skew_partial : forall (Eng : Type) (draw : Eng -> R * Eng) D b n e, (2 <= D)%nat -> box_ok D b -> (forall e, 0 <= fst (draw e) <= 1) -> Nat.Even n ->
  exists c e', gen_skew b draw n e = Val (c, e') /\ filled D b n c.
Proof.
  intros Eng draw D b n e HD Hb Hd [m ->]. destruct (skew_ok D b draw (2 * m) e HD Hb Hd) as (c & E & L & F & _). exists c, e. split; [exact E|]. split; [exact L|].
  rewrite (Nat.mul_comm 2 m), Nat.div_mul in F by lia. intros i Hi. apply F. lia.
Qed.
Print Assumptions C48_skew_partial.
Theorem C48_skew_refuted : forall (Eng : Type) (draw : Eng -> R * Eng) D b n e srt, (2 <= D)%nat -> box_ok D b -> (forall e, 0 <= fst (draw e) <= 1) -> Nat.Odd n ->
  exists c e', gen_skew b draw n e = Val (c, e') /\ nth_error c n = Some None /\ sort_points srt c = Undef.
Proof.
  intros Eng draw D b n e srt HD Hb Hd [m Hm]. destruct (skew_ok D b draw n e HD Hb Hd) as (c & E & L & _ & U). exists c, e. split; [exact E|].
  assert (N : nth_error c n = Some None). { apply U. subst n. replace (2 * m + 1)%nat with (1 + m * 2)%nat by lia. rewrite Nat.div_add by lia. change (1 / 2)%nat with 0%nat. lia. }
  split; [exact N|]. eapply (unset_sorted n); [|exact N]. lia.
Qed.
Print Assumptions C48_skew_refuted.
Example C48_skew_case : (exists c e', gen_skew ex_box ex_draw 6 0%nat = Val (c, e') /\ filled 2 ex_box 6 c) /\ exists c e', gen_skew ex_box ex_draw 7 0%nat = Val (c, e') /\ nth_error c 7 = Some None /\ sort_points (fun l => l) c = Undef.
Proof.
  split; [apply (C48_skew_partial nat ex_draw 2)|apply (C48_skew_refuted nat ex_draw 2)]; try apply ex_box_ok; try apply ex_draw_in; try lia; [exists 3%nat|exists 3%nat]; lia.
Qed.

(** Bubbles: every point if 2^D divides n; otherwise the last n mod 2^D points are never written. *)
Theorem C48_bubble_partial : forall (Eng : Type) (draw : Eng -> R * Eng) D b fuel m e c e', gen_bubble D b draw fuel (m * 2 ^ D) e = Val (c, e') -> filled D b (m * 2 ^ D) c.
Proof.
  intros Eng draw D b fuel m e c e' H. destruct (bubble_ok D b draw fuel _ e c e' H) as (L & F & _). split; [exact L|]. rewrite Nat.div_mul in F by (apply Nat.pow_nonzero; lia). exact F.
Qed.
Print Assumptions C48_bubble_partial.
Theorem C48_bubble_refuted : forall (Eng : Type) (draw : Eng -> R * Eng) D b fuel n e c e' srt, (n mod 2 ^ D <> 0)%nat -> gen_bubble D b draw fuel n e = Val (c, e') ->
  nth_error c n = Some None /\ sort_points srt c = Undef.
Proof.
  intros Eng draw D b fuel n e c e' srt Hn H. destruct (bubble_ok D b draw fuel _ e c e' H) as (L & _ & U). assert (P : (2 ^ D <> 0)%nat) by (apply Nat.pow_nonzero; lia). pose proof (Nat.div_mod n (2 ^ D) P) as E.
  assert (N : nth_error c n = Some None). { apply U. rewrite Nat.mul_comm. set (q := (n / 2 ^ D)%nat) in *. set (r := (n mod 2 ^ D)%nat) in *. lia. }
  split; [exact N|]. eapply (unset_sorted n); [|exact N]. destruct n; [rewrite Nat.mod_0_l in Hn by exact P; lia|lia].
Qed.
Print Assumptions C48_bubble_refuted.
(** One dimension, three points, every number 0: the bubbles' midpoints. *)
Example C48_bubble_case : exists c e', gen_bubble 1 ex_box (fun e : nat => (0, S e)) 1 3 0%nat = Val (c, e') /\ (exists p, nth_error c 2 = Some (Some p) /\ p 0%nat = 2) /\ nth_error c 3 = Some None.
Proof.
  assert (I : forall k, (k < 2)%nat -> box_has 1 ex_box (fun d => mid_of (bubble ex_box k) d + span_of (bubble ex_box k) d * nth d [0] 0) = true).
  { intros k Hk. apply box_has_spec. intros d Hd. destruct d; [|lia]. unfold mid_of, span_of, bubble, mid_of. destruct k as [|[|k]]; [| |lia]; cbn; lra. }
  eexists _, _. split.
  - unfold gen_bubble. change (3 / 2 ^ 1)%nat with 1%nat. change (2 ^ 1)%nat with 2%nat. cbn [seq fold_left rbind gen_each reject draws Nat.mul Nat.add].
    rewrite I by lia. cbn [rbind write init length repeat Nat.ltb Nat.leb upd gen_each]. rewrite I by lia. cbn [rbind write length Nat.ltb Nat.leb upd gen_each rmap fst]. reflexivity.
  - split; [|reflexivity]. eexists. split; [reflexivity|]. unfold mid_of, span_of, bubble, mid_of. cbn. lra.
Qed.

(** Unbound bubbles: points 0 to n-1 are written instead of 1 to n. *)
Theorem C48_unbound_refuted : forall (Eng : Type) (draw draw2 : Eng -> R * Eng) D b rad k n e c e' srt, (1 <= n)%nat -> gen_unbound D b draw draw2 rad k n e = Val (c, e') ->
  nth_error c n = Some None /\ sort_points srt c = Undef.
Proof. intros. assert (N : nth_error c n = Some None) by (eapply unbound_unset; eassumption). split; [exact N|]. eapply (unset_sorted n); [|exact N]. lia. Qed.
Print Assumptions C48_unbound_refuted.
(** Those written are inside the bounds if the extents are at least twice the radius. *)
Theorem C48_unbound_partial : forall (Eng : Type) (draw draw2 : Eng -> R * Eng) D b rad k n e c e', (forall e, 0 <= fst (draw e) <= 1) -> (forall e, - rad <= fst (draw2 e) <= rad) ->
  (forall d, (d < D)%nat -> 2 * rad <= b_hi b d - b_lo b d) -> gen_unbound D b draw draw2 rad k n e = Val (c, e') -> length c = S n /\ forall i, (i < n)%nat -> exists p, nth_error c i = Some (Some p) /\ in_box D b p.
Proof. intros. eapply unbound_inside; eassumption. Qed.
Print Assumptions C48_unbound_partial.
Lemma ci_small : center_index 0 2 2 = Some 0%N /\ center_index 1 2 2 = Some 1%N /\ center_index 0 1 2 = Some 0%N /\ center_index 1 1 2 = Some 0%N.
Proof. vm_compute. auto. Qed.
Example C48_unbound_case : exists c e', gen_unbound 2 ex_box ex_draw (fun e : nat => (1, S e)) 1 2 2 0%nat = Val (c, e') /\ nth_error c 2 = Some None /\ forall i, (i < 2)%nat -> exists p, nth_error c i = Some (Some p) /\ in_box 2 ex_box p.
Proof.
  assert (E : exists c e', gen_unbound 2 ex_box ex_draw (fun e : nat => (1, S e)) 1 2 2 0%nat = Val (c, e')).
  { unfold gen_unbound. cbn [unbound_centers draws ex_draw seq gen_each unbound_point length]. change (N.of_nat 0) with 0%N. change (N.of_nat 1) with 1%N. change (N.of_nat 2) with 2%N.
    destruct ci_small as (-> & -> & _). change (N.to_nat 0) with 0%nat. change (N.to_nat 1) with 1%nat. cbn [nth_error rbind write init length repeat Nat.ltb Nat.leb upd]. eauto. }
  destruct E as (c & e' & E). exists c, e'. split; [exact E|]. split.
  - eapply (C48_unbound_refuted nat ex_draw _ 2 ex_box 1 2 2 0%nat c e' (fun l => l)); [lia|exact E].
  - refine (proj2 (C48_unbound_partial nat ex_draw _ 2 ex_box 1 2 2 0%nat c e' ex_draw_in _ _ E)); [intros; cbn; lra|dims2].
Qed.
(** With the extents only asserted to be at least the radius, points lie outside. *)
Theorem C48_unbound_outside_refuted : exists b draw draw2 c e', (forall d, (d < 2)%nat -> 10 <= b_hi b d - b_lo b d) /\ (forall e : unit, 0 <= fst (draw e) <= 1) /\ (forall e : unit, - 10 <= fst (draw2 e) < 10) /\
  gen_unbound 2 b draw draw2 10 1 2 tt = Val (c, e') /\ exists p, nth_error c 1 = Some (Some p) /\ ~ in_box 2 b p.
Proof.
  exists (mkbox (fun _ => 0) (fun _ => 10)), (fun e => (0, e)), (fun e => (9, e)).
  unfold gen_unbound. cbn [unbound_centers draws seq gen_each unbound_point length]. change (N.of_nat 0) with 0%N. change (N.of_nat 1) with 1%N. change (N.of_nat 2) with 2%N.
  destruct ci_small as (_ & _ & -> & ->). change (N.to_nat 0) with 0%nat. cbn [nth_error rbind write init length repeat Nat.ltb Nat.leb upd].
  eexists _, _. split; [intros; cbn; lra|]. split; [intros; cbn; lra|]. split; [intros; cbn; lra|]. split; [reflexivity|].
  eexists. split; [reflexivity|]. intros H. specialize (H 0%nat ltac:(lia)). cbn in H. lra.
Qed.
Print Assumptions C48_unbound_outside_refuted.
(** i * ((float) k / n) may round up to k: an access behind the last center, n = 15844201 and two bubbles. *)
Lemma ci_big : center_index 15844200 2 15844201 = Some 2%N.
Proof. vm_compute. reflexivity. Qed.
Lemma nat_big : forall x y : N, (x < y)%N -> (N.to_nat x < N.to_nat y)%nat.
Proof. intros. lia. Qed.
Theorem C48_unbound_index_refuted : forall (Eng : Type) (draw draw2 : Eng -> R * Eng) D b rad e, gen_unbound D b draw draw2 rad 2 (N.to_nat 15844201) e = Undef.
Proof.
  intros. destruct (gen_unbound D b draw draw2 rad 2 (N.to_nat 15844201) e) as [[c e']| |] eqn:E; [|destruct (unbound_answers D b draw draw2 rad 2 (N.to_nat 15844201) e E)|reflexivity].
  destruct (unbound_index D b draw draw2 rad 2 (N.to_nat 15844201) e c e' (N.to_nat 15844200) 2%N); [apply nat_big; reflexivity| |reflexivity|exact E].
  rewrite !N2Nat.id. exact ci_big.
Qed.
Print Assumptions C48_unbound_index_refuted.

(** Malicious bubbles: points 0 to n-1 again; the same index; and all points of the first bubble coincide with the corner. *)
Theorem C48_malicious_refuted : forall (Eng : Type) (draw : Eng -> R * Eng) D b fuel per k n e c e' srt, (1 <= n)%nat -> gen_malicious D b draw fuel per k n e = Val (c, e') ->
  nth_error c n = Some None /\ sort_points srt c = Undef.
Proof. intros. destruct (malicious_unset D b draw fuel per k n e c e') as (_ & N & _); [assumption..|]. split; [exact N|]. eapply (unset_sorted n); [|exact N]. lia. Qed.
Print Assumptions C48_malicious_refuted.
Theorem C48_malicious_partial : forall (Eng : Type) (draw : Eng -> R * Eng) D b fuel per k n e c e', (1 <= n)%nat -> gen_malicious D b draw fuel per k n e = Val (c, e') ->
  length c = S n /\ forall i, (i < n)%nat -> exists p, nth_error c i = Some (Some p) /\ in_box D b p.
Proof. intros. destruct (malicious_unset D b draw fuel per k n e c e') as (L & _ & F); [assumption..|]. auto. Qed.
Print Assumptions C48_malicious_partial.
Theorem C48_malicious_index_refuted : forall (Eng : Type) (draw : Eng -> R * Eng) D b fuel per e c e', gen_malicious D b draw fuel per 2 (N.to_nat 15844201) e <> Val (c, e').
Proof.
  intros. eapply (malicious_index D b draw fuel per 2 (N.to_nat 15844201) e c e' (N.to_nat 15844200) 2%N); [apply nat_big; reflexivity| |reflexivity].
  rewrite !N2Nat.id. exact ci_big.
Qed.
Print Assumptions C48_malicious_index_refuted.
Theorem C48_malicious_coincide_refuted : forall (Eng : Type) (draw : Eng -> R * Eng) D b fuel per k n e c e', (0 < D)%nat -> box_ok D b -> (0 < k)%nat -> (0 < per)%nat -> gen_malicious D b draw fuel per k n e = Val (c, e') ->
  forall i, (i < n)%nat -> center_index (N.of_nat i) (N.of_nat k) (N.of_nat n) = Some 0%N -> exists p, nth_error c i = Some (Some p) /\ forall d, (d < D)%nat -> p d = b_lo b d.
Proof. intros Eng draw D b fuel per k n e c e' HD Hb Hk Hp H i Hi Hc. exact (malicious_coincide D b draw fuel per k n e c e' HD Hb Hk Hp H i Hi Hc). Qed.
Print Assumptions C48_malicious_coincide_refuted.
(** The default of 16 bubbles in the plane and 1000 points: points 1 to 62 are in the first bubble. *)
Example C48_malicious_first : forallb (fun i => match center_index (N.of_nat i) 16 1000 with Some 0%N => true | _ => false end) (seq 1 62) = true.
Proof. vm_compute. reflexivity. Qed.
(** One dimension, two bubbles, two points. *)
Lemma ci_two : center_index 0 2 2 = Some 0%N /\ center_index 1 2 2 = Some 1%N.
Proof. vm_compute. auto. Qed.
Lemma radius_two : forall D b q x y m, exists r, radius D b q [x; y] m = Val r.
Proof.
  intros. unfold radius, second. cbn [map least drop_one]. set (u := len2 D (vminus x m)). set (v := len2 D (vminus y m)).
  unfold reqb. destruct (Req_EM_T (Rmin u v) u); [cbn; eauto|]. destruct (Req_EM_T (Rmin u v) v); cbn; eauto.
Qed.
Example C48_malicious_case : exists c e', gen_malicious 1 ex_box (fun e : nat => (0, S e)) 1 2 2 2 0%nat = Val (c, e') /\ nth_error c 2 = Some None.
Proof.
  assert (E : exists c e', gen_malicious 1 ex_box (fun e : nat => (0, S e)) 1 2 2 2 0%nat = Val (c, e')).
  { unfold gen_malicious. cbn [seq map gen_each]. unfold malicious_point. cbn [length]. change (N.of_nat 0) with 0%N. change (N.of_nat 1) with 1%N. change (N.of_nat 2) with 2%N.
    destruct ci_two as (-> & ->). change (N.to_nat 0) with 0%nat. change (N.to_nat 1) with 1%nat. cbn [nth_error].
    assert (B : forall k r, (k < 2)%nat -> box_has 1 ex_box (vplus (vscale (fun d => nth d [0] 0) r) (malicious_center ex_box 2 k)) = true).
    { intros k r Hk. apply box_has_spec. intros d Hd. destruct d; [|lia]. unfold vplus, vscale, malicious_center. destruct k as [|[|k]]; [| |lia]; cbn; lra. }
    destruct (radius_two 1 ex_box 4 (malicious_center ex_box 2 0) (malicious_center ex_box 2 1) (malicious_center ex_box 2 0)) as [r1 ->].
    destruct (radius_two 1 ex_box 4 (malicious_center ex_box 2 0) (malicious_center ex_box 2 1) (malicious_center ex_box 2 1)) as [r2 ->].
    cbn [rbind reject_at draws]. rewrite B by lia. cbn [rbind write init length repeat Nat.ltb Nat.leb upd]. rewrite B by lia. cbn [rbind write length Nat.ltb Nat.leb upd]. eauto. }
  destruct E as (c & e' & E). exists c, e'. split; [exact E|]. eapply (C48_malicious_refuted nat _ 1 ex_box 1 2 2 2 0%nat c e' (fun l => l)); [lia|exact E].
Qed.

(** Patch bubbles: every point, as long as the factor drawn from a normal distribution around 1 is between 0 and 2. *)
Theorem C48_patch_partial : forall (Eng : Type) (draw draw2 draw3 : Eng -> R * Eng) D b fuel k n e c e', (1 <= k)%nat -> (N.of_nat n < 2 ^ 64)%N -> (forall e, 0 <= fst (draw2 e) <= 2) ->
  gen_patch D b draw draw2 draw3 fuel k n e = Val (c, e') -> filled D b n c.
Proof. intros. eapply patch_ok; eassumption. Qed.
Print Assumptions C48_patch_partial.
Lemma patch_pp : forall g q, patch_count (fun e : unit => (IZR (Zpos g), e)) 2 2 tt = Val (q, tt) -> q = Npos g.
Proof.
  intros g q H. unfold patch_count in H. cbn [Nat.ltb Nat.leb] in H. change (2 / N.of_nat 2)%N with 1%N in H. change (Z.of_N 1) with 1%Z in H. rewrite Rmult_1_l in H. destruct (_ && _)%bool; [|discriminate].
  injection H as <-. assert (G : 0 <= IZR (Zpos g)) by (apply IZR_le; lia). rewrite (proj2 (rleb_iff _ _) G).
  assert (I : Int_part (IZR (Zpos g)) = Zpos g). { destruct (base_Int_part (IZR (Zpos g))) as [I1 I2]. apply le_IZR in I1. rewrite <- minus_IZR in I2. apply Rgt_lt, lt_IZR in I2. lia. }
  rewrite I. reflexivity.
Qed.
Lemma patch_val : forall g, (Zpos g < 2 ^ 64)%Z -> patch_count (fun e : unit => (IZR (Zpos g), e)) 2 2 tt = Val (Npos g, tt).
Proof.
  intros g Hg. destruct (patch_count (fun e : unit => (IZR (Zpos g), e)) 2 2 tt) as [[q []]| |] eqn:E.
  - now rewrite (patch_pp g q E).
  - unfold patch_count in E. cbn [Nat.ltb Nat.leb] in E. destruct (_ && _)%bool in E; discriminate.
  - exfalso. unfold patch_count in E. cbn [Nat.ltb Nat.leb] in E. change (2 / N.of_nat 2)%N with 1%N in E. change (Z.of_N 1) with 1%Z in E. rewrite Rmult_1_l in E.
    assert (G : -1 < IZR (Zpos g)) by (apply (IZR_lt (-1)); lia). rewrite (proj2 (rltb_iff _ _) G) in E. assert (G2 : IZR (Zpos g) < 2 ^ 64) by (apply IZR_lt in Hg; rewrite pow_IZR; exact Hg).
    rewrite (proj2 (rltb_iff _ _) G2) in E. discriminate.
Qed.
Definition ex_mid : vec := fun d => b_lo ex_box d + (b_hi ex_box d - b_lo ex_box d) * nth d [1 / 2; 1 / 2] 0.
Lemma ex_mid_in r : box_has 2 ex_box (vplus (vscale (fun d => nth d [0; 0] 0) r) ex_mid) = true.
Proof. apply box_has_spec. intros d Hd. unfold vplus, vscale, ex_mid. destruct d as [|[|d]]; [| |lia]; cbn; lra. Qed.
(** Factor 3 with two bubbles and two points: three points are written into the first bubble, behind the end of the vector. *)
Theorem C48_patch_refuted : exists draw2, (forall e, fst (draw2 e) = 3) /\ gen_patch 2 ex_box (fun e : unit => (0, e)) draw2 (fun e => (1 / 2, e)) 1 2 2 tt = Undef.
Proof.
  exists (fun e => (3, e)). split; [reflexivity|]. unfold gen_patch. cbn [patch_centers draws]. fold ex_mid. cbn [patch_loop length]. change (N.of_nat 2) with 2%N. rewrite (patch_val 3) by reflexivity. cbn [rbind].
  destruct (radius_two 2 ex_box 2 ex_mid ex_mid ex_mid) as [r Er]. match goal with |- context [radius ?a ?b ?c ?d ?e] => change (radius a b c d e) with (radius 2 ex_box 2 [ex_mid; ex_mid] ex_mid) end. rewrite Er. cbn [rbind]. change (N.to_nat 3) with 3%nat. cbn [seq gen_each reject_at draws].
  rewrite ex_mid_in. cbn [rbind write init length repeat Nat.ltb Nat.leb upd]. reflexivity.
Qed.
Print Assumptions C48_patch_refuted.
Example C48_patch_case : exists c e', gen_patch 2 ex_box (fun e : unit => (0, e)) (fun e => (1, e)) (fun e => (1 / 2, e)) 1 2 2 tt = Val (c, e') /\ filled 2 ex_box 2 c.
Proof.
  assert (E : exists c e', gen_patch 2 ex_box (fun e : unit => (0, e)) (fun e => (1, e)) (fun e => (1 / 2, e)) 1 2 2 tt = Val (c, e')).
  { unfold gen_patch. cbn [patch_centers draws]. fold ex_mid. cbn [patch_loop length]. change (N.of_nat 2) with 2%N. rewrite (patch_val 1) by reflexivity. cbn [rbind].
    destruct (radius_two 2 ex_box 2 ex_mid ex_mid ex_mid) as [r Er]. match goal with |- context [radius ?a ?b ?c ?d ?e] => change (radius a b c d e) with (radius 2 ex_box 2 [ex_mid; ex_mid] ex_mid) end. rewrite Er. cbn [rbind]. change (N.to_nat 1) with 1%nat. cbn [seq gen_each reject_at draws].
    rewrite ex_mid_in. cbn [rbind write init length repeat Nat.ltb Nat.leb upd]. change (wrap 64 (2 + 2 ^ 64 - 1)) with 1%N. unfold patch_count. cbn [Nat.ltb Nat.leb rbind]. change (N.to_nat 1) with 1%nat. cbn [Nat.add seq gen_each reject_at draws].
    cbn [rbind write length Nat.ltb Nat.leb upd]. eauto. }
  destruct E as (c & e' & E). exists c, e'. split; [exact E|]. eapply (C48_patch_partial unit); [| | |exact E]; [lia|reflexivity|intros; cbn; lra].
Qed.

(** C59.  The generators of Generator.h work on a copy of the engine: two calls in a row give the same points. *)
Theorem C59_refuted : forall (Eng : Type) (draw : Eng -> R * Eng) D b fuel n gen, In gen [gen_uniform D b draw; gen_normal D b draw fuel; gen_bubble D b draw fuel; gen_ellipsoid D b draw; gen_skew b draw] ->
  forall e c e', gen n e = Val (c, e') -> e' = e /\ gen n e' = Val (c, e').
Proof.
  intros Eng draw D b fuel n gen Hg e c e' H. assert (E : e' = e); [|split; [exact E|now subst]].
  destruct Hg as [<-|[<-|[<-|[<-|[<-|[]]]]]]; [unfold gen_uniform in H|unfold gen_normal in H|unfold gen_bubble in H|unfold gen_ellipsoid in H|unfold gen_skew in H];
    (match type of H with rmap _ ?x = _ => destruct x as [r| |] end; cbn [rmap] in H; try discriminate); injection H as _ <-; reflexivity.
Qed.
Print Assumptions C59_refuted.
Example C59_case : exists c e', gen_skew ex_box ex_draw 6 5%nat = Val (c, e') /\ e' = 5%nat.
Proof. destruct (skew_ok 2 ex_box ex_draw 6 5%nat) as (c & E & _); [lia|apply ex_box_ok|apply ex_draw_in|]. eauto. Qed.
(** The unbound bubble generator uses the engine itself: it ends D (k + n) numbers later. *)
Theorem C59_unbound : forall (Eng : Type) (draw draw2 : Eng -> R * Eng) adv D b rad k n e c e', (forall e, snd (draw e) = adv e) -> (forall e, snd (draw2 e) = adv e) ->
  gen_unbound D b draw draw2 rad k n e = Val (c, e') -> e' = Nat.iter (D * k + D * n) adv e.
Proof. intros Eng draw draw2 adv D b rad k n e c e' H1 H2 H. exact (unbound_engine D b draw draw2 adv rad k n e c e' H1 H2 H). Qed.
Print Assumptions C59_unbound.
Example C59_unbound_case : exists c, gen_unbound 2 ex_box ex_draw (fun e : nat => (1, S e)) 1 2 2 0%nat = Val (c, 8%nat).
Proof. destruct C48_unbound_case as (c & e' & E & _). rewrite E. rewrite (C59_unbound nat ex_draw (fun e : nat => (1, S e)) S 2 ex_box 1 2 2 0%nat c e' (fun _ => eq_refl) (fun _ => eq_refl) E). exists c. reflexivity. Qed.

(** The malicious and patch bubble generators, too.  A rejected point costs D more numbers, so how far the engine gets depends on the numbers, but it is at least D for each point. *)
Lemma reject_at_engine {Eng : Type} D b (draw : Eng -> R * Eng) adv fuel m rad : (forall e, snd (draw e) = adv e) -> forall e p e', reject_at D b draw fuel m rad e = Val (p, e') ->
  exists j, (1 <= j)%nat /\ e' = Nat.iter (D * j) adv e.
Proof.
  intros Ha. induction fuel as [|f IH]; intros e p e' H; cbn [reject_at] in H; [discriminate|]. pose proof (draws_iter draw adv Ha D e) as X. destruct (draws draw D e) as [l e1]. cbn [snd] in X. cbv zeta in H. destruct (box_has D b _).
  - injection H as _ <-. exists 1%nat. rewrite Nat.mul_1_r. auto.
  - destruct (IH _ _ _ H) as (j & J1 & ->). exists (S j). split; [lia|]. rewrite X, <- iter_plus. f_equal. lia.
Qed.
Lemma each_engine {Eng : Type} D (adv : Eng -> Eng) (mk : nat -> Eng -> res (vec * Eng)) : (forall i e p e', mk i e = Val (p, e') -> exists j, (1 <= j)%nat /\ e' = Nat.iter (D * j) adv e) ->
  forall ids c e c' e', gen_each mk ids c e = Val (c', e') -> exists j, (length ids <= j)%nat /\ e' = Nat.iter (D * j) adv e.
Proof.
  intros Hm. induction ids as [|i ids IH]; intros c e c' e' H; cbn [gen_each] in H.
  - injection H as _ <-. exists O. rewrite Nat.mul_0_r. auto.
  - destruct (mk i e) as [[p e1]| |] eqn:E; cbn [rbind] in H; try discriminate. destruct (write c i p) as [c1| |]; cbn [rbind] in H; try discriminate.
    destruct (Hm _ _ _ _ E) as (j & J1 & ->). destruct (IH _ _ _ _ H) as (j' & J2 & ->). exists (j' + j)%nat. split; [cbn [length]; lia|]. rewrite <- iter_plus. f_equal. lia.
Qed.
Theorem C59_malicious : forall (Eng : Type) (draw : Eng -> R * Eng) adv D b fuel per k n e c e', (forall e, snd (draw e) = adv e) -> gen_malicious D b draw fuel per k n e = Val (c, e') ->
  exists j, (n <= j)%nat /\ e' = Nat.iter (D * j) adv e.
Proof.
  intros Eng draw adv D b fuel per k n e c e' Ha H. unfold gen_malicious in H. cbv zeta in H. assert (X : exists j, (length (seq 0 n) <= j)%nat /\ e' = Nat.iter (D * j) adv e); [|now rewrite seq_length in X]. eapply (each_engine D adv); [|exact H]. intros i e0 p e1 G. unfold malicious_point in G.
  destruct (center_index _ _ _) as [q|]; [|discriminate]. destruct (nth_error _ (N.to_nat q)) as [m|]; [|discriminate]. destruct (radius _ _ _ _ m) as [rad| |]; cbn [rbind] in G; try discriminate. eapply reject_at_engine; eauto.
Qed.
Print Assumptions C59_malicious.
Example C59_malicious_case : exists c e' j, gen_malicious 1 ex_box (fun e : nat => (0, S e)) 1 2 2 2 0%nat = Val (c, e') /\ (2 <= j)%nat /\ e' = Nat.iter (1 * j) S 0%nat.
Proof. destruct C48_malicious_case as (c & e' & E & _). destruct (C59_malicious nat (fun e : nat => (0, S e)) S 1 ex_box 1 2 2 2 0%nat c e' (fun _ => eq_refl) E) as (j & J). exists c, e', j. auto. Qed.
(** D numbers for each of the [k] centres, one for the size of each bubble but the last, and at least D for each point. *)
Theorem C59_patch : forall (Eng : Type) (draw draw2 draw3 : Eng -> R * Eng) adv D b fuel k n e c e', (1 <= k)%nat -> (N.of_nat n < 2 ^ 64)%N ->
  (forall e, snd (draw e) = adv e) -> (forall e, snd (draw2 e) = adv e) -> (forall e, snd (draw3 e) = adv e) -> gen_patch D b draw draw2 draw3 fuel k n e = Val (c, e') ->
  exists j, (n <= j)%nat /\ e' = Nat.iter (D * k + (k - 1) + D * j) adv e.
Proof.
  intros Eng draw draw2 draw3 adv D b fuel k n e c e' Hk Hn H1 H2 H3 H. unfold gen_patch in H.
  assert (C : forall k e, snd (patch_centers D b draw3 k e) = Nat.iter (D * k) adv e /\ length (fst (patch_centers D b draw3 k e)) = k).
  { clear - H3. induction k as [|k IH]; intros e; cbn [patch_centers]; [now rewrite Nat.mul_0_r|]. pose proof (draws_iter draw3 adv H3 D e) as X. destruct (draws draw3 D e) as [l e1]. specialize (IH e1). destruct (patch_centers D b draw3 k e1) as [r e2]. cbn [snd fst length] in *.
    destruct IH as [I1 I2]. split; [|now f_equal]. rewrite I1, X, <- iter_plus. f_equal. lia. }
  specialize (C k e). destruct (patch_centers D b draw3 k e) as [centers e1]. cbn [fst snd] in C. destruct C as [-> Hl].
  assert (G : forall todo idx rem c0 e0, (rem < 2 ^ 64)%N -> todo <> [] -> patch_loop D b draw draw2 fuel centers todo idx rem c0 e0 = Val (c, e') ->
    exists j, (rem <= N.of_nat j)%N /\ e' = Nat.iter (length todo - 1 + D * j) adv e0).
  { clear H Hk Hn. induction todo as [|m r IH]; intros idx rem c0 e0 Hr Hne G; [congruence|]. cbn [patch_loop] in G. destruct (patch_count draw2 rem (length (m :: r)) e0) as [[pp e2]| |] eqn:Ec; cbn [rbind] in G; try discriminate.
    destruct (radius D b 2 centers m) as [rad| |]; cbn [rbind] in G; try discriminate. destruct (gen_each _ _ c0 e2) as [[c1 e3]| |] eqn:Ee; cbn [rbind] in G; try discriminate.
    destruct (each_engine D adv _ (fun _ => reject_at_engine D b draw adv fuel m rad H1) _ _ _ _ _ Ee) as (j & J1 & ->). rewrite seq_length in J1. destruct r as [|m' r].
    - cbn [patch_loop] in G. assert (Ge : Nat.iter (D * j) adv e2 = e') by congruence. subst e'. unfold patch_count in Ec. cbn [length Nat.ltb Nat.leb] in Ec. assert (E2 : pp = rem /\ e2 = e0) by (split; congruence). destruct E2 as [-> ->]. exists j. split; [lia|reflexivity].
    - unfold patch_count in Ec. cbn [length Nat.ltb Nat.leb] in Ec. specialize (H2 e0). destruct (draw2 e0) as [g e4]. cbn [snd] in H2. subst e4. cbv zeta in Ec. destruct (_ && _)%bool; [|discriminate]. assert (E2 : e2 = adv e0) by congruence. subst e2. clear Ec.
      destruct (IH _ _ _ _ (N.mod_lt (rem + 2 ^ 64 - pp) (2 ^ 64) ltac:(discriminate)) ltac:(discriminate) G) as (j' & J2 & ->). exists (j' + j)%nat. clear G Ee IH. split.
      + unfold wrap in J2. assert (Hm : ((rem + 2 ^ 64 - pp) mod 2 ^ 64 + pp >= rem)%N); [|lia]. change (2 ^ 64)%N with 18446744073709551616%N in *. zify. Z.to_euclidean_division_equations. nia.
      + change (length (m :: m' :: r)) with (S (length (m' :: r))). cbn [length]. replace (S (S (length r)) - 1)%nat with (S (length r)) by lia. replace (S (length r) - 1)%nat with (length r) by lia.
        change (adv e0) with (Nat.iter 1 adv e0). rewrite <- !iter_plus. f_equal. lia. }
  destruct (G centers 1%nat (N.of_nat n) (init n) (Nat.iter (D * k) adv e) Hn) as (j & J & ->); [intros ->; cbn in Hl; lia|exact H|]. exists j. split; [lia|]. rewrite Hl, <- iter_plus. f_equal. lia.
Qed.
Print Assumptions C59_patch.
Lemma patch_one : forall e : nat, patch_count (fun e : nat => (1, S e)) 2 2 e = Val (1%N, S e).
Proof.
  intros e. unfold patch_count. cbn [Nat.ltb Nat.leb]. change (2 / N.of_nat 2)%N with 1%N. change (Z.of_N 1) with 1%Z. rewrite Rmult_1_l.
  assert (B : (rltb (-1) 1 && rltb 1 (2 ^ 64))%bool = true). { apply andb_true_iff. split; apply rltb_iff; [lra|]. apply (Rlt_le_trans _ (2 ^ 1)); [lra|]. apply Rle_pow; [lra|lia]. }
  rewrite B. rewrite (proj2 (rleb_iff 0 1)) by lra. assert (I : Int_part 1 = 1%Z). { destruct (base_Int_part 1) as [I1 I2]. apply le_IZR in I1. assert (I3 : (0 < Int_part 1)%Z) by (apply lt_IZR; lra). lia. }
  rewrite I. reflexivity.
Qed.
(** Two bubbles and two points in the plane: 4 + 1 + 4 numbers. *)
Example C59_patch_case : exists c, gen_patch 2 ex_box (fun e : nat => (0, S e)) (fun e => (1, S e)) (fun e => (1 / 2, S e)) 1 2 2 0%nat = Val (c, 9%nat).
Proof.
  unfold gen_patch. cbn [patch_centers draws]. fold ex_mid. cbn [patch_loop length]. change (N.of_nat 2) with 2%N. rewrite patch_one. cbn [rbind].
  destruct (radius_two 2 ex_box 2 ex_mid ex_mid ex_mid) as [r Er]. match goal with |- context [radius ?a ?b ?c ?d ?e] => change (radius a b c d e) with (radius 2 ex_box 2 [ex_mid; ex_mid] ex_mid) end. rewrite Er. cbn [rbind]. change (N.to_nat 1) with 1%nat. cbn [seq gen_each reject_at draws].
  rewrite ex_mid_in. cbn [rbind write init length repeat Nat.ltb Nat.leb upd]. change (wrap 64 (2 + 2 ^ 64 - 1)) with 1%N. unfold patch_count. cbn [Nat.ltb Nat.leb rbind]. change (N.to_nat 1) with 1%nat. cbn [Nat.add seq gen_each reject_at draws].
  cbn [rbind write length Nat.ltb Nat.leb upd]. eauto.
Qed.
