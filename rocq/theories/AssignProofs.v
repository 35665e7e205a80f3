(** Proofs about the assigners. *)
From Coq Require Import Reals Lia Lra List.
From Verif Require Import Outcome ListUtil GeoModel GeoSpec GeoProofs GeoBox AssignModel.
Open Scope list_scope.
Import ListNotations.
Local Open Scope R_scope.

Lemma a_index_iff k p j : a_index k p = Some j <-> (p = Z.of_nat j /\ j < k)%nat.
Proof.
  unfold a_index. destruct (Z.leb_spec 0 p); destruct (Z.ltb_spec p (Z.of_nat k)); cbn [andb]; split; intros E; try discriminate; try lia.
  - injection E as <-. lia.
  - f_equal. lia.
Qed.
Lemma min_go_spec : forall ds m x i pre, (m < i)%nat -> length pre = i -> nth m pre 0 = x -> (forall y, In y pre -> x <= y) ->
  (min_go m x i ds < i + length ds)%nat /\ forall y, In y (pre ++ ds) -> nth (min_go m x i ds) (pre ++ ds) 0 <= y.
Proof.
  induction ds as [|d r IH]; intros m x i pre Hm Hl Hx Hmin; cbn [min_go length].
  - rewrite app_nil_r. split; [lia|]. now rewrite Hx.
  - unfold rltb. destruct (Rlt_dec d x) as [L|L].
    + destruct (IH i d (S i) (pre ++ [d])) as [A B]; [lia|rewrite app_length; cbn; lia| | |].
      * rewrite app_nth2 by lia. now replace (i - length pre)%nat with 0%nat by lia.
      * intros y Hy. apply in_app_iff in Hy. destruct Hy as [Hy|[<-|[]]]; [specialize (Hmin y Hy)|]; lra.
      * rewrite <- app_assoc in B. cbn [app] in B. split; [lia|exact B].
    + destruct (IH m x (S i) (pre ++ [d])) as [A B]; [lia|rewrite app_length; cbn; lia| | |].
      * now rewrite app_nth1 by lia.
      * intros y Hy. apply in_app_iff in Hy. destruct Hy as [Hy|[<-|[]]]; [auto|lra].
      * rewrite <- app_assoc in B. cbn [app] in B. split; [lia|exact B].
Qed.
Lemma min_idx_spec ds : ds <> [] -> (min_idx ds < length ds)%nat /\ forall y, In y ds -> nth (min_idx ds) ds 0 <= y.
Proof.
  destruct ds as [|d r]; intros H; [contradiction|]. cbn [min_idx]. destruct (min_go_spec r 0 d 1 [d]) as [A B]; [lia|reflexivity|reflexivity|intros y [<-|[]]; lra|]. auto.
Qed.

Section A.
Variable D : nat.
(** The samples of partition [j], in order. *)
Fixpoint of_part (j : nat) (ps : list Z) (ss : list vec) : list vec :=
  match ps, ss with
  | p :: ps', s :: ss' => if (p =? Z.of_nat j)%Z then s :: of_part j ps' ss' else of_part j ps' ss'
  | _, _ => []
  end.
Lemma of_part_in j s : forall ps ss, In s (of_part j ps ss) <-> exists i, nth_error ps i = Some (Z.of_nat j) /\ nth_error ss i = Some s.
Proof.
  induction ps as [|p ps IH]; intros ss.
  - split; [intros []|]. intros ([|i] & H & _); discriminate.
  - destruct ss as [|x ss]; [split; [intros []|]; intros ([|i] & _ & H); discriminate|]. cbn [of_part]. destruct (Z.eqb_spec p (Z.of_nat j)) as [E|E].
    + cbn [In]. rewrite IH. split.
      * intros [<-|(i & A & B)]; [exists 0%nat; cbn; split; congruence|now exists (S i)].
      * intros ([|i] & A & B); cbn in A, B; [left; congruence|right; now exists i].
    + rewrite IH. split; [intros (i & A & B); now exists (S i)|]. intros ([|i] & A & B); cbn in A, B; [congruence|now exists i].
Qed.
Lemma a_group_ok : forall ps ss acc, (length ps <= length ss)%nat -> (forall p, In p ps -> (0 <= p < Z.of_nat (length acc))%Z) ->
  exists gs, a_group ps ss acc = Val gs /\ length gs = length acc /\ forall j l, nth_error acc j = Some l -> nth_error gs j = Some (l ++ of_part j ps ss).
Proof.
  induction ps as [|p ps IH]; intros ss acc L H; cbn [a_group].
  - exists acc. split; [reflexivity|]. split; [reflexivity|]. intros j l Hl. cbn [of_part]. now rewrite app_nil_r.
  - destruct ss as [|s ss]; [cbn in L; lia|]. pose proof (H p (or_introl eq_refl)) as Hp. rewrite (proj2 (a_index_iff _ p (Z.to_nat p))) by lia. destruct (nth_error_ex acc (Z.to_nat p)) as [l0 Hl0]; [lia|]. rewrite Hl0.
    destruct (IH ss (upd acc (Z.to_nat p) (l0 ++ [s]))) as (gs & E & Lg & G); [cbn in L; lia|intros q Hq; rewrite upd_length; apply H; now right|]. rewrite upd_length in Lg. exists gs. split; [exact E|]. split; [exact Lg|].
    intros j l Hl. cbn [of_part]. destruct (Z.eqb_spec p (Z.of_nat j)) as [Ej|Ej].
    + assert (Z.to_nat p = j) by lia. subst j. assert (l0 = l) by congruence. subst l0. rewrite (G _ (l ++ [s])) by (apply nth_error_upd_eq; eapply nth_error_lt, Hl). now rewrite <- app_assoc.
    + apply G. rewrite nth_error_upd_neq; [exact Hl|lia].
Qed.
Lemma a_boxes_ok k ps ss : (length ps <= length ss)%nat -> (forall p, In p ps -> (0 <= p < Z.of_nat k)%Z) ->
  exists bs, a_boxes D k ps ss = Val bs /\ length bs = k /\ forall j, (j < k)%nat -> nth_error bs j = Some (bounding D (of_part j ps ss)).
Proof.
  intros L H. destruct (a_group_ok ps ss (repeat [] k) L) as (gs & E & Lg & G); [now rewrite repeat_length|]. rewrite repeat_length in Lg. unfold a_boxes. rewrite E. cbn [rmap]. exists (map (bounding D) gs). split; [reflexivity|].
  split; [now rewrite map_length|]. intros j Hj. specialize (G j [] (nth_error_repeat _ _ _ Hj)). cbn [app] in G. now apply (map_nth_error (bounding D)).
Qed.
Lemma a_dists_ok c : forall bs, (forall b, In b bs -> b <> None) -> exists ds, a_dists D bs c = Val ds /\ length ds = length bs /\ forall j b, nth_error bs j = Some (Some b) -> nth_error ds j = Some (len2 D (vec_box c b)).
Proof.
  induction bs as [|[b|] bs IH]; intros H; cbn [a_dists].
  - exists []. split; [reflexivity|]. split; [reflexivity|]. intros [|j] b Hb; discriminate.
  - destruct IH as (ds & -> & L & G); [intros; apply H; now right|]. cbn [rmap]. eexists. split; [reflexivity|]. split; [cbn; congruence|]. intros [|j] b' Hb; cbn [nth_error] in *; [congruence|auto].
  - destruct (H None (or_introl eq_refl) eq_refl).
Qed.
Lemma a_dists_none c : forall bs, In None bs -> a_dists D bs c = Undef.
Proof. induction bs as [|[b|] bs IH]; intros H; cbn [a_dists]; [destruct H| |reflexivity]. destruct H as [H|H]; [discriminate|]. now rewrite IH. Qed.

(** The sum of the samples of a partition is n+1 times its centre. *)
Definition vsum (l : list vec) (d : nat) : R := fold_right (fun (s : vec) x => s d + x) 0 l.
Lemma vsum_app a b d : vsum (a ++ b) d = vsum a d + vsum b d.
Proof. unfold vsum. induction a as [|x a IH]; cbn [fold_right app]; [lra|]. rewrite IH. lra. Qed.
Lemma a_cents_ok : forall ps ss (acc : list (nat * vec)) (gs : list (list vec)), length gs = length acc ->
  (forall j l nc, nth_error gs j = Some l -> nth_error acc j = Some nc -> fst nc = length l /\ forall d, snd nc d * INR (1 + length l) = vsum l d) ->
  (length ps <= length ss)%nat -> (forall p, In p ps -> (0 <= p < Z.of_nat (length acc))%Z) ->
  exists cs, a_cents ps ss acc = Val cs /\ length cs = length acc /\
  forall j l, nth_error gs j = Some l -> exists nc, nth_error cs j = Some nc /\ fst nc = length (l ++ of_part j ps ss) /\ forall d, snd nc d * INR (1 + length (l ++ of_part j ps ss)) = vsum (l ++ of_part j ps ss) d.
Proof.
  induction ps as [|p ps IH]; intros ss acc gs Lg I L H; cbn [a_cents].
  - exists acc. split; [reflexivity|]. split; [reflexivity|]. intros j l Hl. cbn [of_part]. rewrite app_nil_r. destruct (nth_error_ex acc j) as [nc Hn]; [rewrite <- Lg; eapply nth_error_lt, Hl|]. exists nc. split; [exact Hn|]. now apply (I j).
  - destruct ss as [|s ss]; [cbn in L; lia|]. pose proof (H p (or_introl eq_refl)) as Hp. assert (Hlt : (Z.to_nat p < length acc)%nat) by lia. match goal with |- context [a_index ?n p] => replace (a_index n p) with (Some (Z.to_nat p)) by (symmetry; apply a_index_iff; split; [lia|exact Hlt]) end. destruct (nth_error_ex acc (Z.to_nat p)) as [nc0 Hn0]; [lia|]. rewrite Hn0.
    destruct (nth_error_ex gs (Z.to_nat p)) as [l0 Hl0]; [lia|]. destruct (I _ _ _ Hl0 Hn0) as [I1 I2].
    destruct (IH ss (upd acc (Z.to_nat p) (a_step nc0 s)) (upd gs (Z.to_nat p) (l0 ++ [s]))) as (cs & E & Lc & G); [now rewrite !upd_length| |cbn in L; lia|intros q Hq; rewrite upd_length; apply H; now right|].
    + intros j l nc Hl Hn. destruct (Nat.eq_dec j (Z.to_nat p)) as [->|Hne].
      * rewrite nth_error_upd_eq in Hl by lia. rewrite nth_error_upd_eq in Hn by lia. injection Hl as <-. injection Hn as <-. unfold a_step. cbn [fst snd]. rewrite I1, app_length. cbn [length]. replace (length l0 + 1)%nat with (S (length l0)) by lia. split; [reflexivity|].
        intros d. rewrite vsum_app, <- I2. unfold vplus, vscale. change (vsum [s] d) with (s d + 0). change (1 + S (length l0))%nat with (S (S (length l0))). change (1 + length l0)%nat with (S (length l0)).
        assert (INR (S (S (length l0))) <> 0) by (apply not_0_INR; lia). field. exact H0.
      * rewrite nth_error_upd_neq in Hl by congruence. rewrite nth_error_upd_neq in Hn by congruence. now apply (I j).
    + rewrite upd_length in Lc. exists cs. split; [exact E|]. split; [exact Lc|]. intros j l Hl. cbn [of_part]. destruct (Z.eqb_spec p (Z.of_nat j)) as [Ej|Ej].
      * assert (Z.to_nat p = j) by lia. subst j. assert (l0 = l) by congruence. subst l0. destruct (G (Z.to_nat p) (l ++ [s])) as (nc & A & B & C0); [apply nth_error_upd_eq; eapply nth_error_lt, Hl|]. exists nc. rewrite <- app_assoc in B, C0. cbn [app] in B, C0. auto.
      * apply G. rewrite nth_error_upd_neq; [exact Hl|lia].
Qed.
Lemma a_centers_ok k ps ss : (length ps <= length ss)%nat -> (forall p, In p ps -> (0 <= p < Z.of_nat k)%Z) ->
  exists cs, a_centers k ps ss = Val cs /\ length cs = k /\ forall j c, nth_error cs j = Some c -> forall d, c d * (INR (length (of_part j ps ss)) + 1) = vsum (of_part j ps ss) d.
Proof.
  intros L H. destruct (a_cents_ok ps ss (repeat (0%nat, fun _ => 0) k) (repeat [] k)) as (cs & E & Lc & G); [now rewrite !repeat_length| |exact L|now rewrite repeat_length|].
  - intros j l nc Hl Hn. apply nth_error_repeat_inv in Hl. apply nth_error_repeat_inv in Hn. subst. split; [reflexivity|]. intros d. cbn. lra.
  - rewrite repeat_length in Lc. unfold a_centers. rewrite E. cbn [rmap]. exists (map snd cs). split; [reflexivity|]. split; [now rewrite map_length|]. intros j c Hc d.
    assert (Hj : (j < k)%nat) by (rewrite <- Lc, <- (map_length snd); eapply nth_error_lt, Hc). destruct (G j [] (nth_error_repeat _ _ _ Hj)) as (nc & A & _ & C0). cbn [app] in C0. apply (map_nth_error snd) in A. assert (snd nc = c) by congruence. subst c. rewrite <- C0. f_equal. rewrite plus_INR. cbn [INR]. lra.
Qed.
End A.
Lemma len2_minus D x c : len2 D (vminus x c) = dist2 D x c.
Proof. rewrite len2_spec. unfold dist2. apply sumn_ext. intros d Hd. unfold vminus, vplus, vneg, vscale. f_equal. lra. Qed.
