From Verif Require Import Outcome ListUtil WordsModel WordsProofs SortModel SortProofs SimplexModel.
From Coq Require Import Permutation Sorted.
Local Open Scope N_scope.

(** ** Vertex queries *)
Notation sorted := (StronglySorted N.lt).

Lemma sorted_cons v vs : sorted (v :: vs) -> sorted vs /\ forall x, In x vs -> v < x.
Proof. intros H. inversion H; subst. rewrite Forall_forall in *. auto. Qed.

Lemma sorted_NoDup l : sorted l -> NoDup l.
Proof.
  induction l as [|a l IH]; intros H; constructor; apply sorted_cons in H; destruct H as [H1 H2].
  - intros Hin. specialize (H2 a Hin). lia.
  - auto.
Qed.

Lemma contains_loop_spec vs p : sorted vs -> contains_loop vs p = true <-> In p vs.
Proof.
  induction vs as [|v vs IH]; intros H; cbn [contains_loop].
  - split; [discriminate|intros []].
  - apply sorted_cons in H. destruct H as [H1 H2]. destruct (N.leb_spec v p) as [L|L].
    + destruct (N.eqb_spec p v) as [->|Hne]; [split; [now left|reflexivity]|]. rewrite IH by exact H1. split; [now right|].
      intros [<-|Hp]; [congruence|exact Hp].
    + split; [discriminate|]. intros [<-|Hp]; [lia|]. specialize (H2 p Hp). lia.
Qed.

Definition isin (l : list N) (x : N) : bool := existsb (N.eqb x) l.
Lemma isin_In l x : isin l x = true <-> In x l.
Proof. unfold isin. rewrite existsb_exists. split; [intros [y [Hy E]]; apply N.eqb_eq in E; now subst|intros H; exists x; split; [exact H|apply N.eqb_refl]]. Qed.
Lemma isin_cons a l x : isin (a :: l) x = (x =? a) || isin l x. Proof. reflexivity. Qed.
Lemma isin_false l x : ~ In x l -> isin l x = false.
Proof. intros H. destruct (isin l x) eqn:E; [|reflexivity]. apply isin_In in E. contradiction. Qed.

Definition common (a b : list N) : list N := filter (isin b) a.

Lemma skipn_cons {A} (l : list A) i a : nth_error l i = Some a -> skipn i l = a :: skipn (S i) l.
Proof. revert i; induction l as [|b l IH]; intros [|i] E; cbn in E; try discriminate; [injection E as <-; reflexivity|]. cbn [skipn]. now apply IH. Qed.

Lemma filter_ext_in' (f g : N -> bool) l : (forall x, In x l -> f x = g x) -> filter f l = filter g l.
Proof. apply filter_ext_in. Qed.

Lemma common_nil_r a : common a [] = [].
Proof. unfold common. induction a as [|x a IH]; auto. Qed.

Lemma common_step v A w B : sorted (v :: A) -> sorted (w :: B) ->
  length (common (v :: A) (w :: B)) =
  ((if N.eqb v w then 1 else 0) + length (common (if N.leb v w then A else v :: A) (if N.leb w v then B else w :: B)))%nat.
Proof.
  intros HA HB. apply sorted_cons in HA, HB. destruct HA as [HA1 HA2], HB as [HB1 HB2].
  destruct (N.eqb_spec v w) as [->|Hne].
  - rewrite N.leb_refl. unfold common. cbn [filter]. rewrite isin_cons, N.eqb_refl. cbn [orb length Nat.add]. do 2 f_equal.
    apply filter_ext_in'. intros x Hx. rewrite isin_cons. specialize (HA2 x Hx). destruct (N.eqb_spec x w); [lia|reflexivity].
  - destruct (N.leb_spec v w) as [L|L].
    + destruct (N.leb_spec w v); [lia|]. unfold common. cbn [filter Nat.add]. rewrite isin_false; [reflexivity|].
      intros [E|Hx]; [congruence|]. specialize (HB2 v Hx). lia.
    + destruct (N.leb_spec w v); [|lia]. cbn [Nat.add]. unfold common. f_equal. apply filter_ext_in'. intros x Hx. rewrite isin_cons.
      assert (v <= x) by (destruct Hx as [<-|Hx]; [lia|specialize (HA2 x Hx); lia]). destruct (N.eqb_spec x w); [lia|reflexivity].
Qed.

Lemma sorted_skipn l : sorted l -> forall i, sorted (skipn i l).
Proof. intros H i. revert l H. induction i as [|i IH]; intros [|a l] H; cbn [skipn]; auto. apply IH. now apply sorted_cons in H. Qed.

Lemma shared_loop_spec vs ws : sorted vs -> sorted ws -> forall fuel i j acc,
  (length vs - i + (length ws - j) < fuel)%nat ->
  shared_loop fuel vs ws i j acc = Val (acc + length (common (skipn i vs) (skipn j ws)))%nat.
Proof.
  intros Hv Hw. induction fuel as [|fuel IH]; intros i j acc Hf; [lia|]. cbn [shared_loop].
  destruct (Nat.ltb_spec i (length vs)) as [Li|Li]; cbn [andb]; [destruct (Nat.ltb_spec j (length ws)) as [Lj|Lj]|].
  - destruct (nth_error_ex vs i Li) as [v Ev]. destruct (nth_error_ex ws j Lj) as [w Ew]. rewrite Ev, Ew.
    rewrite (skipn_cons vs i v Ev), (skipn_cons ws j w Ew). rewrite common_step.
    + rewrite IH.
      * f_equal. destruct (N.eqb_spec v w); destruct (N.leb_spec v w); destruct (N.leb_spec w v);
          rewrite <- ?(skipn_cons vs i v Ev), <- ?(skipn_cons ws j w Ew); lia.
      * destruct (N.leb_spec v w); destruct (N.leb_spec w v); lia.
    + rewrite <- (skipn_cons vs i v Ev). now apply sorted_skipn.
    + rewrite <- (skipn_cons ws j w Ew). now apply sorted_skipn.
  - rewrite (skipn_all2 ws) by lia. rewrite common_nil_r. cbn [length]. now rewrite Nat.add_0_r.
  - rewrite (skipn_all2 vs) by lia. cbn [common filter length]. now rewrite Nat.add_0_r.
Qed.

Lemma common_NoDup a b : NoDup a -> NoDup (common a b).
Proof. apply NoDup_filter. Qed.
Lemma common_In a b x : In x (common a b) <-> In x a /\ In x b.
Proof. unfold common. now rewrite filter_In, isin_In. Qed.

(** ** Fingerprints *)
Section Over.
Variable over : N -> N.

Lemma gen_fp_acc vs : forall f, fold_left (fun f v => N.lxor f (vrol over v)) vs f = N.lxor f (gen_fp over vs).
Proof.
  unfold gen_fp. induction vs as [|v vs IH]; intros f; cbn [fold_left]; [now rewrite N.lxor_0_r|].
  rewrite IH, (IH (N.lxor 0 _)), N.lxor_0_l, N.lxor_assoc. reflexivity.
Qed.
Lemma gen_fp_cons v vs : gen_fp over (v :: vs) = N.lxor (vrol over v) (gen_fp over vs).
Proof. unfold gen_fp at 1. cbn [fold_left]. rewrite gen_fp_acc, N.lxor_0_l. reflexivity. Qed.

Lemma gen_fp_perm vs ws : Permutation vs ws -> gen_fp over vs = gen_fp over ws.
Proof.
  induction 1 as [|x l l' P IH|x y l|l l' l'' P1 IH1 P2 IH2].
  - reflexivity.
  - rewrite !gen_fp_cons, IH. reflexivity.
  - rewrite !gen_fp_cons, <- !N.lxor_assoc, (N.lxor_comm (vrol over y)). reflexivity.
  - congruence.
Qed.

Definition without (i : nat) (l : list N) : list N := firstn i l ++ skipn (S i) l.
Lemma without_perm i l v : nth_error l i = Some v -> Permutation l (v :: without i l).
Proof.
  intros E. rewrite <- (firstn_skipn i l) at 1. rewrite (skipn_cons l i v E). unfold without. symmetry. apply Permutation_middle.
Qed.

Lemma face_fp_spec s i v : x_fp s = gen_fp over (x_verts s) -> nth_error (x_verts s) i = Some v ->
  face_fp over s i = Val (N.lor (gen_fp over (without i (x_verts s))) 1).
Proof.
  intros Hf E. unfold face_fp. rewrite E, Hf. do 2 f_equal. rewrite (gen_fp_perm _ _ (without_perm i _ v E)), gen_fp_cons.
  rewrite (N.lxor_comm (vrol over v)), N.lxor_assoc, N.lxor_nilpotent, N.lxor_0_r. reflexivity.
Qed.

Lemma bits_lt x w : (forall i, w <= i -> N.testbit x i = false) -> x < 2 ^ w.
Proof.
  intros H. destruct (N.eq_dec x 0) as [->|Hx]; [apply pow2_pos|].
  apply N.log2_lt_pow2; [lia|]. destruct (N.lt_ge_cases (N.log2 x) w) as [|Hge]; [assumption|].
  specialize (H _ Hge). rewrite N.bit_log2 in H by exact Hx. discriminate.
Qed.
Lemma lt_bits x w : x < 2 ^ w -> forall i, w <= i -> N.testbit x i = false.
Proof.
  intros H i Hi. destruct (N.eq_dec x 0) as [->|Hx]; [apply N.bits_0|]. apply N.bits_above_log2.
  assert (N.log2 x < w) by (apply N.log2_lt_pow2; lia). lia.
Qed.
Lemma lor_lt a b w : a < 2 ^ w -> b < 2 ^ w -> N.lor a b < 2 ^ w.
Proof. intros Ha Hb. apply bits_lt. intros i Hi. rewrite N.lor_spec, (lt_bits a w Ha i Hi), (lt_bits b w Hb i Hi). reflexivity. Qed.
Lemma lxor_lt a b w : a < 2 ^ w -> b < 2 ^ w -> N.lxor a b < 2 ^ w.
Proof. intros Ha Hb. apply bits_lt. intros i Hi. rewrite N.lxor_spec, (lt_bits a w Ha i Hi), (lt_bits b w Hb i Hi). reflexivity. Qed.

Lemma rol_lt x : x < 2 ^ 32 -> rol over x < 2 ^ 32.
Proof.
  intros H. unfold rol. cbv zeta. apply lor_lt; [apply wrap_lt|]. destruct (N.land x 31 =? 0); [apply wrap_lt|].
  rewrite N.shiftr_div_pow2. apply N.le_lt_trans with x; [|exact H]. apply N.div_le_upper_bound; [apply N.pow_nonzero; discriminate|].
  pose proof (pow2_pos (32 - N.land x 31)). nia.
Qed.
Lemma vrol_lt v : vrol over v < 2 ^ 32.
Proof. apply rol_lt, wrap_lt. Qed.
Lemma gen_fp_lt vs : gen_fp over vs < 2 ^ 32.
Proof. induction vs as [|v vs IH]; [reflexivity|]. rewrite gen_fp_cons. apply lxor_lt; [apply vrol_lt|exact IH]. Qed.

Lemma face_fp_range s i h : x_fp s = gen_fp over (x_verts s) -> face_fp over s i = Val h -> 0 < h < 2 ^ 32.
Proof.
  intros Hf. unfold face_fp. destruct (nth_error (x_verts s) i) as [v|]; [|discriminate]. intros [= <-]. split.
  - assert (H : N.testbit (N.lor (N.lxor (x_fp s) (vrol over v)) 1) 0 = true) by (rewrite N.lor_spec, orb_true_r; reflexivity).
    destruct (N.eq_dec (N.lor (N.lxor (x_fp s) (vrol over v)) 1) 0) as [E|]; [rewrite E, N.bits_0 in H; discriminate|lia].
  - apply lor_lt; [|reflexivity]. rewrite Hf. apply lxor_lt; [apply gen_fp_lt|apply vrol_lt].
Qed.

(** With no multiple of 32 among the vertices the undefined shift is not reached. *)
Lemma rol_checked_ok x v : rol_checked x = Val v -> rol over x = v.
Proof. unfold rol_checked, rol. cbv zeta. destruct (N.land x 31 =? 0); [discriminate|]. now intros [= <-]. Qed.
Lemma land31 x : N.land x 31 = x mod 32.
Proof. change 31 with (N.ones 5). rewrite N.land_ones. reflexivity. Qed.
Lemma wrap32_mod32 v : wrap 32 v mod 32 = v mod 32.
Proof.
  unfold wrap. change (2 ^ 32) with (32 * 2 ^ 27). rewrite N.mod_mul_r by discriminate.
  rewrite N.mul_comm, N.mod_add by discriminate. apply N.mod_mod. discriminate.
Qed.
Lemma gen_fp_checked_fold vs : forall r, fold_left (fun f v => rbind f (fun f => rmap (N.lxor f) (rol_checked (wrap 32 v)))) vs r =
  match r with
  | Val f => if forallb (fun v => negb (v mod 32 =? 0)) vs then Val (N.lxor f (gen_fp over vs)) else Undef
  | x => x
  end.
Proof.
  induction vs as [|v vs IH]; intros r; cbn [fold_left].
  - destruct r; cbn [forallb]; try reflexivity. unfold gen_fp. cbn [fold_left]. now rewrite N.lxor_0_r.
  - rewrite IH. destruct r as [f| |]; cbn [rbind]; try reflexivity. cbn [forallb].
    destruct (rol_checked (wrap 32 v)) as [x| |] eqn:E.
    + pose proof (rol_checked_ok _ _ E) as Ex. unfold rol_checked in E. cbv zeta in E. rewrite land31, wrap32_mod32 in E.
      destruct (v mod 32 =? 0); [discriminate|]. cbn [negb andb rmap]. rewrite gen_fp_cons. unfold vrol. rewrite Ex, N.lxor_assoc. reflexivity.
    + unfold rol_checked in E. cbv zeta in E. destruct (_ =? 0) in E; discriminate.
    + unfold rol_checked in E. cbv zeta in E. rewrite land31, wrap32_mod32 in E. destruct (v mod 32 =? 0); [|discriminate]. reflexivity.
Qed.
Lemma gen_fp_checked_spec vs : gen_fp_checked vs = if forallb (fun v => negb (v mod 32 =? 0)) vs then Val (gen_fp over vs) else Undef.
Proof. unfold gen_fp_checked. rewrite gen_fp_checked_fold, N.lxor_0_l. reflexivity. Qed.

(** equalVertices *)
Lemma equal_arrays_spec : forall a b, equal_arrays a b = true <-> a = b.
Proof.
  induction a as [|x a IH]; intros [|y b]; cbn [equal_arrays]; split; intros H; try discriminate; auto.
  - destruct (N.eqb_spec x y) as [->|]; [|discriminate]. apply IH in H. congruence.
  - injection H as -> ->. rewrite N.eqb_refl. now apply IH.
Qed.
Lemma sorted_set_eq : forall a b, sorted a -> sorted b -> (forall x, In x a <-> In x b) -> a = b.
Proof.
  induction a as [|x a IH]; intros [|y b] Ha Hb H.
  - reflexivity.
  - exfalso. apply (proj2 (H y)). now left.
  - exfalso. apply (proj1 (H x)). now left.
  - apply sorted_cons in Ha, Hb. destruct Ha as [Ha1 Ha2], Hb as [Hb1 Hb2].
    assert (x = y). { destruct (proj1 (H x) (or_introl eq_refl)) as [->|H1]; [reflexivity|].
      destruct (proj2 (H y) (or_introl eq_refl)) as [->|H2]; [reflexivity|]. specialize (Hb2 x H1). specialize (Ha2 y H2). lia. }
    subst y. f_equal. apply IH; auto. intros z. split; intros Hz.
    + destruct (proj1 (H z) (or_intror Hz)) as [<-|]; [specialize (Ha2 x Hz); lia|assumption].
    + destruct (proj2 (H z) (or_intror Hz)) as [<-|]; [specialize (Hb2 x Hz); lia|assumption].
Qed.
Lemma equal_vertices_spec s t : x_fp s = gen_fp over (x_verts s) -> x_fp t = gen_fp over (x_verts t) ->
  equal_vertices s t = true <-> x_verts s = x_verts t.
Proof.
  intros Hs Ht. unfold equal_vertices. destruct (N.eqb_spec (x_fp s) (x_fp t)) as [E|E]; cbn [negb].
  - apply equal_arrays_spec.
  - split; [discriminate|]. intros H. rewrite Hs, Ht, H in E. congruence.
Qed.
End Over.


(** ** sortVertices *)
Lemma sort_vertices_spec s : length (x_nbrs s) = length (x_verts s) -> N.of_nat (length (x_verts s)) <= 32768 -> NoDup (x_verts s) ->
  exists t, sort_vertices s = Val t /\ sorted (x_verts t) /\ length (x_nbrs t) = length (x_verts t) /\
    Permutation (combine (x_verts t) (x_nbrs t)) (combine (x_verts s) (x_nbrs s)) /\
    x_id t = x_id s /\ x_fp t = x_fp s /\ x_mark t = x_mark s.
Proof.
  intros Hl Hn Hd. destruct s as [id vs ns fp mk]. cbn [x_nbrs x_verts x_id x_fp x_mark] in *.
  destruct (sort_spec N.ltb ltac:(intros; lia) ltac:(intros; lia) (combine vs ns)) as [L [E [HS [HP _]]]].
  { unfold short. rewrite combine_length. lia. }
  assert (Ef : map fst (combine vs ns) = vs).
  { clear - Hl. revert ns Hl. induction vs as [|v vs IH]; intros [|n ns] Hl; try discriminate; [reflexivity|]. cbn. f_equal. apply IH. now injection Hl. }
  assert (Es : map snd (combine vs ns) = ns).
  { clear - Hl. revert ns Hl. induction vs as [|v vs IH]; intros [|n ns] Hl; try discriminate; [reflexivity|]. cbn. f_equal. apply IH. now injection Hl. }
  rewrite Ef, Es in E. exists (mks id (map fst L) (map snd L) fp mk). unfold sort_vertices. cbn [x_nbrs x_verts x_id x_fp x_mark]. rewrite E. cbn [rmap].
  assert (Ec : combine (map fst L) (map snd L) = L) by (clear; induction L as [|[a b] L IH]; cbn; congruence).
  rewrite Ec, !map_length. repeat split; auto.
  assert (HN : NoDup (map fst L)) by (eapply Permutation_NoDup; [apply Permutation_map; symmetry; exact HP|rewrite Ef; exact Hd]).
  clear - HS HN. induction L as [|[a b] L IH]; cbn [map fst] in *; constructor.
  - apply IH; [now inversion HS|now inversion HN].
  - inversion HS as [|? ? HS1 HS2]; subst. inversion HN as [|? ? Hni HN1]; subst. rewrite Forall_forall in *. intros x Hx.
    pose proof Hx as Hx'. apply in_map_iff in Hx'. destruct Hx' as [[a' b'] [E Hin]]. cbn in E. subst a'. specialize (HS2 _ Hin). unfold le in HS2.
    cbn [fst] in HS2. apply N.ltb_ge in HS2. assert (a <> x) by (intros ->; contradiction). lia.
Qed.

Lemma shared_count s t : sorted (x_verts s) -> sorted (x_verts t) ->
  exists c, NoDup c /\ (forall x, In x c <-> In x (x_verts s) /\ In x (x_verts t)) /\
    returns (fun f => count_shared f s t) (length c) /\
    returns (fun f => is_neighbor f s t) (Nat.eqb (length c) (length (x_verts s) - 1)).
Proof.
  intros Hs Ht. exists (common (x_verts s) (x_verts t)). split; [apply common_NoDup, sorted_NoDup, Hs|]. split; [apply common_In|].
  assert (H : forall f, (length (x_verts s) + length (x_verts t) < f)%nat ->
    count_shared f s t = Val (length (common (x_verts s) (x_verts t)))).
  { intros f Hf. unfold count_shared. rewrite shared_loop_spec by (auto; lia). reflexivity. }
  split; exists (S (length (x_verts s) + length (x_verts t))); intros f Hf.
  - apply H. lia.
  - unfold is_neighbor. rewrite H by lia. reflexivity.
Qed.

Lemma isfinite_spec D s : s_isfinite D s = true <-> forall v, In v (x_verts s) -> p_finite D v = true.
Proof.
  unfold s_isfinite. rewrite forallb_forall. split; intros H v Hv.
  - apply H. now apply -> in_rev.
  - apply H. now apply <- in_rev.
Qed.
