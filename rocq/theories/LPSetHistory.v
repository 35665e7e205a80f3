(** Proofs about histories of calls, merging, filtering, copying and comparing. *)
From Verif Require Import Outcome ListUtil WordsModel WordsProofs LPSetModel ProbeTheory LPSetProofs.
Local Open Scope nat_scope.

(** Specification: a set is the list of keys inserted so far. *)
Definition mem (k : N) (K : list N) : bool := existsb (N.eqb k) K.
Fixpoint spec_run (K : list N) (ops : list set_op) : list set_out :=
  match ops with
  | [] => []
  | OpInsert k :: t => OutBool (negb (mem k K)) :: spec_run (k :: K) t
  | OpContains k :: t => OutBool (mem k K) :: spec_run K t
  | OpSize :: t => OutSize (distinct K) :: spec_run K t
  end.
Fixpoint inserted (ops : list set_op) : list N :=
  match ops with
  | [] => []
  | OpInsert k :: t => k :: inserted t
  | _ :: t => inserted t
  end.
(** Keys passed to the set are not the reserved key 0. *)
Definition key_of (o : set_op) : option N :=
  match o with OpInsert k | OpContains k => Some k | OpSize => None end.
Definition op_ok (o : set_op) : Prop := key_of o <> Some 0%N.

Lemma mem_In k K : mem k K = true <-> In k K.
Proof.
  unfold mem. rewrite existsb_exists. split.
  - intros [x [H E]]. apply N.eqb_eq in E. now subst.
  - intros H. exists k. split; [exact H|apply N.eqb_refl].
Qed.

Section W.
Variable w : N.
Hypothesis Hw : (w <= 64)%N.

(** The abstraction relation. *)
Definition repr (s : lpset) (K : list N) : Prop := set_wf w s /\ forall x, elem s x <-> In x K.

Lemma repr_items s K : repr s K -> s_items s = distinct K.
Proof.
  intros [Hwf HK]. pose proof (wf_NoDup w s Hwf) as Hnd. destruct Hwf as [_ [_ [_ ->]]].
  apply NoDup_same_length; [exact Hnd|apply NoDup_nodup|]. intros x. rewrite nodup_In. apply HK.
Qed.

Lemma repr_mem s K k : repr s K -> (if elem_dec s k then true else false) = mem k K.
Proof.
  intros [_ HK]. destruct (elem_dec s k) as [H|H]; symmetry.
  - apply mem_In, HK, H.
  - apply not_true_is_false. intros E. apply H, HK, mem_In, E.
Qed.

Lemma negb_mem s K k : repr s K -> (if elem_dec s k then false else true) = negb (mem k K).
Proof. intros H. rewrite <- (repr_mem s K k H). destruct (elem_dec s k); reflexivity. Qed.

Lemma distinct_cons k K : distinct (k :: K) <= S (distinct K).
Proof. unfold distinct. cbn [nodup]. destruct (in_dec N.eq_dec k K); cbn [length]; lia. Qed.

Lemma distinct_le K K' : (forall x, In x K -> In x K') -> distinct K <= distinct K'.
Proof.
  intros H. apply NoDup_incl_length; [apply NoDup_nodup|]. intros x Hx. rewrite nodup_In in *. auto.
Qed.

Lemma distinct_length K : distinct K <= length K.
Proof.
  apply NoDup_incl_length; [apply NoDup_nodup|]. intros x Hx. now rewrite nodup_In in Hx.
Qed.

(** *** growing sets *)
Definition roomy (s : lpset) : Prop := 2 * s_items s <= cap s /\ 2 <= cap s.

Definition small (n : nat) : Prop := (N.of_nat n <= 2 ^ w)%N /\ (N.of_nat n <= 2 ^ 63)%N.

Lemma small_le n m : n <= m -> small m -> small n.
Proof. intros H [H1 H2]. split; lia. Qed.

Lemma roomy_free s : roomy s -> s_items s < cap s.
Proof. intros [H1 H2]. lia. Qed.

Lemma growing_insert s K k :
  repr s K -> roomy s -> k <> 0%N -> small (4 * distinct K) ->
  exists s', (exists n, forall fuel, n <= fuel -> set_insert w true fuel s k = Val (s', negb (mem k K))) /\
    repr s' (k :: K) /\ roomy s' /\ cap s <= cap s' /\ s_mult s' = s_mult s.
Proof.
  intros HR Hro Hz Hsm. pose proof HR as [Hwf HK].
  pose proof (repr_items s K HR) as Hi.
  assert (Hpre : if grows true s then can_double w s else elem s k \/ s_items s < cap s).
  { unfold grows. cbn [andb]. destruct (Nat.leb_spec (cap s) (2 * s_items s)).
    - unfold can_double. destruct Hsm. split; lia.
    - right. lia. }
  destruct (insert_spec w Hw true s k Hwf Hz Hpre) as [s' [E [W' [X' [C' [M' I']]]]]].
  exists s'. split; [|split; [|split; [|split]]].
  - exists (2 * cap s). intros fuel Hf. rewrite E by exact Hf. now rewrite (negb_mem s K k HR).
  - split; [exact W'|]. intros x. rewrite X', HK. simpl. intuition congruence.
  - unfold grows in C'. cbn [andb] in C'. destruct Hro as [R1 R2]. unfold roomy.
    destruct (Nat.leb_spec (cap s) (2 * s_items s)), (elem_dec s k); try lia.
    pose proof Hwf as [[p [Ep _]] _]. unfold cap in *.
    destruct (N.eq_dec p 0) as [->|Hp]; [cbn in Ep; lia|].
    assert (Ev : (2 ^ p = 2 * 2 ^ (p - 1))%N) by (rewrite <- N.pow_succ_r by lia; f_equal; lia).
    lia.
  - destruct (grows true s); lia.
  - exact M'.
Qed.

Lemma growing_run : forall ops s K,
  repr s K -> roomy s -> Forall op_ok ops -> small (4 * (length K + length ops)) ->
  exists s', returns (fun f => set_run w true f s ops) (s', spec_run K ops) /\
    repr s' (rev (inserted ops) ++ K) /\ roomy s' /\ cap s <= cap s'.
Proof.
  induction ops as [|o ops IH]; intros s K HR Hro Hok Hsm.
  - exists s. split; [exists 0; reflexivity|]. cbn [inserted rev app]. auto.
  - inversion Hok as [|? ? Ho Hok']; subst. cbn [length] in Hsm. destruct o as [k|k|].
    + assert (Hz : k <> 0%N) by (intros ->; apply Ho; reflexivity).
      destruct (growing_insert s K k HR Hro Hz) as [s1 [[n1 E1] [R1 [Ro1 [C1 M1]]]]].
      { eapply small_le; [|exact Hsm]. pose proof (distinct_length K). lia. }
      destruct (IH s1 (k :: K) R1 Ro1 Hok') as [s2 [[n2 E2] [R2 [Ro2 C2]]]].
      { eapply small_le; [|exact Hsm]. cbn [length]. lia. }
      exists s2. split; [|split; [|split; [exact Ro2|lia]]].
      * exists (n1 + n2). intros m Hm. cbn [set_run set_step]. rewrite E1 by lia.
        cbn [rmap rbind fst snd]. rewrite E2 by lia. reflexivity.
      * cbn [inserted rev]. now rewrite <- app_assoc.
    + assert (Hz : k <> 0%N) by (intros ->; apply Ho; reflexivity).
      destruct (IH s K HR Hro Hok') as [s2 [[n2 E2] [R2 [Ro2 C2]]]].
      { eapply small_le; [|exact Hsm]. lia. }
      exists s2. split; [|split; [|split; [exact Ro2|lia]]].
      * exists (cap s + n2). intros m Hm. cbn [set_run set_step].
        rewrite (contains_dec w Hw s k m) by (auto using roomy_free; try apply HR; lia).
        cbn [rmap rbind fst snd]. rewrite E2 by lia. cbn [rmap fst snd]. now rewrite (repr_mem s K k HR).
      * exact R2.
    + destruct (IH s K HR Hro Hok') as [s2 [[n2 E2] [R2 [Ro2 C2]]]].
      { eapply small_le; [|exact Hsm]. lia. }
      exists s2. split; [|split; [|split; [exact Ro2|lia]]].
      * exists n2. intros m Hm. cbn [set_run set_step rbind fst snd]. rewrite E2 by lia. cbn [rmap fst snd].
        unfold set_size. now rewrite (repr_items s K HR).
      * exact R2.
Qed.

(** *** fixed-capacity sets *)
Lemma fixed_run : forall ops s K,
  repr s K -> Forall op_ok ops -> distinct (rev (inserted ops) ++ K) < cap s ->
  exists s', returns (fun f => set_run w false f s ops) (s', spec_run K ops) /\
    repr s' (rev (inserted ops) ++ K) /\ cap s' = cap s.
Proof.
  induction ops as [|o ops IH]; intros s K HR Hok Hd.
  - exists s. split; [exists 0; reflexivity|]. cbn [inserted rev app]. auto.
  - pose proof (repr_items s K HR) as Hi.
    assert (Hfree : s_items s < cap s).
    { rewrite Hi. eapply Nat.le_lt_trans; [|exact Hd]. apply distinct_le. intros x Hx. apply in_or_app. auto. }
    inversion Hok as [|? ? Ho Hok']; subst. destruct o as [k|k|].
    + assert (Hz : k <> 0%N) by (intros ->; apply Ho; reflexivity). pose proof HR as [Hwf HK].
      destruct (insert_spec w Hw false s k Hwf Hz) as [s1 [E1 [W1 [X1 [C1 [M1 I1]]]]]]; [right; exact Hfree|].
      cbn [grows andb] in C1. cbn [inserted rev] in Hd |- *. rewrite <- app_assoc in Hd |- *.
      assert (R1 : repr s1 (k :: K)).
      { split; [exact W1|]. intros x. rewrite X1, HK. simpl. intuition congruence. }
      destruct (IH s1 (k :: K) R1 Hok') as [s2 [[n2 E2] [R2 C2]]]; [rewrite C1; exact Hd|].
      exists s2. split; [|split; [exact R2|congruence]].
      exists (2 * cap s + n2). intros m Hm. cbn [set_run set_step]. rewrite E1 by lia.
      cbn [rmap rbind fst snd]. rewrite E2 by lia. cbn [rmap fst snd]. now rewrite (negb_mem s K k HR).
    + assert (Hz : k <> 0%N) by (intros ->; apply Ho; reflexivity).
      destruct (IH s K HR Hok' Hd) as [s2 [[n2 E2] [R2 C2]]].
      exists s2. split; [|split; [exact R2|congruence]].
      exists (cap s + n2). intros m Hm. cbn [set_run set_step].
      rewrite (contains_dec w Hw s k m) by (auto; try apply HR; lia).
      cbn [rmap rbind fst snd]. rewrite E2 by lia. cbn [rmap fst snd]. now rewrite (repr_mem s K k HR).
    + destruct (IH s K HR Hok' Hd) as [s2 [[n2 E2] [R2 C2]]].
      exists s2. split; [|split; [exact R2|congruence]].
      exists n2. intros m Hm. cbn [set_run set_step rbind fst snd]. rewrite E2 by lia. cbn [rmap fst snd].
      unfold set_size. now rewrite Hi.
Qed.

(** *** construction *)
Lemma set_new_spec size a :
  (1 <= w)%N -> (size <= 2 ^ 63)%N -> (size <= 2 ^ w)%N ->
  let s := set_new size a in
  repr s [] /\ s_items s = 0 /\ (size <= N.of_nat (cap s))%N /\ s_mult s = a.
Proof.
  intros Hw1 H1 H2. unfold set_new, alloc.
  destruct (nextPow2_least 64 (N.max 1 size)) as [[k [Ek Hk]] [Hge Hle]]; [lia|lia|change (64 - 1)%N with 63%N; lia|].
  assert (Hkw : (k <= w)%N).
  { specialize (Hle w). rewrite Ek in Hle. pose proof (pow2_pos w).
    assert (2 ^ k <= 2 ^ w)%N by (apply Hle; lia). apply N.pow_le_mono_r_iff in H0; lia. }
  cbv zeta. fold (empty_set (N.to_nat (nextPow2 64 (N.max 1 size))) a).
  split; [split|split; [reflexivity|split; [|reflexivity]]].
  - apply empty_wf. exists k. split; [lia|exact Hkw].
  - intros x. split; [|intros []]. intros H. exfalso. revert H. apply empty_elem.
  - rewrite cap_empty. lia.
Qed.

(** *** what a finished call sequence leaves behind *)
Lemma set_new_wf size a :
  (1 <= w)%N -> (size <= 2 ^ 63)%N -> (size <= 2 ^ w)%N -> set_wf w (set_new size a).
Proof. intros. apply set_new_spec; assumption. Qed.

(** Any state reached by finished calls is well formed, whatever the calls were. *)
Lemma reached_wf g : forall ops s K s' outs,
  repr s K -> Forall op_ok ops -> small (4 * (length K + length ops)) ->
  returns (fun f => set_run w g f s ops) (s', outs) ->
  repr s' (rev (inserted ops) ++ K).
Proof.
  induction ops as [|o ops IH]; intros s K s' outs HR Hok Hsm [n En].
  - specialize (En n (Nat.le_refl n)). injection En as <- _. exact HR.
  - inversion Hok as [|? ? Ho Hok']; subst. pose proof HR as [Hwf HK]. cbn [length] in Hsm.
    pose proof (repr_items s K HR) as Hi. pose proof (distinct_length K) as HdK.
    destruct o as [k|k|].
    + assert (Hz : k <> 0%N) by (intros ->; apply Ho; reflexivity).
      assert (Hcase : (if grows g s then can_double w s else elem s k \/ s_items s < cap s) \/
                      (grows g s = false /\ ~ elem s k /\ s_items s = cap s)).
      { destruct (grows g s) eqn:Eg.
        - left. unfold grows in Eg. apply andb_true_iff in Eg. destruct Eg as [_ Eg].
          apply Nat.leb_le in Eg. destruct Hsm. unfold can_double. split; lia.
        - destruct (elem_dec s k) as [He|He]; [left; auto|].
          pose proof (wf_items_le w s Hwf). destruct (Nat.eq_dec (s_items s) (cap s)); [right; auto|left; right; lia]. }
      destruct Hcase as [Hpre|[Eg [He Hfull]]].
      * destruct (insert_spec w Hw g s k Hwf Hz Hpre) as [s1 [E1 [W1 [X1 [C1 [M1 I1]]]]]].
        assert (R1 : repr s1 (k :: K)).
        { split; [exact W1|]. intros x. rewrite X1, HK. simpl. intuition congruence. }
        cbn [inserted rev]. rewrite <- app_assoc. 
        set (m := n + 2 * cap s).
        assert (Hrun : exists outs', returns (fun f => set_run w g f s1 ops) (s', outs')).
        { exists (tl outs). exists m. intros f Hf. specialize (En f ltac:(lia)).
          cbn [set_run set_step] in En. rewrite E1 in En by lia. cbn [rmap rbind fst snd] in En.
          destruct (set_run w g f s1 ops) as [[s2 o2]| |]; cbn in En; try discriminate.
          injection En as <- <-. reflexivity. }
        destruct Hrun as [outs' Hrun]. apply (IH s1 (k :: K) s' outs' R1 Hok'); [|exact Hrun].
        eapply small_le; [|exact Hsm]. cbn [length]. lia.
      * exfalso. specialize (En n (Nat.le_refl n)). cbn [set_run set_step] in En.
        assert (E : set_insert w g n s k = insert_raw w n s k).
        { unfold set_insert. fold (cap s). unfold grows in Eg. pose proof (wf_cap_pos w Hw s Hwf) as Hc0.
          destruct (Nat.eqb_spec (cap s) 0); [lia|]. cbn [negb]. rewrite andb_true_r, Eg. reflexivity. }
        rewrite E, (insert_raw_full_diverges w Hw s k Hwf Hz He Hfull n) in En. discriminate.
    + assert (Hrun : exists outs', returns (fun f => set_run w g f s ops) (s', outs')).
      { exists (tl outs), n. intros f Hf. specialize (En f Hf). cbn [set_run set_step] in En.
        destruct (set_contains w f s k); cbn [rmap rbind fst snd] in En; try discriminate.
        destruct (set_run w g f s ops) as [[s2 o2]| |]; cbn in En; try discriminate.
        injection En as <- <-. reflexivity. }
      destruct Hrun as [outs' Hrun]. apply (IH s K s' outs' HR Hok'); [|exact Hrun].
      eapply small_le; [|exact Hsm]. lia.
    + assert (Hrun : exists outs', returns (fun f => set_run w g f s ops) (s', outs')).
      { exists (tl outs), n. intros f Hf. specialize (En f Hf). cbn [set_run set_step rbind fst snd] in En.
        destruct (set_run w g f s ops) as [[s2 o2]| |]; cbn in En; try discriminate.
        injection En as <- <-. reflexivity. }
      destruct Hrun as [outs' Hrun]. apply (IH s K s' outs' HR Hok'); [|exact Hrun].
      eapply small_le; [|exact Hsm]. lia.
Qed.

(** *** merging *)
Definition fits (g : bool) (t : lpset) (n : nat) : Prop :=
  if g then small (4 * (s_items t + n)) else s_items t + n <= cap t.

Lemma fold_ins_spec g (keep : N -> bool) (step : nat -> lpset -> N -> res lpset) (lim : nat) l :
  (forall fuel t, lim <= fuel -> step fuel t 0%N = Val t) ->
  (forall fuel t k, lim <= fuel -> k <> 0%N -> In k l ->
     step fuel t k = if keep k then rmap fst (set_insert w g fuel t k) else Val t) ->
  forall t, set_wf w t -> fits g t (length (sel keep l)) ->
  exists t', (exists n, forall fuel, n <= fuel -> fold_res (step fuel) l t = Val t') /\
    set_wf w t' /\ (forall x, elem t' x <-> elem t x \/ In x (sel keep l)) /\ cap t <= cap t' /\
    (roomy t -> g = true -> roomy t').
Proof.
  intros H0. induction l as [|k l IH]; intros Hs t Hwf Hfit.
  - exists t. split; [exists 0; reflexivity|]. repeat split; try apply Hwf; auto; cbn; try tauto;
      match goal with H : roomy t |- _ => apply H end.
  - rewrite sel_cons in Hfit |- *. destruct (N.eqb_spec k 0) as [->|Hz].
    + destruct (IH ltac:(intros; apply Hs; simpl; auto) t Hwf Hfit) as [t' [[n E] R]].
      exists t'. split; [|exact R]. exists (lim + n). intros fuel Hf. cbn [fold_res].
      rewrite H0 by lia. cbn [rbind]. apply E. lia.
    + destruct (keep k) eqn:Ek.
      * assert (Hpre : if grows g t then can_double w t else elem t k \/ s_items t < cap t).
        { unfold fits in Hfit. cbn [length] in Hfit. unfold grows, can_double. destruct g; cbn [andb].
          - destruct Hfit as [F1 F2]. destruct (Nat.leb_spec (cap t) (2 * s_items t)); [split; lia|right; lia].
          - right. lia. }
        destruct (insert_spec w Hw g t k Hwf Hz Hpre) as [t1 [E1 [W1 [X1 [C1 [M1 I1]]]]]].
        destruct (IH ltac:(intros; apply Hs; simpl; auto) t1 W1) as [t' [[n E] [W' [X' [C' R']]]]].
        { unfold fits in *. cbn [length] in Hfit. rewrite I1. destruct g.
          - eapply small_le; [|exact Hfit]. destruct (elem_dec t k); lia.
          - cbn [grows andb] in C1. rewrite C1. destruct (elem_dec t k); lia. }
        exists t'. split; [|split; [exact W'|split; [|split]]].
        -- exists (lim + 2 * cap t + n). intros fuel Hf. cbn [fold_res].
           rewrite Hs by (simpl; auto; lia). rewrite Ek, E1 by lia. cbn [rmap rbind fst]. apply E. lia.
        -- intros x. rewrite X', X1. simpl. intuition congruence.
        -- destruct (grows g t); lia.
        -- intros [R1 R2] ->. apply R'; [|reflexivity]. unfold roomy.
           rewrite I1. unfold grows in C1. cbn [andb] in C1.
           destruct (Nat.leb_spec (cap t) (2 * s_items t)), (elem_dec t k); try lia.
           pose proof Hwf as [[p [Ep _]] _]. unfold cap in *.
           destruct (N.eq_dec p 0) as [->|Hp]; [cbn in Ep; lia|].
           assert (Ev : (2 ^ p = 2 * 2 ^ (p - 1))%N) by (rewrite <- N.pow_succ_r by lia; f_equal; lia).
           lia.
      * destruct (IH ltac:(intros; apply Hs; simpl; auto) t Hwf Hfit) as [t' [[n E] R]].
        exists t'. split; [|exact R]. exists (lim + n). intros fuel Hf. cbn [fold_res].
        rewrite Hs by (simpl; auto; lia). rewrite Ek. cbn [rbind]. apply E. lia.
Qed.

Lemma np2_cap x : (1 <= x)%N -> (x <= 2 ^ 63)%N -> (x <= 2 ^ w)%N ->
  exists n, nextPow2 64 x = N.of_nat n /\ pow2cap w n /\ (x <= N.of_nat n)%N.
Proof.
  intros H1 H2 H3. destruct (nextPow2_least 64 x) as [[k [Ek Hk]] [Hge Hle]]; [lia|lia|change (64 - 1)%N with 63%N; lia|].
  exists (N.to_nat (nextPow2 64 x)). split; [lia|]. split; [|lia].
  exists k. split; [lia|]. specialize (Hle w H3). rewrite Ek in Hle. apply N.pow_le_mono_r_iff in Hle; lia.
Qed.

Lemma merge_spec g s o :
  set_wf w s -> set_wf w o -> small (4 * (cap s + cap o)) ->
  exists s', returns (fun f => set_merge w g f s o) s' /\ set_wf w s' /\
    (forall x, elem s' x <-> elem s x \/ elem o x) /\ cap s + cap o <= cap s' /\
    (roomy s -> roomy o -> g = true -> roomy s').
Proof.
  intros Hs Ho [Hsm1 Hsm2]. pose proof (wf_items_le w s Hs) as Is. pose proof (wf_items_le w o Ho) as Io.
  pose proof (wf_cap_pos w Hw s Hs) as Cs.
  pose proof (pow2_pos w) as Pw.
  set (x := wrap 64 (N.of_nat (cap s) + N.of_nat (cap o))).
  assert (Ex : x = N.of_nat (cap s + cap o)).
  { unfold x. rewrite wrap_id; [lia|]. change (2 ^ 64)%N with (2 * 2 ^ 63)%N. lia. }
  destruct (np2_cap x) as [n [En [Pn Hn]]]; try (rewrite Ex; lia).
  destruct (rehash_spec w Hw s x n Hs En Pn) as [s1 [E1 [W1 [X1 [C1 M1]]]]]; [lia|].
  pose proof (items_same w s s1 Hs W1 ltac:(intros; symmetry; apply X1)) as I1.
  destruct (fold_ins_spec g (fun _ => true)
     (fun fuel t k => if N.eqb k 0 then Val t else rmap fst (set_insert w g fuel t k)) 0 (s_arr o))
     with (t := s1) as [s2 [[n2 E2] [W2 [X2 [C2 R2]]]]].
  - reflexivity.
  - intros fuel t k _ Hk _. apply N.eqb_neq in Hk. now rewrite Hk.
  - exact W1.
  - rewrite sel_true. destruct Ho as [_ [_ [_ Eo]]]. rewrite <- Eo. unfold fits. destruct g.
    + split; lia.
    + lia.
  - exists s2. split; [|split; [exact W2|split; [|split; [lia|]]]].
    + exists (n + n2). intros f Hf. unfold set_merge. fold (cap s) (cap o). fold x. rewrite E1 by lia.
      cbn [rbind]. apply E2. lia.
    + intros y. rewrite X2, X1, sel_true. reflexivity.
    + intros [R1 R1'] [Ro Ro'] Hg. apply R2; [|exact Hg]. split; lia.
Qed.

Lemma filter_spec s flt :
  set_wf w s -> set_wf w flt -> s_items flt < cap flt \/ (forall k, elem s k -> elem flt k) ->
  small (cap s) ->
  exists s', returns (fun f => set_filter w f s flt) s' /\ set_wf w s' /\
    (forall x, elem s' x <-> elem s x /\ ~ elem flt x) /\ cap s' = cap s.
Proof.
  intros Hs Hf Hor [S1 S2].
  destruct (rehash_filter_spec w Hw s (N.of_nat (cap s)) (cap s) flt false Hs Hf Hor) as [s' [E [W [X [C M]]]]].
  - apply (nextPow2_cap w Hw); [apply Hs|exact S2].
  - apply Hs.
  - now apply wf_items_le with (w := w).
  - exists s'. split; [|auto]. exists (cap s + cap flt). intros f Hfu. apply E; lia.
Qed.

Lemma merge_filter_spec g s o flt cmp :
  set_wf w s -> set_wf w o -> set_wf w flt ->
  s_items flt < cap flt \/ ((forall k, elem s k -> elem flt k) /\ (forall k, elem o k -> elem flt k)) ->
  0 < s_items s + s_items o -> small (4 * (s_items s + s_items o)) ->
  exists s', returns (fun f => set_merge_filter w g f s o flt cmp) s' /\ set_wf w s' /\
    (forall x, elem s' x <-> (elem s x /\ ~ elem flt x) \/
                             (elem o x /\ (if cmp then elem flt x else ~ elem flt x))) /\
    (g = true -> roomy s').
Proof.
  intros Hs Ho Hf Hor Hpos [S1 S2].
  set (x := wrap 64 (2 * (N.of_nat (s_items s) + N.of_nat (s_items o)))).
  assert (Ex : x = N.of_nat (2 * (s_items s + s_items o))).
  { unfold x. rewrite wrap_id; [lia|]. change (2 ^ 64)%N with (2 * 2 ^ 63)%N. lia. }
  destruct (np2_cap x) as [n [En [Pn Hn]]]; try (rewrite Ex; lia).
  destruct (rehash_filter_spec w Hw s x n flt false Hs Hf) as [s1 [E1 [W1 [X1 [C1 M1]]]]]; auto; try lia.
  { destruct Hor as [H|[H _]]; auto. }
  assert (I1 : s_items s1 <= s_items s).
  { pose proof (wf_NoDup w s1 W1) as N1. destruct W1 as [_ [_ [_ ->]]]. destruct Hs as [_ [_ [_ ->]]].
    apply NoDup_incl_length; [exact N1|]. intros y Hy. apply X1 in Hy. apply Hy. }
  set (keep := fun k => Bool.eqb (if elem_dec flt k then true else false) cmp).
  destruct (fold_ins_spec g keep
     (fun fuel t k => if N.eqb k 0 then Val t else
         rbind (set_contains w fuel flt k)
           (fun b => if Bool.eqb b cmp then rmap fst (set_insert w g fuel t k) else Val t)) (cap flt) (s_arr o))
     with (t := s1) as [s2 [[n2 E2] [W2 [X2 [C2 R2]]]]].
  - reflexivity.
  - intros fuel t k Hfu Hk Hin. pose proof Hk as Hk2. apply N.eqb_neq in Hk2. rewrite Hk2.
    unfold keep. destruct (elem_dec flt k) as [He|He].
    + rewrite (contains_in w Hw) by assumption. reflexivity.
    + destruct Hor as [Hfr|[_ Hall]].
      * rewrite (contains_out w Hw) by assumption. reflexivity.
      * exfalso. apply He, Hall, elem_In. auto.
  - exact W1.
  - pose proof (sel_length w Hw keep (s_arr o)) as Hl. destruct Ho as [_ [_ [_ Eo]]]. rewrite <- Eo in Hl.
    unfold fits. destruct g; [split; lia|lia].
  - exists s2. split; [|split; [exact W2|split]].
    + exists (n + cap flt + n2). intros f Hfu. unfold set_merge_filter. fold x. rewrite E1 by lia.
      cbn [rbind]. apply E2. lia.
    + intros y. rewrite X2, X1, In_sel. change (In y (keys_of (s_arr o))) with (elem o y). unfold keep.
      destruct (elem_dec flt y), cmp; cbn [Bool.eqb]; intuition congruence.
    + intros Hg. apply R2; [|exact Hg]. split; lia.
Qed.

(** *** copy, archive, comparison *)
Lemma copy_spec s : set_wf w s -> small (cap s) -> set_copy s = Val s.
Proof.
  intros Hs [_ S2]. pose proof (wf_cap_pos w Hw s Hs) as C0. unfold set_copy. fold (cap s).
  replace (N.max 1 (N.of_nat (cap s))) with (N.of_nat (cap s)) by lia.
  rewrite (nextPow2_cap w Hw (cap s)); [|apply Hs|exact S2].
  unfold alloc. rewrite Nat2N.id, repeat_length, Nat.leb_refl.
  rewrite skipn_all2 by (rewrite repeat_length; lia). rewrite app_nil_r. destruct s; reflexivity.
Qed.

Lemma load_save s : set_load (set_save s) = s.
Proof.
  unfold set_load, set_save. cbn [ar_size ar_items ar_cells ar_mult].
  rewrite firstn_app, firstn_all, Nat.sub_diag. cbn [firstn]. rewrite app_nil_r. destruct s; reflexivity.
Qed.

Lemma all_contained_spec s l :
  set_wf w s -> s_items s < cap s ->
  forall fuel, cap s <= fuel ->
  all_contained w fuel s l = Val (forallb (fun k => if elem_dec s k then true else false) (keys_of l)).
Proof.
  intros Hs Hfree fuel Hf. induction l as [|k l IH]; [reflexivity|]. cbn [all_contained].
  unfold keys_of. cbn [filter]. unfold nz at 1. destruct (N.eqb_spec k 0) as [->|Hz]; cbn [negb]; [exact IH|].
  rewrite (contains_dec w Hw s k fuel Hs Hz Hfree Hf). cbn [rbind forallb].
  destruct (elem_dec s k); [exact IH|reflexivity].
Qed.

Lemma eqb_spec s o :
  set_wf w s -> set_wf w o -> s_items s < cap s ->
  exists b, returns (fun f => set_eqb w f s o) b /\ (b = true <-> forall x, elem s x <-> elem o x).
Proof.
  intros Hs Ho Hfree. unfold set_eqb. destruct (Nat.eqb_spec (s_items s) (s_items o)) as [Ei|Ei].
  - eexists. split; [exists (cap s); intros m Hm; apply all_contained_spec; assumption|].
    rewrite forallb_forall. split.
    + intros H.
      assert (Hincl : incl (keys_of (s_arr o)) (keys_of (s_arr s))).
      { intros x Hx. specialize (H x Hx). destruct (elem_dec s x); [assumption|discriminate]. }
      assert (Hincl' : incl (keys_of (s_arr s)) (keys_of (s_arr o))).
      { apply NoDup_length_incl; [now apply wf_NoDup with (w := w)| |exact Hincl].
        destruct Hs as [_ [_ [_ Es]]], Ho as [_ [_ [_ Eo]]]. lia. }
      intros x. split; [apply Hincl'|apply Hincl].
    + intros H x Hx. destruct (elem_dec s x) as [|Hn]; [reflexivity|]. exfalso. apply Hn, H, Hx.
  - exists false. split; [exists 0; reflexivity|]. split; [discriminate|].
    intros H. exfalso. apply Ei. eapply items_same; eassumption.
Qed.
End W.

(** *** Histories starting from any size, also the default size 1 *)
Section AnySize.
Variable w : N.
Hypothesis Hw : (w <= 64)%N.

Definition not_query (o : set_op) : Prop := match o with OpContains _ => False | _ => True end.

Lemma growing_insert_any s K k :
  repr w s K -> k <> 0%N -> small w (4 * distinct K) ->
  exists s', returns (fun f => set_insert w true f s k) (s', negb (mem k K)) /\ repr w s' (k :: K) /\ cap s <= cap s'.
Proof.
  intros HR Hz Hsm. pose proof HR as [Hwf HK]. pose proof (repr_items w s K HR) as Hi.
  assert (Hpre : if grows true s then can_double w s else elem s k \/ s_items s < cap s).
  { unfold grows. cbn [andb]. destruct (Nat.leb_spec (cap s) (2 * s_items s)).
    - unfold can_double. destruct Hsm. split; lia.
    - right. lia. }
  destruct (insert_spec w Hw true s k Hwf Hz Hpre) as [s' [E [W' [X' [C' [M' I']]]]]].
  exists s'. split; [|split].
  - exists (2 * cap s). intros fuel Hf. rewrite E by exact Hf. now rewrite (negb_mem w s K k HR).
  - split; [exact W'|]. intros x. rewrite X', HK. simpl. intuition congruence.
  - destruct (grows true s); lia.
Qed.

Lemma growing_inserts_any : forall ops s K,
  repr w s K -> Forall op_ok ops -> Forall not_query ops -> small w (4 * (length K + length ops)) ->
  exists s', returns (fun f => set_run w true f s ops) (s', spec_run K ops) /\
    repr w s' (rev (inserted ops) ++ K).
Proof.
  induction ops as [|o ops IH]; intros s K HR Hok Hq Hsm.
  - exists s. split; [exists 0; reflexivity|]. exact HR.
  - inversion Hok as [|? ? Ho Hok']; subst. inversion Hq as [|? ? Hq1 Hq']; subst.
    cbn [length] in Hsm. destruct o as [k|k|]; [|destruct Hq1|].
    + assert (Hz : k <> 0%N) by (intros ->; apply Ho; reflexivity).
      destruct (growing_insert_any s K k HR Hz) as [s1 [[n1 E1] [R1 C1]]].
      { eapply (small_le w Hw); [|exact Hsm]. pose proof (distinct_length K). lia. }
      destruct (IH s1 (k :: K) R1 Hok' Hq') as [s2 [[n2 E2] R2]].
      { eapply (small_le w Hw); [|exact Hsm]. cbn [length]. lia. }
      exists s2. split.
      * exists (n1 + n2). intros m Hm. cbn [set_run set_step]. rewrite E1 by lia.
        cbn [rmap rbind fst snd]. rewrite E2 by lia. reflexivity.
      * cbn [inserted rev]. now rewrite <- app_assoc.
    + destruct (IH s K HR Hok' Hq') as [s2 [[n2 E2] R2]].
      { eapply (small_le w Hw); [|exact Hsm]. lia. }
      exists s2. split; [|exact R2].
      exists n2. intros m Hm. cbn [set_run set_step rbind fst snd]. rewrite E2 by lia. cbn [rmap fst snd].
      unfold set_size. now rewrite (repr_items w s K HR).
Qed.

End AnySize.
