(** Partition trees (C39, C46). *)
From Verif Require Import Outcome ListUtil WordsModel WordsProofs LPSetModel ProbeTheory LPSetProofs LPSetHistory LPSetIter SimplexModel PointModel PointProofs GeoModel GeoSpec GeoProofs PartModel PartSpec PartProofs TreeModel TreeSpec.
Local Open Scope nat_scope.

Section T.
Variable C : Type.
Notation tree := (tree C).
Notation Leaves := (@Leaves C).

Lemma tree_ind2 (P : tree -> Prop) : (forall ck s, P (Tleaf ck s)) -> (forall ck ch, Forall P ch -> P (Tnode ck ch)) -> forall t, P t.
Proof.
  intros HL HN. fix IH 1. intros [ck s|ck ch]; [apply HL|]. apply HN. induction ch as [|c r IHr]; constructor; [apply IH|exact IHr].
Qed.

Lemma leaves_ex t : exists l, Leaves t l.
Proof.
  induction t as [ck s|ck ch IH] using tree_ind2; [eexists; constructor|].
  assert (H : exists ls, Forall2 Leaves ch ls).
  { induction IH as [|c r [l Hl] _ [ls Hls]]; [exists []; constructor|]. exists (l :: ls). now constructor. }
  destruct H as [ls Hls]. exists (concat ls). now constructor.
Qed.
Lemma leaves_fun t : forall l1 l2, Leaves t l1 -> Leaves t l2 -> l1 = l2.
Proof.
  induction t as [ck s|ck ch IH] using tree_ind2; intros l1 l2 H1 H2; inversion H1; inversion H2; subst; [reflexivity|]. f_equal.
  match goal with A : Forall2 Leaves ch ?x, B : Forall2 Leaves ch ?y |- _ => rename A into HA, B into HB; clear H1 H2; revert y HB; induction HA as [|c l r ls Hc _ IHr]; intros y HB; inversion HB; subst; [reflexivity|] end.
  inversion IH; subst. f_equal; auto.
Qed.

(** *** flatten *)
Definition leaf_of (x : option C * lpset) : tree := Tleaf (fst x) (snd x).
Lemma flat_node (ck : option C) (ch : list tree) : flat (Tnode ck ch) = concat (map flat ch).
Proof. cbn [flat]. induction ch as [|c r IH]; [reflexivity|]. cbn [map concat]. now rewrite <- IH. Qed.
Lemma flat_leaves t : forall l, Leaves t l -> flat t = map leaf_of l.
Proof.
  induction t as [ck s|ck ch IH] using tree_ind2; intros l H; inversion H; subst; [reflexivity|]. rewrite flat_node. rewrite concat_map. f_equal.
  match goal with A : Forall2 Leaves ch ?x |- _ => clear H; induction A as [|c l r ls Hc _ IHr] end; [reflexivity|]. inversion IH; subst. cbn [map]. f_equal; auto.
Qed.
Lemma leaves_of_leaves (l : list (option C * lpset)) : Forall2 Leaves (map leaf_of l) (map (fun x => [x]) l).
Proof. induction l as [|[ck s] t IH]; constructor; [constructor|exact IH]. Qed.
Lemma concat_single {A} (l : list A) : concat (map (fun x => [x]) l) = l.
Proof. induction l as [|a t IH]; [reflexivity|]. cbn. now rewrite IH. Qed.
Lemma flatten_leaves t l : Leaves t l -> Leaves (flatten t) l.
Proof.
  intros H. destruct t as [ck s|ck ch]; [exact H|]. unfold flatten. rewrite (flat_leaves _ _ H). rewrite <- (concat_single l) at 2. constructor. apply leaves_of_leaves.
Qed.

(** *** collect *)
Fixpoint collect_list (fuel : nat) (m : N) (ch : list tree) (acc : lpset) : res lpset :=
  match ch with
  | [] => Val acc
  | c :: r => rbind (collect fuel m c) (fun c' => rbind (t_ids c') (fun s => rbind (set_iterate fuel s) (fun l => rbind (add_all fuel l acc) (collect_list fuel m r))))
  end.
Lemma collect_node fuel m (ck : option C) (ch : list tree) : collect fuel m (Tnode ck ch) = rmap (Tleaf ck) (collect_list fuel m ch (set_new 1 m)).
Proof.
  cbn [collect]. f_equal. generalize (set_new 1 m) as acc. induction ch as [|c r IH]; intros acc; [reflexivity|]. cbn [collect_list].
  destruct (collect fuel m c) as [c'| |]; cbn [rbind]; try reflexivity. destruct (t_ids c') as [s| |]; cbn [rbind]; try reflexivity.
  destruct (set_iterate fuel s) as [l| |]; cbn [rbind]; try reflexivity. destruct (add_all fuel l acc) as [a| |]; cbn [rbind]; try reflexivity. apply IH.
Qed.

Lemma entries_app (a b : list (option C * lpset)) : entries (a ++ b) = entries a + entries b.
Proof. unfold entries. now rewrite map_app, list_sum_app. Qed.
Lemma in_leaves_app (a b : list (option C * lpset)) i : in_leaves (a ++ b) i <-> in_leaves a i \/ in_leaves b i.
Proof.
  split.
  - intros [ck [s [Hin H]]]. apply in_app_iff in Hin. destruct Hin; [left|right]; exists ck, s; auto.
  - intros [[ck [s [Hin H]]]|[ck [s [Hin H]]]]; exists ck, s; (split; [apply in_app_iff; auto|exact H]).
Qed.
Lemma holds_set s K i : repr 64 s K -> returns (fun f => set_contains 64 f s i) true -> (i <> 0)%N -> In i K.
Proof.
  intros HR H Hz. apply (proj2 HR). destruct (elem_dec s i) as [He|He]; [exact He|]. exfalso.
  assert (Hle : s_items s <= cap s). { destruct HR as [[_ [_ [_ ->]]] _]. apply keys_of_length. }
  destruct (Nat.eq_dec (s_items s) (cap s)) as [E|E].
  - pose proof (contains_full_diverges 64 w64 s i (proj1 HR) Hz He E) as Hd. destruct H as [n H]. specialize (H n (le_n n)). rewrite (Hd n) in H. discriminate.
  - destruct H as [n H]. specialize (H (n + cap s) ltac:(lia)). cbv beta in H. rewrite (contains_out 64 w64 s i _ (proj1 HR) Hz He) in H by lia. discriminate.
Qed.
Lemma holds_in s K i : repr 64 s K -> In i K -> returns (fun f => set_contains 64 f s i) true.
Proof.
  intros HR Hi. exists (cap s). intros f Hf. apply (contains_in 64 w64 s i f (proj1 HR)); [|exact Hf]. now apply (proj2 HR).
Qed.
Lemma repr_keys s K : repr 64 s K -> (forall i, In i (keys_of (s_arr s)) <-> In i K) /\ ~ In 0%N (keys_of (s_arr s)) /\ length (keys_of (s_arr s)) = set_size s.
Proof.
  intros [Hwf HK]. split; [|split].
  - intros i. apply HK.
  - intros H. apply in_keys_of in H. now destruct H.
  - unfold set_size. destruct Hwf as [_ [_ [_ ->]]]. reflexivity.
Qed.

(** Three entries need a table with a free cell. *)
Definition room (s : lpset) : Prop := 3 <= s_items s -> free s.
Lemma new_room m : rep (set_new 1 m) [] /\ room (set_new 1 m).
Proof.
  destruct (set_new_spec 64 w64 1 m) as [H1 [H2 _]]; try discriminate. split; [exact H1|]. unfold room. rewrite H2. lia.
Qed.
Lemma insert_room s K k : rep s K -> room s -> (k <> 0)%N -> small64 (4 * distinct K) ->
  exists s' b, returns (fun f => set_insert 64 true f s k) (s', b) /\ rep s' (k :: K) /\ room s'.
Proof.
  intros HR Hro Hz Hsm. destruct (insert_free s K k HR Hz Hsm) as [s' [E [R F]]]. exists s', (negb (mem k K)). split; [exact E|]. split; [exact R|].
  intros H3. destruct (Nat.le_gt_cases 2 (cap s)) as [Hc|Hc]; [now apply F|]. exfalso.
  rewrite (repr_items 64 s' _ R) in H3. assert (distinct (k :: K) <= S (distinct K)) by (unfold distinct; cbn [nodup]; destruct (in_dec _ _ _); cbn [length]; lia).
  rewrite <- (repr_items 64 s K HR) in H. assert (Hle : s_items s <= cap s). { destruct HR as [[_ [_ [_ ->]]] _]. apply keys_of_length. } lia.
Qed.
Lemma add_room ks : forall s K, rep s K -> room s -> ~ In 0%N ks -> small64 (4 * (length K + length ks)) ->
  exists s', returns (fun f => add_all f ks s) s' /\ rep s' (rev ks ++ K) /\ room s'.
Proof.
  induction ks as [|k t IH]; intros s K HR Hro Hz Hsm.
  - exists s. split; [exists 0; intros; reflexivity|]. auto.
  - cbn [length] in Hsm. destruct (insert_room s K k HR Hro) as [s1 [b [E1 [R1 F1]]]]; [intros ->; apply Hz; now left| |].
    { eapply (small_le 64 w64); [|exact Hsm]. pose proof (distinct_length K). lia. }
    destruct (IH s1 (k :: K) R1 F1) as [s2 [E2 [R2 F2]]]; [intros H; apply Hz; now right|eapply (small_le 64 w64); [|exact Hsm]; cbn [length]; lia|].
    exists s2. split; [|split; [|exact F2]].
    + cbn [add_all]. exact (returns_bind _ (fun r f => add_all f t (fst r)) _ _ E1 E2).
    + cbn [rev]. now rewrite <- app_assoc.
Qed.

(** [s] is the set of the ids of the leaves [l]. *)
Definition union_of (l : list (option C * lpset)) (s : lpset) : Prop :=
  exists K, rep s K /\ length K <= entries l /\ forall i, In i K <-> exists ck t, In (ck, t) l /\ elem t i.
Lemma union_single ck s : (exists K, rep s K) -> union_of [(ck, s)] s.
Proof.
  intros [K HR]. destruct (repr_keys s K HR) as [H1 [H2 H3]]. exists (keys_of (s_arr s)). split; [|split].
  - split; [exact (proj1 HR)|]. intros x. reflexivity.
  - rewrite H3. unfold entries. cbn. lia.
  - intros i. split.
    + intros Hi. exists ck, s. split; [now left|exact Hi].
    + intros [ck' [t [[E|[]] He]]]. injection E as -> ->. exact He.
Qed.

Lemma collect_ok m t : forall l, Leaves t l -> good_sets l -> small64 (4 * entries l) ->
  exists s, returns (fun f => collect f m t) (Tleaf (t_ck t) s) /\ union_of l s /\ (is_leaf t = true -> t = Tleaf (t_ck t) s) /\ (is_leaf t = false -> room s).
Proof.
  induction t as [ck s|ck ch IH] using tree_ind2; intros l HL Hg Hsm; inversion HL; subst.
  - exists s. split; [exists 0; intros; reflexivity|]. split; [apply union_single, (Hg ck s); now left|]. split; [reflexivity|discriminate].
  - match goal with A : Forall2 Leaves ch ?x |- _ => rename A into HF, x into ls end.
    assert (HC : forall acc K pre, rep acc K -> room acc -> length K <= entries pre -> (forall i, In i K <-> exists ck t, In (ck, t) pre /\ elem t i) ->
      small64 (4 * (entries pre + entries (concat ls))) ->
      exists s K', returns (fun f => collect_list f m ch acc) s /\ rep s K' /\ room s /\ length K' <= entries (pre ++ concat ls) /\
        (forall i, In i K' <-> exists ck t, In (ck, t) (pre ++ concat ls) /\ elem t i)).
    { clear HL Hsm. induction HF as [|c l r ls Hc HF IHr]; intros acc K pre Ha Hro Hlen HK Hsm.
      - exists acc, K. cbn [concat]. rewrite app_nil_r. split; [exists 0; intros; reflexivity|]. auto.
      - inversion IH as [|? ? IHc IHch]; subst. cbn [concat] in Hg, Hsm. rewrite entries_app in Hsm.
        destruct (IHc l Hc) as [s [E [[K1 [R1 [L1 U1]]] _]]]; [intros k' s' Hin; apply (Hg k' s'); apply in_app_iff; now left|eapply (small_le 64 w64); [|exact Hsm]; lia|].
        destruct (repr_keys s K1 R1) as [Q1 [Q2 Q3]].
        assert (Hkl : length (keys_of (s_arr s)) <= entries l).
        { etransitivity; [|exact L1]. rewrite Q3. unfold set_size. rewrite (repr_items 64 s K1 R1). apply distinct_length. }
        destruct (add_room (keys_of (s_arr s)) acc K Ha Hro Q2) as [acc' [E2 [R2 F2]]]; [eapply (small_le 64 w64); [|exact Hsm]; lia|].
        destruct (IHr IHch ltac:(intros k' s' Hin; apply (Hg k' s'); apply in_app_iff; now right) acc' (rev (keys_of (s_arr s)) ++ K) (pre ++ l)) as [s2 [K2 [E3 [R3 [F3 [L3 U3]]]]]]; auto.
        + rewrite app_length, rev_length, entries_app. lia.
        + intros i. rewrite in_app_iff, <- in_rev, Q1, U1, HK. split.
          * intros [[k [t [H1 H2]]]|[k [t [H1 H2]]]]; exists k, t; (split; [apply in_app_iff; auto|exact H2]).
          * intros [k [t [H1 H2]]]. apply in_app_iff in H1. destruct H1; [right|left]; exists k, t; auto.
        + rewrite entries_app. eapply (small_le 64 w64); [|exact Hsm]. lia.
        + exists s2, K2. rewrite <- app_assoc in L3, U3. cbn [concat]. split; [|auto]. cbn [collect_list].
          refine (returns_bind _ (fun c' f => rbind (t_ids c') (fun s => rbind (set_iterate f s) (fun l => rbind (add_all f l acc) (collect_list f m r)))) _ _ E _).
          cbn [t_ids rbind]. refine (returns_bind _ (fun l f => rbind (add_all f l acc) (collect_list f m r)) _ _ (set_iterate_spec s) _).
          exact (returns_bind _ (fun a f => collect_list f m r a) _ _ E2 E3). }
    destruct (new_room m) as [N1 N2]. destruct (HC (set_new 1 m) [] [] N1 N2) as [s [K [E [R [F [L U]]]]]]; [cbn; lia| |exact Hsm|].
    + intros i. split; [intros []|]. intros [k [t [[] _]]].
    + exists s. split; [|split; [exists K; cbn [app] in L, U; auto|split; [discriminate|auto]]].
      cbn [t_ck]. destruct (returns_map _ (Tleaf ck) _ E) as [n Hn]. exists n. intros f Hf. rewrite collect_node. now apply Hn.
Qed.
End T.
