(** Proofs about the AABB tree. *)
From Verif Require Import Outcome ListUtil GeoModel GeoSpec GeoProofs GeoBox AABBModel.
From Coq Require Import Lia Psatz.
Local Open Scope R_scope.

Lemma bits_exist : forall D (f : nat -> bool), exists k, (k < Nat.pow 2 D)%nat /\ forall d, (d < D)%nat -> Nat.testbit k d = f d.
Proof.
  induction D as [|D IH]; intros f.
  - exists 0%nat. split; [cbn; lia|lia].
  - destruct (IH (fun d => f (S d))) as (k & Hk & Hb). exists (2 * k + Nat.b2n (f 0%nat))%nat. split.
    + rewrite Nat.pow_succ_r'. destruct (f 0%nat); cbn [Nat.b2n]; lia.
    + intros [|d] Hd.
      * destruct (f 0%nat) eqn:E; cbn [Nat.b2n]; [apply Nat.testbit_odd_0|rewrite Nat.add_0_r; apply Nat.testbit_even_0].
      * rewrite <- Hb by lia. destruct (f 0%nat); cbn [Nat.b2n]; [apply Nat.testbit_odd_succ; lia|rewrite Nat.add_0_r; apply Nat.testbit_even_succ; lia].
Qed.

Section Tree.
Variables (D : nat) (w : R).
Hypothesis Hw : 0 < w.

(** A box aligned to the grid: from cell [a] to before cell [b]. *)
Definition al (x : box) (a b : nat -> Z) : Prop :=
  forall d, (d < D)%nat -> b_lo x d = IZR (a d) * w /\ b_hi x d = IZR (b d) * w.
Definition cellb (x : box) (i : nat -> Z) : Prop := al x i (fun d => i d + 1)%Z.
Definition within (a b i : nat -> Z) : Prop := forall d, (d < D)%nat -> (a d <= i d < b d)%Z.

Lemma scale_le : forall a b, IZR a * w <= IZR b * w <-> (a <= b)%Z.
Proof.
  intros. split; intros H.
  - apply le_IZR. apply (Rmult_le_reg_r w); [exact Hw|exact H].
  - apply IZR_le in H. nra.
Qed.
Lemma scale_eq : forall a b, IZR a * w = IZR b * w <-> a = b.
Proof.
  intros. split; intros H; [|now subst]. apply eq_IZR. apply (Rmult_eq_reg_r w); [exact H|lra].
Qed.
Lemma has_box_al : forall x a b y c e, al x a b -> al y c e ->
  (box_has_box D x y = true <-> forall d, (d < D)%nat -> (a d <= c d /\ e d <= b d)%Z).
Proof.
  intros x a b y c e Hx Hy. unfold box_has_box. rewrite forallb_seq.
  split; intros H d Hd; specialize (H d Hd); destruct (Hx d Hd) as [E1 E2]; destruct (Hy d Hd) as [E3 E4].
  - rewrite andb_true_iff, !rleb_iff, E1, E2, E3, E4, !scale_le in H. exact H.
  - rewrite andb_true_iff, !rleb_iff, E1, E2, E3, E4, !scale_le. exact H.
Qed.
Lemma eqb_al : forall x a b y c e, al x a b -> al y c e ->
  (box_eqb D x y = true <-> forall d, (d < D)%nat -> (a d = c d /\ b d = e d)%Z).
Proof.
  intros x a b y c e Hx Hy. unfold box_eqb. rewrite andb_true_iff, !forallb_seq. split.
  - intros [H1 H2] d Hd. specialize (H1 d Hd). specialize (H2 d Hd). destruct (Hx d Hd) as [E1 E2]. destruct (Hy d Hd) as [E3 E4].
    rewrite reqb_iff, E1, E3, scale_eq in H1. rewrite reqb_iff, E2, E4, scale_eq in H2. tauto.
  - intros H. split; intros d Hd; specialize (H d Hd); destruct (Hx d Hd) as [E1 E2]; destruct (Hy d Hd) as [E3 E4]; apply reqb_iff.
    + rewrite E1, E3. apply scale_eq. tauto.
    + rewrite E2, E4. apply scale_eq. tauto.
Qed.
Lemma cell_in : forall x a b y i, al x a b -> cellb y i -> (box_has_box D x y = true <-> within a b i).
Proof.
  intros x a b y i Hx Hy. rewrite (has_box_al x a b y i _ Hx Hy). unfold within.
  split; intros H d Hd; specialize (H d Hd); cbv beta in *; lia.
Qed.
Lemma mid_al : forall x a b d, al x a b -> (d < D)%nat -> mid w x d = IZR ((a d + b d) / 2) * w.
Proof.
  intros x a b d Hx Hd. unfold mid. destruct (Hx d Hd) as [-> ->]. do 2 f_equal. symmetry.
  replace ((IZR (a d) * w + (IZR (b d) * w - IZR (a d) * w) / 2) / w) with ((IZR (a d) + IZR (b d)) / 2) by (field; lra).
  set (q := ((a d + b d) / 2)%Z). pose proof (Z.div_mod (a d + b d) 2 ltac:(lia)) as E.
  pose proof (Z.mod_pos_bound (a d + b d) 2 ltac:(lia)) as B. fold q in E.
  rewrite <- plus_IZR. set (x0 := IZR (a d + b d) / 2). destruct (base_Int_part x0) as [B1 B2].
  assert (G1 : IZR q <= x0) by (unfold x0; assert (IZR (2 * q) <= IZR (a d + b d)) by (apply IZR_le; lia); rewrite mult_IZR in *; lra).
  assert (G2 : x0 < IZR (q + 1)).
  { unfold x0. assert (IZR (a d + b d) < IZR (2 * (q + 1))) by (apply IZR_lt; lia). rewrite mult_IZR in *. lra. }
  assert (L1 : IZR q < IZR (Int_part x0 + 1)) by (rewrite plus_IZR; lra).
  assert (L2 : IZR (Int_part x0) < IZR (q + 1)) by lra. apply lt_IZR in L1, L2. lia.
Qed.
Definition qlo (a b : nat -> Z) (k d : nat) : Z := if Nat.testbit k d then ((a d + b d) / 2)%Z else a d.
Definition qhi (a b : nat -> Z) (k d : nat) : Z := if Nat.testbit k d then b d else ((a d + b d) / 2)%Z.
Lemma quadrant_al : forall x a b k, al x a b -> al (quadrant w x k) (qlo a b k) (qhi a b k).
Proof.
  intros x a b k Hx d Hd. unfold quadrant, qlo, qhi. cbn [b_lo b_hi]. destruct (Hx d Hd) as [E1 E2].
  rewrite (mid_al x a b d Hx Hd). destruct (Nat.testbit k d); easy.
Qed.

Inductive wf : (nat -> Z) -> (nat -> Z) -> node -> Prop :=
| wf_leaf : forall a b x, cellb x a -> (forall d, (d < D)%nat -> b d = a d + 1)%Z -> wf a b (Node x true [])
| wf_few : forall a b x ch, al x a b ->
    (forall c, In c ch -> exists i y, c = Node y true [] /\ cellb y i /\ within a b i /\
                          exists d, (d < D)%nat /\ (a d < i d \/ i d + 1 < b d)%Z) ->
    (List.length ch <= c_children D)%nat -> wf a b (Node x false ch)
| wf_split : forall a b x ch, al x a b -> (exists d, (d < D)%nat /\ (a d + 1 < b d)%Z) -> (forall d, (d < D)%nat -> (a d < b d)%Z) ->
    List.length ch = c_children D -> (forall k c, nth_error ch k = Some c -> wf (qlo a b k) (qhi a b k) c) ->
    wf a b (Node x false ch).

(** The cells in the tree. *)
Fixpoint leaves (n : node) : list box := match n with Node x leaf ch => if leaf then [x] else flat_map leaves ch end.
Definition has (n : node) (i : nat -> Z) : Prop := exists y, In y (leaves n) /\ cellb y i.
Lemma has_leaf : forall x ch i, has (Node x true ch) i <-> cellb x i.
Proof. intros. unfold has. cbn [leaves]. split; [intros (y & [<-|[]] & H); exact H|intros H; exists x; split; [now left|exact H]]. Qed.
Lemma has_inner : forall x ch i, has (Node x false ch) i <-> exists c, In c ch /\ has c i.
Proof.
  intros. unfold has. cbn [leaves]. split.
  - intros (y & Hy & Hc). apply in_flat_map in Hy as (c & H1 & H2). exists c. split; [exact H1|]. now exists y.
  - intros (c & H1 & y & H2 & H3). exists y. split; [apply in_flat_map; now exists c|exact H3].
Qed.
Lemma cellb_unique : forall x i j, cellb x i -> cellb x j -> forall d, (d < D)%nat -> i d = j d.
Proof. intros x i j Hi Hj d Hd. destruct (Hi d Hd) as [E1 _]. destruct (Hj d Hd) as [E2 _]. rewrite E1 in E2. now apply scale_eq in E2. Qed.
Lemma cellb_ext : forall x i j, cellb x i -> (forall d, (d < D)%nat -> i d = j d) -> cellb x j.
Proof. intros x i j Hi E d Hd. destruct (Hi d Hd) as [E1 E2]. cbv beta in *. now rewrite <- (E d Hd). Qed.

Definition size (a b : nat -> Z) : nat := list_sum (map (fun d => Z.to_nat (b d - a d)) (seq 0 D)).
Lemma list_sum_cons : forall x l, list_sum (x :: l) = (x + list_sum l)%nat.
Proof. reflexivity. Qed.
Lemma list_sum_le : forall (f g : nat -> nat) l, (forall d, In d l -> (f d <= g d)%nat) -> (list_sum (map f l) <= list_sum (map g l))%nat.
Proof. induction l as [|d t IH]; intros H; cbn [map]; rewrite ?list_sum_cons; [cbn; lia|]. assert (f d <= g d)%nat by (apply H; now left). specialize (IH ltac:(intros; apply H; now right)). lia. Qed.
Lemma list_sum_lt : forall (f g : nat -> nat) l, (forall d, In d l -> (f d <= g d)%nat) -> (exists d, In d l /\ (f d < g d)%nat) ->
  (list_sum (map f l) < list_sum (map g l))%nat.
Proof.
  induction l as [|d t IH]; intros H (e & He & L); [destruct He|]. cbn [map]. rewrite !list_sum_cons.
  assert (f d <= g d)%nat by (apply H; now left). destruct He as [->|He].
  - pose proof (list_sum_le f g t ltac:(intros; apply H; now right)). lia.
  - specialize (IH ltac:(intros; apply H; now right) (ex_intro _ e (conj He L))). lia.
Qed.
Lemma mid_between : forall x y, (x < y)%Z -> (x <= (x + y) / 2 < y)%Z /\ ((x + 1 < y)%Z -> (x < (x + y) / 2)%Z).
Proof. intros x y H. pose proof (Z.div_mod (x + y) 2 ltac:(lia)). pose proof (Z.mod_pos_bound (x + y) 2 ltac:(lia)). lia. Qed.
Lemma quadrant_size : forall a b k, (forall d, (d < D)%nat -> (a d < b d)%Z) -> (exists d, (d < D)%nat /\ (a d + 1 < b d)%Z) ->
  (size (qlo a b k) (qhi a b k) < size a b)%nat.
Proof.
  intros a b k H (e & He & L). apply list_sum_lt.
  - intros d Hd. apply in_seq in Hd. pose proof (mid_between (a d) (b d) (H d ltac:(lia))). unfold qlo, qhi. destruct (Nat.testbit k d); lia.
  - exists e. split; [apply in_seq; lia|]. pose proof (mid_between (a e) (b e) (H e He)). unfold qlo, qhi. destruct (Nat.testbit k e); lia.
Qed.

Lemma first_child_some : forall b ch i, first_child D ch b = Some i -> exists c, nth_error ch i = Some c /\ node_has D c b = true.
Proof.
  induction ch as [|c t IH]; intros i H; [discriminate|]. cbn [first_child] in H. destruct (node_has D c b) eqn:E.
  - injection H as <-. now exists c.
  - destruct (first_child D t b) as [j|] eqn:F; [|discriminate]. injection H as <-. destruct (IH j eq_refl) as (c2 & H1 & H2). now exists c2.
Qed.
Lemma first_child_none : forall b ch, first_child D ch b = None -> forall c, In c ch -> node_has D c b = false.
Proof.
  induction ch as [|c t IH]; intros H e He; [destruct He|]. cbn [first_child] in H. destruct (node_has D c b) eqn:E; [discriminate|].
  destruct (first_child D t b) eqn:F; [discriminate|]. destruct He as [<-|He]; [exact E|]. now apply IH.
Qed.
Lemma wf_al : forall a b n, wf a b n -> al (n_box n) a b.
Proof.
  intros a b n H. destruct H as [a b x Hx E| |]; cbn [n_box]; try assumption.
  intros d Hd. destruct (Hx d Hd) as [E1 E2]. cbv beta in E2. now rewrite E.
Qed.
Lemma node_has_within : forall a b n y i, wf a b n -> cellb y i -> (node_has D n y = true <-> within a b i).
Proof.
  intros a b n y i Hn Hy. apply wf_al in Hn. unfold node_has. rewrite orb_true_iff, (cell_in _ a b y i Hn Hy), (eqb_al _ a b y i _ Hn Hy).
  split; [|now left]. intros [H|H]; [exact H|]. intros d Hd. specialize (H d Hd). cbv beta in H. lia.
Qed.

Lemma insert_outside : forall a b n y i f, wf a b n -> cellb y i -> ~ within a b i ->
  node_insert D w (S f) n (Node y true []) = Val (n, false).
Proof.
  intros a b n y i f Hn Hy N. cbn [node_insert n_box]. destruct (box_has_box D (n_box n) y) eqn:E; [|reflexivity].
  apply (cell_in _ a b y i (wf_al _ _ _ Hn) Hy) in E. contradiction.
Qed.

(** What inserting the cell [i] into [n] must give. *)
Definition inserted (a b : nat -> Z) (n : node) (i : nat -> Z) (r : res (node * bool)) : Prop :=
  exists n', r = Val (n', true) /\ wf a b n' /\ n_box n' = n_box n /\
  forall j, has n' j <-> has n j \/ (forall d, (d < D)%nat -> j d = i d).

Lemma one_step : forall f n y,
  node_insert D w (S f) n (Node y true []) =
      (let split (m : node) : res node :=
        if Nat.eqb (List.length (n_ch m)) (c_children D)
        then fold_left (fun r o => rbind r (fun m => rmap fst (node_insert D w f m o))) (n_ch m)
                       (Val (Node (n_box m) (n_leaf m) (quadrants D w (n_box m))))
        else Undef in
      if negb (box_has_box D (n_box n) y) then Val (n, false)
      else if box_eqb D (n_box n) y
      then Val (Node (n_box n) (n_leaf n || (Nat.eqb (List.length (n_ch n)) 0 && true)) (n_ch n), true)
      else match first_child D (n_ch n) y with
           | Some i =>
               match nth_error (n_ch n) i with
               | Some c =>
                   rbind (node_insert D w f c (Node y true [])) (fun cr =>
                     let (c', ok) := cr : node * bool in
                     if ok then Val (Node (n_box n) (n_leaf n) (upd (n_ch n) i c'), true)
                     else rbind (split c') (fun c2 => rmap (fun cr : node * bool =>
                            (Node (n_box n) (n_leaf n) (upd (n_ch n) i (fst cr)), snd cr)) (node_insert D w f c2 (Node y true []))))
               | None => Undef
               end
           | None =>
               if n_leaf n then Undef
               else if Nat.ltb (List.length (n_ch n)) (c_children D) then Val (Node (n_box n) (n_leaf n) (n_ch n ++ [Node y true []])%list, true)
               else rbind (split n) (fun n2 => node_insert D w f n2 (Node y true []))
           end).
Proof. reflexivity. Qed.

Lemma insert_equal : forall a b n y i f, wf a b n -> cellb y i -> (forall d, (d < D)%nat -> a d = i d /\ b d = i d + 1)%Z ->
  inserted a b n i (node_insert D w (S f) n (Node y true [])).
Proof.
  intros a b n y i f Hn Hy E. rewrite one_step. cbv zeta.
  assert (Hin : within a b i) by (intros d Hd; specialize (E d Hd); lia).
  rewrite (proj2 (cell_in _ a b y i (wf_al _ _ _ Hn) Hy) Hin). cbn [negb].
  rewrite (proj2 (eqb_al _ a b y i _ (wf_al _ _ _ Hn) Hy) E).
  destruct Hn as [a b x Hx Hb|a b x ch Hx Hch Hl|a b x ch Hx (e & He & L) Hlt Hl Hch]; cbn [n_leaf n_ch n_box orb].
  - eexists. split; [reflexivity|]. split; [now constructor|]. split; [reflexivity|]. intros j. rewrite !has_leaf. split; [now left|].
    intros [H|H]; [exact H|]. apply (cellb_ext x a); [exact Hx|]. intros d Hd. rewrite H by exact Hd. now apply E.
  - destruct ch as [|c t].
    + cbn [List.length Nat.eqb andb]. eexists. split; [reflexivity|].
      assert (Hc : cellb x a).
      { intros d Hd. destruct (Hx d Hd) as [E1 E2]. destruct (E d Hd) as [E3 E4]. split; [exact E1|]. rewrite E2. do 2 f_equal. lia. }
      split; [constructor; [exact Hc|intros d Hd; specialize (E d Hd); lia]|]. split; [reflexivity|].
      intros j. rewrite has_leaf, has_inner. split.
      * intros H. right. intros d Hd. rewrite (cellb_unique x j a H Hc d Hd). now apply E.
      * intros [(c & [] & _)|H]. apply (cellb_ext x a); [exact Hc|]. intros d Hd. rewrite H by exact Hd. now apply E.
    + exfalso. destruct (Hch c (or_introl eq_refl)) as (i2 & y2 & _ & _ & Hin2 & d & Hd & L). specialize (Hin2 d Hd). specialize (E d Hd). lia.
  - exfalso. specialize (E e He). lia.
Qed.

Lemma not_equal_ex : forall a b i, within a b i -> ~ (forall d, (d < D)%nat -> a d = i d /\ b d = i d + 1)%Z ->
  exists d, (d < D)%nat /\ (a d < i d \/ i d + 1 < b d)%Z.
Proof.
  intros a b i H N.
  assert (G : forall n, (n <= D)%nat -> (exists d, (d < D)%nat /\ (a d < i d \/ i d + 1 < b d)%Z) \/
                              (forall d, (d < n)%nat -> a d = i d /\ b d = i d + 1)%Z).
  { induction n as [|n IH]; intros Hn; [right; lia|]. destruct (IH ltac:(lia)) as [|IH2]; [now left|].
    destruct (Z.eq_dec (a n) (i n)) as [E1|E1]; [destruct (Z.eq_dec (b n) (i n + 1)) as [E2|E2]|].
    - right. intros d Hd. destruct (Nat.eq_dec d n) as [->|]; [tauto|]. apply IH2. lia.
    - left. exists n. specialize (H n ltac:(lia)). lia.
    - left. exists n. specialize (H n ltac:(lia)). lia. }
  destruct (G D ltac:(lia)) as [|G2]; [assumption|]. contradiction.
Qed.
Lemma quadrant_of : forall a b i, within a b i -> exists k, (k < c_children D)%nat /\ within (qlo a b k) (qhi a b k) i.
Proof.
  intros a b i H. destruct (bits_exist D (fun d => ((a d + b d) / 2 <=? i d)%Z)) as (k & Hk & Hb).
  exists k. split; [exact Hk|]. intros d Hd. specialize (Hb d Hd). specialize (H d Hd). unfold qlo, qhi. rewrite Hb.
  destruct (Z.leb_spec ((a d + b d) / 2) (i d)); lia.
Qed.

Lemma nth_upd_in : forall (l : list node) k c j e, (k < List.length l)%nat -> nth_error (upd l k c) j = Some e ->
  (j = k /\ e = c) \/ (j <> k /\ nth_error l j = Some e).
Proof.
  intros l k c j e Hk H. destruct (Nat.eq_dec j k) as [->|N].
  - rewrite nth_error_upd_eq in H by exact Hk. injection H as <-. now left.
  - rewrite nth_error_upd_neq in H by congruence. now right.
Qed.
Lemma in_upd : forall (l : list node) k c e, (k < List.length l)%nat ->
  (In e (upd l k c) <-> e = c \/ exists j, j <> k /\ nth_error l j = Some e).
Proof.
  intros l k c e Hk. split.
  - intros H. apply In_nth_error in H as (j & Hj). destruct (nth_upd_in l k c j e Hk Hj) as [[_ ->]|[N H]]; [now left|right; now exists j].
  - intros [->|(j & N & H)].
    + apply (nth_error_In _ k). now apply nth_error_upd_eq.
    + apply (nth_error_In _ j). rewrite nth_error_upd_neq by congruence. exact H.
Qed.
Lemma has_upd : forall x ch k c c' i, nth_error ch k = Some c ->
  (forall j, has c' j <-> has c j \/ (forall d, (d < D)%nat -> j d = i d)) ->
  forall j, has (Node x false (upd ch k c')) j <-> has (Node x false ch) j \/ (forall d, (d < D)%nat -> j d = i d).
Proof.
  intros x ch k c c' i Hk Hc j. rewrite !has_inner.
  assert (Lk : (k < List.length ch)%nat) by (apply nth_error_Some; congruence). split.
  - intros (e & He & Hj). apply in_upd in He; [|exact Lk]. destruct He as [->|(m & _ & Hm)].
    + apply Hc in Hj as [Hj|Hj]; [|now right]. left. exists c. split; [now apply (nth_error_In _ k)|exact Hj].
    + left. exists e. split; [now apply (nth_error_In _ m)|exact Hj].
  - intros [(e & He & Hj)|Hj].
    + apply In_nth_error in He as (m & Hm). destruct (Nat.eq_dec m k) as [->|N].
      * exists c'. split; [apply in_upd; [exact Lk|now left]|]. apply Hc. left. congruence.
      * exists e. split; [apply in_upd; [exact Lk|right; now exists m]|exact Hj].
    + exists c'. split; [apply in_upd; [exact Lk|now left]|]. apply Hc. now right.
Qed.

Section Step.
Variable m : nat.
Hypothesis IH : forall a b n y i f, (size a b < m)%nat -> wf a b n -> cellb y i -> within a b i -> (2 * size a b + 2 <= f)%nat ->
  inserted a b n i (node_insert D w f n (Node y true [])).
Definition is_split (a b : nat -> Z) (n : node) : Prop :=
  wf a b n /\ n_leaf n = false /\ (exists d, (d < D)%nat /\ (a d + 1 < b d)%Z) /\ (forall d, (d < D)%nat -> (a d < b d)%Z) /\
  List.length (n_ch n) = c_children D /\ (forall k c, nth_error (n_ch n) k = Some c -> wf (qlo a b k) (qhi a b k) c).
Lemma split_insert : forall a b n y i f, size a b = m -> is_split a b n -> cellb y i -> within a b i -> (2 * m + 1 <= f)%nat ->
  exists n', node_insert D w f n (Node y true []) = Val (n', true) /\ is_split a b n' /\ n_box n' = n_box n /\
  forall j, has n' j <-> has n j \/ (forall d, (d < D)%nat -> j d = i d).
Proof.
  intros a b n y i f Hm (Hn & Hleaf & Hex & Hlt & Hl & Hch) Hy Hin Hf. destruct f as [|f]; [lia|]. rewrite one_step. cbv zeta.
  rewrite (proj2 (cell_in _ a b y i (wf_al _ _ _ Hn) Hy) Hin). cbn [negb].
  destruct (box_eqb D (n_box n) y) eqn:E.
  { exfalso. pose proof (proj1 (eqb_al _ a b y i _ (wf_al _ _ _ Hn) Hy) E) as E'. destruct Hex as (e & He & L). specialize (E' e He). cbv beta in E'. lia. }
  destruct (first_child D (n_ch n) y) as [k|] eqn:F.
  - destruct (first_child_some y (n_ch n) k F) as (c & Hc & Hh). rewrite Hc.
    pose proof (Hch k c Hc) as Hwc. apply (node_has_within _ _ c y i Hwc Hy) in Hh.
    pose proof (quadrant_size a b k Hlt Hex) as Hs.
    destruct (IH (qlo a b k) (qhi a b k) c y i f ltac:(lia) Hwc Hy Hh ltac:(lia)) as (c' & Hr & Hwc' & Hbx & Hhas). rewrite Hr. cbn [rbind].
    assert (Lk : (k < List.length (n_ch n))%nat) by (apply nth_error_Some; congruence).
    assert (Hlu : List.length (upd (n_ch n) k c') = c_children D) by (now rewrite upd_length).
    assert (Hchu : forall j e, nth_error (upd (n_ch n) k c') j = Some e -> wf (qlo a b j) (qhi a b j) e).
    { intros j e Hj. destruct (nth_upd_in (n_ch n) k c' j e Lk Hj) as [[-> ->]|[N Hj']]; [exact Hwc'|now apply Hch]. }
    rewrite Hleaf. eexists. split; [reflexivity|]. split; [split; [|repeat split; assumption]|split; [reflexivity|]].
    + apply wf_split; try assumption. now apply wf_al.
    + destruct n as [bx lf ch]. cbn [n_leaf n_ch n_box] in *. subst lf. now apply (has_upd bx ch k c).
  - exfalso. destruct (quadrant_of a b i Hin) as (k & Hk & Hq). rewrite <- Hl in Hk.
    destruct (nth_error (n_ch n) k) as [c|] eqn:Hc; [|apply nth_error_None in Hc; lia].
    pose proof (first_child_none y (n_ch n) F c (nth_error_In _ _ Hc)) as Hno.
    apply (node_has_within _ _ c y i (Hch k c Hc) Hy) in Hq. congruence.
Qed.
Lemma split_fold : forall a b f cs n, size a b = m -> is_split a b n -> (2 * m + 1 <= f)%nat ->
  (forall c, In c cs -> exists i y, c = Node y true [] /\ cellb y i /\ within a b i) ->
  exists n', fold_left (fun r o => rbind r (fun n => rmap fst (node_insert D w f n o))) cs (Val n) = Val n' /\
  is_split a b n' /\ n_box n' = n_box n /\ forall j, has n' j <-> has n j \/ exists c, In c cs /\ has c j.
Proof.
  intros a b f. induction cs as [|c t IHc]; intros n Hm Hn Hf Hcs.
  - exists n. split; [reflexivity|]. split; [exact Hn|]. split; [reflexivity|]. intros j. split; [now left|]. intros [H|(c & [] & _)]; exact H.
  - destruct (Hcs c (or_introl eq_refl)) as (i & y & -> & Hy & Hin).
    destruct (split_insert a b n y i f Hm Hn Hy Hin Hf) as (n1 & Hr & Hn1 & Hb1 & Hh1).
    destruct (IHc n1 Hm Hn1 Hf) as (n2 & Hr2 & Hn2 & Hb2 & Hh2); [intros c Hc; apply Hcs; now right|].
    exists n2. cbn [fold_left rbind]. rewrite Hr. cbn [rmap fst]. split; [exact Hr2|]. split; [exact Hn2|]. split; [congruence|].
    intros j. rewrite Hh2, Hh1. split.
    + intros [[H|H]|(c & Hc & Hj)]; [now left| |right; exists c; split; [now right|exact Hj]].
      right. exists (Node y true []). split; [now left|]. apply has_leaf. apply (cellb_ext y i); [exact Hy|]. intros d Hd. symmetry. now apply H.
    + intros [H|(c & [<-|Hc] & Hj)]; [left; now left| |right; now exists c].
      left. right. apply has_leaf in Hj. exact (cellb_unique y j i Hj Hy).
Qed.
Lemma step : forall a b n y i f, size a b = m -> wf a b n -> cellb y i -> within a b i -> (2 * size a b + 2 <= f)%nat ->
  inserted a b n i (node_insert D w f n (Node y true [])).
Proof.
  intros a b n y i f Hm Hn Hy Hin Hf. rewrite Hm in Hf. destruct f as [|f]; [lia|].
  destruct (box_eqb D (n_box n) y) eqn:E.
  { pose proof (proj1 (eqb_al _ a b y i _ (wf_al _ _ _ Hn) Hy) E) as E'. now apply (insert_equal a b n y i f). }
  destruct Hn as [a b x Hx Hb|a b x ch Hx Hch Hl|a b x ch Hx Hex Hlt Hl Hch].
  - exfalso. assert (C : box_eqb D x y = true).
    { apply (eqb_al x a (fun d => a d + 1)%Z y i (fun d => i d + 1)%Z Hx Hy). intros d Hd. specialize (Hin d Hd). specialize (Hb d Hd). cbv beta. lia. }
    cbn [n_box] in E. congruence.
  - assert (Hwf : wf a b (Node x false ch)) by now apply wf_few.
    assert (Hne : exists d, (d < D)%nat /\ (a d < i d \/ i d + 1 < b d)%Z).
    { apply not_equal_ex; [exact Hin|]. intros C. pose proof (proj2 (eqb_al x a b y i _ Hx Hy) C). cbn [n_box] in E. congruence. }
    rewrite one_step. cbv zeta. rewrite (proj2 (cell_in _ a b y i (wf_al _ _ _ Hwf) Hy) Hin). cbn [negb]. rewrite E. cbn [n_box n_ch n_leaf].
    destruct (first_child D ch y) as [k|] eqn:F.
    + destruct (first_child_some y ch k F) as (c & Hc & Hh). rewrite Hc.
      destruct (Hch c (nth_error_In _ _ Hc)) as (i2 & y2 & -> & Hy2 & Hin2 & Hne2).
      assert (Hwc : wf i2 (fun d => i2 d + 1)%Z (Node y2 true [])) by now constructor.
      apply (node_has_within _ _ _ y i Hwc Hy) in Hh as Hhi.
      assert (Ei : forall d, (d < D)%nat -> (i2 d = i d /\ i2 d + 1 = i d + 1)%Z) by (intros d Hd; specialize (Hhi d Hd); cbv beta in Hhi; lia).
      destruct f as [|f]; [lia|].
      destruct (insert_equal _ _ _ y i f Hwc Hy Ei) as (c' & Hr & Hwc' & Hbx & Hhas). rewrite Hr. cbn [rbind].
      (* the child is unchanged *)
      assert (Ec : c' = Node y2 true []).
      { rewrite one_step in Hr. cbv zeta in Hr. cbn [n_box n_ch n_leaf orb] in Hr. 
        rewrite (proj2 (cell_in y2 i2 _ y i (wf_al _ _ _ Hwc) Hy) Hhi) in Hr. cbn [negb] in Hr.
        rewrite (proj2 (eqb_al y2 i2 _ y i _ (wf_al _ _ _ Hwc) Hy) Ei) in Hr. congruence. }
      subst c'. eexists. split; [reflexivity|]. split; [|split; [reflexivity|]].
      * apply wf_few; [exact Hx| |now rewrite upd_length]. intros e He.
        apply in_upd in He; [|apply nth_error_Some; congruence]. destruct He as [->|(j & _ & Hj)].
        { exists i2, y2. exact (conj eq_refl (conj Hy2 (conj Hin2 Hne2))). }
        { apply Hch. now apply (nth_error_In _ j). }
      * now apply (has_upd x ch k (Node y2 true [])).
    + destruct (Nat.ltb_spec (List.length ch) (c_children D)) as [L|L].
      * eexists. split; [reflexivity|]. split; [|split; [reflexivity|]].
        { apply wf_few; [exact Hx| |rewrite app_length; cbn; lia]. intros e He. apply in_app_or in He as [He|[<-|[]]]; [now apply Hch|].
          exists i, y. exact (conj eq_refl (conj Hy (conj Hin Hne))). }
        { intros j. rewrite !has_inner. split.
          - intros (e & He & Hj). apply in_app_or in He as [He|[<-|[]]]; [left; now exists e|right].
            apply has_leaf in Hj. exact (cellb_unique y j i Hj Hy).
          - intros [(e & He & Hj)|Hj]; [exists e; split; [apply in_or_app; now left|exact Hj]|].
            exists (Node y true []). split; [apply in_or_app; right; now left|]. apply has_leaf.
            apply (cellb_ext y i); [exact Hy|]. intros d Hd. symmetry. now apply Hj. }
      * assert (El : List.length ch = c_children D) by lia. rewrite (proj2 (Nat.eqb_eq _ _) El).
        assert (Hlt : forall d, (d < D)%nat -> (a d < b d)%Z) by (intros d Hd; specialize (Hin d Hd); lia).
        assert (Hex : exists d, (d < D)%nat /\ (a d + 1 < b d)%Z).
        { destruct Hne as (d & Hd & Hne). exists d. split; [exact Hd|]. specialize (Hin d Hd). lia. }
        assert (Hq : forall k c, nth_error (quadrants D w x) k = Some c -> wf (qlo a b k) (qhi a b k) c).
        { intros k c Hk. unfold quadrants in Hk. rewrite nth_error_map in Hk.
          destruct (nth_error (seq 0 (c_children D)) k) as [k2|] eqn:Ek; [|discriminate]. injection Hk as <-.
          assert (Lk : (k < c_children D)%nat) by (rewrite <- (seq_length (c_children D) 0); apply nth_error_Some; congruence).
          rewrite (nth_error_nth' _ 0%nat) in Ek by (now rewrite seq_length). injection Ek as <-. rewrite seq_nth by exact Lk.
          cbn [plus]. apply wf_few; [now apply quadrant_al|intros ? []|cbn; lia]. }
        assert (Hql : List.length (quadrants D w x) = c_children D) by (unfold quadrants; now rewrite map_length, seq_length).
        assert (Hs : is_split a b (Node x false (quadrants D w x))).
        { repeat split; try assumption. apply wf_split; assumption. }
        destruct (split_fold a b f ch _ Hm Hs ltac:(lia)) as (n1 & Hr1 & Hn1 & Hb1 & Hh1).
        { intros c Hc. destruct (Hch c Hc) as (i2 & y2 & E2 & Hy2 & Hin2 & _). now exists i2, y2. }
        rewrite Hr1. cbn [rbind].
        destruct (split_insert a b n1 y i f Hm Hn1 Hy Hin ltac:(lia)) as (n2 & Hr2 & (Hn2 & _) & Hb2 & Hh2).
        exists n2. split; [exact Hr2|]. split; [exact Hn2|]. split; [cbn [n_box] in *; congruence|].
        intros j. rewrite Hh2, Hh1, !has_inner. split.
        { intros [[(c & Hc & Hj)|H]|H]; [exfalso| |now right].
          - unfold quadrants in Hc. apply in_map_iff in Hc as (k & <- & _). apply has_inner in Hj as (? & [] & _).
          - now left. }
        { intros [H|H]; [left; now right|now right]. }
  - destruct (split_insert a b (Node x false ch) y i (S f) Hm) as (n2 & Hr2 & (Hn2 & _) & Hb2 & Hh2); try assumption; [|lia|].
    + repeat split; try assumption. now apply wf_split.
    + exists n2. repeat split; try assumption; now apply Hh2.
Qed.
End Step.

Lemma insert_inside : forall a b n y i f, wf a b n -> cellb y i -> within a b i -> (2 * size a b + 2 <= f)%nat ->
  inserted a b n i (node_insert D w f n (Node y true [])).
Proof.
  intros a b. remember (size a b) as m eqn:Em. revert a b Em. induction m as [m IH] using (well_founded_induction lt_wf).
  intros a b Em n y i f Hn Hy Hin Hf. apply (step m); try assumption; try lia.
  intros a2 b2 n2 y2 i2 f2 H2. eapply (IH (size a2 b2)); [exact H2|reflexivity].
Qed.

(** Queries *)
Hypothesis HD : (0 < D)%nat.
Lemma wf_leaves : forall a b n, wf a b n -> forall y, In y (leaves n) -> exists i, cellb y i /\ within a b i.
Proof.
  clear HD. intros a b n H. induction H as [a b x Hx Hb|a b x ch Hx Hch Hl|a b x ch Hx Hex Hlt Hl Hch IH]; intros y Hy; cbn [leaves] in Hy.
  - destruct Hy as [<-|[]]. exists a. split; [exact Hx|]. intros d Hd. specialize (Hb d Hd). lia.
  - apply in_flat_map in Hy as (c & Hc & Hy). destruct (Hch c Hc) as (i & z & -> & Hz & Hin & _). cbn in Hy. destruct Hy as [<-|[]].
    now exists i.
  - apply in_flat_map in Hy as (c & Hc & Hy). apply In_nth_error in Hc as (k & Hk). destruct (IH k c Hk y Hy) as (i & Hi & Hin).
    exists i. split; [exact Hi|]. intros d Hd. specialize (Hin d Hd). pose proof (mid_between (a d) (b d) (Hlt d Hd)).
    unfold qlo, qhi in Hin. destruct (Nat.testbit k d); lia.
Qed.
Lemma al_ok : forall x a b, al x a b -> (forall d, (d < D)%nat -> (a d <= b d)%Z) -> box_ok D x.
Proof. clear HD. intros x a b Hx H d Hd. destruct (Hx d Hd) as [-> ->]. apply scale_le, H, Hd. Qed.
Lemma meets_up : forall x a b y i s, al x a b -> cellb y i -> within a b i -> box_meets D y s = true -> box_meets D x s = true.
Proof.
  intros x a b y i s Hx Hy Hin H. apply box_meets_spec in H as (p & Hp & Hb); [|apply (al_ok y i _ Hy); intros; cbv beta; lia|exact HD].
  apply box_meets_spec; [apply (al_ok x a b Hx); intros d Hd; specialize (Hin d Hd); lia|exact HD|]. exists p. split; [|exact Hb].
  intros d Hd. specialize (Hp d Hd). specialize (Hin d Hd). destruct (Hx d Hd) as [-> ->]. destruct (Hy d Hd) as [E1 E2]. rewrite E1, E2 in Hp.
  cbv beta in Hp. assert (IZR (a d) * w <= IZR (i d) * w) by (apply scale_le; lia).
  assert (IZR (i d + 1) * w <= IZR (b d) * w) by (apply scale_le; lia). lra.
Qed.
Lemma meets_leaves : forall a b n s, wf a b n -> (node_meets D n s = true <-> exists y, In y (leaves n) /\ box_meets D y s = true).
Proof.
  intros a b n s H. assert (Hup : forall y, In y (leaves n) -> box_meets D y s = true -> box_meets D (n_box n) s = true).
  { intros y Hy Hm. destruct (wf_leaves a b n H y Hy) as (i & Hi & Hin). exact (meets_up _ a b y i s (wf_al _ _ _ H) Hi Hin Hm). }
  induction H as [a b x Hx Hb|a b x ch Hx Hch Hl|a b x ch Hx Hex Hlt Hl Hch IH]; cbn [node_meets leaves n_box] in *.
  - destruct (box_meets D x s) eqn:E; split; try easy.
    + intros _. exists x. split; [now left|exact E].
    + intros (y & [<-|[]] & Hy). congruence.
  - split.
    + intros H. destruct (box_meets D x s); [|discriminate]. apply existsb_exists in H as (c & Hc & Hm).
      destruct (Hch c Hc) as (i & z & -> & Hz & _). cbn [node_meets] in Hm. exists z. split.
      * apply in_flat_map. exists (Node z true []). split; [exact Hc|now left].
      * destruct (box_meets D z s); [reflexivity|discriminate].
    + intros (y & Hy & Hm). rewrite (Hup y Hy Hm). apply existsb_exists. apply in_flat_map in Hy as (c & Hc & Hy). exists c. split; [exact Hc|].
      destruct (Hch c Hc) as (i & z & -> & Hz & _). cbn in Hy. destruct Hy as [<-|[]]. cbn [node_meets]. now rewrite Hm.
  - split.
    + intros H. destruct (box_meets D x s); [|discriminate]. apply existsb_exists in H as (c & Hc & Hm).
      apply In_nth_error in Hc as (k & Hk). apply (IH k c Hk) in Hm as (y & Hy & Hm).
      * exists y. split; [|exact Hm]. apply in_flat_map. exists c. split; [now apply (nth_error_In _ k)|exact Hy].
      * intros y Hy Hm2. destruct (wf_leaves _ _ c (Hch k c Hk) y Hy) as (i & Hi & Hin).
        exact (meets_up _ _ _ y i s (wf_al _ _ _ (Hch k c Hk)) Hi Hin Hm2).
    + intros (y & Hy & Hm). rewrite (Hup y Hy Hm). apply existsb_exists. apply in_flat_map in Hy as (c & Hc & Hy). exists c. split; [exact Hc|].
      apply In_nth_error in Hc as (k & Hk). apply (IH k c Hk).
      * intros y2 Hy2 Hm2. destruct (wf_leaves _ _ c (Hch k c Hk) y2 Hy2) as (i & Hi & Hin).
        exact (meets_up _ _ _ y2 i s (wf_al _ _ _ (Hch k c Hk)) Hi Hin Hm2).
      * now exists y.
Qed.
End Tree.
