(** The trees of the k-way splitter meet what the load balanced triangulator relies on. *)
From Coq Require Import Classical Lra Psatz.
From Verif Require Import Outcome ListUtil WordsModel WordsProofs LPSetModel LPSetProofs LPSetHistory SimplexModel PointModel PointProofs GeoModel GeoSpec GeoProofs PartModel PartProofs
  KWayModel KWayProofs KWayRet TreeModel TreeSpec TreeProofs DelSpec PlaceSpec DelPlace SplitModel SplitProofs LbModel LbSpec LbProofs LbTrees.
Local Open Scope nat_scope.

(** The part of a point grows with its coordinate. *)
Lemma k_index_mono rf rp mn mx c c' p j j' : rounding rf -> rounding rp -> (1 <= Z.of_nat p <= 2 ^ 20)%Z -> rf mn = mn -> rf mx = mx -> (mn <= c)%R -> (c <= c')%R -> (c' <= mx)%R ->
  k_index rf rp mn mx c p = Val j -> k_index rf rp mn mx c' p = Val j' -> j <= j'.
Proof.
  intros (M & X & U & L) (M' & X' & U' & L') Hp Hn Hx H1 H2 H3. unfold k_index. rewrite Hn, Hx.
  assert (Hd0 : (0 <= rf (mx - mn))%R) by (rewrite <- (X 0%Z ltac:(lia)); apply M; lra). set (d := rf (mx - mn)%R) in *. unfold reqb. destruct (Req_EM_T d 0) as [E|E]; [discriminate|].
  assert (Hd : (0 < d)%R) by lra. pose proof (Rinv_0_lt_compat d Hd) as Hi.
  rewrite INR_IZR_INZ, (X (Z.of_nat p)) by lia. assert (P : (1 <= IZR (Z.of_nat p))%R) by (apply IZR_le; lia).
  set (w x := rf (rf (rp (rp (x - mn) / d)) * IZR (Z.of_nat p))%R). fold (w c) (w c').
  assert (Wm : (w c <= w c')%R). { unfold w. apply M. apply Rmult_le_compat_r; [lra|]. apply M, M'. apply Rmult_le_compat_r; [lra|]. apply M'. lra. }
  assert (Wr : forall x, (mn <= x <= mx)%R -> (0 <= w x <= IZR (4 * Z.of_nat p))%R).
  { intros x Hxr. assert (A0 : (0 <= rp (x - mn) / d)%R). { apply Rmult_le_pos; [rewrite <- (X' 0%Z ltac:(lia)); apply M'; lra|lra]. }
    assert (A1 : (rp (x - mn) / d <= 4)%R). { apply (Rmult_le_reg_r d); [exact Hd|]. unfold Rdiv. rewrite Rmult_assoc, Rinv_l, Rmult_1_r by lra. assert (rp (x - mn) <= 2 * (x - mn))%R by (apply U'; lra). assert ((mx - mn <= 2 * d)%R) by exact (L _ Hd). lra. }
    unfold w. set (q := (rp (x - mn) / d)%R) in *. clearbody q.
    assert (B : (0 <= rf (rp q) <= 4)%R). { pose proof (M _ _ (M' _ _ A0)) as B0. pose proof (M _ _ (M' _ _ A1)) as B1. rewrite (X' 0%Z), (X 0%Z) in B0 by lia. rewrite (X' 4%Z), (X 4%Z) in B1 by lia. lra. }
    set (pos := rf (rp q)) in *. clearbody pos. assert (C0 : (0 <= pos * IZR (Z.of_nat p))%R) by nra. assert (C1 : (pos * IZR (Z.of_nat p) <= IZR (4 * Z.of_nat p))%R) by (rewrite mult_IZR; nra).
    apply M in C0, C1. rewrite (X 0%Z) in C0 by lia. rewrite (X (4 * Z.of_nat p)%Z) in C1 by lia. lra. }
  assert (Zr : forall x, (mn <= x <= mx)%R -> (0 <= Int_part (w x) < 4 * Z.of_nat p + 1)%Z) by (intros x Hxr; apply Int_part_range; rewrite plus_IZR; specialize (Wr x Hxr); lra).
  pose proof (Zr c ltac:(lra)) as Z1. pose proof (Zr c' ltac:(lra)) as Z2.
  assert (Zm : (Int_part (w c) <= Int_part (w c'))%Z). { destruct (base_Int_part (w c)) as [I1 _]. destruct (base_Int_part (w c')) as [_ I2]. assert (I : (IZR (Int_part (w c)) < IZR (Int_part (w c') + 1))%R) by (rewrite plus_IZR; lra). apply lt_IZR in I. lia. }
  set (z := Int_part (w c)) in *. set (z' := Int_part (w c')) in *. clearbody z z'. clear w Wm Wr Zr.
  destruct (Z.leb_spec 0 z) as [_|]; [|lia]. destruct (Z.ltb_spec z (2 ^ 64)) as [_|]; [|lia]. destruct (Z.leb_spec 0 z') as [_|]; [|lia]. destruct (Z.ltb_spec z' (2 ^ 64)) as [_|]; [|lia]. cbn [andb].
  intros H H'. injection H as <-. injection H' as <-. rewrite !to_int_small by lia. lia.
Qed.

(** The first dimension is split if any is. *)
Lemma splits_first D p ss : 0 < D -> (2 <= p)%N -> gen_splits D p = Val ss -> exists p0 rest, ss = p0 :: rest /\ 2 <= p0.
Proof.
  intros HD Hp H. unfold gen_splits in H. destruct (N.eqb_spec p 0) as [|_]; [lia|]. injection H as <-.
  assert (E : N.to_nat (N.log2 p) <> 0) by (assert (1 <= N.log2 p)%N by (change 1%N with (N.log2 2); now apply N.log2_le_mono); lia). destruct (N.to_nat (N.log2 p)) as [|k]; [congruence|]. clear E Hp.
  cbn [seq fold_left]. rewrite Nat.mod_0_l by lia. destruct D as [|D]; [lia|]. cbn [repeat nth upd].
  set (f := fun r i => upd r (i mod Datatypes.S D) (2 * nth (i mod Datatypes.S D) r 0)).
  assert (G : forall l a rest, 2 <= a -> exists p0 rest', fold_left f l (a :: rest) = p0 :: rest' /\ 2 <= p0).
  { induction l as [|i l IH]; intros a rest Ha; cbn [fold_left]; [eauto|]. unfold f at 2. destruct (i mod Datatypes.S D) as [|m]; cbn [upd nth]; apply IH; lia. }
  apply G. lia.
Qed.

Lemma f2_ord {A B} (Q : A -> B -> Prop) (T : A -> A -> Prop) (U : B -> B -> Prop) l m : Forall2 Q l m -> (forall a a' b b', Q a b -> Q a' b' -> T a a' -> U b b') -> ForallOrdPairs T l -> ForallOrdPairs U m.
Proof.
  intros F H. induction F as [|a b l m Hab F IH]; intros HT; [constructor|]. inversion HT as [|? ? H1 H2]; subst. constructor; [|auto]. clear - F H Hab H1. induction F as [|a' b' l m H' F IH]; [constructor|]. inversion H1; subst. constructor; eauto.
Qed.
Lemma ord_at {A} (T : A -> A -> Prop) l : ForallOrdPairs T l -> forall i j a b, i < j -> nth_error l i = Some a -> nth_error l j = Some b -> T a b.
Proof.
  induction 1 as [|x l H1 H2 IH]; intros i j a b Hij Ha Hb; [destruct i; discriminate|]. destruct j as [|j]; [lia|]. cbn in Hb. destruct i as [|i]; cbn in Ha.
  - injection Ha as <-. rewrite Forall_forall in H1. apply H1. eapply nth_error_In, Hb.
  - apply (IH i j); auto. lia.
Qed.
Lemma ord_app {A} (T : A -> A -> Prop) l m : ForallOrdPairs T l -> ForallOrdPairs T m -> (forall a b, In a l -> In b m -> T a b) -> ForallOrdPairs T (l ++ m).
Proof.
  induction 1 as [|x l H1 H2 IH]; intros Hm H; [exact Hm|]. cbn [app]. constructor.
  - apply Forall_forall. intros y Hy. apply in_app_iff in Hy as [Hy|Hy]; [rewrite Forall_forall in H1; now apply H1|apply H; [now left|exact Hy]].
  - apply IH; [exact Hm|]. intros a b Ha Hb. apply H; [now right|exact Hb].
Qed.

Lemma k_all_in f : forall ss ls l, k_all f ss = Val ls -> In l ls -> exists j s ls', nth_error ss j = Some s /\ f s = Val ls' /\ In l ls'.
Proof.
  induction ss as [|s ss IH]; intros ls l H Hl; cbn [k_all] in H; [injection H as <-; destruct Hl|]. destruct (f s) as [l1| |] eqn:E1; try discriminate. cbn [rbind] in H. destruct (k_all f ss) as [l2| |] eqn:E2; try discriminate. injection H as <-.
  apply in_app_iff in Hl as [Hl|Hl]; [exists 0, s, l1; auto|]. destruct (IH l2 l eq_refl Hl) as (j & s' & ls' & A & B). exists (Datatypes.S j), s', ls'. split; [exact A|exact B].
Qed.
Lemma k_all_each f : forall ss ls j s, k_all f ss = Val ls -> nth_error ss j = Some s -> exists ls', f s = Val ls' /\ incl ls' ls.
Proof.
  induction ss as [|s0 ss IH]; intros ls j s H Hj; [destruct j; discriminate|]. cbn [k_all] in H. destruct (f s0) as [l1| |] eqn:E1; try discriminate. cbn [rbind] in H. destruct (k_all f ss) as [l2| |] eqn:E2; try discriminate. injection H as <-.
  destruct j as [|j]; cbn in Hj.
  - injection Hj as <-. exists l1. split; [exact E1|]. intros x Hx. apply in_app_iff. now left.
  - destruct (IH l2 j s eq_refl Hj) as (ls' & A & B). exists ls'. split; [exact A|]. intros x Hx. apply in_app_iff. right. now apply B.
Qed.
Lemma k_all_ord f (T : kleaf -> kleaf -> Prop) : forall ss ls, k_all f ss = Val ls -> (forall s l, In s ss -> f s = Val l -> ForallOrdPairs T l) ->
  (forall i j a b la lb x y, i < j -> nth_error ss i = Some a -> nth_error ss j = Some b -> f a = Val la -> f b = Val lb -> In x la -> In y lb -> T x y) -> ForallOrdPairs T ls.
Proof.
  induction ss as [|s ss IH]; intros ls H H1 H2; cbn [k_all] in H; [injection H as <-; constructor|]. destruct (f s) as [l1| |] eqn:E1; try discriminate. cbn [rbind] in H. destruct (k_all f ss) as [l2| |] eqn:E2; try discriminate. injection H as <-.
  apply ord_app.
  - apply (H1 s); [now left|exact E1].
  - apply IH; [reflexivity|intros; eapply H1; [right|]; eauto|]. intros i j a b la lb x y Hij Ha Hb. apply (H2 (Datatypes.S i) (Datatypes.S j) a b); auto. lia.
  - intros x y Hx Hy. destruct (k_all_in f ss l2 y E2 Hy) as (j & s' & ls' & A & B & C). apply (H2 0 (Datatypes.S j) s s' l1 ls'); auto. lia.
Qed.

Lemma times_in i ls : times i ls = 1 -> exists l, In l ls /\ In i (snd l).
Proof.
  intros H. destruct (classic (exists l, In l ls /\ In i (snd l))) as [Y|Y]; [exact Y|]. rewrite times_none in H; [discriminate|]. intros l Hl Hi. apply Y. eauto.
Qed.

Section K.
Variable D : nat.
Hypothesis HD : 0 < D /\ D <= 8.
Notation DN := (N.of_nat D).
Lemma kD30 : (DN <= 30)%N. Proof. lia. Qed.
Lemma inf_in v : In v (inf_ids D) <-> (p_inf DN <= v < 2 ^ 64)%N.
Proof. rewrite (inf_iff D kD30). unfold is_inf_id. rewrite p_inf_val by (pose proof kD30; lia). reflexivity. Qed.
Variables (pts : points vec) (tiny huge : R) (co : N -> vec) (P : list N).
Notation fin v := (p_finite DN v = true).
Variables rf rp : R -> R.
Hypothesis Hrf : rounding rf.
Hypothesis Hrp : rounding rp.
Hypothesis Hget : forall v, In v P -> fin v -> p_get DN pts v = Val (co v).
Hypothesis Hhuge : forall v k, In v P -> fin v -> k < D -> (co v k <= huge)%R.
Hypothesis Hflt : forall v k, In v P -> fin v -> k < D -> rf (co v k) = co v k.
Hypothesis Htiny : rf tiny = tiny \/ forall v k, In v P -> fin v -> k < D -> (tiny <= co v k)%R.
Notation krec := (k_rec rf rp D pts tiny huge).

(** Points of an earlier leaf are below those of a later one in some dimension. *)
Definition sep (l m : list N) : Prop := exists d, d < D /\ forall u v, In u l -> In v m -> fin u -> fin v -> (co u d < co v d)%R.

(** The bounds of the statistics are floats. *)
Lemma stats_float s st k v : k < D -> incl (k_ids s) P -> stats_seq D pts tiny huge true (k_ids s) = Val st -> In v (k_ids s) -> fin v -> rf (st_min st k) = st_min st k /\ rf (st_max st k) = st_max st k.
Proof using Hget Hhuge Hflt Htiny.
  intros Hk Hs Es Hv Hf. unfold stats_seq in Es. destruct (st_loop_val D pts co (k_ids s) (st_empty tiny huge)) as (st' & E & Q); [intros i Hi; apply Hget, Hs, Hi|]. rewrite E in Es. injection Es as <-. cbn [st_finish st_min st_max].
  destruct (Q k) as (Q1 & Q2 & Q3 & Q4 & Q5). cbn [st_empty st_min st_max] in *. destruct (Q1 v Hv Hf) as [V1 V2]. pose proof (Hhuge v k (Hs v Hv) Hf Hk) as V3. split.
  - destruct Q2 as [Q2|(i & A & B & ->)]; [|apply Hflt; auto]. replace (st_min st' k) with (co v k) by lra. apply Hflt; auto.
  - destruct Q3 as [Q3|(i & A & B & ->)]; [|apply Hflt; auto]. rewrite Q3 in *. destruct Htiny as [Ht|Ht]; [exact Ht|]. specialize (Ht v k (Hs v Hv) Hf Hk). replace tiny with (co v k) by lra. apply Hflt; auto.
Qed.

Lemma k_rec_sep : forall splits dim s ls, Forall (fun p => (1 <= Z.of_nat p <= 2 ^ 20)%Z) splits -> NoDup (k_ids s) -> incl (k_ids s) P -> krec splits dim s = Val ls -> ForallOrdPairs (fun l m => sep (snd l) (snd m)) ls.
Proof using HD Hrf Hrp Hget Hhuge Hflt Htiny.
  induction splits as [|p rest IH]; intros dim s ls Hp HN Hs H; cbn [k_rec] in H; destruct (stats_seq D pts tiny huge true (k_ids s)) as [st| |] eqn:Es; try discriminate; cbn [rbind] in H.
  - destruct (k_cap s =? 0)%N; [discriminate|]. injection H as <-. constructor; constructor.
  - inversion Hp as [|? ? Hp1 Hp2]; subst. set (k := dim mod D) in *. assert (Hk : k < D) by (apply Nat.mod_upper_bound; lia).
    set (index := fun c : vec => k_index rf rp (st_min st k) (st_max st k) (c k) p) in *. set (ss := repeat _ p) in *.
    destruct (k_split D pts index (k_ids s) ss) as [ss'| |] eqn:Ek; try discriminate. cbn [rbind] in H. destruct (k_split_ok D pts index _ _ _ Ek) as (L & _ & Q).
    assert (Q' : forall j s', nth_error ss' j = Some s' -> NoDup (k_ids s') /\ forall x, In x (k_ids s') <-> In x (k_ids s) /\ fin x /\ goes D pts index x j).
    { intros j s' Hj. assert (Lj := nth_error_lt _ _ _ Hj). destruct (nth_error_ex ss j) as [s0 H0]; [lia|]. destruct (Q j s0 H0) as (s1 & H1 & _ & H3 & H4). assert (s1 = s') by congruence. subst s1.
      assert (E0 : k_ids s0 = []) by (apply nth_error_In in H0; apply repeat_spec in H0; now subst s0). rewrite E0 in *. split; [apply H3; constructor|]. intros x. rewrite H4. cbn [In]. tauto. }
    apply (k_all_ord _ _ ss' ls H).
    + intros s' l Hs' E. apply In_nth_error in Hs' as [j Hj]. destruct (Q' j s' Hj) as [N' M']. apply (IH (Datatypes.S dim) s' l Hp2 N'); [|exact E]. intros x Hx. apply M' in Hx. now apply Hs.
    + intros i j a b la lb x y Hij Ha Hb Ea Eb Hx Hy. exists k. split; [exact Hk|]. intros u v Hu Hv Hfu Hfv.
      destruct (Q' i a Ha) as [Na Ma]. destruct (Q' j b Hb) as [Nb Mb].
      assert (Ku : In u (k_ids a)). { destruct (k_rec_ok D kD30 pts tiny huge rf rp rest (Datatypes.S dim) a la Na Ea) as (_ & _ & A3 & _). destruct (A3 x u Hx Hu) as [A|A]; [exact A|]. apply (inf_not_finite D kD30) in A. congruence. }
      assert (Kv : In v (k_ids b)). { destruct (k_rec_ok D kD30 pts tiny huge rf rp rest (Datatypes.S dim) b lb Nb Eb) as (_ & _ & A3 & _). destruct (A3 y v Hy Hv) as [A|A]; [exact A|]. apply (inf_not_finite D kD30) in A. congruence. }
      apply Ma in Ku as (Ku & _ & cu & Gu & Iu). apply Mb in Kv as (Kv & _ & cv & Gv & Iv). rewrite (Hget u (Hs u Ku) Hfu) in Gu. injection Gu as <-. rewrite (Hget v (Hs v Kv) Hfv) in Gv. injection Gv as <-.
      destruct (Rlt_le_dec (co u k) (co v k)) as [Hlt|Hle]; [exact Hlt|exfalso].
      pose proof (stats_cover D pts tiny huge (k_ids s) st Es k u (co u) Ku Hfu (Hget u (Hs u Ku) Hfu)) as Cu. pose proof (stats_cover D pts tiny huge (k_ids s) st Es k v (co v) Kv Hfv (Hget v (Hs v Kv) Hfv)) as Cv.
      destruct (stats_float s st k u Hk Hs Es Ku Hfu) as [F1 F2].
      pose proof (k_index_mono rf rp (st_min st k) (st_max st k) (co v k) (co u k) p j i Hrf Hrp Hp1 F1 F2 ltac:(lra) Hle ltac:(lra) Iv Iu). lia.
Qed.

(** A group without ids cannot be split. *)
Lemma k_rec_nonempty : forall splits dim s ls, splits <> [] -> Forall (fun p => 1 <= p) splits -> k_ids s = [] -> krec splits dim s <> Val ls.
Proof using.
  clear HD Hrf Hrp Hget Hhuge Hflt Htiny co P.
  induction splits as [|p rest IH]; intros dim s ls Hne Hp Hi H; [congruence|]. inversion Hp as [|? ? Hp1 Hp2]; subst. cbn [k_rec] in H. rewrite Hi in H.
  destruct (stats_seq D pts tiny huge true []) as [st| |]; try discriminate. cbn [rbind k_split length] in H. rewrite N.div_0_l in H by lia.
  destruct (k_all_each _ _ _ 0 (mkk 0 []) H) as (ls' & E & _); [destruct p as [|p]; [lia|reflexivity]|].
  destruct rest as [|p' rest].
  - cbn [k_rec k_ids k_cap] in E. destruct (stats_seq D pts tiny huge true []); discriminate.
  - eapply (IH _ (mkk 0 [])); [discriminate|exact Hp2|reflexivity|exact E].
Qed.
(** Two leaves have points if the first dimension is split and there are others. *)
Lemma k_rec_two p rest dim s ls : 2 <= p -> rest <> [] -> Forall (fun p => 1 <= p) rest -> NoDup (k_ids s) -> krec (p :: rest) dim s = Val ls ->
  exists i j l m u v, i <> j /\ nth_error ls i = Some l /\ nth_error ls j = Some m /\ In u (snd l) /\ fin u /\ In v (snd m) /\ fin v.
Proof using HD.
  clear Hrf Hrp Hget Hhuge Hflt Htiny co P. intros Hp Hr Hf HN H. cbn [k_rec] in H. destruct (stats_seq D pts tiny huge true (k_ids s)) as [st| |] eqn:Es; try discriminate; cbn [rbind] in H.
  set (index := fun c : vec => _) in *. set (ss := repeat _ p) in *.
  destruct (k_split D pts index (k_ids s) ss) as [ss'| |] eqn:Ek; try discriminate. cbn [rbind] in H. destruct (k_split_ok D pts index _ _ _ Ek) as (L & _ & Q). assert (Lp : length ss = p) by apply repeat_length.
  assert (Q' : forall j s', nth_error ss' j = Some s' -> NoDup (k_ids s') /\ forall x, In x (k_ids s') <-> In x (k_ids s) /\ fin x /\ goes D pts index x j).
  { intros j s' Hj. assert (Lj := nth_error_lt _ _ _ Hj). destruct (nth_error_ex ss j) as [s0 H0]; [lia|]. destruct (Q j s0 H0) as (s1 & H1 & _ & H3 & H4). assert (s1 = s') by congruence. subst s1.
    assert (E0 : k_ids s0 = []) by (apply nth_error_In in H0; apply repeat_spec in H0; now subst s0). rewrite E0 in *. split; [apply H3; constructor|]. intros x. rewrite H4. cbn [In]. tauto. }
  assert (G : forall j, j < 2 -> exists u i l, fin u /\ goes D pts index u j /\ nth_error ls i = Some l /\ In u (snd l)).
  { intros j Hj. destruct (nth_error_ex ss' j) as [s' Hs']; [lia|]. destruct (k_all_each _ _ _ j s' H Hs') as (ls' & E & I). destruct (Q' j s' Hs') as [N' M'].
    destruct (k_ids s') as [|u r0] eqn:Eu; [destruct (k_rec_nonempty rest (Datatypes.S dim) s' ls' Hr Hf Eu E)|]. exists u. assert (Ku : In u (k_ids s')) by (rewrite Eu; now left). rewrite <- Eu in N'.
    destruct (M' u) as [M1 _]. destruct (M1 ltac:(now left)) as (_ & Fu & Gu). destruct (k_rec_ok D kD30 pts tiny huge rf rp rest (Datatypes.S dim) s' ls' N' E) as (_ & A2 & _). specialize (A2 u Fu Ku).
    destruct (times_in u ls' A2) as (l & Z1 & Z2). apply I in Z1. apply In_nth_error in Z1 as [i Hi]. exists i, l. auto. }
  destruct (G 0 ltac:(lia)) as (u & i & l & Fu & Gu & Hi & Hu). destruct (G 1 ltac:(lia)) as (v & j & m & Fv & Gv & Hj & Hv). exists i, j, l, m, u, v. split; [|auto 8]. intros <-. assert (m = l) by congruence. subst m.
  destruct (k_all_in _ _ _ l H (nth_error_In _ _ Hi)) as (j & s' & ls' & A & B & C). destruct (Q' j s' A) as [N' M']. destruct (k_rec_ok D kD30 pts tiny huge rf rp rest (Datatypes.S dim) s' ls' N' B) as (_ & _ & A3 & _).
  assert (X : forall w, In w (snd l) -> fin w -> goes D pts index w j). { intros w Hw Fw. destruct (A3 l w C Hw) as [Y|Y]; [now apply M' in Y|]. apply (inf_not_finite D kD30) in Y. congruence. }
  pose proof (goes_fun D pts index u _ _ Gu (X u Hu Fu)). pose proof (goes_fun D pts index v _ _ Gv (X v Hv Fv)). lia.
Qed.

(** Separated leaves are parted. *)
Lemma below_max (L : list N) d x : (forall u, In u L -> (co u d < x)%R) -> exists m, (m < x)%R /\ forall u, In u L -> (co u d <= m)%R.
Proof using.
  induction L as [|a L IH]; intros H; [exists (x - 1)%R; split; [lra|intros u Hu; destruct Hu]|]. destruct IH as (m & A & B); [intros; apply H; now right|]. exists (Rmax m (co a d)). split.
  - apply Rmax_lub_lt; [exact A|apply H; now left].
  - intros u [<-|Hu]; [apply Rmax_r|]. eapply Rle_trans; [now apply B|apply Rmax_l].
Qed.
Lemma above_min (L : list N) d x : (forall u, In u L -> (x < co u d)%R) -> exists m, (x < m)%R /\ forall u, In u L -> (m <= co u d)%R.
Proof using.
  induction L as [|a L IH]; intros H; [exists (x + 1)%R; split; [lra|intros u Hu; destruct Hu]|]. destruct IH as (m & A & B); [intros; apply H; now right|]. exists (Rmin m (co a d)). split.
  - apply Rmin_glb_lt; [exact A|apply H; now left].
  - intros u [<-|Hu]; [apply Rmin_r|]. eapply Rle_trans; [apply Rmin_l|now apply B].
Qed.

Variable r : vec.
Hypothesis Hp : placed DN co r P.
Hypothesis Hnd : NoDup P.
Hypothesis Hfin : exists u, In u P /\ fin u.
Hypothesis HD2 : 2 <= D.
Variables (p : N) (s : kset) (ls : list kleaf) (b : box) (t : tree box).
Hypothesis Hs : NoDup (k_ids s) /\ forall v, In v (k_ids s) <-> In v P.
Hypothesis Hpar : (p <= 2 ^ 20)%N.
Hypothesis Hk : k_way rf rp D pts tiny huge p s = Val ls.
Hypothesis Ht : kway_tree b ls t.

Lemma way_facts : exists ss, gen_splits D p = Val ss /\ krec ss 0 s = Val ls /\ p <> 0%N /\ length ss = D /\ fold_right Nat.mul 1 ss = Nat.pow 2 (N.to_nat (N.log2 p)) /\ Forall (fun q => 1 <= q) ss /\ Forall (fun q => (1 <= Z.of_nat q <= 2 ^ 20)%Z) ss.
Proof using HD Hpar Hk.
  clear Hs Ht Hp Hfin Hnd HD2 Hget Hhuge Hflt Htiny r. clear co P. unfold k_way in Hk. destruct (N.eq_dec p 0) as [->|Hp0]; [discriminate|]. destruct (KWayProofs.splits_ok D p ltac:(lia) Hp0) as (ss & E & L & M & F). exists ss. rewrite E in Hk. cbn [rbind] in Hk.
  split; [exact E|]. split; [exact Hk|]. split; [exact Hp0|]. split; [exact L|]. split; [exact M|]. split; [eapply Forall_impl; [|exact F]; intros a [A _]; exact A|].
  assert (B : Nat.pow 2 (N.to_nat (N.log2 p)) <= N.to_nat p).
  { assert (X : (2 ^ N.log2 p <= p)%N) by (apply N.log2_spec; lia). assert (Y : N.of_nat (Nat.pow 2 (N.to_nat (N.log2 p))) = (2 ^ N.log2 p)%N). { clear. induction (N.log2 p) as [|k IH] using N.peano_ind; [reflexivity|]. rewrite N2Nat.inj_succ, N.pow_succ_r', <- IH. cbn [Nat.pow]. lia. } lia. }
  rewrite <- M in B. assert (Z : (Z.of_nat (fold_right Nat.mul 1%nat ss) <= 2 ^ 20)%Z). { change (2 ^ 20)%N with 1048576%N in Hpar. change (2 ^ 20)%Z with 1048576%Z. lia. } clear - F Z.
  induction F as [|k l [F1 _] F IH]; [constructor|]. cbn [fold_right] in Z. assert (Q : (1 <= fold_right Nat.mul 1 l)%nat). { clear - F. induction F as [|a l [A _] F IH]; [cbn; lia|]. cbn [fold_right]. nia. }
  constructor; [nia|]. apply IH. nia.
Qed.
Lemma kway_ok : tree_ok DN co r box (box_ck DN) t P.
Proof using HD Hrf Hrp Hget Hhuge Hflt Htiny Hp Hnd Hfin HD2 Hs Hpar Hk Ht.
  destruct way_facts as (ss & E & Hr & Hp0 & Ls & Mul & F1 & F2). destruct Hs as [Hn Hin].
  destruct (k_rec_ok D kD30 pts tiny huge rf rp ss 0 s ls Hn Hr) as (A1 & A2 & A3 & A4 & A5 & A6).
  assert (Hinc : incl (k_ids s) P) by (intros v Hv; now apply Hin).
  pose proof (k_rec_sep ss 0 s ls F2 Hn Hinc Hr) as Sp.
  destruct Ht as (ch & -> & Fch). assert (Lch : length ls = length ch) by exact (SplitProofs.forall2_len _ _ _ Fch).
  assert (Hmem : forall l v, In l ls -> In v (snd l) -> In v P). { intros l v Hl Hv. destruct (A3 l v Hl Hv) as [A|A]; [now apply Hin|]. apply (pl_inf _ _ _ _ Hp). now apply inf_in. }
  assert (Hat : forall v, In v P -> exists i l, nth_error ls i = Some l /\ In v (snd l)).
  { intros v Hv. assert (Hi : In v (k_ids s)) by now apply Hin. destruct (p_finite DN v) eqn:Fv.
    - specialize (A2 v Fv Hi). destruct (times_in v ls A2) as (l & Z1 & Z2). apply In_nth_error in Z1 as [i Hi']. exists i, l. auto.
    - assert (L0 : 0 < length ls) by (rewrite A1, Mul; pose proof (Nat.pow_nonzero 2 (N.to_nat (N.log2 p)) ltac:(lia)); lia). destruct (nth_error_ex ls 0 L0) as [l Hl]. exists 0, l. split; [exact Hl|]. apply A4; [eapply nth_error_In, Hl|].
      apply NNPP. intros Hno. rewrite (inf_iff D kD30) in Hno. apply (finite_iff D kD30) in Hno; [congruence|]. exact (pl_small _ _ _ _ Hp v Hv). }
  set (pt i := nth i (map snd ls) []).
  assert (Hpt : forall i l, nth_error ls i = Some l -> pt i = snd l) by (intros i l Hl; unfold pt; apply nth_error_nth, (map_nth_error snd _ _ Hl)).
  assert (Hlt : forall i, i < length ch -> exists l, nth_error ls i = Some l) by (intros i Hi; apply nth_error_ex; lia).
  assert (Hsep : forall i j u v, i < j -> j < length ch -> In u (pt i) -> In v (pt j) -> fin u -> fin v -> exists d, d < D /\ forall u v, In u (pt i) -> In v (pt j) -> fin u -> fin v -> (co u d < co v d)%R).
  { intros i j _ _ Hij Hj _ _ _ _. destruct (Hlt i ltac:(lia)) as [l El]. destruct (Hlt j Hj) as [m Em]. rewrite (Hpt i l El), (Hpt j m Em). exact (ord_at _ ls Sp i j l m Hij El Em). }
  destruct (N.eq_dec p 1) as [->|Hp1].
  - change (N.to_nat (N.log2 1)) with 0 in Mul. cbn [Nat.pow] in Mul. rewrite Mul in A1. destruct ls as [|l [|? ?]]; try discriminate. inversion Fch as [|? c ? ? Hc Fn]; subst. inversion Fn; subst. destruct Hc as (s0 & -> & Hli).
    assert (Hsame : forall v, In v P <-> In v (snd l)) by (intros v; split; [intros Hv; destruct (Hat v Hv) as ([|[|i]] & l' & El & Hl'); cbn in El; try discriminate; injection El as <-; exact Hl'|apply Hmem; now left]).
    apply tk_one. destruct Hli as [L1 [L2 L3]]. split; [exact Hnd|]. split; [exact L2|]. intros v. rewrite (Hsame v). apply L3.
  - assert (L2 : 2 <= length ch).
    { assert (1 <= N.log2 p)%N by (change 1%N with (N.log2 2); apply N.log2_le_mono; lia). rewrite <- Lch, A1, Mul. change 2 with (Nat.pow 2 1) at 1. apply Nat.pow_le_mono_r; lia. }
    destruct (splits_first D p ss ltac:(lia) ltac:(lia) E) as (p0 & rest & -> & Hp2).
    destruct (k_rec_two p0 rest 0 s ls Hp2 ltac:(intros ->; cbn in Ls; lia) ltac:(now inversion F1) Hn Hr) as (i0 & j0 & l0 & m0 & u0 & v0 & Hij0 & Hi0 & Hj0 & Hu0 & Fu0 & Hv0 & Fv0).
    assert (I0 : i0 < length ch) by (rewrite <- Lch; apply nth_error_Some; congruence). assert (J0 : j0 < length ch) by (rewrite <- Lch; apply nth_error_Some; congruence).
    apply tk_node with (pt := pt).
    + exact L2.
    + exact Hnd.
    + intros i c Hc. assert (Hi : i < length ch) by (apply nth_error_Some; congruence). destruct (Hlt i Hi) as [l El]. destruct (f2_at _ _ _ Fch i l El) as (c' & Ec & s0 & -> & Hli). assert (c = Tleaf (Some (fst l)) s0) by congruence. subst c. rewrite (Hpt i l El). now constructor.
    + constructor.
      * intros v. split.
        -- intros Hv. destruct (Hat v Hv) as (i & l & Hi & Hl). exists i. split; [rewrite <- Lch; apply nth_error_Some; congruence|]. now rewrite (Hpt i l Hi).
        -- intros (i & Hi & Hv). destruct (Hlt i Hi) as [l El]. rewrite (Hpt i l El) in Hv. apply (Hmem l v); [eapply nth_error_In, El|exact Hv].
      * intros i j v Hi Hj Hvi Hvj Fv. destruct (Nat.lt_total i j) as [H|[H|H]]; [|exact H|]; exfalso.
        -- destruct (Hsep i j v v H Hj Hvi Hvj Fv Fv) as (d & _ & X). specialize (X v v Hvi Hvj Fv Fv). lra.
        -- destruct (Hsep j i v v H Hi Hvj Hvi Fv Fv) as (d & _ & X). specialize (X v v Hvj Hvi Fv Fv). lra.
      * intros i v Hi Hv. destruct (Hlt i Hi) as [l El]. rewrite (Hpt i l El). apply A4; [eapply nth_error_In, El|]. now apply inf_in.
      * exists i0, u0. split; [exact I0|]. rewrite (Hpt i0 l0 Hi0). auto.
      * intros i j v Hi Hj Hij Hv Fv. rewrite Nat2N.id. destruct (classic (exists u, In u (pt i) /\ fin u)) as [(u & Hu & Fu)|Hno].
        -- destruct (Nat.lt_total i j) as [H|[H|H]]; [|congruence|].
           ++ destruct (Hsep i j u v H Hj Hu Hv Fu Fv) as (d & Hd & X). destruct (below_max (filter (p_finite DN) (pt i)) d (co v d)) as (m & M1 & M2); [intros w Hw; apply filter_In in Hw; apply X; tauto|].
              exists (fun x => m - x d)%R. split; [now apply affine_ge|]. split; [lra|]. intros w Hw. specialize (M2 w Hw). lra.
           ++ destruct (Hsep j i v u H Hi Hv Hu Fv Fu) as (d & Hd & X). destruct (above_min (filter (p_finite DN) (pt i)) d (co v d)) as (m & M1 & M2); [intros w Hw; apply filter_In in Hw; apply X; tauto|].
              exists (fun x => x d - m)%R. split; [now apply affine_le|]. split; [lra|]. intros w Hw. specialize (M2 w Hw). lra.
        -- exists (fun x => (co v 0%nat - 1) - x 0%nat)%R. split; [apply affine_ge; lia|]. split; [lra|]. intros w Hw. apply filter_In in Hw. exfalso. apply Hno. eauto.
    + intros i c k v Hc Hck Hv Fv. assert (Hi : i < length ch) by (apply nth_error_Some; congruence). destruct (Hlt i Hi) as [l El]. destruct (f2_at _ _ _ Fch i l El) as (c' & Ec & s0 & -> & Hli). assert (c = Tleaf (Some (fst l)) s0) by congruence. subst c. cbn [t_ck] in Hck. injection Hck as <-.
      rewrite (Hpt i l El) in Hv. apply box_covers; rewrite Nat2N.id; [lia|]. pose proof (nth_error_In _ _ El) as Il. apply (A6 l v); auto. apply Hget; [|exact Fv]. now apply (Hmem l v).
    + left. exists i0, j0, u0, v0. rewrite (Hpt i0 l0 Hi0), (Hpt j0 m0 Hj0). auto 9.
Qed.
(** The size of the tree. *)
Lemma kway_size : length ls = Nat.pow 2 (N.to_nat (N.log2 p)) /\ exists l, Leaves t l /\ entries l <= length ls * length P /\ height t <= 1 /\ width t <= length ls.
Proof using HD Hp Hnd Hs Hpar Hk Ht.
  clear Hget Hhuge Hflt Htiny HD2 Hfin Hnd.
  destruct way_facts as (ss & E & Hr & Hp0 & Ls & Mul & F1 & F2). destruct Hs as [Hn Hin].
  destruct (k_rec_ok D kD30 pts tiny huge rf rp ss 0 s ls Hn Hr) as (A1 & A2 & A3 & A4 & A5 & A6). split; [now rewrite A1, Mul|].
  destruct Ht as (ch & -> & Fch).
  assert (Hmem : forall l v, In l ls -> In v (snd l) -> In v P). { intros l v Hl Hv. destruct (A3 l v Hl Hv) as [A|A]; [now apply Hin|]. apply (pl_inf _ _ _ _ Hp). now apply inf_in. }
  assert (X : forall l, In l ls -> NoDup (snd l) /\ incl (snd l) P) by (intros l Hl; split; [now apply A5|intros v; now apply Hmem]).
  assert (Y : exists q, Forall2 Leaves ch q /\ entries (concat q) <= length ls * length P /\ forall c, In c ch -> height c <= 0 /\ width c <= 0).
  { clear - Fch X. induction Fch as [|l c ls ch (s0 & -> & Hli) F IH]; [exists []; split; [constructor|]; split; [apply Nat.le_refl|intros c Hc; destruct Hc]|]. destruct IH as (q & Q1 & Q2 & Q3); [intros; apply X; now right|].
    exists ([(Some (fst l), s0)] :: q). split; [constructor; [constructor|exact Q1]|]. split; [|intros c [<-|Hc]; [split; apply Nat.le_refl|now apply Q3]]. cbn [concat length app]. change (entries (?a :: ?l)) with (set_size (snd a) + entries l). cbn [snd]. rewrite (lists_len s0 (snd l) Hli). destruct (X l ltac:(now left)) as [X1 X2].
    pose proof (NoDup_incl_length X1 X2). lia. }
  destruct Y as (q & Q1 & Q2 & Q3). exists (concat q). split; [now constructor|]. split; [exact Q2|]. split; [apply height_le; intros c Hc; now apply Q3|].
  assert (Lch : length ls = length ch) by exact (SplitProofs.forall2_len _ _ _ Fch). rewrite Lch. apply width_le; [apply Nat.le_refl|]. intros c Hc. destruct (Q3 c Hc). lia.
Qed.
End K.
