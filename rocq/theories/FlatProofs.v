(** Flattened trees keep the contract of LbSpec. *)
From Verif Require Import Outcome ListUtil LPSetModel SimplexModel PointModel GeoModel GeoSpec DelSpec PlaceSpec TreeModel TreeSpec TreeProofs SplitModel LbSpec FlatSpec.
Local Open Scope nat_scope.

(** Places in a concatenation. *)
Definition place (ns : list nat) (i : nat) : nat := list_sum (firstn i ns).
Lemma place_in {A} : forall (ls : list (list A)) i l m x, nth_error ls i = Some l -> nth_error l m = Some x -> nth_error (concat ls) (place (map (@length A) ls) i + m) = Some x.
Proof.
  induction ls as [|l0 ls IH]; intros [|i] l m x H Hm; try discriminate; cbn [nth_error] in H; cbn [concat].
  - injection H as ->. change (place (map (@length A) (l :: ls)) 0 + m) with m. rewrite nth_error_app1 by (apply nth_error_Some; congruence). exact Hm.
  - unfold place in *. cbn [map firstn]. change (list_sum (length l0 :: firstn i (map (@length A) ls))) with (length l0 + list_sum (firstn i (map (@length A) ls))). rewrite nth_error_app2 by lia. rewrite <- (IH i l m x H Hm). f_equal. lia.
Qed.
Lemma place_of {A} : forall (ls : list (list A)) n x, nth_error (concat ls) n = Some x -> exists i l m, nth_error ls i = Some l /\ nth_error l m = Some x /\ n = place (map (@length A) ls) i + m.
Proof.
  induction ls as [|l0 ls IH]; intros n x H; [destruct n; discriminate|]. cbn [concat] in H. destruct (Nat.lt_ge_cases n (length l0)) as [L|L].
  - rewrite nth_error_app1 in H by exact L. exists 0, l0, n. split; [reflexivity|]. split; [exact H|reflexivity].
  - rewrite nth_error_app2 in H by exact L. destruct (IH _ _ H) as (i & l & m & A1 & A2 & A3). exists (Datatypes.S i), l, m. split; [exact A1|]. split; [exact A2|]. unfold place in *. cbn [map firstn].
    change (list_sum (length l0 :: firstn i (map (@length A) ls))) with (length l0 + list_sum (firstn i (map (@length A) ls))). lia.
Qed.
Lemma place_lt : forall ns i j n, nth_error ns i = Some n -> i < j -> place ns i + n <= place ns j.
Proof.
  unfold place. induction ns as [|n0 ns IH]; intros [|i] [|j] n H L; try discriminate; try lia; cbn [firstn].
  - injection H as ->. change (list_sum (n :: firstn j ns)) with (n + list_sum (firstn j ns)). change (list_sum []) with 0. lia.
  - change (list_sum (n0 :: firstn i ns)) with (n0 + list_sum (firstn i ns)). change (list_sum (n0 :: firstn j ns)) with (n0 + list_sum (firstn j ns)). cbn [nth_error] in H. specialize (IH i j n H ltac:(lia)). lia.
Qed.
Lemma choose_list {A B} (R : nat -> A -> B -> Prop) d : forall l, (forall i a, nth_error l i = Some a -> exists b, R i a b) -> exists bs, length bs = length l /\ forall i a, nth_error l i = Some a -> R i a (nth i bs d).
Proof.
  intros l. revert R. induction l as [|a l IH]; intros R H; [exists []; split; [reflexivity|intros [|i] a; discriminate]|].
  destruct (H 0 a eq_refl) as [b Hb]. destruct (IH (fun i => R (Datatypes.S i))) as (bs & L & Q); [intros i x Hx; apply (H (Datatypes.S i) x Hx)|]. exists (b :: bs). split; [cbn; now rewrite L|]. intros [|i] x Hx; cbn [nth_error nth] in *; [now injection Hx as <-|now apply Q].
Qed.

Lemma concat_len {A} : forall ls : list (list A), list_sum (map (@length A) ls) = length (concat ls).
Proof. induction ls as [|l ls IH]; [reflexivity|]. cbn [map concat]. rewrite app_length, <- IH. reflexivity. Qed.

Section Flat.
Variable D : N.
Variable co : N -> vec.
Variable r : vec.
Variable C : Type.
Variable meets : C -> sphere -> simplex -> bool.
Notation Dn := (N.to_nat D).
Notation fin v := (p_finite D v = true).
Notation cover := (covers D co C meets).
Notation inf v := (p_inf D <= v < 2 ^ 64)%N.

(** The leaves of [t] and their points [pl]. *)
Record leafy (t : tree C) (S : list N) (pl : list (list N)) : Prop := mkleafy {
  lf_len : length pl = length (flat t);
  lf_at : forall m c, nth_error (flat t) m = Some c -> exists k ids, c = Tleaf (Some k) ids /\ lists ids (nth m pl []);
  lf_all : forall v, In v S <-> exists m, m < length pl /\ In v (nth m pl []);
  lf_inf : (forall v, inf v -> In v S) -> forall m v, m < length pl -> inf v -> In v (nth m pl []);
  lf_apart : forall i j v, i < length pl -> j < length pl -> i <> j -> In v (nth j pl []) -> fin v -> ~ In v (nth i pl []) /\ parted Dn co (filter (p_finite D) (nth i pl [])) (co v);
  lf_cover : (2 <= length (flat t) \/ exists kt, t_ck t = Some kt /\ forall v, In v S -> fin v -> cover kt (co v)) -> forall m c k v, nth_error (flat t) m = Some c -> t_ck c = Some k -> In v (nth m pl []) -> fin v -> cover k (co v);
  lf_meet : (exists k ids, flat t = [Tleaf (Some k) ids] /\ t_ck t = Some k) \/
    (2 <= length (flat t) /\ (exists v, In v S /\ fin v) /\ (two_filled D (length (flat t)) (fun m => nth m pl []) \/ past D co r C meets (flat t) (fun m => nth m pl []))) }.

Lemma leafy_leaf t k ids S : flat t = [Tleaf (Some k) ids] -> t_ck t = Some k -> lists ids S -> leafy t S [S].
Proof.
  intros E K HL. split.
  - now rewrite E.
  - rewrite E. intros [|[|m]] c H; try discriminate. injection H as <-. exists k, ids. auto.
  - intros v. split; [intros H; exists 0; split; [cbn; lia|exact H]|]. intros (m & Hm & H). cbn in Hm. assert (m = 0) by lia. subst m. exact H.
  - intros H m v Hm Hv. cbn in Hm. assert (m = 0) by lia. subst m. now apply H.
  - intros i j v Hi Hj. cbn in Hi, Hj. lia.
  - rewrite E. intros [Hc|(kt & Hk & Hc)]; [cbn in Hc; lia|]. intros [|[|m]] c k' v H H2; try discriminate. injection H as <-. cbn in H2. injection H2 as <-. rewrite K in Hk. injection Hk as <-. intros. now apply Hc.
  - left. exists k, ids. auto.
Qed.

Lemma leafy_node k ch pt S pls : 2 <= length ch -> partitioned D co (length ch) pt S ->
  (forall i c k' v, nth_error ch i = Some c -> t_ck c = Some k' -> In v (pt i) -> fin v -> cover k' (co v)) ->
  two_filled D (length ch) pt \/ past D co r C meets ch pt -> length pls = length ch ->
  (forall i c, nth_error ch i = Some c -> leafy c (pt i) (nth i pls []) /\ exists kc, t_ck c = Some kc) -> leafy (Tnode (Some k) ch) S (concat pls).
Proof.
  intros H2 HP HC HM HL HQ.
  assert (El : map (@length (list N)) pls = map (@length (tree C)) (map flat ch)).
  { apply nth_ext with (d := 0) (d' := 0); [rewrite !map_length; exact HL|]. intros n Hn. rewrite map_length in Hn. destruct (nth_error ch n) as [c|] eqn:E; [|apply nth_error_None in E; lia].
    destruct (HQ n c E) as [Q _]. change 0 with (@length (list N) []). rewrite map_nth. rewrite (lf_len _ _ _ Q). rewrite map_map. change (@length (list N) []) with ((fun x : tree C => length (flat x)) (Tnode None [])). rewrite map_nth. now rewrite (nth_error_nth ch n _ E). }
  set (F := map flat ch). set (pos i := place (map (@length (list N)) pls) i).
  assert (Ef : flat (Tnode (Some k) ch) = concat F) by apply flat_node.
  assert (Fat : forall i c m x, nth_error ch i = Some c -> nth_error (flat c) m = Some x -> nth_error (concat F) (pos i + m) = Some x).
  { intros i c m x Hc Hx. unfold pos. rewrite El. apply place_in with (l := flat c); [unfold F; now apply map_nth_error|exact Hx]. }
  assert (Fof : forall n x, nth_error (concat F) n = Some x -> exists i c m, nth_error ch i = Some c /\ nth_error (flat c) m = Some x /\ n = pos i + m).
  { intros n x H. destruct (place_of _ _ _ H) as (i & l & m & A1 & A2 & A3). unfold F in A1. rewrite nth_error_map in A1. destruct (nth_error ch i) as [c|] eqn:E; [|discriminate]. injection A1 as <-. exists i, c, m. split; [exact E|]. split; [exact A2|]. unfold pos. rewrite El. exact A3. }
  assert (Pat : forall i c m, nth_error ch i = Some c -> m < length (nth i pls []) -> nth (pos i + m) (concat pls) [] = nth m (nth i pls []) [] /\ pos i + m < length (concat pls)).
  { intros i c m Hc Hm. destruct (nth_error (nth i pls []) m) as [x|] eqn:E; [|apply nth_error_None in E; lia]. assert (Hi : nth_error pls i = Some (nth i pls [])) by (apply nth_error_nth'; rewrite HL; apply nth_error_Some; congruence).
    pose proof (place_in pls i _ m x Hi E) as X. fold (pos i) in X. split; [|apply nth_error_Some; congruence]. rewrite (nth_error_nth _ _ _ X). now rewrite (nth_error_nth _ _ _ E). }
  assert (Pof : forall n, n < length (concat pls) -> exists i c m, nth_error ch i = Some c /\ m < length (nth i pls []) /\ n = pos i + m).
  { intros n Hn. destruct (nth_error (concat pls) n) as [x|] eqn:E; [|apply nth_error_None in E; lia]. destruct (place_of _ _ _ E) as (i & l & m & A1 & A2 & A3). destruct (nth_error ch i) as [c|] eqn:Ec; [|apply nth_error_None in Ec; assert (i < length pls) by (apply nth_error_Some; congruence); lia].
    exists i, c, m. split; [exact Ec|]. rewrite (nth_error_nth _ _ [] A1). split; [apply nth_error_Some; congruence|exact A3]. }
  assert (Sub : forall i c m v, nth_error ch i = Some c -> m < length (nth i pls []) -> In v (nth m (nth i pls []) []) -> In v (pt i)).
  { intros i c m v Hc Hm Hv. destruct (HQ i c Hc) as [Q _]. apply (lf_all _ _ _ Q). eauto. }
  assert (Lt : forall i c, nth_error ch i = Some c -> i < length ch) by (intros i c H; apply nth_error_Some; congruence).
  assert (Dis : forall i c m j c' m', nth_error ch i = Some c -> nth_error ch j = Some c' -> m < length (nth i pls []) -> m' < length (nth j pls []) -> i <> j -> pos i + m <> pos j + m').
  { intros i c m j c' m' Hi Hj Hm Hm' Ne E. assert (X : forall a ca, nth_error ch a = Some ca -> nth_error (map (@length (list N)) pls) a = Some (length (nth a pls []))).
    { intros a ca Ha. apply map_nth_error, nth_error_nth'. rewrite HL. exact (Lt a ca Ha). }
    destruct (Nat.lt_ge_cases i j) as [L|L]; [pose proof (place_lt _ _ j _ (X i c Hi) L)|pose proof (place_lt _ _ i _ (X j c' Hj) ltac:(lia))]; unfold pos in E; lia. }
  assert (Len : forall i c, nth_error ch i = Some c -> length (nth i pls []) = length (flat c)) by (intros i c Hc; destruct (HQ i c Hc) as [Q _]; exact (lf_len _ _ _ Q)).
  assert (Has : forall i c v, nth_error ch i = Some c -> In v (pt i) -> exists m, m < length (nth i pls []) /\ In v (nth m (nth i pls []) [])) by (intros i c v Hc Hv; destruct (HQ i c Hc) as [Q _]; now apply (lf_all _ _ _ Q)).
  assert (Inf : forall i v, i < length ch -> inf v -> In v (pt i)) by (apply (pd_inf _ _ _ _ _ HP)).
  assert (LF : length (concat pls) = length (concat F)).
  { rewrite <- !concat_len, El. reflexivity. }
  assert (At : forall i, i < length ch -> exists c, nth_error ch i = Some c) by (intros i Hi; destruct (nth_error ch i) eqn:E; [eauto|apply nth_error_None in E; lia]).
  split.
  - now rewrite Ef.
  - rewrite Ef. intros n x H. destruct (Fof n x H) as (i & c & m & Hc & Hx & ->). destruct (HQ i c Hc) as [Q _]. destruct (lf_at _ _ _ Q m x Hx) as (k' & ids & -> & L). exists k', ids. split; [reflexivity|]. destruct (Pat i c m Hc) as [-> _]; [rewrite (Len i c Hc); apply nth_error_Some; congruence|exact L].
  - intros v. rewrite (pd_all _ _ _ _ _ HP v). split.
    + intros (i & Hi & Hv). destruct (At i Hi) as [c Hc]. destruct (Has i c v Hc Hv) as (m & Hm & Hv'). destruct (Pat i c m Hc Hm) as [E L]. exists (pos i + m). split; [exact L|]. now rewrite E.
    + intros (n & Hn & Hv). destruct (Pof n Hn) as (i & c & m & Hc & Hm & ->). destruct (Pat i c m Hc Hm) as [E _]. rewrite E in Hv. exists i. split; [exact (Lt i c Hc)|]. exact (Sub i c m v Hc Hm Hv).
  - intros _ n v Hn Hv. destruct (Pof n Hn) as (i & c & m & Hc & Hm & ->). destruct (Pat i c m Hc Hm) as [-> _]. destruct (HQ i c Hc) as [Q _]. apply (lf_inf _ _ _ Q); auto. intros u Hu. apply Inf; [exact (Lt i c Hc)|exact Hu].
  - intros n n' v Hn Hn' N Hv Fv. destruct (Pof n Hn) as (i & c & m & Hc & Hm & ->). destruct (Pof n' Hn') as (j & c' & m' & Hc' & Hm' & ->). destruct (Pat i c m Hc Hm) as [-> _]. destruct (Pat j c' m' Hc' Hm') as [E' _]. rewrite E' in Hv. destruct (Nat.eq_dec i j) as [<-|Nij].
    + destruct (HQ i c Hc) as [Q _]. apply (lf_apart _ _ _ Q m m' v); auto; lia.
    + split.
      * intros Hv2. apply Nij. apply (pd_one _ _ _ _ _ HP i j v); [exact (Lt i c Hc)|exact (Lt j c' Hc')|exact (Sub i c m v Hc Hm Hv2)|exact (Sub j c' m' v Hc' Hm' Hv)|exact Fv].
      * destruct (pd_parted _ _ _ _ _ HP i j v (Lt i c Hc) (Lt j c' Hc') Nij (Sub j c' m' v Hc' Hm' Hv) Fv) as (g & A1 & A2 & A3). exists g. split; [exact A1|]. split; [exact A2|]. intros u Hu. apply A3. rewrite filter_In in *. split; [exact (Sub i c m u Hc Hm (proj1 Hu))|apply Hu].
  - intros _ n x k' v H Hk Hv Fv. rewrite Ef in H. destruct (Fof n x H) as (i & c & m & Hc & Hx & ->). destruct (HQ i c Hc) as [Q [kc Kc]]. assert (Hm : m < length (nth i pls [])) by (rewrite (Len i c Hc); apply nth_error_Some; congruence). destruct (Pat i c m Hc Hm) as [E _]. rewrite E in Hv.
    apply (lf_cover _ _ _ Q) with (m := m) (c := x); auto. right. exists kc. split; [exact Kc|]. intros u Hu Fu. exact (HC i c kc u Hc Kc Hu Fu).
  - right. rewrite Ef. split.
    { destruct (At 0 ltac:(lia)) as [c0 H0]. destruct (At 1 ltac:(lia)) as [c1 H1]. assert (Ne : forall i c, nth_error ch i = Some c -> 0 < length (nth i pls [])).
      { intros i c Hc. rewrite (Len i c Hc). destruct (HQ i c Hc) as [Q _]. destruct (lf_meet _ _ _ Q) as [(a & b & E & _)|[E _]]; [rewrite E; cbn; lia|lia]. }
      destruct (Pat 0 c0 0 H0 (Ne 0 c0 H0)) as [_ L0]. destruct (Pat 1 c1 0 H1 (Ne 1 c1 H1)) as [_ L1]. pose proof (Dis 0 c0 0 1 c1 0 H0 H1 (Ne 0 c0 H0) (Ne 1 c1 H1) ltac:(lia)). lia. }
    split; [destruct (pd_some _ _ _ _ _ HP) as (i & u & Hi & Hu & Fu); exists u; split; [apply (pd_all _ _ _ _ _ HP); eauto|exact Fu]|].
    assert (Two : forall i j u v, i < length ch -> j < length ch -> i <> j -> In u (pt i) -> fin u -> In v (pt j) -> fin v -> two_filled D (length (concat F)) (fun m => nth m (concat pls) [])).
    { intros i j u v Hi Hj N Hu Fu Hv Fv. destruct (At i Hi) as [c Hc]. destruct (At j Hj) as [c' Hc']. destruct (Has i c u Hc Hu) as (m & Hm & Hu'). destruct (Has j c' v Hc' Hv) as (m' & Hm' & Hv'). destruct (Pat i c m Hc Hm) as [E L]. destruct (Pat j c' m' Hc' Hm') as [E' L'].
      exists (pos i + m), (pos j + m'), u, v. rewrite <- LF, E, E'. split; [exact L|]. split; [exact L'|]. split; [exact (Dis i c m j c' m' Hc Hc' Hm Hm' N)|]. auto. }
    destruct HM as [(i & j & u & v & Hi & Hj & N & Hu & Fu & Hv & Fv)|(i & j & cj & kj & u & p & Hi & Hj & Kj & N & Hu & Fu & Cp & Far)]; [left; exact (Two i j u v Hi Hj N Hu Fu Hv Fv)|].
    destruct (At i Hi) as [ci Hci]. destruct (HQ i ci Hci) as [Qi _]. destruct (HQ j cj Hj) as [Qj _]. destruct (lf_meet _ _ _ Qj) as [(kj' & sj & Fj & Kj')|(_ & (v & Hv & Fv) & _)]; [|left; exact (Two i j u v Hi (Lt j cj Hj) N Hu Fu Hv Fv)].
    rewrite Kj in Kj'. injection Kj' as <-.
    destruct (lf_meet _ _ _ Qi) as [(ki & si & Fi & Ki)|(_ & _ & [T|T])].
    + (* two leaves *)
      right. assert (Li : 0 < length (nth i pls [])) by (rewrite (Len i ci Hci), Fi; cbn; lia). assert (Lj : 0 < length (nth j pls [])) by (rewrite (Len j cj Hj), Fj; cbn; lia). destruct (Pat i ci 0 Hci Li) as [E L]. destruct (Pat j cj 0 Hj Lj) as [E' L'].
      assert (Same : forall v, In v (nth 0 (nth i pls []) []) <-> In v (pt i)).
      { intros v. split; [exact (Sub i ci 0 v Hci Li)|]. intros Hv. destruct (Has i ci v Hci Hv) as (m & Hm & Hv'). rewrite (Len i ci Hci), Fi in Hm. cbn in Hm. assert (m = 0) by lia. subst m. exact Hv'. }
      exists (pos i + 0), (pos j + 0), (Tleaf (Some kj) sj), kj, u, p. rewrite E. split; [lia|]. split; [apply (Fat j cj 0 _ Hj); rewrite Fj; reflexivity|]. split; [reflexivity|]. split; [exact (Dis i ci 0 j cj 0 Hci Hj Li Lj N)|]. split; [now apply Same|]. split; [exact Fu|]. split; [exact Cp|].
      destruct Far as [[X (g & A1 & A2 & A3)]|[(X & g & A1 & A2 & A3)|(X & g & y & A1 & A2 & A3 & A4)]]; [left; split; [exact X|]; exists g; split; [exact A1|]; split; [exact A2|]; intros v Hv; apply A3; rewrite filter_In in *; split; [now apply Same|apply Hv]|right; left|right; right].
      * split; [exact X|]. exists g. split; [exact A1|]. split; [exact A2|]. intros v Hv Fv. apply A3; [now apply Same|exact Fv].
      * split; [exact X|]. exists g, y. split; [exact A1|]. split; [exact A2|]. split; [|exact A4]. intros v Hv Fv. apply A3; [now apply Same|exact Fv].
    + left. destruct T as (a & b & u' & v' & Ha & Hb & Nab & Hu' & Fu' & Hv' & Fv'). rewrite <- (Len i ci Hci) in Ha, Hb. destruct (Pat i ci a Hci Ha) as [E L]. destruct (Pat i ci b Hci Hb) as [E' L']. exists (pos i + a), (pos i + b), u', v'. rewrite <- LF, E, E'. repeat split; auto. lia.
    + right. destruct T as (a & b & cb & kb & u' & p' & Ha & Hb & Kb & Nab & Hu' & Fu' & Rest). rewrite <- (Len i ci Hci) in Ha. destruct (Pat i ci a Hci Ha) as [E L].
      exists (pos i + a), (pos i + b), cb, kb, u', p'. rewrite E. split; [lia|]. split; [exact (Fat i ci b cb Hci Hb)|]. split; [exact Kb|]. split; [lia|]. split; [exact Hu'|]. split; [exact Fu'|]. exact Rest.
Qed.

Lemma leafy_ok t S : tree_ok D co r C meets t S -> uniform t -> exists pl, leafy t S pl.
Proof.
  induction 1 as [k ids S HL|k k' ids S HL|k ch pt S H2 HN HT IH HP HC HM]; intros U.
  - exists [S]. now apply leafy_leaf with k ids.
  - assert (k = k') by (inversion U as [|? ? E|? ? E]; subst; [congruence|cbn in E; lia]). subst k'. exists [S]. apply leafy_leaf with k ids; [reflexivity|reflexivity|exact HL].
  - inversion U as [|? ? E|? ? _ HF]; subst; [cbn in H2; lia|]. rewrite Forall_forall in HF.
    destruct (choose_list (fun i c pl => leafy c (pt i) pl) [] ch) as (pls & L & Q); [intros i c Hc; apply (IH i c Hc), HF; now apply nth_error_In with i|]. exists (concat pls).
    apply leafy_node with pt; auto. intros i c Hc. split; [now apply Q|]. destruct (HT i c Hc); cbn [t_ck]; eauto.
Qed.

Lemma flat_tree_ok t S : tree_ok D co r C meets t S -> uniform t -> tree_ok D co r C meets (flatten t) S.
Proof.
  intros H U. pose proof H as H'. destruct H' as [k ids S HL|k k' ids S HL|k ch pt S H2 HN HT HP HC HM]; [now apply tk_leaf|now apply tk_one|].
  destruct (leafy_ok (Tnode (Some k) ch) S H U) as [pl Q]. unfold flatten. set (F := flat (Tnode (Some k) ch)) in *.
  assert (L2 : 2 <= length F).
  { unfold F. rewrite flat_node. assert (Z : forall i c, nth_error ch i = Some c -> 1 <= length (flat c)).
    { intros i c Hc. inversion U as [|? ? E|? ? _ HF]; subst; [cbn in H2; lia|]. rewrite Forall_forall in HF. destruct (leafy_ok c (pt i) (HT i c Hc)) as [pl' Q']; [apply HF; now apply nth_error_In with i|]. destruct (lf_meet _ _ _ Q') as [(a & b & E & _)|[E _]]; [rewrite E; cbn; lia|lia]. }
    destruct ch as [|c0 [|c1 ch']]; cbn in H2; try lia. cbn [map concat]. rewrite !app_length. pose proof (Z 0 c0 eq_refl). pose proof (Z 1 c1 eq_refl). lia. }
  pose proof (lf_len _ _ _ Q) as Ln. fold F in Ln.
  apply tk_node with (pt := fun m => nth m pl []).
  - exact L2.
  - exact HN.
  - intros i c Hc. destruct (lf_at _ _ _ Q i c Hc) as (k0 & s0 & -> & L). now apply tk_leaf.
  - split.
    + rewrite <- Ln. exact (lf_all _ _ _ Q).
    + rewrite <- Ln. intros i j v Hi Hj Hv Hv' Fv. destruct (Nat.eq_dec i j) as [E|N]; [exact E|]. exfalso. exact (proj1 (lf_apart _ _ _ Q i j v Hi Hj N Hv' Fv) Hv).
    + rewrite <- Ln. intros i v Hi Hv. apply (lf_inf _ _ _ Q); auto. intros u Hu. apply (pd_all _ _ _ _ _ HP). exists 0. split; [lia|]. apply (pd_inf _ _ _ _ _ HP); [lia|exact Hu].
    + rewrite <- Ln. destruct (pd_some _ _ _ _ _ HP) as (i & u & Hi & Hu & Fu). assert (HS : In u S) by (apply (pd_all _ _ _ _ _ HP); eauto). apply (lf_all _ _ _ Q) in HS as (m & Hm & Hv). eauto.
    + rewrite <- Ln. intros i j v Hi Hj N Hv Fv. exact (proj2 (lf_apart _ _ _ Q i j v Hi Hj N Hv Fv)).
  - apply (lf_cover _ _ _ Q). now left.
  - destruct (lf_meet _ _ _ Q) as [(a & b & E & _)|(_ & _ & M)]; [fold F in E; rewrite E in L2; cbn in L2; lia|exact M].
Qed.
End Flat.
