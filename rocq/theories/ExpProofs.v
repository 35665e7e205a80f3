(** Proofs about the text form and the comparison of experiment runs. *)
From Coq Require Import Ascii String.
From Verif Require Import Outcome WordsModel ExpModel ExpSpec.
Local Open Scope nat_scope.

Lemma str_eq_iff a b : str_eq a b = true <-> a = b.
Proof.
  revert b. induction a as [|x a IH]; intros [|y b]; cbn [str_eq]; try (split; [discriminate|intros H; discriminate H]); [easy|].
  rewrite Bool.andb_true_iff, Ascii.eqb_eq, IH. split; [intros [-> ->]; reflexivity|]. intros H. injection H as -> ->. easy.
Qed.
Lemma str_eq_refl a : str_eq a a = true.
Proof. now apply str_eq_iff. Qed.
Lemma str_eq_neq a b : a <> b -> str_eq a b = false.
Proof. intros H. destruct (str_eq a b) eqn:E; [|reflexivity]. apply str_eq_iff in E. contradiction. Qed.

Lemma begins_iff w s : begins w s = true <-> exists b, s = w ++ b.
Proof.
  revert s. induction w as [|x w IH]; intros s; cbn [begins].
  - split; [intros _; now exists s|reflexivity].
  - destruct s as [|y s]; [split; [discriminate|intros [b H]; discriminate]|]. rewrite Bool.andb_true_iff, Ascii.eqb_eq, IH. split.
    + intros [-> [b ->]]. now exists b.
    + intros [b H]. cbn [app] in H. injection H as -> ->. split; [reflexivity|now exists b].
Qed.

Lemma first_at_some w s i : first_at w s = Some i -> stands w s i.
Proof.
  revert i. induction s as [|x s IH]; intros i; cbn [first_at]; destruct (begins w _) eqn:E; intros H; try discriminate.
  - injection H as <-. apply begins_iff in E as [b ->]. exists [], b. easy.
  - injection H as <-. apply begins_iff in E as [b E]. exists [], b. easy.
  - destruct (first_at w s) as [j|]; [|discriminate]. cbn [option_map] in H. injection H as <-. destruct (IH j eq_refl) as (a & b & -> & <-). exists (x :: a), b. easy.
Qed.
Lemma first_at_least w s i : stands w s i -> exists j, first_at w s = Some j /\ j <= i.
Proof.
  revert i. induction s as [|x s IH]; intros i (a & b & H & L).
  - destruct a; [|discriminate]. cbn [app] in H. symmetry in H. apply app_eq_nil in H as [-> ->]. exists 0. cbn [first_at begins]. split; [reflexivity|lia].
  - cbn [first_at]. destruct (begins w (x :: s)) eqn:E; [exists 0; split; [reflexivity|lia]|]. destruct a as [|y a].
    + exfalso. cbn [app] in H. assert (begins w (x :: s) = true) by (apply begins_iff; now exists b). congruence.
    + cbn [app] in H. injection H as -> ->. cbn [length] in L. destruct (IH (length a)) as (j & Hj & Lj). { now exists a, b. }
      rewrite Hj. exists (S j). cbn [option_map]. split; [reflexivity|lia].
Qed.

Lemma app_split {A} (a b c d : list A) : a ++ b = c ++ d -> length a <= length c -> exists e, c = a ++ e /\ b = e ++ d.
Proof.
  revert c. induction a as [|x a IH]; intros c H L; [now exists c|]. destruct c as [|y c]; cbn [length] in L; [lia|]. cbn [app] in H. injection H as -> H.
  destruct (IH c H ltac:(lia)) as (e & -> & ->). now exists e.
Qed.

(** A separator behind [s] is found there, whatever follows. *)
Lemma find_sep sep s rest : ends_with sep s -> first_at sep (s ++ sep ++ rest) = Some (length s).
Proof.
  intros H. destruct (first_at_least sep (s ++ sep ++ rest) (length s)) as (j & Hj & Lj). { now exists s, rest. }
  rewrite Hj. f_equal. apply first_at_some in Hj as (a & b & E & L). apply H. exists a.
  rewrite app_assoc in E. rewrite (app_assoc a) in E. symmetry in E. apply app_split in E as (e & E & _).
  - exists e. split; [|exact L]. now rewrite E, <- app_assoc.
  - rewrite !app_length. lia.
Qed.
Lemma find_none sep s : sep <> [] -> ends_with sep s -> first_at sep s = None.
Proof.
  intros Hn H. destruct (first_at sep s) as [j|] eqn:E; [|reflexivity]. exfalso. apply first_at_some in E as (a & b & -> & L).
  assert (j = length (a ++ sep ++ b)). { apply H. exists a, (b ++ sep). split; [now rewrite <- !app_assoc|exact L]. }
  rewrite !app_length in H0. destruct sep; [congruence|]. cbn [length] in H0. lia.
Qed.

Lemma skipn_pre {A} (p s : list A) n : n = length p -> skipn n (p ++ s) = s.
Proof. intros ->. rewrite skipn_app, skipn_all, Nat.sub_diag. reflexivity. Qed.
Lemma firstn_pre {A} (p s : list A) n : n = length p -> firstn n (p ++ s) = p.
Proof. intros ->. rewrite firstn_app, firstn_all, Nat.sub_diag. cbn. apply app_nil_r. Qed.

Lemma s_find_at p s w i : first_at w s = Some i -> s_find (p ++ s) w (slen p) = (slen p + N.of_nat i)%N.
Proof.
  intros H. unfold s_find. rewrite app_length. assert (E : (slen p <=? N.of_nat (length p + length s))%N = true) by (apply N.leb_le; lia). rewrite E.
  rewrite skipn_pre by lia. now rewrite H.
Qed.
Lemma s_find_no p s w : first_at w s = None -> s_find (p ++ s) w (slen p) = npos.
Proof. intros H. unfold s_find. destruct (_ <=? _)%N; [|reflexivity]. rewrite skipn_pre by lia. now rewrite H. Qed.
Lemma substr_mid p a s n : (n = slen a \/ s = [] /\ slen a <= n)%N -> s_substr (p ++ a ++ s) (slen p) n = Some a.
Proof.
  intros H. unfold s_substr. rewrite !app_length. assert (E : (slen p <=? N.of_nat (length p + (length a + length s)))%N = true) by (apply N.leb_le; lia). rewrite E.
  rewrite skipn_pre by lia. f_equal. apply firstn_pre. destruct H as [->|[-> H]]; cbn [length]; lia.
Qed.

Lemma wrap_diff a b : (b <= a)%N -> (a < 2 ^ 64)%N -> wrap 64 (a + 2 ^ 64 - b) = (a - b)%N.
Proof. intros H L. unfold wrap. replace (a + 2 ^ 64 - b)%N with ((a - b) + 1 * 2 ^ 64)%N by lia. rewrite N.mod_add by discriminate. apply N.mod_small. lia. Qed.
Lemma wrap_id a : (a < 2 ^ 64)%N -> wrap 64 a = a.
Proof. apply N.mod_small. Qed.

Section Parse.
  Variables ts is : str.
  Hypothesis Hts : ts <> [].
  Hypothesis His : is <> [].

  (** What the loop does to the map. *)
  Fixpoint adds (m l : traits) : traits :=
    match l with [] => m | (n, v) :: l => adds (if is_ignored n then m else t_add m n v) l end.

  Lemma parse_from l : l <> [] -> writable ts is l -> forall p m fuel, length l < fuel -> (slen (p ++ str_from ts is [] l) + slen ts + 1 < 2 ^ 64)%N ->
    parse_loop fuel (p ++ str_from ts is [] l) ts is (slen p) m = Val (Some (adds m l)).
  Proof.
    induction l as [|[n v] l IH]; intros Hne W p m fuel Hf Hlen; [congruence|]. destruct fuel as [|fuel]; [lia|]. cbn [length] in Hf.
    destruct (W n v (or_introl eq_refl)) as [W1 W2].
    assert (W' : writable ts is l) by (intros a b Hab; apply W; now right).
    cbn [str_from app] in *. cbn [parse_loop adds].
    set (tl := str_from ts is ts l) in *.
    assert (Ltot : (slen (p ++ n ++ is ++ v ++ tl) = slen p + slen n + slen is + slen v + slen tl)%N) by (rewrite !app_length; lia).
    rewrite Ltot in Hlen.
    assert (Lis : (0 < slen is)%N) by (destruct is; [congruence|cbn [length]; lia]).
    assert (Lts : (0 < slen ts)%N) by (destruct ts; [congruence|cbn [length]; lia]).
    assert (E1 : (slen p <? slen (p ++ n ++ is ++ v ++ tl))%N = true) by (rewrite Ltot; apply N.ltb_lt; lia). rewrite E1.
    rewrite (s_find_at p (n ++ is ++ v ++ tl) is (length n)) by (now apply find_sep).
    rewrite (wrap_id (slen p + slen n + slen is)) by lia.
    rewrite wrap_diff by lia. replace (slen p + slen n - slen p)%N with (slen n) by lia.
    rewrite substr_mid by (now left).
    assert (Hfrom : (slen p + slen n + slen is = slen (p ++ n ++ is))%N) by (rewrite !app_length; lia).
    assert (Hs : forall q, p ++ n ++ is ++ v ++ q = (p ++ n ++ is) ++ v ++ q) by (intros q; now rewrite <- !app_assoc).
    destruct l as [|[n' v'] l].
    - assert (tl = []) as Et by reflexivity. rewrite Et in *. cbn [length] in Ltot, Hlen.
      rewrite s_find_no by (apply find_none; [exact Hts|now rewrite app_nil_r]). rewrite N.eqb_refl. rewrite Ltot.
      rewrite wrap_diff by lia.
      rewrite Hs, Hfrom. rewrite substr_mid by (right; split; [reflexivity|rewrite !app_length; lia]).
      destruct fuel as [|fuel]; [lia|]. cbn [parse_loop]. rewrite wrap_id by lia.
      match goal with |- context [(?a <? ?b)%N] => assert (E2 : (a <? b)%N = false) end.
      { apply N.ltb_ge. rewrite <- Hs, ?Ltot. lia. } rewrite E2. reflexivity.
    - assert (tl = ts ++ str_from ts is [] ((n', v') :: l)) as Et by reflexivity. rewrite Et in *.
      set (tl2 := str_from ts is [] ((n', v') :: l)) in *. rewrite app_length in Ltot, Hlen.
      assert (Ef : s_find (p ++ n ++ is ++ v ++ ts ++ tl2) ts (slen p) = (slen p + N.of_nat (length (n ++ is ++ v)))%N).
      { apply s_find_at. replace (n ++ is ++ v ++ ts ++ tl2) with ((n ++ is ++ v) ++ ts ++ tl2) by (now rewrite <- !app_assoc). now apply find_sep. }
      rewrite Ef. rewrite !app_length.
      assert (En : (slen p + N.of_nat (length n + (length is + length v)) =? npos)%N = false) by (apply N.eqb_neq; unfold npos; lia). rewrite En.
      rewrite wrap_diff by lia.
      rewrite Hs, Hfrom. rewrite substr_mid by (left; rewrite !app_length; lia).
      rewrite wrap_id by lia.
      replace ((p ++ n ++ is) ++ v ++ ts ++ tl2) with ((p ++ n ++ is ++ v ++ ts) ++ tl2) by (now rewrite <- !app_assoc).
      replace (slen p + N.of_nat (length n + (length is + length v)) + slen ts)%N with (slen (p ++ n ++ is ++ v ++ ts)) by (rewrite !app_length; lia).
      apply IH; [discriminate|exact W'|cbn [length] in *; lia|]. rewrite <- !app_assoc. fold tl2. rewrite !app_length. lia.
  Qed.
End Parse.

Lemma parse_returns ts is l host rev : ts <> [] -> is <> [] -> writable ts is l -> (slen (run_str ts is l) + slen ts + 1 < 2 ^ 64)%N ->
  returns (fun f => run_parse host rev f ts is (run_str ts is l)) (Some (adds (run_new host rev) l)).
Proof.
  intros Ht Hi W L. exists (S (length l)). intros f Hf. unfold run_parse. destruct l as [|t l].
  - destruct f; [lia|]. reflexivity.
  - change (run_str ts is (t :: l)) with ([] ++ str_from ts is [] (t :: l)). change 0%N with (slen (@nil ascii)). apply parse_from; try easy.
Qed.

(** The map. *)
Lemma t_get_none m k : t_get m k = None <-> ~ In k (map fst m).
Proof.
  induction m as [|[n v] m IH]; cbn [t_get map fst]; [easy|]. destruct (str_eq n k) eqn:E.
  - apply str_eq_iff in E. subst. split; [discriminate|]. intros H. exfalso. apply H. now left.
  - rewrite IH. split; [intros H [->|I]; [rewrite str_eq_refl in E; discriminate|now apply H]|]. intros H I. apply H. now right.
Qed.
Lemma t_get_in m k v : t_get m k = Some v -> In (k, v) m.
Proof. induction m as [|[n w] m IH]; cbn [t_get]; [discriminate|]. destruct (str_eq n k) eqn:E; [|intros H; right; now apply IH]. intros H. injection H as ->. apply str_eq_iff in E. subst. now left. Qed.
Lemma t_get_iff m k v : keyed m -> t_get m k = Some v <-> trait m k v.
Proof.
  intros K. split; [apply t_get_in|]. unfold trait. induction m as [|[n w] m IH]; [easy|]. cbn [t_get]. unfold keyed in K. cbn [map fst] in K. inversion K as [|? ? K1 K2]; subst. intros [H|H].
  - injection H as -> ->. now rewrite str_eq_refl.
  - rewrite str_eq_neq; [now apply IH|]. intros ->. apply K1. now apply (in_map fst) in H.
Qed.


Lemma str_lt_irrefl a : str_lt a a = false.
Proof. induction a as [|c a IH]; cbn [str_lt]; [reflexivity|]. rewrite N.ltb_irrefl, Ascii.eqb_refl. exact IH. Qed.
Lemma str_lt_cons x a y b : str_lt (x :: a) (y :: b) = true <-> (N_of_ascii x < N_of_ascii y)%N \/ x = y /\ str_lt a b = true.
Proof. cbn [str_lt]. rewrite Bool.orb_true_iff, Bool.andb_true_iff, N.ltb_lt, Ascii.eqb_eq. reflexivity. Qed.
Lemma str_lt_trans a : forall b c, str_lt a b = true -> str_lt b c = true -> str_lt a c = true.
Proof.
  induction a as [|x a IH]; intros [|y b] [|z c]; try (cbn [str_lt]; congruence).
  rewrite !str_lt_cons. intros [H|[-> H]] [K|[-> K]]; [left; lia|left; exact H|left; exact K|]. right. split; [reflexivity|]. now apply (IH b).
Qed.
Lemma str_lt_total a : forall b, a <> b -> str_lt a b = false -> str_lt b a = true.
Proof.
  induction a as [|x a IH]; intros [|y b] Hn Hl; try (cbn [str_lt] in *; congruence).
  apply str_lt_cons. destruct (N.lt_trichotomy (N_of_ascii x) (N_of_ascii y)) as [H|[H|H]].
  - assert (str_lt (x :: a) (y :: b) = true) by (apply str_lt_cons; now left). congruence.
  - right. assert (x = y) by (rewrite <- (ascii_N_embedding x), <- (ascii_N_embedding y); now f_equal). subst. split; [reflexivity|]. apply IH; [congruence|].
    destruct (str_lt a b) eqn:E; [|reflexivity]. assert (str_lt (y :: a) (y :: b) = true) by (apply str_lt_cons; now right). congruence.
  - now left.
Qed.

(** The entries are in ascending order. *)
Fixpoint asc (m : traits) : Prop := match m with [] => True | (n, _) :: m => (forall k, In k (map fst m) -> str_lt n k = true) /\ asc m end.
Lemma asc_keyed m : asc m -> keyed m.
Proof.
  induction m as [|[n v] m IH]; cbn [asc]; [constructor|]. intros [H A]. unfold keyed. cbn [map fst]. constructor; [|now apply IH]. intros I. specialize (H _ I). rewrite str_lt_irrefl in H. discriminate.
Qed.

Lemma t_add_get m k x j : asc m -> t_get (t_add m k x) j = match t_get m j with Some w => Some w | None => if str_eq k j then Some x else None end.
Proof.
  induction m as [|[n v] m IH]; cbn [asc t_add t_get]; [reflexivity|]. intros [H A]. destruct (str_eq n k) eqn:E.
  - apply str_eq_iff in E. subst. cbn [t_get]. destruct (str_eq k j); [reflexivity|]. now destruct (t_get m j).
  - destruct (str_lt k n) eqn:L; cbn [t_get].
    + destruct (str_eq k j) eqn:Ek; [|destruct (str_eq n j); [reflexivity|now destruct (t_get m j)]]. apply str_eq_iff in Ek. subst. rewrite E.
      assert (Hn : t_get m j = None). { apply t_get_none. intros I. apply H in I. pose proof (str_lt_trans _ _ _ L I) as C. rewrite str_lt_irrefl in C. discriminate. } now rewrite Hn.
    + destruct (str_eq n j); [reflexivity|]. now apply IH.
Qed.
Lemma t_add_keys m k x j : In j (map fst (t_add m k x)) -> In j (map fst m) \/ j = k.
Proof.
  induction m as [|[n v] m IH]; cbn [t_add]; [intros [<-|[]]; now right|]. destruct (str_eq n k); [now left|]. destruct (str_lt k n); cbn [map fst In].
  - intros [<-|H]; [now right|now left].
  - intros [<-|H]; [left; now left|]. destruct (IH H); [left; now right|now right].
Qed.
Lemma t_add_asc m k x : asc m -> asc (t_add m k x).
Proof.
  induction m as [|[n v] m IH]; cbn [asc t_add]; [intros _; split; [intros ? []|exact I]|]. intros [H A]. destruct (str_eq n k) eqn:E; [now split|]. destruct (str_lt k n) eqn:L; cbn [asc].
  - split; [|now split]. intros j [<-|J]; [exact L|]. apply (str_lt_trans _ n); [exact L|now apply H].
  - split; [|now apply IH]. intros j J. apply t_add_keys in J as [J| ->]; [now apply H|]. apply str_lt_total; [intros ->; rewrite str_eq_refl in E; discriminate|exact L].
Qed.
Lemma t_set_get m k x j : asc m -> t_get (t_set m k x) j = if str_eq k j then Some x else t_get m j.
Proof.
  induction m as [|[n v] m IH]; cbn [asc t_set t_get]; [reflexivity|]. intros [H A]. destruct (str_eq n k) eqn:E.
  - apply str_eq_iff in E. subst. cbn [t_get]. now destruct (str_eq k j).
  - destruct (str_lt k n) eqn:L; cbn [t_get]; [reflexivity|]. rewrite (IH A). destruct (str_eq n j) eqn:En; [|reflexivity]. apply str_eq_iff in En. subst.
    rewrite str_eq_neq; [reflexivity|]. intros ->. rewrite str_eq_refl in E. discriminate.
Qed.
Lemma t_set_keys m k x j : In j (map fst (t_set m k x)) -> In j (map fst m) \/ j = k.
Proof.
  induction m as [|[n v] m IH]; cbn [t_set]; [intros [<-|[]]; now right|]. destruct (str_eq n k); cbn [map fst In]; [intros [<-|H]; [now right|left; now right]|]. destruct (str_lt k n); cbn [map fst In].
  - intros [<-|H]; [now right|now left].
  - intros [<-|H]; [left; now left|]. destruct (IH H); [left; now right|now right].
Qed.
Lemma t_set_asc m k x : asc m -> asc (t_set m k x).
Proof.
  induction m as [|[n v] m IH]; cbn [asc t_set]; [intros _; split; [intros ? []|exact I]|]. intros [H A]. destruct (str_eq n k) eqn:E; [apply str_eq_iff in E; subst; now split|]. destruct (str_lt k n) eqn:L; cbn [asc].
  - split; [|now split]. intros j [<-|J]; [exact L|]. apply (str_lt_trans _ n); [exact L|now apply H].
  - split; [|now apply IH]. intros j J. apply t_set_keys in J as [J| ->]; [now apply H|]. apply str_lt_total; [intros ->; rewrite str_eq_refl in E; discriminate|exact L].
Qed.

Lemma run_new_asc host rev : asc (run_new host rev).
Proof. unfold run_new. apply t_add_asc, t_add_asc. exact I. Qed.
Lemma run_new_get host rev k : t_get (run_new host rev) k = if str_eq (txt "host") k then Some host else if str_eq (txt "git-rev") k then Some rev else None.
Proof.
  unfold run_new. rewrite t_add_get by (apply t_add_asc; exact I). rewrite t_add_get by exact I. cbn [t_get]. destruct (str_eq (txt "host") k); reflexivity.
Qed.
Lemma ignored_iff k : is_ignored k = true <-> volatile k.
Proof.
  unfold is_ignored, ignored, volatile. cbn [existsb]. rewrite !Bool.orb_true_iff, !str_eq_iff. intuition congruence.
Qed.
Lemma ignored_not k : is_ignored k = false <-> ~ volatile k.
Proof. rewrite <- ignored_iff. now destruct (is_ignored k). Qed.

Lemma adds_asc l : forall m, asc m -> asc (adds m l).
Proof. induction l as [|[n v] l IH]; intros m A; cbn [adds]; [exact A|]. apply IH. destruct (is_ignored n); [exact A|now apply t_add_asc]. Qed.
Lemma adds_get l : forall m k, asc m -> keyed l -> t_get (adds m l) k = match t_get m k with Some w => Some w | None => if is_ignored k then None else t_get l k end.
Proof.
  induction l as [|[n v] l IH]; intros m k A K; cbn [adds t_get].
  - destruct (t_get m k); [reflexivity|]. now destruct (is_ignored k).
  - unfold keyed in K. cbn [map fst] in K. inversion K as [|? ? K1 K2]; subst. rewrite IH; [|destruct (is_ignored n); [exact A|now apply t_add_asc]|exact K2].
    destruct (is_ignored n) eqn:G.
    + destruct (t_get m k); [reflexivity|]. destruct (str_eq n k) eqn:E; [|reflexivity]. apply str_eq_iff in E. subst. now rewrite G.
    + rewrite t_add_get by exact A. destruct (t_get m k); [reflexivity|]. destruct (str_eq n k) eqn:E; [|reflexivity]. apply str_eq_iff in E. subst. now rewrite G.
Qed.

(** Comparison. *)
Lemma run_eq_iff m o : keyed m -> keyed o -> run_eq m o = true <-> length m = length o /\ forall k v, ~ volatile k -> trait m k v -> trait o k v.
Proof.
  intros Km Ko. unfold run_eq. rewrite Bool.andb_true_iff, Nat.eqb_eq, forallb_forall. split; intros [L H]; (split; [exact L|]).
  - intros k v Hv Hm. specialize (H _ Hm). cbn [fst snd] in H. apply ignored_not in Hv. rewrite Hv in H. cbn [orb] in H. destruct (t_get o k) as [w|] eqn:E; [|discriminate].
    apply str_eq_iff in H. subst. now apply t_get_in.
  - intros [k v] Hm. cbn [fst snd]. destruct (is_ignored k) eqn:G; [reflexivity|]. cbn [orb]. apply ignored_not in G. specialize (H k v G Hm). apply t_get_iff in H; [|exact Ko]. rewrite H. apply str_eq_refl.
Qed.

Definition vol (m : traits) : list str := filter is_ignored (map fst m).
Definition prop (m : traits) : traits := filter (fun t => negb (is_ignored (fst t))) m.
Lemma split_len m : length m = length (vol m) + length (prop m).
Proof.
  unfold vol, prop. induction m as [|[n v] m IH]; [reflexivity|]. cbn [map fst filter length]. rewrite IH. destruct (is_ignored n); cbn [negb length]; lia.
Qed.
Lemma keyed_nodup m : keyed m -> NoDup m.
Proof. apply NoDup_map_inv. Qed.
Lemma same_len m o : keyed m -> keyed o -> same_exp m o -> length (prop m) = length (prop o).
Proof.
  intros Km Ko S. assert (Hi : forall a b, same_exp a b -> incl (prop a) (prop b)).
  { intros a b Hab [k v] I. unfold prop in *. apply filter_In in I as [I G]. cbn [fst] in G. apply filter_In. split; [|exact G]. apply Hab; [|exact I]. apply ignored_not. now destruct (is_ignored k). }
  apply Nat.le_antisymm; apply NoDup_incl_length; try (apply NoDup_filter; now apply keyed_nodup); apply Hi; [exact S|]. intros k v Hv. now rewrite (S k v Hv).
Qed.
(** If one run has the traits of the other and no fewer are there, they are the same. *)
Lemma incl_same m o : keyed m -> keyed o -> length (prop m) = length (prop o) -> (forall k v, ~ volatile k -> trait m k v -> trait o k v) -> same_exp m o.
Proof.
  intros Km Ko L H k v Hv. split; [now apply H|]. intros I.
  assert (J : incl (prop o) (prop m)).
  { apply NoDup_length_incl; [apply NoDup_filter; now apply keyed_nodup|lia|]. intros [a b] J. unfold prop in *. apply filter_In in J as [J G]. apply filter_In. split; [|exact G]. apply H; [|exact J]. apply ignored_not. cbn [fst] in G. now destruct (is_ignored a). }
  assert (In (k, v) (prop o)). { apply filter_In. split; [exact I|]. cbn [fst]. apply ignored_not in Hv. now rewrite Hv. }
  apply J in H0. now apply filter_In in H0.
Qed.
