(** Proofs about the generation of experiment runs. *)
From Coq Require Import Ascii String.
From Verif Require Import Outcome WordsModel ExpModel ExpSpec ExpProofs.
Local Open Scope N_scope.

Lemma each_val {A} (f : A -> res (list traits)) (g : A -> list traits) l : (forall a, In a l -> f a = Val (g a)) -> each f l = Val (flat_map g l).
Proof.
  induction l as [|a l IH]; intros H; [reflexivity|]. cbn [each flat_map]. rewrite H by (now left). cbn [rbind]. rewrite IH by (intros b Hb; apply H; now right). reflexivity.
Qed.

(** The numbers of threads. *)
Lemma threads_list (maxt : N) : maxt < 2 ^ 31 -> forall k t, 1 <= t -> maxt < t + N.of_nat k -> exists l, NoDup l /\ (forall x, In x l <-> x <= maxt /\ exists j, x = t * 2 ^ j) /\
  forall occs pb pe host rev sps dist n alg f, (k < f)%nat ->
    thr_loop host rev sps occs pb pe f dist n alg t maxt = Val (flat_map (fun th => occ_loop host rev sps pb pe true dist n alg th occs) l).
Proof.
  intros Hm. induction k as [|k IH]; intros t Ht Hk.
  - exists []. split; [constructor|]. split.
    + intros x. split; [intros []|]. intros [Hx [j ->]]. assert (1 <= 2 ^ j) by (clear; pose proof (N.pow_nonzero 2 j); lia). nia.
    + intros. destruct f; [lia|]. cbn [thr_loop]. assert (E : (t <=? maxt) = false) by (apply N.leb_gt; lia). now rewrite E.
  - destruct (N.le_gt_cases t maxt) as [Hl|Hl].
    + destruct (IH (2 * t)) as (l & Nd & Hin & Hrun); [lia|lia|]. exists (t :: l). split.
      { constructor; [|exact Nd]. rewrite Hin. intros [_ [j Ej]]. assert (1 <= 2 ^ j) by (clear; pose proof (N.pow_nonzero 2 j); lia). nia. }
      split.
      * intros x. cbn [In]. rewrite Hin. split.
        { intros [<-|[Hx [j ->]]]; [split; [exact Hl|exists 0; now rewrite N.pow_0_r, N.mul_1_r]|]. split; [exact Hx|]. exists (N.succ j). rewrite N.pow_succ_r'. lia. }
        { intros [Hx [j ->]]. destruct (N.eq_dec j 0) as [->|Hj]; [left; now rewrite N.pow_0_r, N.mul_1_r|]. right. split; [exact Hx|]. exists (N.pred j). rewrite <- (N.succ_pred j) at 1 by exact Hj. rewrite N.pow_succ_r'. lia. }
      * intros. destruct f as [|f]; [lia|]. cbn [thr_loop]. assert (E : (t <=? maxt) = true) by (now apply N.leb_le). rewrite E.
        assert (W : wrap 32 (2 * t) = 2 * t) by (apply N.mod_small; lia). rewrite W.
        rewrite Hrun by lia. reflexivity.
    + exists []. split; [constructor|]. split.
      * intros x. split; [intros []|]. intros [Hx [j ->]]. assert (1 <= 2 ^ j) by (clear; pose proof (N.pow_nonzero 2 j); lia). nia.
      * intros. destruct f; [lia|]. cbn [thr_loop]. assert (E : (t <=? maxt) = false) by (now apply N.leb_gt). now rewrite E.
Qed.

(** The numbers of points. *)
Definition rounds : list N := flat_map (fun k => map (fun d => d * 10 ^ k) [1; 2; 3; 4; 5; 6; 7; 8; 9]) [1; 2; 3; 4; 5; 6; 7; 8] ++ [1000000000; 2000000000; 3000000000; 4000000000].
Fixpoint chain (l : list N) : bool :=
  match l with a :: ((b :: _) as l') => (b =? a + step a) && (a <? b) && (b <? 2 ^ 32) && chain l' | _ => true end.
Lemma rounds_chain : chain rounds = true.
Proof. vm_compute. reflexivity. Qed.
Lemma chain_asc l a : chain (a :: l) = true -> forall b, In b l -> a < b.
Proof.
  revert a. induction l as [|c l IH]; intros a H b Hb; [destruct Hb|]. cbn [chain] in H. apply Bool.andb_true_iff in H as [H Hc]. apply Bool.andb_true_iff in H as [H H3]. apply Bool.andb_true_iff in H as [H1 H2].
  apply N.ltb_lt in H2. destruct Hb as [<-|Hb]; [exact H2|]. specialize (IH c Hc b Hb). lia.
Qed.
Lemma filter_none {A} (f : A -> bool) l : (forall a, In a l -> f a = false) -> filter f l = [].
Proof. induction l as [|a l IH]; intros H; [reflexivity|]. cbn [filter]. rewrite H by (now left). apply IH. intros b Hb. apply H. now right. Qed.

Section Pts.
  Variables (host rev : str) (sps algs : list ascii) (occs : list N) (pb : bool) (pe : tristate) (dist : ascii) (mint maxt maxn : N) (body : N -> list traits) (f0 : nat).
  Hypothesis Hbody : forall f n, (f0 < f)%nat -> alg_loop host rev sps algs occs pb pe f dist n mint maxt = Val (body n).

  Lemma pts_chain l : l <> [] -> chain l = true -> maxn < last l 0 -> forall f, (f0 + length l < f)%nat ->
    pts_loop host rev sps algs occs pb pe f dist (hd 0 l) maxn mint maxt = Val (flat_map body (filter (fun n => n <=? maxn) l)).
  Proof.
    induction l as [|a l IH]; intros Hne Hc Hl f Hf; [congruence|]. destruct f as [|f]; [lia|]. cbn [hd pts_loop filter]. destruct (a <=? maxn) eqn:E.
    - rewrite Hbody by (cbn [length] in Hf; lia). cbn [rbind flat_map]. destruct l as [|b l].
      { cbn [last] in Hl. apply N.leb_le in E. lia. }
      pose proof Hc as Hc'. cbn [chain] in Hc. apply Bool.andb_true_iff in Hc as [H Hc]. apply Bool.andb_true_iff in H as [H H3]. apply Bool.andb_true_iff in H as [H1 H2]. apply N.eqb_eq in H1. rewrite <- H1, H3.
      assert (El : last (a :: b :: l) 0 = last (b :: l) 0) by reflexivity. rewrite El in Hl. change b with (hd 0 (b :: l)) at 1. rewrite IH; try easy. cbn [length] in *. lia.
    - apply N.leb_gt in E. rewrite filter_none; [reflexivity|]. intros b Hb. apply N.leb_gt. apply (chain_asc l a Hc) in Hb. lia.
  Qed.
End Pts.

(** The round numbers. *)
Lemma rounds_in n : n < 4000000000 -> In n rounds <-> exists d k, 1 <= d <= 9 /\ 1 <= k /\ n = d * 10 ^ k.
Proof.
  intros Hn. split.
  - intros H. assert (Ha : Forall (fun n => exists d k, 1 <= d <= 9 /\ 1 <= k /\ n = d * 10 ^ k) rounds).
    { assert (F : Forall (fun n => existsb (fun d => existsb (fun k => n =? d * 10 ^ k) [1; 2; 3; 4; 5; 6; 7; 8; 9]) [1; 2; 3; 4; 5; 6; 7; 8; 9] = true) rounds) by (apply Forall_forall; apply forallb_forall; vm_compute; reflexivity).
      eapply Forall_impl; [|exact F]. clear. intros n H. cbv beta in H. apply existsb_exists in H as (d & Hd & H). apply existsb_exists in H as (k & Hk & H). apply N.eqb_eq in H. exists d, k. cbn [In] in Hd, Hk. split; [lia|]. split; [lia|exact H]. }
    rewrite Forall_forall in Ha. now apply Ha.
  - intros (d & k & Hd & Hk & ->).
    assert (Hk9 : k <= 9). { destruct (N.le_gt_cases k 9) as [H|H]; [exact H|]. exfalso. assert (10 ^ 10 <= 10 ^ k) by (apply N.pow_le_mono_r; lia). change (10 ^ 10) with 10000000000 in H0. clear Hk H. nia. }
    assert (F : forallb (fun d => forallb (fun k => (4000000000 <=? d * 10 ^ k) || existsb (N.eqb (d * 10 ^ k)) rounds) [1; 2; 3; 4; 5; 6; 7; 8; 9]) [1; 2; 3; 4; 5; 6; 7; 8; 9] = true) by (vm_compute; reflexivity).
    rewrite forallb_forall in F. specialize (F d ltac:(cbn [In]; clear -Hd; lia)). cbv beta in F. rewrite forallb_forall in F. specialize (F k ltac:(cbn [In]; clear -Hk Hk9; lia)). cbv beta in F.
    apply Bool.orb_true_iff in F as [F|F]; [apply N.leb_le in F; lia|]. apply existsb_exists in F as (x & Hx & E). apply N.eqb_eq in E. now rewrite E.
Qed.
Lemma rounds_nodup : NoDup rounds.
Proof.
  assert (H : forall l, chain l = true -> NoDup l). { induction l as [|a l IH]; intros H; [constructor|]. constructor; [intros I; pose proof (chain_asc l a H a I); lia|]. apply IH. destruct l; [reflexivity|]. cbn [chain] in H. apply Bool.andb_true_iff in H. easy. }
  apply H, rounds_chain.
Qed.

(** The experiments behind the runs. *)
Definition edges_of (pe : tristate) : list bool := match pe with Indef => [false; true] | No => [false] | Yes => [true] end.
Section Exps.
  Variables (host rev : str) (sps algs dists : list ascii) (occs : list N) (pb : bool) (pe : tristate).

  Definition run_of (e : exp) : traits :=
    match e with
    | Seq d n => run_c host rev d n "c"
    | Grid d n t o => run_m host rev d n "m" t o
    | Dac d n a t o s b ed => t_add (run_d host rev d n a t o s b) (txt "parallel-edge") (show_bool ed)
    end.
  Lemma with_edge_of d n a t o s b : with_edge pe (run_d host rev d n a t o s b) = map run_of (map (Dac d n a t o s b) (edges_of pe)).
  Proof. destruct pe; reflexivity. Qed.

  Definition block (first : bool) d n a t o : list exp :=
    flat_map (fun sp => (if first then map (Dac d n a t 1 sp false) (edges_of pe) else []) ++ (if pb then map (Dac d n a t o sp true) (edges_of pe) else [])) sps.
  Fixpoint occ_e (first : bool) d n a t (os : list N) : list exp :=
    match os with
    | [] => []
    | o :: os => (if Ascii.eqb a "m" then [Grid d n t o] else block first d n a t o) ++ occ_e false d n a t os
    end.
  Lemma map_flat {A B C} (f : B -> C) (g : A -> list B) l : map f (flat_map g l) = flat_map (fun a => map f (g a)) l.
  Proof. induction l as [|a l IH]; [reflexivity|]. cbn [flat_map]. now rewrite map_app, IH. Qed.
  Lemma flat_ext {A B} (f g : A -> list B) l : (forall a, In a l -> f a = g a) -> flat_map f l = flat_map g l.
  Proof. induction l as [|a l IH]; intros H; [reflexivity|]. cbn [flat_map]. rewrite H by (now left). f_equal. apply IH. intros b Hb. apply H. now right. Qed.
  Lemma occ_runs d n a t os : forall first, occ_loop host rev sps pb pe first d n a t os = map run_of (occ_e first d n a t os).
  Proof.
    induction os as [|o os IH]; intros first; [reflexivity|]. cbn [occ_loop occ_e]. rewrite map_app, IH. f_equal. destruct (Ascii.eqb a "m") eqn:E.
    - apply Ascii.eqb_eq in E. now subst.
    - unfold block. rewrite map_flat. apply flat_ext. intros sp _. rewrite map_app. f_equal; [destruct first|destruct pb]; try reflexivity; apply with_edge_of.
  Qed.
  Lemma occ_in d n a t os e : forall first, In e (occ_e first d n a t os) <->
    (a = "m"%char /\ exists o, In o os /\ e = Grid d n t o) \/
    (a <> "m"%char /\ exists s ed, In s sps /\ In ed (edges_of pe) /\ (first = true /\ os <> [] /\ e = Dac d n a t 1 s false ed \/ pb = true /\ exists o, In o os /\ e = Dac d n a t o s true ed)).
  Proof.
    induction os as [|o os IH]; intros first; cbn [occ_e].
    - split; [intros []|]. intros [(_ & o & [] & _)|(_ & s & ed & _ & _ & [(_ & H & _)|(_ & o & [] & _)])]. congruence.
    - rewrite in_app_iff, IH. clear IH. destruct (Ascii.eqb a "m") eqn:E.
      + apply Ascii.eqb_eq in E. split.
        * intros [[<-|[]]|[(_ & o' & H & ->)|(H & _)]]; [left; split; [exact E|exists o; split; [now left|reflexivity]]|left; split; [exact E|exists o'; split; [now right|reflexivity]]|contradiction].
        * intros [(_ & o' & [<-|H] & ->)|(H & _)]; [left; now left|right; left; split; [exact E|now exists o']|contradiction].
      + apply Ascii.eqb_neq in E. unfold block. rewrite in_flat_map. split.
        * intros [(s & Hs & H)|[(H & _)|(_ & s & ed & Hs & He & [(H & _)|(Hp & o' & Ho & ->)])]]; [|contradiction|discriminate|].
          { right. split; [exact E|]. apply in_app_iff in H as [H|H].
            - destruct first; [|destruct H]. apply in_map_iff in H as (ed & <- & He). exists s, ed. split; [exact Hs|]. split; [exact He|]. left. split; [reflexivity|]. split; [discriminate|reflexivity].
            - destruct pb; [|destruct H]. apply in_map_iff in H as (ed & <- & He). exists s, ed. split; [exact Hs|]. split; [exact He|]. right. split; [reflexivity|]. exists o. split; [now left|reflexivity]. }
          { right. split; [exact E|]. exists s, ed. split; [exact Hs|]. split; [exact He|]. right. split; [exact Hp|]. exists o'. split; [now right|reflexivity]. }
        * intros [(H & _)|(_ & s & ed & Hs & He & [(-> & _ & ->)|(Hp & o' & [<-|Ho] & ->)])]; [contradiction| | |].
          { left. exists s. split; [exact Hs|]. apply in_app_iff. left. now apply in_map. }
          { left. exists s. split; [exact Hs|]. apply in_app_iff. right. rewrite Hp. now apply in_map. }
          { right. right. split; [exact E|]. exists s, ed. split; [exact Hs|]. split; [exact He|]. right. split; [exact Hp|]. now exists o'. }
  Qed.
  Lemma nodup_app {A} (a b : list A) : NoDup a -> NoDup b -> (forall x, In x a -> ~ In x b) -> NoDup (a ++ b).
  Proof.
    induction a as [|x a IH]; intros Ha Hb H; [exact Hb|]. inversion Ha; subst. cbn [app]. constructor; [|apply IH; trivial; intros y Hy; apply H; now right].
    rewrite in_app_iff. intros [I|I]; [contradiction|]. exact (H x (or_introl eq_refl) I).
  Qed.
  Lemma nodup_flat {A B} (f : A -> list B) l : NoDup l -> (forall a, In a l -> NoDup (f a)) -> (forall a b x, In x (f a) -> In x (f b) -> a = b) -> NoDup (flat_map f l).
  Proof.
    induction l as [|a l IH]; intros Hl Hf Hk; [constructor|]. inversion Hl; subst. cbn [flat_map]. apply nodup_app; [apply Hf; now left|apply IH; trivial; intros b Hb; apply Hf; now right|].
    intros x Hx I. apply in_flat_map in I as (b & Hb & I). pose proof (Hk _ _ _ Hx I). subst. contradiction.
  Qed.
  Lemma edges_nodup : NoDup (edges_of pe).
  Proof. destruct pe; repeat constructor; cbn; intuition discriminate. Qed.
  Lemma nodup_map {A B} (f : A -> B) l : (forall a b, f a = f b -> a = b) -> NoDup l -> NoDup (map f l).
  Proof. intros H. induction l as [|a l IH]; intros N1; [constructor|]. inversion N1; subst. cbn [map]. constructor; [|now apply IH]. intros I. apply in_map_iff in I as (b & E & I). apply H in E. now subst. Qed.
  Lemma block_nodup first d n a t o : NoDup sps -> NoDup (block first d n a t o).
  Proof.
    intros Hs. unfold block. apply nodup_flat; [exact Hs| |].
    - intros sp _. apply nodup_app.
      + destruct first; [|constructor]. apply nodup_map; [|apply edges_nodup]. intros x y H. now injection H.
      + destruct pb; [|constructor]. apply nodup_map; [|apply edges_nodup]. intros x y H. now injection H.
      + intros x H1 H2. destruct first; [|destruct H1]. destruct pb; [|destruct H2]. apply in_map_iff in H1 as (e1 & <- & _). apply in_map_iff in H2 as (e2 & H & _). discriminate.
    - intros s1 s2 x H1 H2. assert (K : forall s, In x ((if first then map (Dac d n a t 1 s false) (edges_of pe) else []) ++ (if pb then map (Dac d n a t o s true) (edges_of pe) else [])) -> match x with Dac _ _ _ _ _ s' _ _ => s' = s | _ => False end).
      { intros s I. apply in_app_iff in I as [I|I]; [destruct first|destruct pb]; try (now destruct I); apply in_map_iff in I as (ed & <- & _); reflexivity. }
      apply K in H1, H2. destruct x; congruence || contradiction.
  Qed.
  Lemma occ_nodup d n a t os : NoDup sps -> NoDup os -> forall first, NoDup (occ_e first d n a t os).
  Proof.
    intros Hs. induction os as [|o os IH]; intros Ho first; [constructor|]. inversion Ho; subst. cbn [occ_e]. apply nodup_app; [|now apply IH|].
    - destruct (Ascii.eqb a "m"); [repeat constructor; intros []|now apply block_nodup].
    - intros x X1 Hx. apply occ_in in Hx as [(E & o' & Ho' & ->)|(E & s & ed & _ & _ & [(Hf & _)|(_ & o' & Ho' & ->)])]; [|discriminate|].
      + apply Ascii.eqb_eq in E. rewrite E in X1. destruct X1 as [X1|[]]. injection X1 as <-. contradiction.
      + apply Ascii.eqb_neq in E. rewrite E in X1. unfold block in X1. apply in_flat_map in X1 as (sp & _ & I). apply in_app_iff in I as [I|I]; [destruct first|destruct pb]; try (now destruct I); apply in_map_iff in I as (e2 & I & _); [discriminate|]. injection I as <- <- <-. contradiction.
  Qed.

  Variables (ns ths : list N).
  Definition alg_e d n a : list exp := if Ascii.eqb a "c" then [Seq d n] else flat_map (fun t => occ_e true d n a t occs) ths.
  Definition all_e : list exp := flat_map (fun d => flat_map (fun n => flat_map (alg_e d n) algs) ns) dists.
  Lemma alg_in d n a e : In e (alg_e d n a) <-> (a = "c"%char /\ e = Seq d n) \/ (a <> "c"%char /\ exists t, In t ths /\ In e (occ_e true d n a t occs)).
  Proof.
    unfold alg_e. destruct (Ascii.eqb a "c") eqn:E.
    - apply Ascii.eqb_eq in E. split; [intros [<-|[]]; now left|]. intros [[_ ->]|[H _]]; [now left|contradiction].
    - apply Ascii.eqb_neq in E. rewrite in_flat_map. split; [intros H; right; now split|]. intros [[H _]|[_ H]]; [contradiction|exact H].
  Qed.
  Lemma all_in e : In e all_e <-> asked sps algs dists occs pb (fun b => In b (edges_of pe)) (fun n => In n ns) (fun t => In t ths) e.
  Proof.
    unfold all_e. rewrite in_flat_map. split.
    - intros (d & Hd & H). apply in_flat_map in H as (n & Hn & H). apply in_flat_map in H as (a & Ha & H). apply alg_in in H as [[-> ->]|[Hc (t & Ht & H)]]; [now constructor|].
      apply occ_in in H as [(-> & o & Ho & ->)|(Hm & s & ed & Hs & He & [(_ & Ho & ->)|(Hp & o & Ho & ->)])]; constructor; trivial.
    - intros H. assert (G : forall d n a, In d dists -> In n ns -> In a algs -> In e (alg_e d n a) -> exists x, In x dists /\ In e (flat_map (fun n => flat_map (alg_e x n) algs) ns)).
      { intros d n a Hd Hn Ha I. exists d. split; [exact Hd|]. apply in_flat_map. exists n. split; [exact Hn|]. apply in_flat_map. now exists a. }
      destruct H; (eapply G; [eassumption|eassumption|eassumption|]); apply alg_in; try (left; split; reflexivity); right; (split; [first [assumption|discriminate]|]); exists th; (split; [assumption|]); apply occ_in.
      + left. split; [reflexivity|]. now exists o.
      + right. split; [assumption|]. exists s, e. repeat (split; [assumption|]). left. repeat split. assumption.
      + right. split; [assumption|]. exists s, e. repeat (split; [assumption|]). right. split; [assumption|]. now exists o.
  Qed.
  Lemma all_nodup : NoDup sps -> NoDup algs -> NoDup dists -> NoDup occs -> NoDup ns -> NoDup ths -> NoDup all_e.
  Proof.
    intros H1 H2 H3 H4 H5 H6.
    assert (K : forall d n a e, In e (alg_e d n a) -> match e with Seq d' n' => d' = d /\ n' = n /\ a = "c"%char | Grid d' n' _ _ => d' = d /\ n' = n /\ a = "m"%char | Dac d' n' a' _ _ _ _ _ => d' = d /\ n' = n /\ a' = a /\ a <> "c"%char /\ a <> "m"%char end).
    { intros d n a e H. apply alg_in in H as [[-> ->]|[Hc (t & Ht & H)]]; [easy|]. apply occ_in in H as [(-> & o & Ho & ->)|(Hm & s & ed & Hs & He & [(_ & Ho & ->)|(Hp & o & Ho & ->)])]; auto. }
    unfold all_e. apply nodup_flat; [exact H3| |].
    - intros d _. apply nodup_flat; [exact H5| |].
      + intros n _. apply nodup_flat; [exact H2| |].
        * intros a _. unfold alg_e. destruct (Ascii.eqb a "c"); [repeat constructor; intros []|]. apply nodup_flat; [exact H6|intros t _; now apply occ_nodup|].
          intros t1 t2 x X1 X2. apply occ_in in X1, X2. destruct X1 as [(_ & o & _ & ->)|(_ & s & ed & _ & _ & [(_ & _ & ->)|(_ & o & _ & ->)])], X2 as [(_ & o2 & _ & X2)|(_ & s2 & ed2 & _ & _ & [(_ & _ & X2)|(_ & o2 & _ & X2)])]; congruence.
        * intros a b x X1 X2. apply K in X1, X2. destruct x; intuition congruence.
      + intros n1 n2 x X1 X2. apply in_flat_map in X1 as (a1 & _ & X1). apply in_flat_map in X2 as (a2 & _ & X2). apply K in X1, X2. destruct x; intuition congruence.
    - intros d1 d2 x X1 X2. apply in_flat_map in X1 as (n1 & _ & X1). apply in_flat_map in X2 as (n2 & _ & X2). apply in_flat_map in X1 as (a1 & _ & X1). apply in_flat_map in X2 as (a2 & _ & X2). apply K in X1, X2. destruct x; intuition congruence.
  Qed.
  (** What a run says. *)
  Lemma run_of_traits e : keyed (run_of e) /\ forall k v, trait (run_of e) k v <-> In (k, v) (exp_traits show e ++ [(txt "host", host); (txt "git-rev", rev)]).
  Proof.
    split.
    - apply asc_keyed. destruct e; cbn [run_of]; unfold run_c, run_d, run_m; unfold run_new; repeat apply t_add_asc; exact I.
    - intros k v. unfold trait. destruct e as [d n|d n t o|d n a t o s b ed]; [| |destruct b, ed]; cbn -[show]; tauto.
  Qed.
End Exps.
