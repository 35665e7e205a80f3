(** Invariants of Concurrent_LP_Set over all interleavings. *)
From Verif Require Import Outcome ListUtil WordsModel WordsProofs LPSetModel ProbeTheory Conc ConcProbe ConcSetModel.
Local Open Scope nat_scope.

(** Sequential meaning of the calls on a set of keys.  An insert may answer Full, without
    effect, only when at least [lim] keys are stored. *)
Definition at_least (S : N -> bool) (m : nat) : Prop := exists l, NoDup l /\ length l = m /\ forall k, In k l -> S k = true.
Definition csspec (lim : nat) (S : N -> bool) (o : csop) (S' : N -> bool) (r : csret) : Prop :=
  match o with
  | SInsert k => (r = RFull /\ at_least S lim /\ forall x, S' x = S x) \/ (r = RB (negb (S k)) /\ forall x, S' x = (x =? k)%N || S x)
  | SPut k => r = RB (negb (S k)) /\ forall x, S' x = (x =? k)%N || S x
  | SContains k => r = RB (S k) /\ forall x, S' x = S x
  end.
(** The least number of keys at which Full is possible, for [n] cells. *)
Definition full_lim (g : bool) (n : nat) : nat := if g then Nat.min (n / 2) 11 else n.

Lemma NoDup_firstn {A} m (l : list A) : NoDup l -> NoDup (firstn m l).
Proof.
  intros H. revert m. induction H as [|x l Hx H IH]; intros [|m]; cbn [firstn]; constructor; auto.
  intros Hin. apply Hx. rewrite <- (firstn_skipn m l). apply in_or_app. now left.
Qed.

Definition stg (l : csloc) : stage csop csret :=
  match l with
  | LIdle _ => Out
  | LEntry o _ | LProbe o _ _ _ | LCas o _ _ _ => Called o
  | LCount o _ => Done o (RB true)
  | LRet o r _ => Done o r
  end.
Definition is_count (l : csloc) : bool := match l with LCount _ _ => true | _ => false end.
Definition puts (o : csop) : Prop := match o with SContains _ => False | _ => True end.

Section W.
Variable w : N.
Hypothesis Hw : (w <= 64)%N.
Variable g : bool.
Variables (n : nat) (a : N).
Hypothesis Hn : pow2cap w n.
Notation hm := (home w a n).

Definition keys_ok (p : list csop) : Prop := forall o, In o p -> cs_key o <> 0%N.
Definition pos_ok (arr : list N) (k i cols : N) : Prop :=
  exists j, i = N.of_nat (slot n (hm k) j) /\ cols = wrap w (N.of_nat j) /\ walked arr k (hm k) j.
Definition loc_ok (arr : list N) (l : csloc) : Prop :=
  match l with
  | LIdle p => keys_ok p
  | LEntry o p => keys_ok (o :: p)
  | LProbe o i cols p => keys_ok (o :: p) /\ pos_ok arr (cs_key o) i cols
  | LCas o i cols p => keys_ok (o :: p) /\ pos_ok arr (cs_key o) i cols /\ puts o
  | LCount o p => keys_ok p
  | LRet o r p => keys_ok p
  end.

Definition csI (S0 : N -> bool) (c : config lpset csloc) (tr : list (nat * ev csop csret)) : Prop :=
  let s := c_sh c in
  length (s_arr s) = n /\ s_mult s = a /\ chained hm (s_arr s) /\ uniq (s_arr s) /\
  (exists S, legal (csspec (full_lim g n)) S0 (lins tr) S /\ forall k, S k = true <-> In k (s_arr s) /\ k <> 0%N) /\
  thr_ok (loc_ok (s_arr s)) stg (c_loc c) tr /\
  s_items s + cnt is_count (c_loc c) = length (keys_of (s_arr s)).

Lemma n_pos : n <> 0. Proof. exact (pow2cap_pos w Hw n Hn). Qed.

(** A step without a change of the shared state. *)
Lemma quiet_step S0 s locs tr t l l' evs :
  csI S0 (mkc s locs) tr -> nth_error locs t = Some l -> loc_ok (s_arr s) l' -> is_count l = is_count l' ->
  lins (map (fun e => (t, e)) evs ++ tr) = lins tr \/
   (exists o r, evs = [Lin o r] /\ forall S, (forall k, S k = true <-> In k (s_arr s) /\ k <> 0%N) -> csspec (full_lim g n) S o S r) ->
  tstage t (map (fun e => (t, e)) evs ++ tr) (stg l') ->
  csI S0 (mkc s (upd locs t l')) (map (fun e => (t, e)) evs ++ tr).
Proof.
  intros [H1 [H2 [HC [HU [[S [HL HS]] [Ht Hc]]]]]] Et Hok Hcl Hlin Hst. cbn [c_sh c_loc] in *. unfold csI. cbn [c_sh c_loc].
  split; [exact H1|]. split; [exact H2|]. split; [exact HC|]. split; [exact HU|]. split.
  { destruct Hlin as [->|[o [r [-> Hsp]]]]; [exists S; auto|]. exists S. split; [|exact HS]. cbn [map app lins]. econstructor; [exact HL|apply Hsp, HS]. }
  split; [eapply thr_step; eauto|].
  pose proof (cnt_upd is_count locs t l l' Et) as C. rewrite Hcl in C. lia.
Qed.

Lemma at_least_le S m m' : m' <= m -> at_least S m -> at_least S m'.
Proof.
  intros Hle [l [Hd [Hl Hin]]]. exists (firstn m' l). split; [|split].
  - now apply NoDup_firstn.
  - rewrite firstn_length. lia.
  - intros k Hk. apply Hin. rewrite <- (firstn_skipn m' l). apply in_or_app. now left.
Qed.

Lemma wrap_le x : (wrap w x <= x)%N.
Proof. unfold wrap. apply N.mod_le. apply N.pow_nonzero. discriminate. Qed.
Lemma wrap_succ j : wrap w (wrap w (N.of_nat j) + 1) = wrap w (N.of_nat (S j)).
Proof.
  unfold wrap. rewrite N.add_mod_idemp_l by (apply N.pow_nonzero; discriminate). f_equal. lia.
Qed.

(** The loop head after [j] occupied cells. *)
Lemma head_ok S0 s locs tr t l o idx p j sh' l' evs :
  csI S0 (mkc s locs) tr -> nth_error locs t = Some l -> stg l = Called o -> is_count l = false -> keys_ok (o :: p) ->
  mask w n idx = N.of_nat (slot n (hm (cs_key o)) j) -> walked (s_arr s) (cs_key o) (hm (cs_key o)) j ->
  cs_head w g s o idx (wrap w (N.of_nat j)) p = Step sh' l' evs ->
  csI S0 (mkc sh' (upd locs t l')) (map (fun e => (t, e)) evs ++ tr).
Proof.
  intros HI Et Hst Hcl Hk Hm Hwk E. pose proof HI as [H1 [_ [_ [HU [_ [Ht _]]]]]]. cbn [c_sh c_loc] in *.
  destruct (thr_get _ _ _ _ _ _ Ht Et) as [_ Hs]. rewrite Hst in Hs. unfold cs_head in E.
  destruct (g && is_insert o && (10 <? wrap w (N.of_nat j))%N) eqn:Eg; injection E as <- <- <-.
  - apply andb_true_iff in Eg. destruct Eg as [Eg E10]. apply andb_true_iff in Eg. destruct Eg as [Eg Ei]. apply N.ltb_lt in E10.
    pose proof (wrap_le (N.of_nat j)) as Hwl. assert (Hj : 11 <= j) by lia.
    eapply quiet_step; eauto.
    + cbn [loc_ok]. intros x Hx. apply Hk. now right.
    + right. do 2 eexists. split; [reflexivity|]. intros S HS. destruct o as [k| |]; try discriminate. left.
      split; [reflexivity|]. split; [|reflexivity].
      assert (Hw' : walked (s_arr s) k (hm k) (Nat.min (length (s_arr s)) 11)) by (intros i Hi; apply Hwk; cbn [cs_key]; lia).
      destruct (walked_keys (s_arr s) k (hm k) (Nat.min (length (s_arr s)) 11) HU ltac:(lia) Hw') as [l0 [Hd [Hl Hin]]].
      apply (at_least_le S (length l0)).
      * rewrite Hl, H1. unfold full_lim. rewrite Eg. pose proof (Nat.div_le_upper_bound n 2 n ltac:(lia) ltac:(lia)). lia.
      * exists l0. split; [exact Hd|]. split; [reflexivity|]. intros x Hx. apply HS, Hin, Hx.
    + cbn [map app stg]. now constructor.
  - eapply quiet_step; eauto.
    cbn [loc_ok]. split; [exact Hk|]. rewrite H1, Hm. exists j. auto.
Qed.

Lemma next_ok S0 s locs tr t l o i p j c sh' l' evs :
  csI S0 (mkc s locs) tr -> nth_error locs t = Some l -> stg l = Called o -> is_count l = false -> keys_ok (o :: p) ->
  i = N.of_nat (slot n (hm (cs_key o)) j) -> walked (s_arr s) (cs_key o) (hm (cs_key o)) j ->
  nth_error (s_arr s) (N.to_nat i) = Some c -> c <> 0%N -> c <> cs_key o ->
  cs_next w g s o i (wrap w (N.of_nat j)) p = Step sh' l' evs ->
  csI S0 (mkc sh' (upd locs t l')) (map (fun e => (t, e)) evs ++ tr).
Proof.
  intros HI Et Hst Hcl Hk -> Hwk Hc H0 Hck E. pose proof HI as [H1 _]. cbn [c_sh c_loc] in *. unfold cs_next in E. rewrite wrap_succ in E.
  eapply (head_ok S0 s locs tr t l o _ p (S j)); eauto.
  - apply mask_step; assumption.
  - rewrite Nat2N.id in Hc. eapply walked_S; [exact Hwk| |exact H0|exact Hck]. rewrite H1. exact Hc.
Qed.

Lemma cs_inv_step S0 c tr t l sh' l' evs : csI S0 c tr -> nth_error (c_loc c) t = Some l -> cs_step w g (c_sh c) l = Step sh' l' evs ->
  csI S0 (mkc sh' (upd (c_loc c) t l')) (map (fun e => (t, e)) evs ++ tr).
Proof.
  destruct c as [s locs]. cbn [c_sh c_loc]. intros HI Et E. pose proof HI as [H1 [H2 [HC [HU [[S [HL HS]] [Ht Hc]]]]]]. cbn [c_sh c_loc] in *.
  destruct (thr_get _ _ _ _ _ _ Ht Et) as [Hok Hs].
  destruct l as [p|o p|o i cols p|o i cols p|o p|o r p]; cbn [cs_step] in E.
  - destruct p as [|o p]; [discriminate|]. injection E as <- <- <-. eapply quiet_step; eauto. cbn [map app stg] in *. now constructor.
  - destruct (is_insert o && cs_full g s) eqn:Ef.
    + injection E as <- <- <-. apply andb_true_iff in Ef. destruct Ef as [Ei Ef]. eapply quiet_step; eauto.
      * cbn [loc_ok] in *. intros x Hx. apply Hok. now right.
      * right. do 2 eexists. split; [reflexivity|]. intros S' HS'. destruct o as [k| |]; try discriminate. left. split; [reflexivity|]. split; [|reflexivity].
        apply (at_least_le _ (length (keys_of (s_arr s)))).
        { rewrite <- Hc. unfold cs_full in Ef. unfold full_lim. rewrite H1 in Ef. destruct g.
          - apply Nat.leb_le in Ef. lia.
          - apply Nat.eqb_eq in Ef. lia. }
        exists (keys_of (s_arr s)). split; [now apply uniq_NoDup|]. split; [reflexivity|]. intros x Hx. apply HS'. now apply in_keys_of.
      * cbn [map app stg] in *. now constructor.
    + rewrite <- (wrap_id w 0) in E at 1.
      2:{ pose proof (N.pow_nonzero 2 w ltac:(discriminate)). lia. }
      eapply (head_ok S0 s locs tr t _ o _ p 0); eauto; [|apply walked_0]. rewrite H2. apply mask_home; assumption.
  - cbn [loc_ok] in Hok. destruct Hok as [Hk [j [-> [-> Hwk]]]].
    assert (Hk0 : cs_key o <> 0%N) by (apply Hk; now left).
    assert (Hkp : keys_ok p) by (intros x Hx; apply Hk; now right).
    destruct (nth_error (s_arr s) (N.to_nat (N.of_nat (slot n (hm (cs_key o)) j)))) as [c|] eqn:Ec; [|discriminate].
    assert (Hfound : c = cs_key o -> In (cs_key o) (s_arr s)) by (intros <-; eapply nth_error_In; exact Ec).
    assert (Habs : c = 0%N -> ~ In (cs_key o) (s_arr s)).
    { intros ->. rewrite Nat2N.id in Ec.
      assert (Ef : nth_error (s_arr s) (slot (length (s_arr s)) (hm (cs_key o)) j) = Some 0%N) by (rewrite H1; exact Ec).
      eapply (walked_absent hm); eauto. }
    destruct o as [k|k|k]; cbn [cs_key] in *.
    + destruct (N.eqb_spec c k) as [Eck|Eck].
      * injection E as <- <- <-. eapply quiet_step; eauto; [|cbn [map app stg] in *; now constructor].
        right. do 2 eexists. split; [reflexivity|]. intros S' HS'. right. assert (S' k = true) by (apply HS'; auto). split; [now rewrite H|].
        intros x. destruct (N.eqb_spec x k) as [->|]; [now rewrite H|reflexivity].
      * destruct (N.eqb_spec c 0) as [Ec0|Ec0]; cbn [negb] in E.
        -- injection E as <- <- <-. eapply quiet_step; eauto. cbn [loc_ok cs_key puts]. split; [exact Hk|]. split; [|exact I]. exists j. auto.
        -- eapply (next_ok S0 s locs tr t _ (SInsert k)); eauto.
    + destruct (N.eqb_spec c k) as [Eck|Eck].
      * injection E as <- <- <-. eapply quiet_step; eauto; [|cbn [map app stg] in *; now constructor].
        right. do 2 eexists. split; [reflexivity|]. intros S' HS'. assert (S' k = true) by (apply HS'; auto). split; [now rewrite H|].
        intros x. destruct (N.eqb_spec x k) as [->|]; [now rewrite H|reflexivity].
      * destruct (N.eqb_spec c 0) as [Ec0|Ec0]; cbn [negb] in E.
        -- injection E as <- <- <-. eapply quiet_step; eauto. cbn [loc_ok cs_key puts]. split; [exact Hk|]. split; [|exact I]. exists j. auto.
        -- eapply (next_ok S0 s locs tr t _ (SPut k)); eauto.
    + destruct (N.eqb_spec c k) as [Eck|Eck].
      * injection E as <- <- <-. eapply quiet_step; eauto; [|cbn [map app stg] in *; now constructor].
        right. do 2 eexists. split; [reflexivity|]. intros S' HS'. assert (S' k = true) by (apply HS'; auto). split; [now rewrite H|reflexivity].
      * destruct (N.eqb_spec c 0) as [Ec0|Ec0].
        -- injection E as <- <- <-. eapply quiet_step; eauto; [|cbn [map app stg] in *; now constructor].
           right. do 2 eexists. split; [reflexivity|]. intros S' HS'. split; [|reflexivity]. f_equal. symmetry. destruct (S' k) eqn:E; [|reflexivity].
           apply HS' in E. destruct (Habs Ec0). apply E.
        -- eapply (next_ok S0 s locs tr t _ (SContains k)); eauto.
  - cbn [loc_ok] in Hok. destruct Hok as [Hk [[j [-> [-> Hwk]]] Hput]].
    assert (Hk0 : cs_key o <> 0%N) by (apply Hk; now left).
    assert (Hkp : keys_ok p) by (intros x Hx; apply Hk; now right).
    destruct (nth_error (s_arr s) (N.to_nat (N.of_nat (slot n (hm (cs_key o)) j)))) as [c|] eqn:Ec; [|discriminate].
    destruct (N.eqb_spec c 0) as [Ec0|Ec0].
    + injection E as <- <- <-. subst c. rewrite Nat2N.id in *.
      assert (Ef : nth_error (s_arr s) (slot (length (s_arr s)) (hm (cs_key o)) j) = Some 0%N) by (rewrite H1; exact Ec).
      assert (Habs : ~ In (cs_key o) (s_arr s)) by (eapply (walked_absent hm); eauto).
      assert (HjL : j < length (s_arr s)) by (eapply walked_lt; [rewrite H1; apply n_pos|exact Hwk|exact Ef]).
      pose proof (walked_first _ _ _ _ Hwk Ef) as Hfh.
      pose proof (chained_insert hm (s_arr s) (cs_key o) j HC Hk0 HjL Hfh Ef) as HC'.
      rewrite H1 in HC', Ef.
      set (q := slot n (hm (cs_key o)) j) in *. clearbody q.
      unfold csI. cbn [c_sh c_loc s_arr s_mult s_items].
      split; [rewrite upd_length; exact H1|]. split; [exact H2|]. split; [exact HC'|]. split; [now apply uniq_insert|]. split.
      { exists (fun x => (x =? cs_key o)%N || S x). split.
        - cbn [map app lins]. econstructor; [exact HL|].
          assert (HSk : S (cs_key o) = false) by (destruct (S (cs_key o)) eqn:E; [exfalso; apply Habs, HS, E|reflexivity]).
          destruct o as [k|k|k]; cbn [cs_key] in *; [right|split|contradiction]; rewrite ?HSk; try split; reflexivity.
        - intros x. rewrite In_upd_free by assumption. rewrite orb_true_iff, N.eqb_eq, HS. reflexivity. }
      split.
      { eapply thr_step; [exact Ht|exact Et| |exact Hkp|cbn [map app stg] in *; now constructor].
        intros [p0|o0 p0|o0 i0 c0 p0|o0 i0 c0 p0|o0 p0|o0 r0 p0]; cbn [loc_ok]; auto.
        - intros [A [j0 [B1 [B2 B3]]]]. split; [exact A|]. exists j0. split; [exact B1|]. split; [exact B2|]. now apply walked_upd.
        - intros [A [[j0 [B1 [B2 B3]]] B4]]. split; [exact A|]. split; [|exact B4]. exists j0. split; [exact B1|]. split; [exact B2|]. now apply walked_upd. }
      rewrite keys_upd_free by assumption. pose proof (cnt_upd is_count locs t _ (LCount o p) Et) as C. cbn [is_count] in C. lia.
    + destruct (N.eqb_spec c (cs_key o)) as [Eck|Eck].
      * injection E as <- <- <-. eapply quiet_step; eauto; [|cbn [map app stg] in *; now constructor].
        right. do 2 eexists. split; [reflexivity|]. intros S' HS'.
        assert (Hin : S' (cs_key o) = true) by (apply HS'; split; [rewrite <- Eck; eapply nth_error_In; exact Ec|exact Hk0]).
        destruct o as [k|k|k]; cbn [cs_key] in *; [right|split|contradiction]; rewrite ?Hin; [split|reflexivity|]; try reflexivity;
          intros x; (destruct (N.eqb_spec x k) as [->|]; [now rewrite Hin|reflexivity]).
      * eapply (next_ok S0 s locs tr t _ o); eauto.
  - injection E as <- <- <-. unfold csI. cbn [c_sh c_loc s_arr s_mult s_items].
    split; [exact H1|]. split; [exact H2|]. split; [exact HC|]. split; [exact HU|]. split; [exists S; auto|]. split.
    + eapply thr_step; eauto.
    + pose proof (cnt_upd is_count locs t _ (LRet o (RB true) p) Et) as C. cbn [is_count] in C. lia.
  - injection E as <- <- <-. eapply quiet_step; eauto. cbn [map app stg] in *. now constructor.
Qed.

(** The initial states: a table without calls in progress. *)
Lemma cs_inv_start s S0 progs : length (s_arr s) = n -> s_mult s = a -> chained hm (s_arr s) -> uniq (s_arr s) ->
  s_items s = length (keys_of (s_arr s)) -> (forall k, S0 k = true <-> In k (s_arr s) /\ k <> 0%N) ->
  (forall p, In p progs -> keys_ok p) -> csI S0 (cs_start s progs) [].
Proof.
  intros H1 H2 HC HU Hit HS Hp. unfold csI, cs_start. cbn [c_sh c_loc lins]. split; [exact H1|]. split; [exact H2|]. split; [exact HC|]. split; [exact HU|].
  split; [exists S0; split; [constructor|exact HS]|]. split.
  - apply thr_start. intros l Hl. apply in_map_iff in Hl. destruct Hl as [p [<- Hin]]. split; [exact (Hp p Hin)|reflexivity].
  - rewrite cnt_0; [lia|]. intros x Hx. apply in_map_iff in Hx. destruct Hx as [p [<- _]]. reflexivity.
Qed.

Lemma cs_inv S0 c0 c tr : csI S0 c0 [] -> exec (cs_step w g) c0 c tr -> csI S0 c tr.
Proof. intros H0. apply exec_inv; [exact H0|]. intros c' tr' t l sh' l' evs _ HI. now apply cs_inv_step. Qed.

Lemma head_not_bad s o idx cols p : cs_head w g s o idx cols p <> Bad /\ cs_head w g s o idx cols p <> Stop.
Proof. unfold cs_head. destruct (_ && _); split; discriminate. Qed.

Lemma cs_not_bad S0 s locs tr t l : csI S0 (mkc s locs) tr -> nth_error locs t = Some l -> cs_step w g s l <> Bad.
Proof.
  intros [H1 [_ [_ [_ [_ [Ht _]]]]]] Et. cbn [c_sh c_loc] in *. destruct (thr_get _ _ _ _ _ _ Ht Et) as [Hok _].
  assert (Q : forall k i cols, pos_ok (s_arr s) k i cols -> exists c, nth_error (s_arr s) (N.to_nat i) = Some c).
  { intros k i cols [j [-> _]]. rewrite Nat2N.id. apply nth_error_ex. rewrite H1. apply slot_lt, n_pos. }
  destruct l as [[|o p]|o p|o i cols p|o i cols p|o p|o r p]; cbn [cs_step loc_ok] in *; try discriminate.
  - destruct (_ && _); [discriminate|apply head_not_bad].
  - destruct Hok as [_ Hp]. destruct (Q _ _ _ Hp) as [c ->]. destruct o; destruct (N.eqb c _); try discriminate; destruct (N.eqb c 0); cbn [negb]; try discriminate; apply head_not_bad.
  - destruct Hok as [_ [Hp _]]. destruct (Q _ _ _ Hp) as [c ->]. destruct (N.eqb c 0); [discriminate|]. destruct (N.eqb c _); [discriminate|apply head_not_bad].
Qed.

Lemma cs_not_stop s l : cs_step w g s l = Stop -> l = LIdle [].
Proof.
  destruct l as [[|o p]|o p|o i cols p|o i cols p|o p|o r p]; cbn [cs_step]; try discriminate; [reflexivity| | |].
  - destruct (_ && _); [discriminate|]. intros H. now apply head_not_bad in H.
  - destruct (nth_error _ _) as [c|]; [|discriminate]. destruct o; destruct (N.eqb c _); try discriminate; destruct (N.eqb c 0); cbn [negb]; try discriminate; intros H; now apply head_not_bad in H.
  - destruct (nth_error _ _) as [c|]; [|discriminate]. destruct (N.eqb c 0); [discriminate|]. destruct (N.eqb c _); [discriminate|]. intros H; now apply head_not_bad in H.
Qed.
End W.
