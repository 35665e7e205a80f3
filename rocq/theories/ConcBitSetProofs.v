(** Invariants of Concurrent_Bit_Set over all interleavings. *)
From Verif Require Import Outcome ListUtil WordsModel WordsProofs BitSetModel BitSetProofs Conc ConcBitSetModel.
Local Open Scope N_scope.

(** Sequential meaning of the calls on a set of indices. *)
Definition cbspec (S : N -> bool) (o : cbop) (S' : N -> bool) (r : bool) : Prop :=
  match o with
  | CInsert i => r = negb (S i) /\ forall j, S' j = (j =? i) || S j
  | CErase i => r = S i /\ forall j, S' j = negb (j =? i) && S j
  | CContains i => r = S i /\ forall j, S' j = S j
  end.

Definition cop_ok (lower upper : N) (o : cbop) : Prop :=
  match o with CInsert i | CErase i => lower <= i < upper | CContains _ => True end.

Definition stage_of (l : cbloc) : stage cbop bool :=
  match l with
  | CIdle _ => Out
  | CEntry o _ => Called o
  | CLoop o _ _ => Called o
  | CCount o _ => Done o true
  | CRet o r _ => Done o r
  end.
Definition loc_ok (lo up : N) (l : cbloc) : Prop :=
  match l with
  | CIdle p => Forall (cop_ok lo up) p
  | CEntry o p => cop_ok lo up o /\ Forall (cop_ok lo up) p
  | CLoop o v p => cop_ok lo up o /\ Forall (cop_ok lo up) p /\
      match o with
      | CInsert i => N.testbit v (i mod 32) = false
      | CErase i => N.testbit v (i mod 32) = true
      | CContains _ => False
      end
  | CCount o p => cop_ok lo up o /\ Forall (cop_ok lo up) p /\ match o with CContains _ => False | _ => True end
  | CRet o r p => Forall (cop_ok lo up) p
  end.
Definition is_inc (l : cbloc) : bool := match l with CCount (CInsert _) _ => true | _ => false end.
Definition is_dec (l : cbloc) : bool := match l with CCount (CErase _) _ => true | _ => false end.

Definition cbI (S0 : N -> bool) (c : config bitset cbloc) (tr : list (nat * ev cbop bool)) : Prop :=
  let s := c_sh c in
  bs_wf s /\
  (exists S, legal cbspec S0 (lins tr) S /\ forall i, S i = has s i) /\
  (forall t l, nth_error (c_loc c) t = Some l -> loc_ok (b_lo s) (b_up s) l /\ tstage t tr (stage_of l)) /\
  (forall t, nth_error (c_loc c) t = None -> tstage t tr Out) /\
  wrap 64 (b_ones s + N.of_nat (cnt is_inc (c_loc c))) = wrap 64 (N.of_nat (length (elems s)) + N.of_nat (cnt is_dec (c_loc c))).

(** *** the exchange *)
Definition with_word (s : bitset) (b v : N) : bitset := mkbs (b_lo s) (b_up s) (wr (b_words s) b v) (b_ones s).

Lemma wf_ones s o : bs_wf s -> bs_wf (mkbs (b_lo s) (b_up s) (b_words s) o).
Proof. intros H. exact H. Qed.

Lemma cas_insert s i v : bs_wf s -> b_lo s <= i -> i < b_up s -> rd (b_words s) (bs_block s i) = Some v -> N.testbit v (i mod 32) = false ->
  let s' := with_word s (bs_block s i) (N.lor v (bmask i)) in
  bs_wf s' /\ has s i = false /\ (forall j, has s' j = (j =? i) || has s j) /\ length (elems s') = S (length (elems s)).
Proof.
  intros Hwf H1 H2 Hr Hb s'.
  assert (Hi : has s i = false).
  { destruct (wf_read s i Hwf H1 H2) as [v' [E [_ [Hh _]]]]. rewrite Hr in E. injection E as <-. now rewrite Hh. }
  destruct (testAndSet_spec s i Hwf H1 H2) as [s1 [E [W [Lo [Up [Hh _]]]]]].
  unfold bs_testAndSet in E. rewrite isSet_has in E by exact Hwf. cbn [rbind] in E. rewrite Hr, Hi in E. injection E as <-.
  assert (W' : bs_wf s') by exact W. assert (Hh' : forall j, has s' j = (j =? i) || has s j) by exact Hh.
  clear W Hh Lo Up. clearbody s'. split; [exact W'|]. split; [exact Hi|]. split; [exact Hh'|].
  rewrite (count_of s' (i :: elems s) W'); [reflexivity| |].
  - constructor; [|apply elems_NoDup]. rewrite elems_In by exact Hwf. congruence.
  - intros j. cbn [In]. rewrite Hh', (elems_In s j Hwf), orb_true_iff, N.eqb_eq. intuition congruence.
Qed.

Lemma cas_erase s i v : bs_wf s -> b_lo s <= i -> i < b_up s -> rd (b_words s) (bs_block s i) = Some v -> N.testbit v (i mod 32) = true ->
  let s' := with_word s (bs_block s i) (N.land v (not32 (bmask i))) in
  bs_wf s' /\ has s i = true /\ (forall j, has s' j = negb (j =? i) && has s j) /\ length (elems s) = S (length (elems s')).
Proof.
  intros Hwf H1 H2 Hr Hb s'.
  assert (Hi : has s i = true).
  { destruct (wf_read s i Hwf H1 H2) as [v' [E [_ [Hh _]]]]. rewrite Hr in E. injection E as <-. now rewrite Hh. }
  destruct (testAndUnset_spec s i Hwf H1 H2) as [s1 [E [W [Lo [Up [Hh _]]]]]].
  unfold bs_testAndUnset in E. rewrite isSet_has in E by exact Hwf. cbn [rbind] in E. rewrite Hr, Hi in E. injection E as <-.
  assert (W' : bs_wf s') by exact W. assert (Hh' : forall j, has s' j = negb (j =? i) && has s j) by exact Hh.
  clear W Hh Lo Up. clearbody s'. split; [exact W'|]. split; [exact Hi|]. split; [exact Hh'|].
  rewrite (count_of s (i :: elems s') Hwf); [reflexivity| |].
  - constructor; [|apply elems_NoDup]. rewrite elems_In by exact W'. rewrite Hh', N.eqb_refl. discriminate.
  - intros j. cbn [In]. rewrite (elems_In s' j W'), Hh', andb_true_iff, negb_true_iff, N.eqb_neq.
    split; [intros [->|[_ H]]; assumption|]. intros H. destruct (N.eq_dec i j); [now left|right; split; [congruence|exact H]].
Qed.

(** *** preservation *)
(** A step that only moves the thread within its call, without changing the shared state. *)
Lemma quiet_step S0 s locs tr t l l' evs :
  cbI S0 (mkc s locs) tr -> nth_error locs t = Some l -> loc_ok (b_lo s) (b_up s) l' ->
  is_inc l = is_inc l' -> is_dec l = is_dec l' ->
  lins (map (fun e => (t, e)) evs ++ tr) = lins tr \/ (exists o r, evs = [Lin o r] /\ exists S', (forall S, (forall i, S i = has s i) -> cbspec S o S' r) /\ forall i, S' i = has s i) ->
  tstage t (map (fun e => (t, e)) evs ++ tr) (stage_of l') ->
  cbI S0 (mkc s (upd locs t l')) (map (fun e => (t, e)) evs ++ tr).
Proof.
  intros [W [[S [HL HS]] [Hl [Hn Hc]]]] Et Hok Hi Hd Hlin Hst. cbn [c_sh c_loc] in *. unfold cbI. cbn [c_sh c_loc].
  split; [exact W|]. split.
  { destruct Hlin as [->|[o [r [-> [S' [HS1 HS2]]]]]]; [exists S; auto|]. exists S'. split; [|exact HS2].
    cbn [map app lins]. econstructor; [exact HL|apply HS1, HS]. }
  split.
  { intros u lu Hu. destruct (Nat.eq_dec u t) as [->|Hne].
    - rewrite nth_error_upd_eq in Hu by (eapply nth_error_lt; eassumption). injection Hu as <-. split; assumption.
    - rewrite nth_error_upd_neq in Hu by congruence. destruct (Hl u lu Hu). split; [assumption|]. now apply tstage_step. }
  split.
  { intros u Hu. destruct (Nat.eq_dec u t) as [->|Hne].
    - rewrite nth_error_upd_eq in Hu by (eapply nth_error_lt; eassumption). discriminate.
    - rewrite nth_error_upd_neq in Hu by congruence. apply tstage_step; auto. }
  pose proof (cnt_upd is_inc locs t l l' Et) as C1. pose proof (cnt_upd is_dec locs t l l' Et) as C2. rewrite Hi in C1. rewrite Hd in C2.
  replace (cnt is_inc (upd locs t l')) with (cnt is_inc locs) by (clear - C1; lia).
  replace (cnt is_dec (upd locs t l')) with (cnt is_dec locs) by (clear - C2; lia). exact Hc.
Qed.

Ltac qs := eapply quiet_step; [eassumption|eassumption|cbn [loc_ok] in *; auto|cbn [is_inc] in *; congruence|cbn [is_dec] in *; congruence| | ].

Lemma cb_test_ok S0 s locs tr t l o val p sh' l' evs :
  cbI S0 (mkc s locs) tr -> nth_error locs t = Some l -> cop_ok (b_lo s) (b_up s) o -> Forall (cop_ok (b_lo s) (b_up s)) p ->
  is_inc l = false -> is_dec l = false -> stage_of l = Called o ->
  N.testbit val (cb_idx o mod 32) = has s (cb_idx o) ->
  cb_test s o val p = Step sh' l' evs ->
  cbI S0 (mkc sh' (upd locs t l')) (map (fun e => (t, e)) evs ++ tr).
Proof.
  intros HI Et Ho Hp Hi Hd Hst Hb E. unfold cb_test in E. unfold bmask in E. rewrite land_pow2 in E.
  pose proof HI as [_ [_ [Hl _]]]. destruct (Hl t l Et) as [_ Ht]. rewrite Hst in Ht.
  destruct o as [i|i|i]; cbn [cb_idx] in *; rewrite Hb in E.
  - destruct (has s i) eqn:Eh; injection E as <- <- <-.
    + qs; [|cbn [map app]; now constructor].
      right. do 2 eexists. split; [reflexivity|]. exists (has s). split; [|reflexivity]. intros S HS. split; [rewrite HS, Eh; reflexivity|].
      intros j. rewrite HS. destruct (N.eqb_spec j i) as [->|]; [rewrite Eh|]; reflexivity.
    + qs; [now left|exact Ht].
  - destruct (has s i) eqn:Eh; injection E as <- <- <-.
    + qs; [now left|exact Ht].
    + qs; [|cbn [map app]; now constructor].
      right. do 2 eexists. split; [reflexivity|]. exists (has s). split; [|reflexivity]. intros S HS. split; [rewrite HS, Eh; reflexivity|].
      intros j. rewrite HS. destruct (N.eqb_spec j i) as [->|]; [rewrite Eh|]; reflexivity.
  - injection E as <- <- <-. 
    qs; [|cbn [map app]; now constructor].
    right. do 2 eexists. split; [reflexivity|]. exists (has s). split; [|reflexivity]. intros S HS. split; [|intros j; now rewrite HS].
    rewrite HS, <- Hb. rewrite <- (nonzero_test val (i mod 32)), land_pow2. destruct (negb (val =? 0)); reflexivity.
Qed.

Lemma wrap_add_cancel x y k : wrap 64 (x + k) = wrap 64 (y + k) -> wrap 64 x = wrap 64 y.
Proof.
  unfold wrap. intros H. assert (G : (x + k + (2 ^ 64 - k mod 2 ^ 64)) mod 2 ^ 64 = (y + k + (2 ^ 64 - k mod 2 ^ 64)) mod 2 ^ 64).
  { rewrite (N.add_mod (x + k)), (N.add_mod (y + k)), H by discriminate. reflexivity. }
  assert (F : forall z, (z + k + (2 ^ 64 - k mod 2 ^ 64)) mod 2 ^ 64 = z mod 2 ^ 64).
  { intros z. pose proof (N.div_mod k (2 ^ 64) ltac:(discriminate)) as D. pose proof (N.mod_lt k (2 ^ 64) ltac:(discriminate)) as M.
    replace (z + k + (2 ^ 64 - k mod 2 ^ 64)) with (z + (k / 2 ^ 64 + 1) * 2 ^ 64).
    - apply N.mod_add. discriminate.
    - set (q := k / 2 ^ 64) in *. set (r := k mod 2 ^ 64) in *. clearbody q r. clear - D M. lia. }
  now rewrite !F in G.
Qed.
Lemma wrap_idem x y : wrap 64 (wrap 64 x + y) = wrap 64 (x + y).
Proof. unfold wrap. apply N.add_mod_idemp_l. discriminate. Qed.
Lemma wrap_period x y : wrap 64 (x + (2 ^ 64 - 1) + y + 1) = wrap 64 (x + y).
Proof. unfold wrap. replace (x + (2 ^ 64 - 1) + y + 1) with (x + y + 1 * 2 ^ 64) by (clear; lia). apply N.mod_add. discriminate. Qed.

Ltac tst := lazymatch goal with E : _ = Step _ _ _ |- _ => cbv iota beta in E end; lazymatch goal with E : cb_test _ ?o _ _ = _ |- _ => eapply (cb_test_ok _ _ _ _ _ _ o); [eassumption|eassumption|cbn [cop_ok] in *; first [assumption|exact I]|eassumption|reflexivity|reflexivity|reflexivity| |exact E] end.

Lemma cb_inv_step S0 c tr t l sh' l' evs : cbI S0 c tr -> nth_error (c_loc c) t = Some l -> cb_step (c_sh c) l = Step sh' l' evs ->
  cbI S0 (mkc sh' (upd (c_loc c) t l')) (map (fun e => (t, e)) evs ++ tr).
Proof.
  destruct c as [s locs]. cbn [c_sh c_loc]. intros HI Et E. pose proof HI as [W [[S [HL HS]] [Hl [Hn Hc]]]]. cbn [c_sh c_loc] in *.
  destruct (Hl t l Et) as [Hok Ht]. destruct l as [p|o p|o v p|o p|o r p]; cbn [cb_step] in E.
  - destruct p as [|o p]; [discriminate|]. injection E as <- <- <-. cbn [loc_ok] in Hok. inversion Hok; subst.
    qs; [now left|]. cbn [map app stage_of]. now constructor.
  - cbn [loc_ok] in Hok. destruct Hok as [Ho Hp]. destruct o as [i|i|i]; cbn [cb_idx cop_ok] in *.
    + destruct (wf_read s i W) as [val [Er [_ [Hh _]]]]; [apply Ho|apply Ho|]. rewrite Er in E.
      tst; symmetry; exact Hh.
    + destruct (wf_read s i W) as [val [Er [_ [Hh _]]]]; [apply Ho|apply Ho|]. rewrite Er in E.
      tst; symmetry; exact Hh.
    + destruct ((b_lo s <=? i) && (i <? b_up s)) eqn:Eb.
      * apply andb_true_iff in Eb. destruct Eb as [B1 B2]. apply N.leb_le in B1. apply N.ltb_lt in B2.
        destruct (wf_read s i W B1 B2) as [val [Er [_ [Hh _]]]]. rewrite Er in E.
        tst; symmetry; exact Hh.
      * injection E as <- <- <-. qs; [|cbn [map app stage_of]; now constructor].
        right. do 2 eexists. split; [reflexivity|]. exists (has s). split; [|reflexivity]. intros S' HS'. split; [|intros j; now rewrite HS'].
        rewrite HS'. unfold has. now rewrite Eb.
  - cbn [loc_ok] in Hok. destruct Hok as [Ho [Hp Hv]].
    assert (Bo : b_lo s <= cb_idx o /\ cb_idx o < b_up s) by (destruct o; [exact Ho|exact Ho|contradiction]).
    destruct Bo as [B1 B2]. destruct (wf_read s (cb_idx o) W B1 B2) as [cur [Er [Hcv [Hh _]]]]. rewrite Er in E.
    destruct (N.eqb_spec cur v) as [Ecv|Hne]; [subst cur|].
    2:{ tst; symmetry; exact Hh. }
    injection E as <- <- <-.
    pose proof (cnt_upd is_inc locs t _ (CCount o p) Et) as C1. pose proof (cnt_upd is_dec locs t _ (CCount o p) Et) as C2.
    assert (Hrest : forall lo up s1, b_lo s1 = b_lo s -> b_up s1 = b_up s -> lo = b_lo s1 -> up = b_up s1 ->
       (forall u lu, nth_error (upd locs t (CCount o p)) u = Some lu -> loc_ok lo up lu /\ tstage u ((t, Lin o true) :: tr) (stage_of lu)) /\
       (forall u, nth_error (upd locs t (CCount o p)) u = None -> tstage u ((t, Lin o true) :: tr) Out)).
    { intros lo up s1 E1 E2 -> ->. rewrite E1, E2. split.
      - intros u lu Hu. destruct (Nat.eq_dec u t) as [->|Hut].
        + rewrite nth_error_upd_eq in Hu by (eapply nth_error_lt; eassumption). injection Hu as <-. split.
          * cbn [loc_ok]. destruct o; [auto|auto|contradiction].
          * cbn [stage_of] in *. now constructor.
        + rewrite nth_error_upd_neq in Hu by congruence. destruct (Hl u lu Hu). split; [assumption|]. now constructor; [congruence|].
      - intros u Hu. destruct (Nat.eq_dec u t) as [->|Hut].
        + rewrite nth_error_upd_eq in Hu by (eapply nth_error_lt; eassumption). discriminate.
        + rewrite nth_error_upd_neq in Hu by congruence. constructor; [congruence|auto]. }
    destruct o as [i|i|i]; [| |contradiction]; cbn [cb_idx cb_des is_inc is_dec] in *.
    + destruct (cas_insert s i v W B1 B2 Er Hv) as [W' [Hi [Hh' Hlen]]]. fold (with_word s (bs_block s i) (N.lor v (bmask i))).
      set (s' := with_word s (bs_block s i) (N.lor v (bmask i))) in *.
      unfold cbI. cbn [c_sh c_loc map app lins]. split; [exact W'|]. split.
      { exists (has s'). split; [|reflexivity]. econstructor; [exact HL|]. split; [rewrite HS, Hi; reflexivity|]. intros j. now rewrite HS. }
      destruct (Hrest (b_lo s') (b_up s') s' eq_refl eq_refl eq_refl eq_refl) as [R1 R2]. split; [exact R1|]. split; [exact R2|].
      change (b_ones s') with (b_ones s). clearbody s'. rewrite Hlen.
      replace (cnt is_inc (upd locs t (CCount (CInsert i) p))) with (1 + cnt is_inc locs)%nat by (clear - C1; lia).
      replace (cnt is_dec (upd locs t (CCount (CInsert i) p))) with (cnt is_dec locs) by (clear - C2; lia).
      rewrite Nat2N.inj_add, Nat2N.inj_succ, <- N.add_1_l. apply (wrap_add_cancel _ _ (2 ^ 64 - 1)).
      transitivity (wrap 64 (b_ones s + (2 ^ 64 - 1) + N.of_nat (cnt is_inc locs) + 1)); [f_equal; clear; lia|].
      transitivity (wrap 64 (N.of_nat (length (elems s)) + (2 ^ 64 - 1) + N.of_nat (cnt is_dec locs) + 1)); [|f_equal; clear; lia].
      rewrite !wrap_period. exact Hc.
    + destruct (cas_erase s i v W B1 B2 Er Hv) as [W' [Hi [Hh' Hlen]]]. fold (with_word s (bs_block s i) (N.land v (not32 (bmask i)))).
      set (s' := with_word s (bs_block s i) (N.land v (not32 (bmask i)))) in *.
      unfold cbI. cbn [c_sh c_loc map app lins]. split; [exact W'|]. split.
      { exists (has s'). split; [|reflexivity]. econstructor; [exact HL|]. split; [rewrite HS, Hi; reflexivity|]. intros j. now rewrite HS. }
      destruct (Hrest (b_lo s') (b_up s') s' eq_refl eq_refl eq_refl eq_refl) as [R1 R2]. split; [exact R1|]. split; [exact R2|].
      change (b_ones s') with (b_ones s). clearbody s'.
      replace (cnt is_inc (upd locs t (CCount (CErase i) p))) with (cnt is_inc locs) by (clear - C1; lia).
      replace (cnt is_dec (upd locs t (CCount (CErase i) p))) with (1 + cnt is_dec locs)%nat by (clear - C2; lia).
      rewrite Hc, Hlen. f_equal. clear. lia.
  - cbn [loc_ok] in Hok. destruct Hok as [Ho [Hp Hv]]. injection E as <- <- <-.
    pose proof (cnt_upd is_inc locs t _ (CRet o true p) Et) as C1. pose proof (cnt_upd is_dec locs t _ (CRet o true p) Et) as C2.
    cbn [map app].
    set (s' := mkbs (b_lo s) (b_up s) (b_words s) _). unfold cbI. cbn [c_sh c_loc].
    split; [exact W|]. split; [exists S; split; [exact HL|exact HS]|]. split.
    { intros u lu Hu. destruct (Nat.eq_dec u t) as [->|Hut].
      - rewrite nth_error_upd_eq in Hu by (eapply nth_error_lt; eassumption). injection Hu as <-. split; [exact Hp|exact Ht].
      - rewrite nth_error_upd_neq in Hu by congruence. apply (Hl u lu Hu). }
    split.
    { intros u Hu. destruct (Nat.eq_dec u t) as [->|Hut].
      - rewrite nth_error_upd_eq in Hu by (eapply nth_error_lt; eassumption). discriminate.
      - rewrite nth_error_upd_neq in Hu by congruence. auto. }
    change (elems s') with (elems s).
    match goal with s' := mkbs _ _ _ ?x |- _ => change (b_ones s') with x end. clear s'. rewrite wrap_idem.
    destruct o as [i|i|i]; [| |contradiction]; cbn [is_inc is_dec] in *.
    + replace (cnt is_dec (upd locs t (CRet (CInsert i) true p))) with (cnt is_dec locs) by (clear - C2; lia). rewrite <- Hc. f_equal. clear - C1. lia.
    + replace (cnt is_inc (upd locs t (CRet (CErase i) true p))) with (cnt is_inc locs) by (clear - C1; lia).
      apply (wrap_add_cancel _ _ 1). transitivity (wrap 64 (b_ones s + (2 ^ 64 - 1) + N.of_nat (cnt is_inc locs) + 1)); [f_equal; clear; lia|].
      rewrite wrap_period, Hc. f_equal. clear - C2. lia.
  - injection E as <- <- <-. qs; [now left|]. cbn [map app stage_of] in *. now constructor.
Qed.

Lemma cb_inv_start s progs : bs_wf s -> counted s -> (forall p, In p progs -> Forall (cop_ok (b_lo s) (b_up s)) p) ->
  cbI (has s) (cb_start s progs) [].
Proof.
  intros W Hc Hp. unfold cbI, cb_start. cbn [c_sh c_loc lins]. split; [exact W|]. split; [exists (has s); split; [constructor|reflexivity]|].
  split.
  { intros t l Hl. apply nth_error_In, in_map_iff in Hl. destruct Hl as [p [<- Hin]]. split; [exact (Hp p Hin)|constructor]. }
  split; [constructor|].
  rewrite !cnt_0.
  - now rewrite Hc.
  - intros x Hx. apply in_map_iff in Hx. destruct Hx as [p [<- _]]. reflexivity.
  - intros x Hx. apply in_map_iff in Hx. destruct Hx as [p [<- _]]. reflexivity.
Qed.

Lemma cb_inv s progs c tr : bs_wf s -> counted s -> (forall p, In p progs -> Forall (cop_ok (b_lo s) (b_up s)) p) ->
  exec cb_step (cb_start s progs) c tr -> cbI (has s) c tr.
Proof.
  intros W Hc Hp. apply exec_inv; [now apply cb_inv_start|]. intros c' tr' t l sh' l' evs _ HI. now apply cb_inv_step.
Qed.

Lemma cb_safe_loc S0 s locs tr t l : cbI S0 (mkc s locs) tr -> nth_error locs t = Some l -> cb_step s l <> Bad.
Proof.
  intros [W [_ [Hl _]]] Et. cbn [c_sh c_loc] in *. destruct (Hl t l Et) as [Hok _].
  assert (T : forall o v p, cb_test s o v p <> Bad).
  { intros o v p. unfold cb_test. destruct o; [| |discriminate]; destruct (negb _); discriminate. }
  destruct l as [[|o p]|o p|o v p|o p|o r p]; cbn [cb_step]; try discriminate.
  - destruct Hok as [Ho _]. destruct o as [i|i|i].
    + destruct (wf_read s i W) as [v [Er _]]; [apply Ho|apply Ho|]. cbn [cb_idx]. rewrite Er. apply T.
    + destruct (wf_read s i W) as [v [Er _]]; [apply Ho|apply Ho|]. cbn [cb_idx]. rewrite Er. apply T.
    + destruct ((b_lo s <=? i) && (i <? b_up s)) eqn:Eb; [|discriminate].
      apply andb_true_iff in Eb. destruct Eb as [B1 B2]. apply N.leb_le in B1. apply N.ltb_lt in B2.
      destruct (wf_read s i W B1 B2) as [v [Er _]]. rewrite Er. apply T.
  - destruct Hok as [Ho [_ Hv]]. destruct o as [i|i|i]; [| |contradiction];
      (destruct (wf_read s i W) as [cur [Er _]]; [apply Ho|apply Ho|]; cbn [cb_idx]; rewrite Er; destruct (cur =? v); [discriminate|apply T]).
Qed.
