(** Vocabulary for the statements about Concurrent_Bit_Set, and the lemmas in that form. *)
From Verif Require Import Outcome ListUtil WordsModel WordsProofs BitSetModel BitSetProofs BitSetSpec Conc ConcBitSetModel ConcBitSetProofs.
Local Open Scope N_scope.

(** The calls passed by the programs: inserts and erases within the bounds. *)
Definition progs_ok (s : bitset) (progs : list (list cbop)) : Prop :=
  forall p o, In p progs -> In o p -> match o with CInsert i | CErase i => b_lo s <= i < b_up s | CContains _ => True end.
(** No thread is inside a call. *)
Definition resting (c : config bitset cbloc) : Prop := forall l, In l (c_loc c) -> exists p, l = CIdle p.
(** Every thread has made all its calls. *)
Definition finished (c : config bitset cbloc) : Prop := forall l, In l (c_loc c) -> l = CIdle [].
(** A set of indices and the members of [s]. *)
Definition same_set (S : N -> bool) (s : bitset) : Prop := forall i, S i = true <-> mem s i.

Definition ins_ok (i : N) (o : cbop) (r : bool) : bool := match o with CInsert j => (j =? i) && r | _ => false end.
Definition era_ok (i : N) (o : cbop) (r : bool) : bool := match o with CErase j => (j =? i) && r | _ => false end.
Definition ins_any (i : N) (o : cbop) (r : bool) : bool := match o with CInsert j => (j =? i) | _ => false end.
Definition b2 (b : bool) : nat := if b then 1%nat else 0%nat.

Lemma progs_forall s progs : progs_ok s progs -> forall p, In p progs -> Forall (cop_ok (b_lo s) (b_up s)) p.
Proof. intros H p Hp. apply Forall_forall. intros o Ho. specialize (H p o Hp Ho). destruct o; exact H. Qed.

Lemma same_set_has S s : bs_wf s -> same_set S s -> forall i, S i = has s i.
Proof. intros W H i. apply eq_true_iff_eq. rewrite (H i). now apply mem_has. Qed.

Lemma legal_ext S S' l T : (forall i, S i = S' i) -> legal cbspec S l T -> exists T', legal cbspec S' l T' /\ forall i, T i = T' i.
Proof.
  intros He. induction 1 as [|l T o r T1 Hl [T' [Hl' He']] Hs]; [exists S'; split; [constructor|exact He]|].
  exists T1. split; [|reflexivity]. econstructor; [exact Hl'|].
  destruct o; destruct Hs as [-> Hj]; (split; [rewrite He'; reflexivity|]); intros j; rewrite Hj, He'; reflexivity.
Qed.

Section R.
Variables (s : bitset) (S0 : N -> bool) (progs : list (list cbop)).
Hypothesis Hm : made s.
Hypothesis He : exact s.
Hypothesis HS : same_set S0 s.
Hypothesis Hp : progs_ok s progs.

Lemma inv_of c tr : exec cb_step (cb_start s progs) c tr -> cbI (has s) c tr.
Proof. intros H. pose proof (made_wf s Hm) as W. apply (cb_inv s progs); auto; [now apply exact_counted|now apply progs_forall]. Qed.

Lemma cb_linearizable c tr : exec cb_step (cb_start s progs) c tr -> linearizable cbspec S0 (observed tr).
Proof.
  intros H. destruct (inv_of c tr H) as [W [[S [HL _]] [Hl [Hn _]]]].
  destruct (legal_ext _ S0 _ _ (fun i => eq_sym (same_set_has S0 s (made_wf s Hm) HS i)) HL) as [T' [HL' _]].
  exists tr, T'. split; [reflexivity|]. split; [exact HL'|]. intros t.
  destruct (nth_error (c_loc c) t) as [l|] eqn:E; [exists (stage_of l); apply (Hl t l E)|exists Out; apply Hn, E].
Qed.

Lemma cb_safe : safe cb_step (cb_start s progs).
Proof. intros [sh locs] tr t l H E. apply (cb_safe_loc (has s) sh locs tr t l (inv_of _ _ H) E). Qed.

Lemma cnt_small {A} (f : A -> bool) l : (forall x, In x l -> f x = false) -> N.of_nat (cnt f l) = 0.
Proof. intros H. now rewrite cnt_0. Qed.

Lemma cb_ones c tr : exec cb_step (cb_start s progs) c tr -> resting c -> exact (c_sh c).
Proof.
  intros H Hr. destruct (inv_of c tr H) as [W [_ [_ [_ Hc]]]]. apply exact_counted; [exact W|]. unfold counted.
  rewrite !cnt_small in Hc by (intros x Hx; destruct (Hr x Hx) as [p ->]; reflexivity). rewrite !N.add_0_r in Hc.
  rewrite (wrap_id 64 (N.of_nat _)) in Hc.
  2:{ pose proof (elems_small (c_sh c) W). assert (b_up (c_sh c) <= 2 ^ 32) by apply W. clear - H0 H1. lia. }
  assert (Ho : b_ones (c_sh c) < 2 ^ 64).
  { clear - H Hm He HS Hp W. 
    assert (G : b_ones (c_sh c) < 2 ^ 64); [|exact G]. revert W. pattern c, tr. apply (exec_inv _ _ _ cb_step (cb_start s progs)); [| |exact H].
    - intros W. cbn [c_sh cb_start] in *. pose proof (made_wf s Hm) as Ws. rewrite exact_counted in He by exact Ws. rewrite He.
      pose proof (elems_small s Ws). assert (b_up s <= 2 ^ 32) by apply Ws. clear - H0 H1. lia.
    - intros c1 tr1 t l sh' l' evs He1 IH Et Es W1. cbn [c_sh].
      assert (Wc : bs_wf (c_sh c1)) by apply (inv_of c1 tr1 He1). specialize (IH Wc).
      assert (T : forall o v p, cb_test (c_sh c1) o v p = Step sh' l' evs -> sh' = c_sh c1).
      { intros o v p E. unfold cb_test in E. destruct o; [| |congruence]; destruct (negb _); congruence. }
      destruct l as [[|o p]|o p|o v p|o p|o r p]; cbn [cb_step] in Es.
      + discriminate.
      + injection Es as <- _ _. exact IH.
      + assert (sh' = c_sh c1); [|congruence]. destruct o.
        * destruct (rd _ _); [eapply T; exact Es|discriminate].
        * destruct (rd _ _); [eapply T; exact Es|discriminate].
        * destruct (_ && _); [|congruence]. destruct (rd _ _); [eapply T; exact Es|discriminate].
      + destruct (rd _ _) as [cur|]; [|discriminate]. destruct (cur =? v); [injection Es as <- _ _; exact IH|]. rewrite (T _ _ _ Es). exact IH.
      + injection Es as <- _ _. cbn [b_ones]. unfold wrap. apply N.mod_lt. discriminate.
      + injection Es as <- _ _. exact IH. }
  rewrite wrap_id in Hc by exact Ho. exact Hc.
Qed.

Lemma legal_balance i l S T : legal cbspec S l T ->
  (count_lin (ins_ok i) l + b2 (S i) = count_lin (era_ok i) l + b2 (T i))%nat.
Proof.
  unfold count_lin. induction 1 as [|l T o r T' Hl IH Hs]; [cbn; lia|]. cbn [filter fst snd]. destruct o as [j|j|j]; cbn [ins_ok era_ok].
  - destruct Hs as [-> Hj]. rewrite Hj. rewrite (N.eqb_sym j i). destruct (N.eqb_spec i j) as [->|]; cbn [andb orb]; [|exact IH].
    destruct (T j); cbn [negb b2 length] in *; lia.
  - destruct Hs as [-> Hj]. rewrite Hj. rewrite (N.eqb_sym j i). destruct (N.eqb_spec i j) as [->|]; cbn [andb negb]; [|exact IH].
    destruct (T j); cbn [b2 length] in *; lia.
  - destruct Hs as [-> Hj]. rewrite Hj. exact IH.
Qed.

Lemma legal_inserted i l S T : legal cbspec S l T -> count_lin (era_ok i) l = 0%nat -> (0 < count_lin (ins_any i) l)%nat -> T i = true.
Proof.
  unfold count_lin. induction 1 as [|l T o r T' Hl IH Hs]; [cbn; lia|]. cbn [filter fst snd]. destruct o as [j|j|j]; cbn [ins_any era_ok].
  - destruct Hs as [-> Hj]. rewrite Hj. rewrite (N.eqb_sym j i). destruct (N.eqb_spec i j) as [->|]; [reflexivity|exact IH].
  - destruct Hs as [-> Hj]. rewrite Hj. rewrite (N.eqb_sym j i). destruct (N.eqb_spec i j) as [->|]; cbn [andb negb].
    + destruct (T j) eqn:E; [cbn [length]; lia|]. intros H1 H2. exfalso. specialize (IH H1 H2). congruence.
    + exact IH.
  - destruct Hs as [-> Hj]. rewrite Hj. exact IH.
Qed.

Lemma resting_out c tr : exec cb_step (cb_start s progs) c tr -> resting c -> forall t, tstage t tr Out.
Proof.
  intros H Hr t. destruct (inv_of c tr H) as [_ [_ [Hl [Hn _]]]].
  destruct (nth_error (c_loc c) t) as [l|] eqn:E; [|now apply Hn]. destruct (Hr l (nth_error_In _ _ E)) as [p ->]. apply (Hl t _ E).
Qed.

Lemma cb_balance c tr i : exec cb_step (cb_start s progs) c tr -> resting c ->
  exists b, bs_contains (c_sh c) i = Val b /\ (count_rsp (ins_ok i) tr + b2 (S0 i) = count_rsp (era_ok i) tr + b2 b)%nat.
Proof.
  intros H Hr. destruct (inv_of c tr H) as [W [[S [HL HSh]] _]]. exists (has (c_sh c) i). split; [apply isSet_has, W|].
  pose proof (resting_out c tr H Hr) as Hq. rewrite <- !(lin_rsp_quiet _ tr Hq). rewrite (same_set_has S0 s (made_wf s Hm) HS), <- HSh.
  now apply legal_balance.
Qed.

Lemma cb_one_winner c tr i : exec cb_step (cb_start s progs) c tr -> resting c -> S0 i = false ->
  count_rsp (era_ok i) tr = 0%nat -> (0 < count_rsp (ins_any i) tr)%nat ->
  count_rsp (ins_ok i) tr = 1%nat /\ mem (c_sh c) i.
Proof.
  intros H Hr H0 Hno Hin. destruct (inv_of c tr H) as [W [[S [HL HSh]] _]].
  pose proof (resting_out c tr H Hr) as Hq. rewrite <- (lin_rsp_quiet _ tr Hq) in Hno. rewrite <- (lin_rsp_quiet _ tr Hq) in Hin. rewrite <- (lin_rsp_quiet _ tr Hq).
  pose proof (legal_inserted i _ _ _ HL Hno Hin) as HT. pose proof (legal_balance i _ _ _ HL) as Hb.
  rewrite <- (same_set_has S0 s (made_wf s Hm) HS), H0, HT, Hno in Hb. cbn [b2] in Hb. split; [lia|].
  apply mem_has; [exact W|]. now rewrite <- HSh.
Qed.

(** *** no infinite executions *)
Definition stale (sh : bitset) (o : cbop) (v : N) : nat :=
  match rd (b_words sh) (bs_block sh (cb_idx o)) with Some cur => if cur =? v then 0%nat else 1%nat | None => 0%nat end.
Definition wgt (n : nat) (sh : bitset) (l : cbloc) : nat :=
  match l with
  | CIdle p => length p * (n + 8)
  | CEntry o p => length p * (n + 8) + (n + 6)
  | CLoop o v p => length p * (n + 8) + (n + 4) + stale sh o v
  | CCount o p => length p * (n + 8) + 3
  | CRet o r p => length p * (n + 8) + 2
  end%nat.
Lemma stale_le sh o v : (stale sh o v <= 1)%nat.
Proof. unfold stale. destruct (rd _ _); [destruct (_ =? _)|]; lia. Qed.

Lemma wgt_test n sh o v p sh' l' evs : rd (b_words sh) (bs_block sh (cb_idx o)) = Some v -> cb_test sh o v p = Step sh' l' evs ->
  sh' = sh /\ (wgt n sh' l' <= length p * (n + 8) + (n + 4))%nat.
Proof.
  intros Hr E. assert (Z : stale sh o v = 0%nat) by (unfold stale; now rewrite Hr, N.eqb_refl).
  unfold cb_test in E. destruct o as [i|i|i]; [destruct (negb _)|destruct (negb _)|]; injection E as <- <- _; (split; [reflexivity|]); cbn [wgt]; lia.
Qed.

Lemma wgt_sh n sh sh' l : (wgt n sh' l <= wgt n sh l + 1)%nat.
Proof. destruct l; cbn [wgt]; try lia. pose proof (stale_le sh' o val). lia. Qed.

Lemma cb_terminates : terminates cb_step (cb_start s progs).
Proof.
  apply (terminates_measure _ _ _ cb_step (fun c => length (c_loc c) = length progs)
           (fun c => list_sum (map (wgt (length progs) (c_sh c)) (c_loc c)))).
  - cbn [cb_start c_loc]. apply map_length.
  - intros [sh locs] c' Hn (t & l & sh' & l' & evs & Et & Es & ->). cbn [c_sh c_loc] in *. split; [rewrite upd_length; exact Hn|].
    set (n := length progs) in *. clearbody n.
    assert (Q : forall k, sh' = sh -> (wgt n sh l' <= k)%nat -> (k < wgt n sh l)%nat ->
      (list_sum (map (wgt n sh') (upd locs t l')) < list_sum (map (wgt n sh) locs))%nat).
    { intros k -> H1 H2. pose proof (sum_upd_same (wgt n sh) locs t l l' Et). lia. }
    assert (P : (wgt n sh' l' + n < wgt n sh l + 1)%nat ->
      (list_sum (map (wgt n sh') (upd locs t l')) < list_sum (map (wgt n sh) locs))%nat).
    { intros HP. pose proof (sum_upd (wgt n sh) (wgt n sh') locs t l l' Et (fun z _ => wgt_sh n sh sh' z)).
      assert (t < length locs)%nat by (eapply nth_error_lt; eassumption). lia. }
    destruct l as [[|o p]|o p|o v p|o p|o r p]; cbn [cb_step] in Es.
    + discriminate.
    + injection Es as <- <- <-. eapply Q; [reflexivity|apply le_n|]. cbn [wgt length]. lia.
    + destruct o as [i|i|i].
      * destruct (rd _ _) as [v|] eqn:Er; [|discriminate]. destruct (wgt_test n _ _ _ _ _ _ _ Er Es) as [-> Hw]. eapply Q; [reflexivity|exact Hw|]. cbn [wgt]. lia.
      * destruct (rd _ _) as [v|] eqn:Er; [|discriminate]. destruct (wgt_test n _ _ _ _ _ _ _ Er Es) as [-> Hw]. eapply Q; [reflexivity|exact Hw|]. cbn [wgt]. lia.
      * destruct (_ && _); [|injection Es as <- <- <-; eapply Q; [reflexivity|apply le_n|]; cbn [wgt]; lia].
        destruct (rd _ _) as [v|] eqn:Er; [|discriminate]. destruct (wgt_test n _ (CContains i) _ _ _ _ _ Er Es) as [-> Hw]. eapply Q; [reflexivity|exact Hw|]. cbn [wgt]. lia.
    + destruct (rd _ _) as [cur|] eqn:Er; [|discriminate]. destruct (cur =? v) eqn:Ec.
      * injection Es as <- <- <-. apply P. cbn [wgt]. lia.
      * destruct (wgt_test n _ _ _ _ _ _ _ Er Es) as [-> Hw]. eapply Q; [reflexivity|exact Hw|]. cbn [wgt]. unfold stale. rewrite Er, Ec. lia.
    + injection Es as <- <- <-. set (sh' := mkbs _ _ _ _) in *. change (map (wgt n sh') (upd locs t (CRet o true p))) with (map (wgt n sh) (upd locs t (CRet o true p))).
      pose proof (sum_upd_same (wgt n sh) locs t _ (CRet o true p) Et) as Hs. cbn [wgt] in Hs. lia.
    + injection Es as <- <- <-. eapply Q; [reflexivity|apply le_n|]. cbn [wgt]. lia.
Qed.
End R.
