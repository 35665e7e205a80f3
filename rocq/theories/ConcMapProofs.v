(** Concurrent_LP_Map and Concurrent_LP_MultiMap: the part of the invariant that concerns keys. *)
From Coq Require Import Permutation.
From Verif Require Import Outcome ListUtil WordsModel WordsProofs LPSetModel ProbeTheory LPMapModel Conc ConcProbe ConcMapModel.
Local Open Scope nat_scope.

(** The first [j] cells of the probe sequence are occupied. *)
Definition passed (arr : list N) (h j : nat) : Prop :=
  forall i, i < j -> exists c, nth_error arr (slot (length arr) h i) = Some c /\ c <> 0%N.
Lemma passed_0 arr h : passed arr h 0. Proof. intros i Hi. lia. Qed.
Lemma passed_S arr h j c : passed arr h j -> nth_error arr (slot (length arr) h j) = Some c -> c <> 0%N -> passed arr h (S j).
Proof. intros H Hc H0 i Hi. destruct (Nat.eq_dec i j) as [->|]; [exists c; auto|]. apply H. lia. Qed.
Lemma passed_upd arr h j p x : passed arr h j -> nth_error arr p = Some 0%N -> passed (upd arr p x) h j.
Proof.
  intros H Hp i Hi. rewrite upd_length. destruct (H i Hi) as [c [Hc H0]]. exists c. split; [|auto].
  rewrite nth_error_upd_neq; [exact Hc|]. intros ->. congruence.
Qed.
Lemma walked_passed arr k h j : walked arr k h j -> passed arr h j.
Proof. intros H i Hi. destruct (H i Hi) as [c [Hc [H0 _]]]. eauto. Qed.
Lemma passed_lt arr h j : length arr <> 0 -> passed arr h j -> nth_error arr (slot (length arr) h j) = Some 0%N -> j < length arr.
Proof.
  intros Hn H H0. destruct (Nat.lt_ge_cases j (length arr)) as [|Hge]; [assumption|exfalso].
  destruct (H (j mod length arr)) as [c [Hc Hz]]; [pose proof (Nat.mod_upper_bound j (length arr) Hn); lia|].
  rewrite slot_mod in Hc by exact Hn. congruence.
Qed.
Lemma passed_all arr h : h < length arr -> passed arr h (length arr) -> length (keys_of arr) = length arr.
Proof.
  intros Hh H. apply keys_of_full. intros c Hin. apply In_nth_error in Hin. destruct Hin as [p Hp].
  destruct (slot_surj (length arr) h p) as [j [Hj Hs]]; [eapply nth_error_lt; eassumption|exact Hh|].
  destruct (H j Hj) as [c' [Hc' G]]. rewrite Hs, Hp in Hc'. injection Hc' as <-. exact G.
Qed.
Lemma chained_place home arr key j : chained home arr -> key <> 0%N -> j < length arr -> passed arr (home key) j ->
  nth_error arr (slot (length arr) (home key) j) = Some 0%N -> chained home (upd arr (slot (length arr) (home key) j) key).
Proof.
  intros HC Hk Hj Hpass Hfree p k Hp Hkz. rewrite upd_length.
  set (q := slot (length arr) (home key) j) in *.
  assert (Hq : q < length arr) by (eapply nth_error_lt; eassumption).
  assert (Hocc : forall x c, nth_error arr x = Some c -> c <> 0%N ->
             exists c', nth_error (upd arr q key) x = Some c' /\ c' <> 0%N).
  { intros x c Hx Hc. rewrite nth_error_upd. destruct (Nat.eqb_spec q x) as [<-|Hqx].
    - exists key. destruct (Nat.ltb_spec q (length arr)); [auto|lia].
    - exists c. auto. }
  rewrite nth_error_upd in Hp. destruct (Nat.eqb_spec q p) as [E|Hqp].
  - destruct (Nat.ltb_spec q (length arr)); [|discriminate]. injection Hp as <-.
    exists j. split; [exact Hj|]. split; [symmetry; exact E|].
    intros i Hi. destruct (Hpass i Hi) as [c [Hc Hcz]]. eapply Hocc; eassumption.
  - destruct (HC p k Hp Hkz) as [j0 [Hj0 [E Hch]]]. exists j0. split; [exact Hj0|]. split; [exact E|].
    intros i Hi. destruct (Hch i Hi) as [c [Hc Hcz]]. eapply Hocc; eassumption.
Qed.

Definition cm_stg (l : cmloc) : stage cmop cmret :=
  match l with
  | MIdle _ => Out
  | MEntry o _ | MProbe o _ _ _ | MCas o _ _ _ | MRead o _ _ => Called o
  | MSet o _ _ b _ => Done o (RB b)
  | MCnt o _ _ _ => Done o (RB true)
  | MRet o r _ => Done o r
  end.
(** A thread that has placed a key and not yet counted it. *)
Definition uncounted (l : cmloc) : bool := match l with MSet _ _ _ true _ | MCnt _ _ _ _ => true | _ => false end.
Definition is_put (o : cmop) : bool := match o with KIns _ _ | KPut _ _ => true | _ => false end.

Section W.
Variable w : N.
Hypothesis Hw : (w <= 64)%N.
Variable mm : bool.
Variables (n : nat) (a : N).
Hypothesis Hn : pow2cap w n.
Notation hm := (home w a n).

(** The calls considered: insert and get on a map; insert, _insert and contains on a multimap. *)
Definition op_ok (o : cmop) : Prop :=
  cm_key o <> 0%N /\ match o with KIns _ _ => True | KPut _ _ | KHas _ => mm = true | KGet _ => mm = false end.
Definition ops_ok (p : list cmop) : Prop := forall o, In o p -> op_ok o.
Definition seen (arr : list N) (o : cmop) (j : nat) : Prop :=
  if mm && is_put o then passed arr (hm (cm_key o)) j else walked arr (cm_key o) (hm (cm_key o)) j.
Definition cm_loc_ok (arr : list N) (l : cmloc) : Prop :=
  match l with
  | MIdle p => ops_ok p
  | MEntry o p => ops_ok (o :: p)
  | MProbe o i j p => ops_ok (o :: p) /\ i = N.of_nat (slot n (hm (cm_key o)) j) /\ seen arr o j
  | MCas o i j p => ops_ok (o :: p) /\ i = N.of_nat (slot n (hm (cm_key o)) j) /\ seen arr o j /\ is_put o = true
  | MSet o i j b p => ops_ok (o :: p) /\ nth_error arr (N.to_nat i) = Some (cm_key o) /\ is_put o = true /\ (b = true \/ mm = false)
  | MCnt o i j p => ops_ok (o :: p) /\ nth_error arr (N.to_nat i) = Some (cm_key o) /\ is_put o = true
  | MRead o i p => ops_ok (o :: p) /\ nth_error arr (N.to_nat i) = Some (cm_key o) /\ exists k, o = KGet k
  | MRet o r p => ops_ok (o :: p)
  end.
Definition cmI (c : config lpmap cmloc) (tr : list (nat * ev cmop cmret)) : Prop :=
  let s := c_sh c in
  length (m_keys s) = n /\ length (m_vals s) = n /\ m_mult s = a /\ chained hm (m_keys s) /\ (mm = false -> uniq (m_keys s)) /\
  thr_ok (cm_loc_ok (m_keys s)) cm_stg (c_loc c) tr /\
  m_items s + cnt uncounted (c_loc c) = length (keys_of (m_keys s)).

Lemma cm_n_pos : n <> 0. Proof. exact (pow2cap_pos w Hw n Hn). Qed.

Lemma seen_passed arr o j : seen arr o j -> passed arr (hm (cm_key o)) j.
Proof. unfold seen. destruct (_ && _); [auto|apply walked_passed]. Qed.
Lemma seen_0 arr o : seen arr o 0.
Proof. unfold seen. destruct (_ && _); [apply passed_0|apply walked_0]. Qed.
Lemma seen_upd arr o j p x : seen arr o j -> nth_error arr p = Some 0%N -> seen (upd arr p x) o j.
Proof. unfold seen. destruct (_ && _); [apply passed_upd|apply walked_upd]. Qed.
Lemma seen_S arr o j c : length arr = n -> seen arr o j -> nth_error arr (slot n (hm (cm_key o)) j) = Some c -> c <> 0%N ->
  (mm && is_put o = false -> c <> cm_key o) -> seen arr o (S j).
Proof.
  unfold seen. intros HL. destruct (_ && _).
  - intros. eapply passed_S; [eassumption|rewrite HL; eassumption|assumption].
  - intros. eapply walked_S; [eassumption|rewrite HL; eassumption|assumption|auto].
Qed.

Lemma loc_ok_upd arr p k l : nth_error arr p = Some 0%N -> cm_loc_ok arr l -> cm_loc_ok (upd arr p k) l.
Proof.
  intros Hp. assert (Hst : forall i c, nth_error arr i = Some c -> c <> 0%N -> nth_error (upd arr p k) i = Some c).
  { intros i c Hi Hc. rewrite nth_error_upd_neq; [exact Hi|]. intros ->. congruence. }
  destruct l; cbn [cm_loc_ok]; auto.
  - intros [A [B C]]. split; [exact A|]. split; [exact B|]. now apply seen_upd.
  - intros [A [B [C D]]]. split; [exact A|]. split; [exact B|]. split; [now apply seen_upd|exact D].
  - intros [A [B C]]. split; [exact A|]. split; [|exact C]. apply Hst; [exact B|]. apply A. now left.
  - intros [A [B C]]. split; [exact A|]. split; [|exact C]. apply Hst; [exact B|]. apply A. now left.
  - intros [A [B C]]. split; [exact A|]. split; [|exact C]. apply Hst; [exact B|]. apply A. now left.
Qed.

(** A step that leaves the keys alone. *)
Lemma cm_quiet s s' locs tr t l l' evs :
  cmI (mkc s locs) tr -> nth_error locs t = Some l -> m_keys s' = m_keys s -> length (m_vals s') = length (m_vals s) -> m_mult s' = m_mult s ->
  cm_loc_ok (m_keys s) l' -> m_items s' + Nat.b2n (uncounted l') = m_items s + Nat.b2n (uncounted l) ->
  tstage t (map (fun e => (t, e)) evs ++ tr) (cm_stg l') ->
  cmI (mkc s' (upd locs t l')) (map (fun e => (t, e)) evs ++ tr).
Proof.
  intros [H1 [H2 [H3 [HC [HU [Ht Hc]]]]]] Et Ek Ev Em Hok Hcl Hst. cbn [c_sh c_loc] in *. unfold cmI. cbn [c_sh c_loc]. rewrite Ek, Ev, Em.
  repeat (split; [assumption|]). split; [eapply thr_step; eauto|].
  pose proof (cnt_upd uncounted locs t l l' Et) as C. unfold Nat.b2n in Hcl. destruct (uncounted l), (uncounted l'); lia.
Qed.

Lemma cm_head_ok s locs tr t l o idx p j sh' l' evs :
  cmI (mkc s locs) tr -> nth_error locs t = Some l -> cm_stg l = Called o -> uncounted l = false -> ops_ok (o :: p) ->
  mask w n idx = N.of_nat (slot n (hm (cm_key o)) j) -> seen (m_keys s) o j ->
  cm_head w s o idx j p = Step sh' l' evs ->
  cmI (mkc sh' (upd locs t l')) (map (fun e => (t, e)) evs ++ tr).
Proof.
  intros HI Et Hst Hcl Hk Hm Hwk E. pose proof HI as [H1 [_ [_ [_ [_ [Ht _]]]]]]. cbn [c_sh c_loc] in *.
  destruct (thr_get _ _ _ _ _ _ Ht Et) as [_ Hs]. rewrite Hst in Hs. unfold cm_head in E. injection E as <- <- <-.
  eapply cm_quiet; eauto.
  - cbn [cm_loc_ok]. rewrite H1. auto.
  - rewrite Hcl. reflexivity.
Qed.

Lemma cm_next_ok s locs tr t l o i p j c sh' l' evs :
  cmI (mkc s locs) tr -> nth_error locs t = Some l -> cm_stg l = Called o -> uncounted l = false -> ops_ok (o :: p) ->
  i = N.of_nat (slot n (hm (cm_key o)) j) -> seen (m_keys s) o j ->
  nth_error (m_keys s) (N.to_nat i) = Some c -> c <> 0%N -> (mm && is_put o = false -> c <> cm_key o) ->
  cm_next w s o i j p = Step sh' l' evs ->
  cmI (mkc sh' (upd locs t l')) (map (fun e => (t, e)) evs ++ tr).
Proof.
  intros HI Et Hst Hcl Hk -> Hwk Hc H0 Hck E. pose proof HI as [H1 _]. cbn [c_sh c_loc] in *. unfold cm_next in E.
  eapply (cm_head_ok s locs tr t l o _ p (S j)); eauto.
  - apply mask_step; assumption.
  - rewrite Nat2N.id in Hc. eapply seen_S; eassumption.
Qed.

Lemma ops_tl o p : ops_ok (o :: p) -> ops_ok p. Proof. intros H x Hx. apply H. now right. Qed.

Lemma cm_done_ok s s' locs tr t l o i j b p sh' l' evs :
  cmI (mkc s locs) tr -> nth_error locs t = Some l -> cm_stg l = Done o (RB b) -> ops_ok (o :: p) ->
  m_keys s' = m_keys s -> length (m_vals s') = length (m_vals s) -> m_mult s' = m_mult s ->
  m_items s' = m_items s + Nat.b2n (uncounted l) ->
  cm_done w mm s' o i j b p = Step sh' l' evs -> sh' = s' /\ l' = MRet o (RB b) p /\ evs = [] /\
  cmI (mkc sh' (upd locs t l')) (map (fun e => (t, e)) evs ++ tr).
Proof.
  intros HI Et Hst Hk Ek Ev Em Hi E. pose proof HI as [_ [_ [_ [_ [_ [Ht _]]]]]]. cbn [c_sh c_loc] in *.
  destruct (thr_get _ _ _ _ _ _ Ht Et) as [_ Hs]. rewrite Hst in Hs.
  assert (G : Step s' (MRet o (RB b) p) [] = Step sh' l' evs).
  { unfold cm_done in E. destruct o as [k v|k v|k|k]; try exact E. destruct (Hk (KPut k v)) as [_ Hmm]; [now left|]. rewrite Hmm in E. exact E. }
  injection G as <- <- <-. repeat (split; [reflexivity|]).
  eapply cm_quiet; eauto. cbn [uncounted Nat.b2n]. lia.
Qed.

Lemma cm_inv_step c tr t l sh' l' evs : cmI c tr -> nth_error (c_loc c) t = Some l -> cm_step w mm (c_sh c) l = Step sh' l' evs ->
  cmI (mkc sh' (upd (c_loc c) t l')) (map (fun e => (t, e)) evs ++ tr).
Proof.
  destruct c as [s locs]. cbn [c_sh c_loc]. intros HI Et E. pose proof HI as [H1 [H2 [H3 [HC [HU [Ht Hc]]]]]]. cbn [c_sh c_loc] in *.
  destruct (thr_get _ _ _ _ _ _ Ht Et) as [Hok Hs].
  destruct l as [p|o p|o i j p|o i j p|o i j b p|o i j p|o i p|o r p]; cbn [cm_step] in E.
  - destruct p as [|o p]; [discriminate|]. injection E as <- <- <-. eapply cm_quiet; eauto. cbn [map app cm_stg] in *. now constructor.
  - assert (Hhead : cm_head w s o (hash w (m_mult s) (cm_key o)) 0 p = Step sh' l' evs -> cmI (mkc sh' (upd locs t l')) (map (fun e => (t, e)) evs ++ tr)).
    { intros E'. eapply (cm_head_ok s locs tr t _ o _ p 0); eauto; [|apply seen_0]. rewrite H3. apply mask_home; assumption. }
    destruct o as [k v|k v|k|k]; auto. destruct (Nat.leb _ _); auto.
    injection E as <- <- <-. eapply cm_quiet; eauto. cbn [map app cm_stg] in *. now constructor.
  - cbn [cm_loc_ok] in Hok. destruct Hok as [Hk [Ei Hsn]].
    destruct (nth_error (m_keys s) (N.to_nat i)) as [c|] eqn:Ec; [|discriminate].
    destruct o as [k v|k v|k|k]; cbn [cm_key] in *.
    + destruct (negb mm && (c =? k)%N) eqn:Eb.
      * injection E as <- <- <-. apply andb_true_iff in Eb. destruct Eb as [Eb1 Eb2]. apply N.eqb_eq in Eb2. apply negb_true_iff in Eb1. subst c.
        eapply cm_quiet; eauto; [|cbn [map app cm_stg] in *; now constructor]. cbn [cm_loc_ok]. auto.
      * destruct (N.eqb_spec c 0) as [Ec0|Ec0]; cbn [negb] in E.
        -- injection E as <- <- <-. eapply cm_quiet; eauto. cbn [cm_loc_ok cm_key]. auto.
        -- eapply (cm_next_ok s locs tr t _ (KIns k v)); eauto. cbn [is_put cm_key]. intros Em. apply N.eqb_neq. destruct mm; [discriminate|]. exact Eb.
    + destruct (negb mm && (c =? k)%N) eqn:Eb.
      * injection E as <- <- <-. apply andb_true_iff in Eb. destruct Eb as [Eb1 Eb2]. apply N.eqb_eq in Eb2. apply negb_true_iff in Eb1. subst c.
        eapply cm_quiet; eauto; [|cbn [map app cm_stg] in *; now constructor]. cbn [cm_loc_ok]. auto.
      * destruct (N.eqb_spec c 0) as [Ec0|Ec0]; cbn [negb] in E.
        -- injection E as <- <- <-. eapply cm_quiet; eauto. cbn [cm_loc_ok cm_key]. auto.
        -- eapply (cm_next_ok s locs tr t _ (KPut k v)); eauto. cbn [is_put cm_key]. intros Em. apply N.eqb_neq. destruct mm; [discriminate|]. exact Eb.
    + destruct (N.eqb_spec c k) as [Eck|Eck].
      * injection E as <- <- <-. subst c. eapply cm_quiet; eauto. cbn [cm_loc_ok cm_key]. eauto.
      * destruct (N.eqb_spec c 0) as [Ec0|Ec0].
        -- injection E as <- <- <-. eapply cm_quiet; eauto. cbn [map app cm_stg] in *; now constructor.
        -- eapply (cm_next_ok s locs tr t _ (KGet k)); eauto.
    + destruct (N.eqb_spec c k) as [Eck|Eck].
      * injection E as <- <- <-. eapply cm_quiet; eauto. cbn [map app cm_stg] in *; now constructor.
      * destruct (N.eqb_spec c 0) as [Ec0|Ec0].
        -- injection E as <- <- <-. eapply cm_quiet; eauto. cbn [map app cm_stg] in *; now constructor.
        -- eapply (cm_next_ok s locs tr t _ (KHas k)); eauto.
  - cbn [cm_loc_ok] in Hok. destruct Hok as [Hk [Ei [Hsn Hput]]].
    destruct (nth_error (m_keys s) (N.to_nat i)) as [c|] eqn:Ec; [|discriminate].
    assert (Hk0 : cm_key o <> 0%N) by (apply Hk; now left).
    destruct (N.eqb_spec c 0) as [Ec0|Ec0].
    + injection E as <- <- <-. subst c i. rewrite Nat2N.id in *.
      assert (Ef : nth_error (m_keys s) (slot (length (m_keys s)) (hm (cm_key o)) j) = Some 0%N) by (rewrite H1; exact Ec).
      pose proof (seen_passed _ _ _ Hsn) as Hps.
      assert (HjL : j < length (m_keys s)) by (eapply passed_lt; [rewrite H1; apply cm_n_pos|exact Hps|exact Ef]).
      pose proof (chained_place hm (m_keys s) (cm_key o) j HC Hk0 HjL Hps Ef) as HC'.
      assert (HU' : mm = false -> uniq (upd (m_keys s) (slot n (hm (cm_key o)) j) (cm_key o))).
      { intros Em. apply uniq_insert; auto. unfold seen in Hsn. rewrite Em in Hsn. cbn [andb] in Hsn. eapply (walked_absent hm); eauto. }
      rewrite H1 in HC'. clear Ef.
      set (q := slot n (hm (cm_key o)) j) in *. clearbody q.
      unfold cmI. cbn [c_sh c_loc m_keys m_vals m_mult m_items].
      split; [rewrite upd_length; exact H1|]. split; [exact H2|]. split; [exact H3|]. split; [exact HC'|]. split; [exact HU'|].
      split.
      { eapply thr_step; [exact Ht|exact Et| | |cbn [map app cm_stg] in *; now constructor].
        - intros x. now apply loc_ok_upd.
        - cbn [cm_loc_ok]. split; [exact Hk|]. rewrite Nat2N.id. split; [|auto]. apply nth_error_upd_eq. eapply nth_error_lt; exact Ec. }
      rewrite keys_upd_free by assumption. pose proof (cnt_upd uncounted locs t _ (MSet o (N.of_nat q) j true p) Et) as C. cbn [uncounted] in C. lia.
    + destruct (negb mm && (c =? cm_key o)%N) eqn:Eb.
      * injection E as <- <- <-. apply andb_true_iff in Eb. destruct Eb as [Eb1 Eb2]. apply N.eqb_eq in Eb2. apply negb_true_iff in Eb1. rewrite Eb2 in *.
        eapply cm_quiet; eauto; [|cbn [map app cm_stg] in *; now constructor]. cbn [cm_loc_ok]. auto.
      * eapply (cm_next_ok s locs tr t _ o); eauto. rewrite Hput. intros Em. apply N.eqb_neq. destruct mm; [discriminate|]. exact Eb.
  - cbn [cm_loc_ok] in Hok. destruct Hok as [Hk [Hcell [Hput Hb]]].
    destruct (nth_error (m_vals s) (N.to_nat i)) as [ov|] eqn:Ev; [|discriminate]. cbn zeta in E. destruct b.
    + injection E as <- <- <-. eapply cm_quiet; eauto; cbn [m_keys m_vals m_mult m_items]; rewrite ?upd_length; auto. cbn [cm_loc_ok]. auto.
    + eapply (cm_done_ok s _ locs tr t _ o i j false p) in E; eauto; cbn [m_keys m_vals m_mult m_items]; rewrite ?upd_length; auto. apply E.
  - cbn [cm_loc_ok] in Hok. destruct Hok as [Hk [Hcell Hput]].
    eapply (cm_done_ok s _ locs tr t _ o i j true p) in E; eauto; cbn [m_keys m_vals m_mult m_items uncounted Nat.b2n]; try lia. apply E.
  - cbn [cm_loc_ok] in Hok. destruct Hok as [Hk [Hcell Hget]].
    destruct (nth_error (m_vals s) (N.to_nat i)) as [ov|] eqn:Ev; [|discriminate]. injection E as <- <- <-.
    eapply cm_quiet; eauto. cbn [map app cm_stg] in *; now constructor.
  - injection E as <- <- <-. cbn [cm_loc_ok] in Hok. eapply cm_quiet; eauto.
    + cbn [cm_loc_ok]. eapply ops_tl; exact Hok.
    + cbn [map app cm_stg] in *. now constructor.
Qed.

(** No step leaves the arrays. *)
Lemma cm_no_bad c tr t l : cmI c tr -> nth_error (c_loc c) t = Some l -> cm_step w mm (c_sh c) l <> Bad.
Proof.
  destruct c as [s locs]. cbn [c_sh c_loc]. intros [H1 [H2 [_ [_ [_ [Ht _]]]]]] Et. cbn [c_sh c_loc] in *.
  destruct (thr_get _ _ _ _ _ _ Ht Et) as [Hok _]. clear Et Ht. pose proof cm_n_pos as Hn0.
  assert (Hex : forall k j, exists c, nth_error (m_keys s) (N.to_nat (N.of_nat (slot n (hm k) j))) = Some c).
  { intros k j. rewrite Nat2N.id. apply nth_error_ex. rewrite H1. now apply slot_lt. }
  assert (Hv : forall i c, nth_error (m_keys s) i = Some c -> exists v, nth_error (m_vals s) i = Some v).
  { intros i c Hi. apply nth_error_ex. apply nth_error_lt in Hi. lia. }
  destruct l as [[|o p]|o p|o i j p|o i j p|o i j b p|o i j p|o i p|o r p]; cbn [cm_step cm_loc_ok] in *; try discriminate.
  - destruct o; try discriminate. destruct (Nat.leb _ _); discriminate.
  - destruct Hok as [_ [-> _]]. destruct (Hex (cm_key o) j) as [c ->].
    destruct o; repeat match goal with |- context [if ?b then _ else _] => destruct b end; discriminate.
  - destruct Hok as [_ [-> _]]. destruct (Hex (cm_key o) j) as [c ->].
    repeat match goal with |- context [if ?b then _ else _] => destruct b end; discriminate.
  - destruct Hok as [_ [Hcell _]]. destruct (Hv _ _ Hcell) as [v ->]. cbn zeta. unfold cm_done. destruct b, o, mm; discriminate.
  - unfold cm_done. destruct o, mm; discriminate.
  - destruct Hok as [_ [Hcell _]]. destruct (Hv _ _ Hcell) as [v ->]. discriminate.
Qed.

Lemma cm_inv_start s progs : length (m_keys s) = n -> length (m_vals s) = n -> m_mult s = a -> chained hm (m_keys s) -> (mm = false -> uniq (m_keys s)) ->
  m_items s = length (keys_of (m_keys s)) -> (forall p, In p progs -> ops_ok p) -> cmI (cm_start s progs) [].
Proof.
  intros H1 H2 H3 HC HU Hit Hp. unfold cmI, cm_start. cbn [c_sh c_loc]. repeat (split; [assumption|]). split.
  - apply thr_start. intros l Hl. apply in_map_iff in Hl. destruct Hl as [p [<- Hin]]. split; [exact (Hp p Hin)|reflexivity].
  - rewrite cnt_0; [lia|]. intros x Hx. apply in_map_iff in Hx. destruct Hx as [p [<- _]]. reflexivity.
Qed.

Lemma cm_inv c0 c tr : cmI c0 [] -> exec (cm_step w mm) c0 c tr -> cmI c tr.
Proof. intros H0. apply exec_inv; [exact H0|]. intros. eapply cm_inv_step; eassumption. Qed.

(** *** bounded own steps *)
Definition todo_of (l : cmloc) : list cmop :=
  match l with
  | MIdle p => p
  | MEntry o p | MProbe o _ _ p | MCas o _ _ p | MRead o _ p => o :: p
  | MSet _ _ _ _ p | MCnt _ _ _ p | MRet _ _ p => p
  end.
Definition puts_of (p : list cmop) : nat := length (filter is_put p).
Definition room (arr : list N) (locs : list cmloc) : nat := length (keys_of arr) + list_sum (map (fun l => puts_of (todo_of l)) locs).
(** There is room for all inserts still to come, and one more cell if there are lookups to come. *)
Definition roomy (c : config lpmap cmloc) : Prop :=
  room (m_keys (c_sh c)) (c_loc c) <= n /\
  (room (m_keys (c_sh c)) (c_loc c) < n \/ forall l, In l (c_loc c) -> forall o, In o (todo_of l) -> is_put o = true).

Lemma cm_head_todo s o idx j p sh' l' evs : cm_head w s o idx j p = Step sh' l' evs -> sh' = s /\ todo_of l' = o :: p.
Proof. unfold cm_head. intros H; injection H as <- <- <-. auto. Qed.

Lemma step_todo c tr t l sh' l' evs : cmI c tr -> nth_error (c_loc c) t = Some l -> cm_step w mm (c_sh c) l = Step sh' l' evs ->
  (forall o, In o (todo_of l') -> In o (todo_of l)) /\
  length (keys_of (m_keys sh')) + puts_of (todo_of l') <= length (keys_of (m_keys (c_sh c))) + puts_of (todo_of l).
Proof.
  destruct c as [s locs]. cbn [c_sh c_loc]. intros HI Et E. pose proof HI as [H1 [H2 [H3 [HC [HU [Ht Hc]]]]]]. cbn [c_sh c_loc] in *.
  destruct (thr_get _ _ _ _ _ _ Ht Et) as [Hok Hs]. clear Ht Et HI Hs Hc HU HC.
  assert (Hskip : forall o p, puts_of p <= puts_of (o :: p)) by (intros o p; unfold puts_of; cbn [filter]; destruct (is_put o); cbn [length]; lia).
  assert (Hh : forall o idx j p, todo_of l = o :: p -> cm_head w s o idx j p = Step sh' l' evs ->
     (forall o, In o (todo_of l') -> In o (todo_of l)) /\ length (keys_of (m_keys sh')) + puts_of (todo_of l') <= length (keys_of (m_keys s)) + puts_of (todo_of l)).
  { intros o idx j p El E'. apply cm_head_todo in E'. destruct E' as [-> ->]. rewrite El. split; [auto|lia]. }
  destruct l as [[|o p]|o p|o i j p|o i j p|o i j b p|o i j p|o i p|o r p]; cbn [cm_step] in E; try discriminate.
  - injection E as <- <- <-. cbn [todo_of]. auto.
  - destruct o as [k v|k v|k|k]; try (eapply Hh; [reflexivity|exact E]). destruct (Nat.leb _ _); [|eapply Hh; [reflexivity|exact E]].
    injection E as <- <- <-. cbn [todo_of]. split; [auto using in_cons|]. specialize (Hskip (KIns k v) p). lia.
  - destruct (nth_error _ _) as [c|]; [|discriminate].
    destruct o as [k v|k v|k|k]; repeat match type of E with context [if ?b then _ else _] => destruct b end;
     try (eapply Hh; [reflexivity|exact E]); injection E as <- <- <-; cbn [todo_of]; (split; [auto using in_cons|]);
     try lia; apply Nat.add_le_mono_l, Hskip.
  - cbn [cm_loc_ok] in Hok. destruct Hok as [Hk [_ [_ Hput]]].
    assert (Hk0 : cm_key o <> 0%N) by (apply Hk; now left).
    destruct (nth_error _ _) as [c|] eqn:Ec; [|discriminate]. destruct (N.eqb_spec c 0) as [Ec0|Ec0].
    + injection E as <- <- <-. subst c. cbn [todo_of m_keys]. split; [auto using in_cons|]. rewrite keys_upd_free by assumption.
      unfold puts_of. cbn [filter]. rewrite Hput. cbn [length]. lia.
    + destruct (_ && _); [|eapply Hh; [reflexivity|exact E]]. injection E as <- <- <-. cbn [todo_of]. split; [auto using in_cons|].
      specialize (Hskip o p). lia.
  - cbn [cm_loc_ok] in Hok. destruct Hok as [Hk _].
    destruct (nth_error _ _) as [c|] eqn:Ec; [|discriminate]. cbn zeta in E. destruct b; [injection E as <- <- <-; cbn [todo_of m_keys]; auto|].
    unfold cm_done in E. destruct o as [k v|k v|k|k]; try (injection E as <- <- <-; cbn [todo_of m_keys]; now auto).
    destruct (Hk (KPut k v)) as [_ Hmm]; [now left|]. rewrite Hmm in E. injection E as <- <- <-; cbn [todo_of m_keys]; auto.
  - cbn [cm_loc_ok] in Hok. destruct Hok as [Hk _].
    unfold cm_done in E. destruct o as [k v|k v|k|k]; try (injection E as <- <- <-; cbn [todo_of m_keys]; now auto).
    destruct (Hk (KPut k v)) as [_ Hmm]; [now left|]. rewrite Hmm in E. injection E as <- <- <-; cbn [todo_of m_keys]; auto.
  - destruct (nth_error _ _) as [c|] eqn:Ec; [|discriminate]. injection E as <- <- <-. cbn [todo_of]. split; [auto using in_cons|]. apply Nat.add_le_mono_l, Hskip.
  - injection E as <- <- <-. cbn [todo_of]. auto.
Qed.

Lemma In_upd_or {A} (l : list A) i x y : In y (upd l i x) -> y = x \/ In y l.
Proof.
  intros H. apply In_nth_error in H. destruct H as [q Hq]. rewrite nth_error_upd in Hq.
  destruct (Nat.eqb i q); [destruct (Nat.ltb _ _); [left; congruence|discriminate]|right; eapply nth_error_In; exact Hq].
Qed.

Lemma roomy_step c tr t l sh' l' evs : cmI c tr -> roomy c -> nth_error (c_loc c) t = Some l -> cm_step w mm (c_sh c) l = Step sh' l' evs ->
  roomy (mkc sh' (upd (c_loc c) t l')).
Proof.
  intros HI [R1 R2] Et Es. destruct (step_todo c tr t l sh' l' evs HI Et Es) as [Hin Hle].
  unfold roomy, room in *. cbn [c_sh c_loc].
  pose proof (sum_upd_same (fun l => puts_of (todo_of l)) (c_loc c) t l l' Et) as Hs. cbn beta in Hs.
  split; [lia|]. destruct R2 as [R2|R2]; [left; lia|right]. intros x Hx o Ho. apply In_upd_or in Hx. destruct Hx as [->|Hx]; [|eapply R2; eassumption].
  eapply R2; [eapply nth_error_In; exact Et|]. now apply Hin.
Qed.

(** A call under way does not go round the whole table. *)
Lemma seen_bound c tr t l o j : cmI c tr -> roomy c -> nth_error (c_loc c) t = Some l -> (exists p, todo_of l = o :: p) ->
  seen (m_keys (c_sh c)) o j -> j < n.
Proof.
  intros [H1 _] [R1 R2] Et [p Ep] Hs. apply seen_passed in Hs. destruct (Nat.lt_ge_cases j n) as [|Hge]; [assumption|exfalso].
  pose proof cm_n_pos as Hn0.
  assert (Hall : passed (m_keys (c_sh c)) (hm (cm_key o)) (length (m_keys (c_sh c)))) by (intros i Hi; apply Hs; lia).
  apply passed_all in Hall; [|rewrite H1; now apply home_lt]. unfold room in *.
  pose proof (sum_upd_same (fun l => puts_of (todo_of l)) (c_loc c) t l (MIdle []) Et) as Hsum. cbn beta in Hsum.
  change (puts_of (todo_of (MIdle []))) with 0 in Hsum.
  assert (Hge1 : is_put o = true -> 1 <= puts_of (todo_of l)).
  { intros E. rewrite Ep. unfold puts_of. cbn [filter]. rewrite E. cbn [length]. lia. }
  destruct R2 as [R2|R2]; [lia|]. specialize (R2 l (nth_error_In _ _ Et) o). rewrite Ep in R2. specialize (Hge1 (R2 (or_introl eq_refl))). lia.
Qed.

Definition cm_rank (l : cmloc) : nat :=
  match l with
  | MIdle p => length p * (2 * n + 8)
  | MEntry o p => length p * (2 * n + 8) + 2 * n + 7
  | MProbe o _ j p => length p * (2 * n + 8) + 2 * (n - j) + 5
  | MCas o _ j p => length p * (2 * n + 8) + 2 * (n - j) + 4
  | MSet o _ _ _ p => length p * (2 * n + 8) + 3
  | MCnt o _ _ p => length p * (2 * n + 8) + 2
  | MRead o _ p => length p * (2 * n + 8) + 2
  | MRet o r p => length p * (2 * n + 8) + 1
  end.

Lemma cm_rank_step c tr t l sh' l' evs : cmI c tr -> roomy c -> nth_error (c_loc c) t = Some l -> cm_step w mm (c_sh c) l = Step sh' l' evs ->
  cm_rank l' < cm_rank l.
Proof.
  intros HI HR Et Es. pose proof HI as [H1 [_ [_ [_ [_ [Ht _]]]]]]. destruct (thr_get _ _ _ _ _ _ Ht Et) as [Hok _].
  assert (Hnext : forall o i j p x, todo_of l = o :: p -> ops_ok (o :: p) -> i = N.of_nat (slot n (hm (cm_key o)) j) -> seen (m_keys (c_sh c)) o j ->
     nth_error (m_keys (c_sh c)) (N.to_nat i) = Some x -> x <> 0%N -> (mm && is_put o = false -> x <> cm_key o) ->
     cm_next w (c_sh c) o i j p = Step sh' l' evs -> cm_rank l' < length p * (2 * n + 8) + 2 * (n - j) + 4).
  { intros o i j p x El Hk -> Hsn Hx Hx0 Hxk E. rewrite Nat2N.id in Hx.
    assert (Hj : S j < n) by (eapply seen_bound; [exact HI|exact HR|exact Et|eauto|eapply seen_S; eauto]).
    unfold cm_next, cm_head in E. injection E as <- <- <-. cbn [cm_rank]. clear - Hj. lia. }
  clear Ht HI HR Et.
  destruct l as [[|o p]|o p|o i j p|o i j p|o i j b p|o i j p|o i p|o r p]; cbn [cm_step] in Es; cbn [cm_rank].
  - discriminate.
  - injection Es as <- <- <-. cbn [cm_rank length]. lia.
  - assert (Hh : forall idx, cm_head w (c_sh c) o idx 0 p = Step sh' l' evs -> cm_rank l' < length p * (2 * n + 8) + 2 * n + 7).
    { intros idx E. unfold cm_head in E. injection E as <- <- <-. cbn [cm_rank]. lia. }
    destruct o; try (eapply Hh; exact Es). destruct (Nat.leb _ _); [injection Es as <- <- <-; cbn [cm_rank]; lia|eapply Hh; exact Es].
  - cbn [cm_loc_ok] in Hok. destruct Hok as [Hk [Ei Hsn]]. destruct (nth_error _ _) as [x|] eqn:Ex; [|discriminate].
    specialize (Hnext o i j p x eq_refl Hk Ei Hsn Ex).
    destruct o as [k v|k v|k|k]; cbn [cm_key] in *.
    + destruct (negb mm && (x =? k)%N) eqn:Eb; [injection Es as <- <- <-; cbn [cm_rank]; lia|].
      destruct (N.eqb_spec x 0) as [|Hx0]; cbn [negb] in Es; [injection Es as <- <- <-; cbn [cm_rank]; lia|].
      apply Hnext in Es; [lia|exact Hx0|]. cbn [is_put]. intros Em. apply N.eqb_neq. destruct mm; [discriminate|exact Eb].
    + destruct (negb mm && (x =? k)%N) eqn:Eb; [injection Es as <- <- <-; cbn [cm_rank]; lia|].
      destruct (N.eqb_spec x 0) as [|Hx0]; cbn [negb] in Es; [injection Es as <- <- <-; cbn [cm_rank]; lia|].
      apply Hnext in Es; [lia|exact Hx0|]. cbn [is_put]. intros Em. apply N.eqb_neq. destruct mm; [discriminate|exact Eb].
    + destruct (N.eqb_spec x k) as [|Hxk]; [injection Es as <- <- <-; cbn [cm_rank]; lia|].
      destruct (N.eqb_spec x 0) as [|Hx0]; [injection Es as <- <- <-; cbn [cm_rank]; lia|].
      apply Hnext in Es; auto. lia.
    + destruct (N.eqb_spec x k) as [|Hxk]; [injection Es as <- <- <-; cbn [cm_rank]; lia|].
      destruct (N.eqb_spec x 0) as [|Hx0]; [injection Es as <- <- <-; cbn [cm_rank]; lia|].
      apply Hnext in Es; auto. lia.
  - cbn [cm_loc_ok] in Hok. destruct Hok as [Hk [Ei [Hsn Hput]]]. destruct (nth_error _ _) as [x|] eqn:Ex; [|discriminate].
    specialize (Hnext o i j p x eq_refl Hk Ei Hsn Ex).
    destruct (N.eqb_spec x 0) as [|Hx0]; [injection Es as <- <- <-; cbn [cm_rank]; lia|].
    destruct (negb mm && (x =? cm_key o)%N) eqn:Eb; [injection Es as <- <- <-; cbn [cm_rank]; lia|].
    apply Hnext in Es; auto. rewrite Hput. intros Em. apply N.eqb_neq. destruct mm; [discriminate|exact Eb].
  - cbn [cm_loc_ok] in Hok. destruct Hok as [Hk _].
    destruct (nth_error _ _) as [x|]; [|discriminate]. cbn zeta in Es. destruct b; [injection Es as <- <- <-; cbn [cm_rank]; lia|].
    unfold cm_done in Es. destruct o as [k v|k v|k|k]; try (injection Es as <- <- <-; cbn [cm_rank]; lia).
    destruct (Hk (KPut k v)) as [_ Hmm]; [now left|]. rewrite Hmm in Es. injection Es as <- <- <-; cbn [cm_rank]; lia.
  - cbn [cm_loc_ok] in Hok. destruct Hok as [Hk _].
    unfold cm_done in Es. destruct o as [k v|k v|k|k]; try (injection Es as <- <- <-; cbn [cm_rank]; lia).
    destruct (Hk (KPut k v)) as [_ Hmm]; [now left|]. rewrite Hmm in Es. injection Es as <- <- <-; cbn [cm_rank]; lia.
  - destruct (nth_error _ _) as [x|]; [|discriminate]. injection Es as <- <- <-. cbn [cm_rank]. lia.
  - injection Es as <- <- <-. cbn [cm_rank]. lia.
Qed.

Lemma roomy_exec c0 c tr : cmI c0 [] -> roomy c0 -> exec (cm_step w mm) c0 c tr -> cmI c tr /\ roomy c.
Proof.
  intros H0 R0. apply (exec_inv _ _ _ _ _ (fun c tr => cmI c tr /\ roomy c)); [auto|].
  intros c' tr' t l sh' l' evs _ [HI HR] Et Es. split; [eapply cm_inv_step; eassumption|eapply roomy_step; eassumption].
Qed.

Lemma cm_own_steps c0 c tr t k l0 : cmI c0 [] -> roomy c0 -> nth_error (c_loc c0) t = Some l0 -> exec_own (cm_step w mm) t c0 c tr k -> k <= cm_rank l0.
Proof.
  intros H0 R0 Hl He. destruct (own_bound _ _ _ (cm_step w mm) (fun c tr => cmI c tr /\ roomy c) cm_rank t c0 (fun c tr => roomy_exec c0 c tr H0 R0)
     (fun c tr u l sh' l' evs H => cm_rank_step c tr u l sh' l' evs (proj1 H) (proj2 H)) c tr k l0 Hl He) as [l [_ H]]. lia.
Qed.

Lemma cm_terminates c0 : cmI c0 [] -> roomy c0 -> terminates (cm_step w mm) c0.
Proof.
  intros H0 R0. apply (terminates_measure _ _ _ (cm_step w mm) (fun c => exists tr, cmI c tr /\ roomy c) (fun c => list_sum (map cm_rank (c_loc c)))); [eauto|].
  intros c c' [tr [HI HR]] (t & l & sh' & l' & evs & Et & Es & ->).
  split; [eexists; split; [eapply cm_inv_step; eassumption|eapply roomy_step; eassumption]|]. cbn [c_loc].
  pose proof (sum_upd_same cm_rank (c_loc c) t l l' Et) as Hs. pose proof (cm_rank_step _ _ _ _ _ _ _ HI HR Et Es). lia.
Qed.
End W.
