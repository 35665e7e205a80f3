(** Properties C15-C17: Concurrent_LP_Map and Concurrent_LP_MultiMap under every interleaving. *)
From Coq Require Import Permutation.
From Verif Require Import Outcome ListUtil WordsModel LPSetModel ProbeTheory LPMapModel LPMapProofs LPMultiMapModel LPMultiMapProofs LPMultiMapSpec Conc ConcSetModel ConcSetSpec ConcMapModel ConcMapProofs ConcMapVal ConcMMVal ConcMapSpec ConcMapCopy.
Local Open Scope nat_scope.
Arguments KIns k%N v%N. Arguments KPut k%N v%N. Arguments KGet k%N. Arguments KHas k%N.

(** Runs given by a schedule. *)
Lemma sched_run mm s progs sch c tr : run_sched (cm_step 64 mm) (cm_start s progs) [] sch = Some (c, tr) -> exec (cm_step 64 mm) (cm_start s progs) c tr.
Proof. intros E. eapply (run_sched_exec _ _ _ (cm_step 64 mm) _ sch); [apply exec_start|exact E]. Qed.

(** Eight cells, hash multiplier 1; two threads insert key 5 with different values, the second
    also 13 (same home cell); a third reads 5 after the second has returned. *)
Definition exm : lpmap := cm_new 8 1.
Definition exm_ops : list (list cmop) := [[KIns 5 1]; [KIns 5 2; KIns 13 3]; [KGet 5]].
Definition exm_sch : list nat := [0; 1; 0; 1; 0; 1; 0; 1; 1; 1; 2; 2; 2; 2; 2; 0; 0; 0; 1; 1; 1; 1; 1; 1; 1; 1].
Lemma exm_made mm : cm_made 64 mm exm.
Proof. apply cm_new_made; [split; discriminate|discriminate]. Qed.
Lemma exm_calls : calls_ok false exm_ops.
Proof. intros p o [<-|[<-|[<-|[]]]] Ho; cbn [In] in Ho; intuition; subst; split; (discriminate || exact I || reflexivity). Qed.
Lemma exm_run : exists c tr, exec (cm_step 64 false) (cm_start exm exm_ops) c tr /\ cm_finished c /\
  m_keys (c_sh c) = [0; 0; 0; 0; 0; 5; 13; 0]%N /\ nth_error (m_vals (c_sh c)) 5 = Some (Some 1%N) /\
  observed tr = [(1, Rsp (KIns 13 3) (RB true)); (1, Inv (KIns 13 3)); (0, Rsp (KIns 5 1) (RB true)); (2, Rsp (KGet 5) (RV (Some 2%N))); (2, Inv (KGet 5));
                 (1, Rsp (KIns 5 2) (RB false)); (1, Inv (KIns 5 2)); (0, Inv (KIns 5 1))].
Proof.
  assert (E : exists c tr, run_sched (cm_step 64 false) (cm_start exm exm_ops) [] exm_sch = Some (c, tr) /\ c_loc c = [MIdle []; MIdle []; MIdle []] /\
    m_keys (c_sh c) = [0; 0; 0; 0; 0; 5; 13; 0]%N /\ nth_error (m_vals (c_sh c)) 5 = Some (Some 1%N) /\
    observed tr = [(1, Rsp (KIns 13 3) (RB true)); (1, Inv (KIns 13 3)); (0, Rsp (KIns 5 1) (RB true)); (2, Rsp (KGet 5) (RV (Some 2%N))); (2, Inv (KGet 5));
                 (1, Rsp (KIns 5 2) (RB false)); (1, Inv (KIns 5 2)); (0, Inv (KIns 5 1))]).
  { do 2 eexists. split; [vm_compute; reflexivity|]. repeat (split; [reflexivity|]). reflexivity. }
  destruct E as [c [tr [E [E1 E2]]]]. exists c, tr. split; [exact (sched_run _ _ _ _ _ _ E)|]. split; [|exact E2]. intros l Hl. rewrite E1 in Hl. cbn [In] in Hl. intuition.
Qed.

(** ** C15 *)
(** On the keys, every history of inserts and gets is linearizable with respect to a set: of several
    inserts of an absent key exactly one answers true; get answers 0 if the key is absent;
    Full only from half of the cells on. *)
Theorem C15_linearizable : forall w, (w <= 64)%N -> forall s progs c tr, cm_made w false s -> calls_ok false progs ->
  exec (cm_step w false) (cm_start s progs) c tr -> linearizable (kspec (length (m_keys s) / 2)) (kmemb s) (observed tr).
Proof. exact map_linearizable. Qed.
Print Assumptions C15_linearizable.
Example C15_ex : exists c tr, exec (cm_step 64 false) (cm_start exm exm_ops) c tr /\ cm_finished c /\
  linearizable (kspec 4) (kmemb exm) (observed tr) /\ kmemb exm 5 = false.
Proof.
  destruct exm_run as [c [tr [H [H1 _]]]]. exists c, tr. split; [exact H|]. split; [exact H1|]. split; [|reflexivity].
  exact (C15_linearizable 64 (N.le_refl _) exm exm_ops c tr (exm_made _) exm_calls H).
Qed.

(** At every moment each key is stored in at most one cell. *)
Theorem C15_stored_once : forall w, (w <= 64)%N -> forall s progs c tr, cm_made w false s -> calls_ok false progs ->
  exec (cm_step w false) (cm_start s progs) c tr ->
  forall i j k, nth_error (m_keys (c_sh c)) i = Some k -> nth_error (m_keys (c_sh c)) j = Some k -> k <> 0%N -> i = j.
Proof. exact map_once. Qed.
Print Assumptions C15_stored_once.

(** At most one insert of a key answers true, none if the key was stored before. *)
Theorem C15_one_winner : forall w, (w <= 64)%N -> forall s progs c tr, cm_made w false s -> calls_ok false progs ->
  exec (cm_step w false) (cm_start s progs) c tr -> forall k, count_rsp (mwon k) tr + b2n (kmemb s k) <= 1.
Proof. exact map_winner. Qed.
Print Assumptions C15_one_winner.

(** When no call is in progress, get(k) returns: the value of an insert of [k] that was answered true or false, if
    there is one; else the value stored before; else 0.  The get loop at rest is that of LP_Map. *)
Theorem C15_at_rest : forall w, (w <= 64)%N -> forall s progs c tr k, cm_made w false s -> calls_ok false progs ->
  exec (cm_step w false) (cm_start s progs) c tr -> cm_resting c -> k <> 0%N -> m_items (c_sh c) < length (m_keys (c_sh c)) ->
  exists r, returns (fun f => map_get w f (c_sh c) k) r /\
    ((exists b, In (KIns k r, RB b) (rsps tr)) \/
     ((forall v b, ~ In (KIns k v, RB b) (rsps tr)) /\ (bind s k r \/ r = 0%N /\ forall v, ~ bind s k v))).
Proof.
  intros w Hw s progs c tr k Hm Hp He Hr Hk Hfree. destruct (map_at_rest w Hw s progs c tr Hm Hp He Hr) as [Hwf [B1 B2]].
  assert (D : (exists v b, In (KIns k v, RB b) (rsps tr)) \/ forall v b, ~ In (KIns k v, RB b) (rsps tr)).
  { clear. induction (rsps tr) as [|[o r] l IH]; [right; auto|]. destruct IH as [[v [b IH]]|IH]; [left; exists v, b; now right|].
    destruct o as [j v|j v|j|j]; try (right; intros v0 b0 [F|F]; [discriminate|exact (IH _ _ F)]).
    destruct r as [|b|ov]; try (right; intros v0 b0 [F|F]; [discriminate|exact (IH _ _ F)]).
    destruct (N.eq_dec j k) as [->|Hne]; [left; exists v, b; now left|]. right. intros v0 b0 [F|F]; [congruence|exact (IH _ _ F)]. }
  assert (Hget : forall v, bind (c_sh c) k v -> returns (fun f => map_get w f (c_sh c) k) v).
  { intros v Hb. exists (mcap (c_sh c)). intros f Hf. now apply (map_get_in w Hw). }
  destruct D as [[v [b D]]|D].
  - destruct (B2 k) as [r Hb]; [right; eauto|]. exists r. split; [now apply Hget|]. left. eapply map_rest_written; eassumption.
  - destruct (existsb (N.eqb k) (m_keys (c_sh c))) eqn:Ex.
    + assert (Hin : In k (m_keys (c_sh c))) by (apply existsb_exists in Ex; destruct Ex as [x [Hx Hxe]]; apply N.eqb_eq in Hxe; now subst).
      assert (Hel : LPSetProofs.elem (keyset (c_sh c)) k) by (apply LPSetProofs.elem_In; auto). apply (elem_bind w _ k Hwf) in Hel. destruct Hel as [v Hb].
      exists v. split; [now apply Hget|]. right. split; [exact D|]. left. destruct (B1 k v Hb) as [H|[b H]]; [exact H|destruct (D _ _ H)].
    + assert (Hout : ~ LPSetProofs.elem (keyset (c_sh c)) k).
      { intros Hel. apply LPSetProofs.elem_In in Hel. cbn [keyset s_arr] in Hel. apply not_true_iff_false in Ex. apply Ex. apply existsb_exists. exists k. split; [apply Hel|apply N.eqb_refl]. }
      exists 0%N. split; [exists (mcap (c_sh c)); intros f Hf; now apply (map_get_out w Hw)|]. right. split; [exact D|]. right. split; [reflexivity|].
      intros v Hb. destruct (B2 k) as [v' Hb']; [left; eauto|]. apply Hout. apply (elem_bind w _ k Hwf). eauto.
Qed.
Print Assumptions C15_at_rest.
Example C15_at_rest_ex : exists c tr, exec (cm_step 64 false) (cm_start exm exm_ops) c tr /\ cm_resting c /\ m_items (c_sh c) < length (m_keys (c_sh c)) /\
  In (KIns 5 1, RB true) (rsps tr) /\ In (KIns 5 2, RB false) (rsps tr) /\ bind (c_sh c) 5 1.
Proof.
  assert (E : exists c tr, run_sched (cm_step 64 false) (cm_start exm exm_ops) [] exm_sch = Some (c, tr) /\ c_loc c = [MIdle []; MIdle []; MIdle []] /\
     m_items (c_sh c) < length (m_keys (c_sh c)) /\ In (KIns 5 1, RB true) (rsps tr) /\ In (KIns 5 2, RB false) (rsps tr) /\ bind (c_sh c) 5 1).
  { do 2 eexists. split; [vm_compute; reflexivity|]. split; [reflexivity|]. split; [apply Nat.ltb_lt; reflexivity|]. cbn [rsps In]. split; [auto|]. split; [auto|].
    split; [discriminate|]. exists 5. split; reflexivity. }
  destruct E as [c [tr [E [E1 E2]]]]. exists c, tr. split; [exact (sched_run _ _ _ _ _ _ E)|]. split; [|exact E2].
  intros l Hl. exists []. rewrite E1 in Hl. cbn [In] in Hl. intuition.
Qed.

(** A get called after an insert of its key was answered (or of a key stored before) returns a
    definite value, one stored before or passed to an insert called before the get returned. *)
Theorem C15_visible : forall w, (w <= 64)%N -> forall s progs c tr, cm_made w false s -> calls_ok false progs ->
  exec (cm_step w false) (cm_start s progs) c tr -> forall k r late u mid early,
  tr = late ++ (u, Rsp (KGet k) r) :: mid ++ (u, Inv (KGet k)) :: early -> (forall x, ~ In (u, Inv x) mid) ->
  ans k early \/ (exists v, bind s k v) ->
  exists v, r = RV (Some v) /\ (bind s k v \/ exists x, In (x, Inv (KIns k v)) (mid ++ early)).
Proof. exact map_visible. Qed.
Print Assumptions C15_visible.
Example C15_visible_ex : exists c tr late mid early, exec (cm_step 64 false) (cm_start exm exm_ops) c tr /\
  tr = late ++ (2, Rsp (KGet 5) (RV (Some 2%N))) :: mid ++ (2, Inv (KGet 5)) :: early /\ (forall x, ~ In (2, Inv x) mid) /\ ans 5 early.
Proof.
  assert (E : exists c tr, run_sched (cm_step 64 false) (cm_start exm exm_ops) [] (firstn 15 exm_sch) = Some (c, tr) /\
    exists late mid early, tr = late ++ (2, Rsp (KGet 5) (RV (Some 2%N))) :: mid ++ (2, Inv (KGet 5)) :: early /\ (forall x, ~ In (2, Inv x) mid) /\ ans 5 early).
  { do 2 eexists. split; [vm_compute; reflexivity|]. exists [], [(2, Lin (KGet 5) (RV (Some 2%N)))]. eexists. split; [reflexivity|]. split.
    - intros x [F|[]]. discriminate.
    - exists 1, 2%N, false. now left. }
  destruct E as [c [tr [E [late [mid [early E1]]]]]]. exists c, tr, late, mid, early. split; [exact (sched_run _ _ _ _ _ _ E)|exact E1].
Qed.

(** A get during the first insert of its key may see the cell before its value is written: the
    answer is indeterminate. *)
Theorem C15_value_before_write_refuted : exists c tr, exec (cm_step 64 false) (cm_start exm [[KIns 5 1]; [KGet 5]]) c tr /\
  In (1, Rsp (KGet 5) (RV None)) tr.
Proof.
  assert (E : exists c tr, run_sched (cm_step 64 false) (cm_start exm [[KIns 5 1]; [KGet 5]]) [] [0; 0; 0; 0; 1; 1; 1; 1; 1] = Some (c, tr) /\ In (1, Rsp (KGet 5) (RV None)) tr).
  { do 2 eexists. split; [vm_compute; reflexivity|]. now left. }
  destruct E as [c [tr [E E1]]]. exists c, tr. split; [exact (sched_run _ _ _ _ _ _ E)|exact E1].
Qed.
Print Assumptions C15_value_before_write_refuted.

(** On the values the map is not linearizable: the insert that found the key present (false, hence the later one)
    stores 2, yet the map keeps the 1 of the insert that answered true. *)
Theorem C15_last_write_refuted : exists c tr, exec (cm_step 64 false) (cm_start exm [[KIns 5 1]; [KIns 5 2]]) c tr /\ cm_finished c /\
  observed tr = [(0, Rsp (KIns 5 1) (RB true)); (1, Rsp (KIns 5 2) (RB false)); (1, Inv (KIns 5 2)); (0, Inv (KIns 5 1))] /\ bind (c_sh c) 5 1.
Proof.
  assert (E : exists c tr, run_sched (cm_step 64 false) (cm_start exm [[KIns 5 1]; [KIns 5 2]]) [] [0; 0; 0; 0; 1; 1; 1; 1; 1; 0; 0; 0] = Some (c, tr) /\ c_loc c = [MIdle []; MIdle []] /\
    observed tr = [(0, Rsp (KIns 5 1) (RB true)); (1, Rsp (KIns 5 2) (RB false)); (1, Inv (KIns 5 2)); (0, Inv (KIns 5 1))] /\ bind (c_sh c) 5 1).
  { do 2 eexists. split; [vm_compute; reflexivity|]. split; [reflexivity|]. split; [reflexivity|]. split; [discriminate|]. exists 5. split; reflexivity. }
  destruct E as [c [tr [E [E1 E2]]]]. exists c, tr. split; [exact (sched_run _ _ _ _ _ _ E)|]. split; [|exact E2]. intros l Hl. rewrite E1 in Hl. cbn [In] in Hl. intuition.
Qed.
Print Assumptions C15_last_write_refuted.

(** No access is out of bounds. *)
Theorem C15_safe : forall w, (w <= 64)%N -> forall mm s progs, cm_made w mm s -> calls_ok mm progs -> safe (cm_step w mm) (cm_start s progs).
Proof. exact cm_is_safe. Qed.
Print Assumptions C15_safe.

(** If the stored entries and all inserts of the programs fit the cells (one more if there are lookups), every call
    finishes within [2n + 8] steps of its own thread, and no execution runs forever. *)
Theorem C15_own_steps : forall w, (w <= 64)%N -> forall mm s progs c tr t p k, cm_made w mm s -> calls_ok mm progs -> fits_all s progs -> nth_error progs t = Some p ->
  exec_own (cm_step w mm) t (cm_start s progs) c tr k -> k <= length p * (2 * length (m_keys s) + 8).
Proof. exact cm_bounded. Qed.
Print Assumptions C15_own_steps.
Theorem C15_terminates : forall w, (w <= 64)%N -> forall mm s progs, cm_made w mm s -> calls_ok mm progs -> fits_all s progs -> terminates (cm_step w mm) (cm_start s progs).
Proof. exact cm_all_terminate. Qed.
Print Assumptions C15_terminates.
(** Where no step is possible all calls have returned. *)
Theorem C15_progress : forall w, (w <= 64)%N -> forall mm s progs c tr, cm_made w mm s -> calls_ok mm progs -> exec (cm_step w mm) (cm_start s progs) c tr ->
  (forall c', ~ cstep (cm_step w mm) c c') -> cm_finished c.
Proof. exact cm_stop. Qed.
Print Assumptions C15_progress.
Example C15_fits_ex : fits_all exm exm_ops.
Proof. split; [|left]; [apply Nat.leb_le|apply Nat.ltb_lt]; vm_compute; reflexivity. Qed.

(** Constructed tables qualify; size 0 gives no cells, and a get reads out of bounds. *)
Theorem C15_new : forall w, forall mm size a, (1 <= size <= 2 ^ 63)%N -> (size <= 2 ^ w)%N -> cm_made w mm (cm_new size a).
Proof. exact cm_new_made. Qed.
Print Assumptions C15_new.
Theorem C15_new_zero_refuted : exists c tr l, exec (cm_step 64 false) (cm_start (cm_new 0 1) [[KGet 5]]) c tr /\
  nth_error (c_loc c) 0 = Some l /\ cm_step 64 false (c_sh c) l = Bad.
Proof.
  assert (E : exists c tr, run_sched (cm_step 64 false) (cm_start (cm_new 0 1) [[KGet 5]]) [] [0; 0] = Some (c, tr) /\
    exists l, nth_error (c_loc c) 0 = Some l /\ cm_step 64 false (c_sh c) l = Bad).
  { do 2 eexists. split; [vm_compute; reflexivity|]. eexists. split; reflexivity. }
  destruct E as [c [tr [E [l E1]]]]. exists c, tr, l. split; [exact (sched_run _ _ _ _ _ _ E)|exact E1].
Qed.
Print Assumptions C15_new_zero_refuted.

(** The map's internal _insert(key, value) (not called in the program) has no return: alone on an empty
    table of four cells it fills all of them with its key and never returns. *)
Definition full4 : lpmap := mkmap [5; 5; 5; 5]%N [Some 1; Some 1; Some 1; Some 1]%N 4 1.
Lemma loop4 i j : In i [0; 1; 2; 3]%N -> exists i', In i' [0; 1; 2; 3]%N /\
  cm_step 64 false full4 (MProbe (KPut 5 1) i j []) = Step full4 (MSet (KPut 5 1) i j false []) [Lin (KPut 5 1) (RB false)] /\
  cm_step 64 false full4 (MSet (KPut 5 1) i j false []) = Step full4 (MProbe (KPut 5 1) i' (S j) []) [].
Proof.
  intros [<-|[<-|[<-|[<-|[]]]]]; [exists 1%N|exists 2%N|exists 3%N|exists 0%N]; (split; [cbn; auto|]; split; reflexivity).
Qed.
Theorem C15_internal_insert_refuted : forall m, exists c tr k, m <= k /\ exec_own (cm_step 64 false) 0 (cm_start (cm_new 4 1) [[KPut 5 1]]) c tr k /\
  count_rsp (fun _ _ => true) tr = 0 /\ m_keys (c_sh c) = [5; 5; 5; 5]%N.
Proof.
  assert (G : forall m, exists i j tr k, m <= k /\ In i [0; 1; 2; 3]%N /\
    exec_own (cm_step 64 false) 0 (cm_start (cm_new 4 1) [[KPut 5 1]]) (mkc full4 [MProbe (KPut 5 1) i j []]) tr k /\ count_rsp (fun _ _ => true) tr = 0).
  { induction m as [|m [i [j [tr [k [Hk [Hi [He Hc]]]]]]]].
    - assert (E : exists tr, run_sched (cm_step 64 false) (cm_start (cm_new 4 1) [[KPut 5 1]]) [] (repeat 0 18) = Some (mkc full4 [MProbe (KPut 5 1) 1 4 []], tr) /\ count_rsp (fun _ _ => true) tr = 0).
      { eexists. split; [vm_compute; reflexivity|reflexivity]. }
      destruct E as [tr [E E1]]. exists 1%N, 4, tr, 18. split; [lia|]. split; [cbn; auto|]. split; [|exact E1].
      exact (run_sched_own _ _ _ (cm_step 64 false) 0 _ _ _ _ 0 _ _ (own_start _ _ _ _ _ _) E).
    - destruct (loop4 i j Hi) as [i' [Hi' [S1 S2]]]. exists i', (S j), ((0, Lin (KPut 5 1) (RB false)) :: tr), (S (S k)). split; [lia|]. split; [exact Hi'|]. split; [|exact Hc].
      refine (own_step _ _ _ (cm_step 64 false) 0 _ _ _ (S k) 0 _ _ _ [] (own_step _ _ _ (cm_step 64 false) 0 _ _ tr k 0 _ _ _ _ He eq_refl S1) eq_refl S2). }
  intros m. destruct (G m) as [i [j [tr [k [Hk [_ [He Hc]]]]]]]. do 3 eexists. split; [exact Hk|]. split; [exact He|]. split; [exact Hc|reflexivity].
Qed.
Print Assumptions C15_internal_insert_refuted.

(** ** C16 *)
(** unsafe_rehash (and the block-wise migration of the growing table, which makes the same calls): for every
    distribution of the old cells over threads and every interleaving, if the new table is at most half full
    the copy is safe, ends, and leaves exactly the old bindings. *)
Theorem C16_rehash : forall w, (w <= 64)%N -> forall s newSize chunks, cm_made w false s -> (1 <= newSize <= 2 ^ 63)%N -> (newSize <= 2 ^ w)%N ->
  (2 * N.of_nat (m_items s) <= nextPow2 64 newSize)%N -> Permutation (concat chunks) (seq 0 (length (m_keys s))) ->
  cm_made w false (rehash_table s newSize) /\
  good_phase w false (rehash_table s newSize) (spread (rehash_work s) chunks)
    (fun s' => (forall k v, bind s' k v <-> bind s k v) /\ m_items s' = m_items s /\ N.of_nat (length (m_keys s')) = nextPow2 64 newSize).
Proof. exact map_rehash_ok. Qed.
Print Assumptions C16_rehash.
(** Three entries in eight cells. *)
Definition exr : lpmap := mkmap [0; 1; 2; 3; 0; 0; 0; 0]%N [None; Some 11; Some 22; Some 33; None; None; None; None]%N 3 1.
Lemma exr_made mm : cm_made 64 mm exr.
Proof.
  assert (E : exists c tr, run_sched (cm_step 64 mm) (cm_start (cm_new 8 1) [[KIns 1 11; KIns 2 22; KIns 3 33]]) [] (repeat 0 21) = Some (c, tr) /\ c_sh c = exr /\ c_loc c = [MIdle []]).
  { destruct mm; (do 2 eexists; split; [vm_compute; reflexivity|]; split; reflexivity). }
  destruct E as [c [tr [E [E1 E2]]]]. rewrite <- E1. eapply cmade_run; [exact (exm_made mm)| |exact (sched_run _ _ _ _ _ _ E)|].
  - intros p o [<-|[]] [<-|[<-|[<-|[]]]]; (split; [discriminate|exact I]).
  - intros l Hl. rewrite E2 in Hl. destruct Hl as [<-|[]]. eauto.
Qed.
Example C16_rehash_ex : cm_made 64 false exr /\ (2 * N.of_nat (m_items exr) <= nextPow2 64 5)%N /\ Permutation (concat [[1; 0]; [2; 3; 4; 5; 6; 7]]) (seq 0 (length (m_keys exr))) /\
  spread (rehash_work exr) [[1; 0]; [2; 3; 4; 5; 6; 7]] = [[KIns 1 11]; [KIns 2 22; KIns 3 33]].
Proof. split; [apply exr_made|]. split; [discriminate|]. split; [apply perm_swap|reflexivity]. Qed.
(** Into too small a table entries are lost without notice, since the results of the inserts are dropped. *)
Theorem C16_small_rehash_refuted : exists c tr, exec (cm_step 64 false) (cm_start (rehash_table exr 4) (spread (rehash_work exr) [seq 0 8])) c tr /\ cm_finished c /\
  bind exr 3 33 /\ forall v, ~ bind (c_sh c) 3 v.
Proof.
  assert (E : exists c tr, run_sched (cm_step 64 false) (cm_start (rehash_table exr 4) (spread (rehash_work exr) [seq 0 8])) [] (repeat 0 17) = Some (c, tr) /\ c_loc c = [MIdle []] /\ m_keys (c_sh c) = [0; 1; 2; 0]%N).
  { do 2 eexists. split; [vm_compute; reflexivity|]. split; reflexivity. }
  destruct E as [c [tr [E [E1 E2]]]]. exists c, tr. split; [exact (sched_run _ _ _ _ _ _ E)|]. split; [intros l Hl; rewrite E1 in Hl; destruct Hl as [<-|[]]; reflexivity|].
  split; [split; [discriminate|exists 3; split; reflexivity]|]. intros v [_ [i [Hi _]]]. rewrite E2 in Hi. apply nth_error_In in Hi. cbn [In] in Hi. intuition discriminate.
Qed.
Print Assumptions C16_small_rehash_refuted.

(** unsafe_merge(other): a rehash that always has room, then the inserts of the other map; the other's
    values override. *)
Theorem C16_merge : forall w, (w <= 64)%N -> forall s other chunks1 chunks2, cm_made w false s -> cm_made w false other ->
  (sum_cap s other <= 2 ^ 63)%N -> (sum_cap s other <= 2 ^ w)%N ->
  Permutation (concat chunks1) (seq 0 (length (m_keys s))) -> Permutation (concat chunks2) (seq 0 (length (m_keys other))) ->
  good_phase w false (rehash_table s (sum_cap s other)) (spread (rehash_work s) chunks1) (fun s1 =>
    good_phase w false s1 (spread (rehash_work other) chunks2) (fun s2 =>
      forall k v, bind s2 k v <-> bind other k v \/ (bind s k v /\ forall v', ~ bind other k v'))).
Proof.
  intros w Hw s other chunks1 chunks2 Hm Ho H1 H2 P1 P2. destruct (map_merge_first w Hw s other chunks1 Hm Ho H1 H2 P1) as [_ [G1 [G2 [G3 G4]]]].
  split; [exact G1|]. split; [exact G2|]. split; [exact G3|]. intros c tr He Hf. destruct (G4 c tr He Hf) as [M [B1 [B2 B3]]]. split; [exact M|].
  now apply (map_merge_second w Hw s other).
Qed.
Print Assumptions C16_merge.
Example C16_merge_ex : cm_made 64 false exr /\ (sum_cap exr exr <= 2 ^ 63)%N.
Proof. split; [apply exr_made|discriminate]. Qed.
(** The filtered merge: exactly the unfiltered keys of both; a key in only one of them keeps its value, one in both has one of the two. *)
Theorem C16_filtered_merge : forall w, (w <= 64)%N -> forall flt s other chunks, cm_made w false s -> cm_made w false other ->
  (sum_cap s other <= 2 ^ 63)%N -> (sum_cap s other <= 2 ^ w)%N -> Permutation (concat chunks) (seq 0 (loop2 s other)) ->
  cm_made w false (rehash_table s (sum_cap s other)) /\
  good_phase w false (rehash_table s (sum_cap s other)) (spread (merge_work2 flt s other) chunks)
    (fun s' => (forall k v, bind s' k v -> flt k = false /\ (bind s k v \/ bind other k v)) /\
               (forall k v, flt k = false -> bind s k v \/ bind other k v -> exists v', bind s' k v')).
Proof. exact map_fmerge_ok. Qed.
Print Assumptions C16_filtered_merge.
Example C16_filtered_merge_ex : spread (merge_work2 (fun k => (k =? 2)%N) exr exr) [[3; 1]; [0; 2; 4; 5; 6; 7]] = [[KIns 3 33; KIns 3 33; KIns 1 11; KIns 1 11]; []].
Proof. reflexivity. Qed.

(** ** C17 *)
(** Every history of inserts and membership tests on a multimap is linearizable with respect to a bag of
    pairs; Full only from half of the cells on. *)
Theorem C17_linearizable : forall w, (w <= 64)%N -> forall s progs c tr, cm_made w true s -> calls_ok true progs ->
  exec (cm_step w true) (cm_start s progs) c tr -> linearizable (bspec (length (m_keys s) / 2)) (entries s) (observed tr).
Proof. exact mm_linearizable. Qed.
Print Assumptions C17_linearizable.
Definition exmm_ops : list (list cmop) := [[KIns 5 1; KHas 5]; [KIns 5 2; KIns 5 2]].
Lemma exmm_calls : calls_ok true exmm_ops.
Proof. intros p o [<-|[<-|[]]] Ho; cbn [In] in Ho; intuition; subst; split; (discriminate || exact I || reflexivity). Qed.
(** Both threads see the home cell free, the second loses the race and takes the next. *)
Lemma exmm_run : exists c tr, exec (cm_step 64 true) (cm_start exm exmm_ops) c tr /\ cm_finished c /\
  m_keys (c_sh c) = [0; 0; 0; 0; 0; 5; 5; 5]%N /\ entries (c_sh c) = [(5, 1); (5, 2); (5, 2)]%N /\
  rsps tr = [(KIns 5 2, RB true); (KIns 5 2, RB true); (KHas 5, RB true); (KIns 5 1, RB true)].
Proof.
  assert (E : exists c tr, run_sched (cm_step 64 true) (cm_start exm exmm_ops) [] [0; 1; 0; 1; 0; 1; 0; 1; 1; 0; 0; 0; 0; 0; 0; 0; 1; 1; 1; 1; 1; 1; 1; 1; 1; 1; 1; 1; 1] = Some (c, tr) /\ c_loc c = [MIdle []; MIdle []] /\
    m_keys (c_sh c) = [0; 0; 0; 0; 0; 5; 5; 5]%N /\ entries (c_sh c) = [(5, 1); (5, 2); (5, 2)]%N /\
    rsps tr = [(KIns 5 2, RB true); (KIns 5 2, RB true); (KHas 5, RB true); (KIns 5 1, RB true)]).
  { do 2 eexists. split; [vm_compute; reflexivity|]. repeat (split; [reflexivity|]). reflexivity. }
  destruct E as [c [tr [E [E1 E2]]]]. exists c, tr. split; [exact (sched_run _ _ _ _ _ _ E)|]. split; [|exact E2]. intros l Hl. rewrite E1 in Hl. cbn [In] in Hl. intuition.
Qed.

(** At rest the stored pairs are those stored before and one for each insert answered true. *)
Theorem C17_at_rest : forall w, (w <= 64)%N -> forall s progs c tr, cm_made w true s -> calls_ok true progs ->
  exec (cm_step w true) (cm_start s progs) c tr -> cm_resting c ->
  mm_wf w (c_sh c) /\ Permutation (entries (c_sh c)) (flat_map new_pair (rsps tr) ++ entries s).
Proof. exact mm_at_rest. Qed.
Print Assumptions C17_at_rest.
(** At rest, with two free cells, get(k) lists exactly the pairs under [k].  The get loop at rest is that of LP_MultiMap. *)
Theorem C17_get : forall w, (w <= 64)%N -> forall s progs c tr k, cm_made w true s -> calls_ok true progs ->
  exec (cm_step w true) (cm_start s progs) c tr -> cm_resting c -> k <> 0%N -> m_items (c_sh c) + 2 <= length (m_keys (c_sh c)) ->
  exists l, returns (fun f => mm_get_values w f (c_sh c) k) l /\ Permutation l (under k (flat_map new_pair (rsps tr) ++ entries s)).
Proof.
  intros w Hw s progs c tr k Hm Hp He Hr Hk Hf. destruct (mm_at_rest w Hw s progs c tr Hm Hp He Hr) as [Hwf P].
  destruct (get_values_spec w Hw (c_sh c) k Hwf Hk) as [l [E [H|[_ [H _]]]]]; [unfold mcap; lia| |unfold mcap in H; lia].
  exists l. split; [exact E|]. rewrite H. now apply under_perm.
Qed.
Print Assumptions C17_get.
Example C17_get_ex : exists c tr, exec (cm_step 64 true) (cm_start exm exmm_ops) c tr /\ cm_resting c /\ length (m_keys (c_sh c)) = 8 /\ length (keys_of (m_keys (c_sh c))) = 3 /\
  under 5 (flat_map new_pair (rsps tr) ++ entries exm) = [(5, 2); (5, 2); (5, 1)]%N.
Proof.
  destruct exmm_run as [c [tr [E [E1 [E2 [_ E3]]]]]]. exists c, tr. split; [exact E|]. split; [now apply finished_resting|]. rewrite E2, E3. repeat (split; [reflexivity|]). reflexivity.
Qed.
(** The free cells are needed: on a table of size 2 an insert answers true, and get of that key lists nothing. *)
Theorem C17_get_small_refuted : exists c tr, exec (cm_step 64 true) (cm_start (cm_new 2 1) [[KIns 5 7]]) c tr /\ cm_finished c /\ rsps tr = [(KIns 5 7, RB true)] /\
  returns (fun f => mm_get_values 64 f (c_sh c) 5) [].
Proof.
  assert (E : exists c tr, run_sched (cm_step 64 true) (cm_start (cm_new 2 1) [[KIns 5 7]]) [] (repeat 0 7) = Some (c, tr) /\ c_loc c = [MIdle []] /\ rsps tr = [(KIns 5 7, RB true)] /\ c_sh c = mkmap [0; 5]%N [None; Some 7]%N 1 1).
  { do 2 eexists. split; [vm_compute; reflexivity|]. repeat (split; [reflexivity|]). reflexivity. }
  destruct E as [c [tr [E [E1 [E2 E3]]]]]. exists c, tr. split; [exact (sched_run _ _ _ _ _ _ E)|]. split; [intros l Hl; rewrite E1 in Hl; destruct Hl as [<-|[]]; reflexivity|].
  split; [exact E2|]. rewrite E3.
  exists 6. intros f Hf. do 6 (destruct f as [|f]; [lia|]). vm_compute. reflexivity.
Qed.
Print Assumptions C17_get_small_refuted.

(** unsafe_rehash of a multimap. *)
Theorem C17_rehash : forall w, (w <= 64)%N -> forall s newSize chunks, cm_made w true s -> (1 <= newSize <= 2 ^ 63)%N -> (newSize <= 2 ^ w)%N ->
  (2 * N.of_nat (m_items s) <= nextPow2 64 newSize)%N -> Permutation (concat chunks) (seq 0 (length (m_keys s))) ->
  cm_made w true (rehash_table s newSize) /\
  good_phase w true (rehash_table s newSize) (spread (rehash_work s) chunks) (fun s' => Permutation (entries s') (entries s) /\ m_items s' = m_items s).
Proof. exact mm_rehash_ok. Qed.
Print Assumptions C17_rehash.

(** unsafe_merge of multimaps: all unfiltered pairs of both, with their multiplicities, and the result at
    most half full. *)
Theorem C17_merge : forall w, (w <= 64)%N -> forall flt s other, cm_made w true s -> mm_wf w other -> m_items s + m_items other <> 0 -> (4 * N.of_nat (m_items s + m_items other) <= 2 ^ w)%N ->
  exists sz, returns (fun f => grow_size f (N.of_nat (m_items s + m_items other)) (nextPow2 64 (N.of_nat (m_items s + m_items other)))) sz /\
  forall chunks, Permutation (concat chunks) (seq 0 (loop2 s other)) ->
  cm_made w true (map_alloc sz (m_mult s)) /\
  good_phase w true (map_alloc sz (m_mult s)) (spread (mmerge_work flt s other) chunks)
    (fun s' => Permutation (entries s') (filter (fun p => negb (flt (fst p))) (entries s ++ entries other)) /\ 2 * m_items s' <= length (m_keys s')).
Proof. exact mm_merge_ok. Qed.
Print Assumptions C17_merge.
Example C17_merge_ex : cm_made 64 true exr /\ mm_wf 64 exr /\ m_items exr + m_items exr = 6 /\
  spread (mmerge_work (fun k => (k =? 2)%N) exr exr) [[3; 1]; [0; 2; 4; 5; 6; 7]] = [[KPut 3 33; KIns 3 33; KPut 1 11; KIns 1 11]; []].
Proof. split; [apply exr_made|]. split; [apply (made_mm 64 (N.le_refl _) true), exr_made|]. split; reflexivity. Qed.
(** Merging two empty multimaps leaves no cells. *)
Theorem C17_empty_merge_refuted : forall f, grow_size f 0 (nextPow2 64 0) = Val 0%N /\
  exists c tr l, exec (cm_step 64 true) (cm_start (map_alloc 0 1) [[KHas 5]]) c tr /\ nth_error (c_loc c) 0 = Some l /\ cm_step 64 true (c_sh c) l = Bad.
Proof.
  intros f. split; [destruct f; reflexivity|].
  assert (E : exists c tr, run_sched (cm_step 64 true) (cm_start (map_alloc 0 1) [[KHas 5]]) [] [0; 0] = Some (c, tr) /\
    exists l, nth_error (c_loc c) 0 = Some l /\ cm_step 64 true (c_sh c) l = Bad).
  { do 2 eexists. split; [vm_compute; reflexivity|]. eexists. split; reflexivity. }
  destruct E as [c [tr [E [l E1]]]]. exists c, tr, l. split; [exact (sched_run _ _ _ _ _ _ E)|exact E1].
Qed.
Print Assumptions C17_empty_merge_refuted.
