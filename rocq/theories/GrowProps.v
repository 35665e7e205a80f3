(** C18: the growing concurrent hash table.  [g_step mult] runs any number of threads, each with its own
    handle, over a GrowingHashTable of a concurrent set; [mult v] is the hash multiplier of table [v]. *)
From Verif Require Import Outcome ListUtil WordsModel LPSetModel Conc ConcSetModel ConcSetProofs ConcSetSpec GrowModel GrowProofs GrowTabs GrowSafe GrowKeep GrowSpec GrowSeq GrowQuiet.
Local Open Scope nat_scope.
Arguments GInsert k%N. Arguments GContains k%N.

(** ** A run used as example: thread 1 fills half of a table of 4 cells and makes it grow to 8; thread 0 looks
    up a key during the growth and inserts one afterwards. *)
Definition ex_mult : nat -> N := fun _ => 1%N.
Definition ex_tab : lpset := cs_new 4 1.
Definition ex_progs : list (list gop) := [[GContains 6; GInsert 5; GContains 5]; [GInsert 6; GInsert 7; GInsert 8]].
Definition ex_first : list nat := repeat 1 15.
Definition ex_second : list nat := repeat 1 11 ++ repeat 0 6 ++ repeat 1 28 ++ repeat 0 16.

Lemma ex_init : g_init ex_tab.
Proof. split; [|vm_compute; reflexivity]. apply new_made; [split; discriminate|discriminate]. Qed.
Lemma ex_nz : gkeys_nz ex_progs.
Proof.
  intros p o [<-|[<-|[]]] Ho; cbn [In] in Ho; repeat (destruct Ho as [<-|Ho]); try contradiction; cbn; discriminate.
Qed.

(** The run up to the return of [insert(7)], that return, and the rest. *)
Definition ex_loc1 : gloc := mkl 0 0 (POp (GInsert 7) (LRet (SInsert 7) (RB true) [])) [GInsert 8].
Definition ex_sh1 : gsh := mkg [mkt (mkset [0; 0; 6; 7]%N 2 1) 0] 0 0 0 0 0.
Definition ex_c1 : config gsh gloc := mkc ex_sh1 [mkl 0 0 PIdle [GContains 6; GInsert 5; GContains 5]; ex_loc1].
Definition ex_tr1 : list (nat * gev) := [(1, Call (GInsert 7)); (1, Return (GInsert 6) (RB true)); (1, Call (GInsert 6))].
Definition ex_c1' : config gsh gloc := mkc ex_sh1 [mkl 0 0 PIdle [GContains 6; GInsert 5; GContains 5]; mkl 0 0 PIdle [GInsert 8]].
Definition ex_c2 : config gsh gloc :=
  mkc (mkg [mkt (mkset [0; 0; 6; 7]%N 2 1) 512; mkt (mkset [8; 0; 0; 0; 0; 5; 6; 7]%N 4 1) 0] 1 1 1 1 0) [mkl 1 1 PIdle []; mkl 1 1 PIdle []].
Definition ex_tr2 : list (nat * gev) :=
  [(0, Return (GContains 5) (RB true)); (0, Call (GContains 5)); (0, Return (GInsert 5) (RB true)); (0, Call (GInsert 5));
   (1, Return (GInsert 8) (RB true)); (0, Return (GContains 6) (RB true)); (0, Call (GContains 6)); (1, Call (GInsert 8))].
Lemma ex_run1 : exec (g_step ex_mult) (g_start ex_tab ex_progs) ex_c1 ex_tr1.
Proof. eapply (run_sched_exec _ _ _ (g_step ex_mult) _ ex_first); [apply exec_start|vm_compute; reflexivity]. Qed.
Lemma ex_step1 : g_step ex_mult (c_sh ex_c1) ex_loc1 = Step ex_sh1 (mkl 0 0 PIdle [GInsert 8]) [Return (GInsert 7) (RB true)].
Proof. reflexivity. Qed.
Lemma ex_run2 : exec (g_step ex_mult) ex_c1' ex_c2 ex_tr2.
Proof. eapply (run_sched_exec _ _ _ (g_step ex_mult) _ ex_second); [apply exec_start|vm_compute; reflexivity]. Qed.

(** ** Safety *)
(** No schedule of inserts, lookups and growth reads outside a table or uses a table that does not exist,
    from any well formed table of at least one and fewer than 2^60 cells, for nonzero keys. *)
Theorem C18_safe : forall mult s progs, g_init s -> gkeys_nz progs -> forall c tr, exec (g_step mult) (g_start s progs) c tr ->
  forall t l, nth_error (c_loc c) t = Some l -> g_step mult (c_sh c) l <> Bad.
Proof. intros mult s progs Hs Hp c tr He t l. exact (g_not_bad mult c t l (gI_inv mult _ _ _ (gI_start s progs Hs Hp) He)). Qed.
Print Assumptions C18_safe.
Example C18_safe_ex : g_init ex_tab /\ gkeys_nz ex_progs /\ exec (g_step ex_mult) (g_start ex_tab ex_progs) ex_c1 ex_tr1.
Proof. split; [exact ex_init|]. split; [exact ex_nz|exact ex_run1]. Qed.

(** ** Growth keeps the keys *)
(** Take any moment when no table is under construction and the current table stores [k].  Whatever happens then -
    any number of growths by any threads - every lookup of [k] called later returns true, [k] is stored in the current table
    whenever no table is under construction, and [data()] stores [k] whenever all threads are between calls. *)
Theorem C18_kept : forall mult s progs, g_init s -> gkeys_nz progs -> forall c1 tr1, exec (g_step mult) (g_start s progs) c1 tr1 ->
  forall k, settled (c_sh c1) k -> forall c2 tr2, exec (g_step mult) c1 c2 tr2 ->
  (forall t r, between c1 t -> In (t, Return (GContains k) r) tr2 -> r = RB true) /\
  (g_tw (c_sh c2) = g_er (c_sh c2) -> settled (c_sh c2) k) /\
  (all_between c2 -> in_tab (c_sh c2) (g_tr (c_sh c2)) k).
Proof.
  intros mult s progs Hs Hp c1 tr1 H1 k Hk c2 tr2 H2. pose proof (gI_inv mult _ _ _ (gI_start s progs Hs Hp) H1) as HI.
  pose proof (gI_inv mult _ _ _ HI H2) as HI2. assert (Hnz : k <> 0%N) by (destruct Hk as [_ [tb [_ [_ Hz]]]]; exact Hz).
  pose proof (settled_skey mult _ _ Hk) as HK. pose proof (skey_inv mult _ _ _ _ _ HI HK Hnz H2) as HK2. split; [|split].
  - intros t r Hb Hr. exact (lookups_find mult _ _ _ _ _ _ HI HK Hnz Hb H2 r Hr).
  - exact (skey_settled mult _ _ _ HI2 HK2).
  - intros Hb. destruct (between_settled _ HI2 Hb) as [E1 E2]. rewrite E2. exact (proj2 (skey_settled mult _ _ _ HI2 HK2 E1)).
Qed.
Print Assumptions C18_kept.
Example C18_kept_ex : settled (c_sh ex_c1) 6 /\ between ex_c1 0 /\ exec (g_step ex_mult) ex_c1' ex_c2 ex_tr2 /\
  In (0, Return (GContains 6) (RB true)) ex_tr2 /\ all_between ex_c2 /\ length (g_tabs (c_sh ex_c2)) = 2.
Proof.
  split. { split; [reflexivity|]. eexists. split; [reflexivity|]. split; [cbn; auto|discriminate]. }
  split. { eexists. split; reflexivity. }
  split; [exact ex_run2|]. split; [cbn; auto 10|]. split; [|reflexivity]. intros l [<-|[<-|[]]]; reflexivity.
Qed.

(** ** Inserts *)
(** If an insert of [k] returns (true or false) and no table was under construction when the thread was last known to be between
    calls nor was one made since, then [k] is settled, so [C18_kept] applies to it from then on. *)
Theorem C18_insert_kept : forall mult s progs, g_init s -> gkeys_nz progs -> forall c0 tr0, exec (g_step mult) (g_start s progs) c0 tr0 ->
  forall t, between c0 t -> g_tw (c_sh c0) = g_er (c_sh c0) -> forall c tr, exec (g_step mult) c0 c tr -> g_tw (c_sh c) = g_tw (c_sh c0) ->
  forall l sh' l' evs k b, nth_error (c_loc c) t = Some l -> g_step mult (c_sh c) l = Step sh' l' evs -> In (Return (GInsert k) (RB b)) evs -> settled sh' k.
Proof.
  intros mult s progs Hs Hp c0 tr0 H0 t Hb Hq c tr He Hw l sh' l' evs k b Et E Hr.
  exact (quiet_insert mult c0 c tr t l sh' l' evs k b (gI_inv mult _ _ _ (gI_start s progs Hs Hp) H0) Hb Hq He Et E Hr Hw).
Qed.
Print Assumptions C18_insert_kept.
(** More generally it is enough that the table the thread used is the newest one when the insert returns. *)
Theorem C18_insert_newest_kept : forall mult s progs, g_init s -> gkeys_nz progs -> forall c tr, exec (g_step mult) (g_start s progs) c tr ->
  forall t l sh' l' evs k b, nth_error (c_loc c) t = Some l -> g_step mult (c_sh c) l = Step sh' l' evs -> In (Return (GInsert k) (RB b)) evs ->
  h_tab l = g_tw (c_sh c) -> settled sh' k.
Proof.
  intros mult s progs Hs Hp c tr He t l sh' l' evs k b Et E Hr. exact (insert_settles mult c t l sh' l' evs k b (gI_inv mult _ _ _ (gI_start s progs Hs Hp) He) Et E Hr).
Qed.
Print Assumptions C18_insert_newest_kept.
Example C18_insert_kept_ex : between (g_start ex_tab ex_progs) 1 /\ exec (g_step ex_mult) (g_start ex_tab ex_progs) ex_c1 ex_tr1 /\
  g_tw (c_sh ex_c1) = 0 /\ nth_error (c_loc ex_c1) 1 = Some ex_loc1 /\ h_tab ex_loc1 = g_tw (c_sh ex_c1) /\
  g_step ex_mult (c_sh ex_c1) ex_loc1 = Step ex_sh1 (mkl 0 0 PIdle [GInsert 8]) [Return (GInsert 7) (RB true)] /\ settled ex_sh1 7.
Proof.
  split. { eexists. split; reflexivity. }
  split; [exact ex_run1|]. split; [reflexivity|]. split; [reflexivity|]. split; [reflexivity|]. split; [exact ex_step1|].
  exact (C18_insert_newest_kept ex_mult ex_tab ex_progs ex_init ex_nz ex_c1 ex_tr1 ex_run1 1 ex_loc1 _ _ _ 7%N true eq_refl ex_step1 (or_introl eq_refl) eq_refl).
Qed.

(** ** Nothing is invented *)
(** Every key stored in any table, and every key a lookup answers true for, was stored at the start or passed to a call of insert. *)
Theorem C18_origin : forall mult s progs, g_init s -> gkeys_nz progs -> forall c tr, exec (g_step mult) (g_start s progs) c tr ->
  (forall v k, in_tab (c_sh c) v k -> known s tr k) /\ (forall t k, In (t, Return (GContains k) (RB true)) tr -> known s tr k).
Proof.
  intros mult s progs Hs Hp c tr He. split; [exact (proj1 (gO_inv mult s progs c tr Hs Hp He))|]. intros t k. exact (found_known mult s progs c tr t k Hs Hp He).
Qed.
Print Assumptions C18_origin.
Example C18_origin_ex : in_tab (c_sh ex_c1) 0 7 /\ known ex_tab ex_tr1 7.
Proof. split; [eexists; split; [reflexivity|]; split; [cbn; auto|discriminate]|]. right. exists 1. now left. Qed.

(** ** No deadlock *)
(** At every moment all calls have been made and have returned, or a table of 2^60 cells or more is asked for, or some thread that is not
    busy waiting can take a step. *)
Theorem C18_no_deadlock : forall mult s progs, g_init s -> gkeys_nz progs -> forall c tr, exec (g_step mult) (g_start s progs) c tr ->
  (forall l, In l (c_loc c) -> finished l) \/ (exists l, In l (c_loc c) /\ no_memory (c_sh c) l) \/
  exists t l sh' l' evs, nth_error (c_loc c) t = Some l /\ ~ waiting (c_sh c) l /\ g_step mult (c_sh c) l = Step sh' l' evs.
Proof. intros mult s progs Hs Hp c tr He. exact (someone_moves mult c (gI_inv mult _ _ _ (gI_start s progs Hs Hp) He)). Qed.
Print Assumptions C18_no_deadlock.
Example C18_no_deadlock_ex : ~ waiting (c_sh ex_c1) ex_loc1 /\ ~ finished ex_loc1.
Proof. split; [intros []|intros [H _]; discriminate]. Qed.

(** ** Calls that do not overlap *)
(** If no two calls of different threads overlap in time - then growth by one thread never runs beside a call of another - the table behaves as a set
    shared by all handles: each insert returns true exactly for a new key, each lookup answers membership in the set of all keys
    inserted so far, and at rest [data()] stores exactly that set. *)
Theorem C18_sequential : forall mult s progs, g_init s -> gkeys_nz progs -> forall c tr, apart_exec mult (g_start s progs) c tr ->
  seq_ok s tr /\ (all_between c -> forall k, in_tab (c_sh c) (g_tr (c_sh c)) k <-> content s tr k = true).
Proof.
  intros mult s progs Hs Hp c tr He. split; [exact (proj2 (proj2 (proj2 (proj1 (gJ_inv mult s progs c tr Hs Hp He)))))|exact (rest_content mult s progs c tr Hs Hp He)].
Qed.
Print Assumptions C18_sequential.
Definition ex_seq : list nat := repeat 1 55 ++ repeat 0 22.
Definition active (l : gloc) : bool := match l_pc l with PIdle => false | _ => true end.
Lemma one_active L : length (filter active L) <= 1 -> forall t u lt lu, nth_error L t = Some lt -> nth_error L u = Some lu ->
  l_pc lt <> PIdle -> l_pc lu <> PIdle -> t = u.
Proof.
  assert (Ac : forall l, l_pc l <> PIdle -> active l = true) by (intros l H; unfold active; destruct (l_pc l); auto; now destruct H).
  induction L as [|x L IH]; intros Hl t u lt lu Ht Hu A B; [destruct t; discriminate|]. cbn [filter] in Hl.
  assert (None : length (filter active L) = 0 -> forall v lv, nth_error L v = Some lv -> l_pc lv <> PIdle -> False).
  { intros H v lv Hv Hlv. assert (Hi : In lv (filter active L)) by (apply filter_In; split; [eapply nth_error_In; eauto|auto]). destruct (filter active L); [destruct Hi|discriminate]. }
  destruct t as [|t], u as [|u]; cbn [nth_error] in Ht, Hu; [reflexivity| | |].
  - injection Ht as <-. rewrite (Ac _ A) in Hl. cbn [length] in Hl. exfalso. eapply None; [lia|exact Hu|exact B].
  - injection Hu as <-. rewrite (Ac _ B) in Hl. cbn [length] in Hl. exfalso. eapply None; [lia|exact Ht|exact A].
  - f_equal. eapply IH; eauto. destruct (active x); cbn [length] in Hl; lia.
Qed.
Fixpoint apart_run (c : config gsh gloc) (tr : list (nat * gev)) (sched : list nat) : option (config gsh gloc * list (nat * gev)) :=
  match sched with
  | [] => Some (c, tr)
  | t :: r => match nth_error (c_loc c) t with
              | Some l => match g_step ex_mult (c_sh c) l with
                          | Step sh' l' evs => if length (filter active (upd (c_loc c) t l')) <=? 1 then apart_run (mkc sh' (upd (c_loc c) t l')) (map (fun e => (t, e)) evs ++ tr) r else None
                          | _ => None
                          end
              | None => None
              end
  end.
Lemma apart_run_exec c0 sched : forall c tr c' tr', apart_exec ex_mult c0 c tr -> apart_run c tr sched = Some (c', tr') -> apart_exec ex_mult c0 c' tr'.
Proof.
  induction sched as [|t r IH]; intros c tr c' tr' H E; cbn [apart_run] in E; [injection E as <- <-; exact H|].
  destruct (nth_error (c_loc c) t) as [l|] eqn:El; [|discriminate]. destruct (g_step ex_mult (c_sh c) l) as [sh' l' evs| |] eqn:Es; try discriminate.
  destruct (Nat.leb_spec (length (filter active (upd (c_loc c) t l'))) 1) as [Hq|]; [|discriminate]. eapply IH; [|exact E]. econstructor; eauto.
  exact (one_active _ Hq).
Qed.
Example C18_sequential_ex : exists c tr, apart_exec ex_mult (g_start ex_tab ex_progs) c tr /\ g_tr (c_sh c) = 1 /\ all_between c /\
  tr = [(0, Return (GContains 5) (RB true)); (0, Call (GContains 5)); (0, Return (GInsert 5) (RB true)); (0, Call (GInsert 5));
        (0, Return (GContains 6) (RB true)); (0, Call (GContains 6)); (1, Return (GInsert 8) (RB true)); (1, Call (GInsert 8));
        (1, Return (GInsert 7) (RB true)); (1, Call (GInsert 7)); (1, Return (GInsert 6) (RB true)); (1, Call (GInsert 6))].
Proof.
  assert (E : exists c tr, apart_run (g_start ex_tab ex_progs) [] ex_seq = Some (c, tr) /\ c = ex_c2 /\
    tr = [(0, Return (GContains 5) (RB true)); (0, Call (GContains 5)); (0, Return (GInsert 5) (RB true)); (0, Call (GInsert 5));
        (0, Return (GContains 6) (RB true)); (0, Call (GContains 6)); (1, Return (GInsert 8) (RB true)); (1, Call (GInsert 8));
        (1, Return (GInsert 7) (RB true)); (1, Call (GInsert 7)); (1, Return (GInsert 6) (RB true)); (1, Call (GInsert 6))]).
  { do 2 eexists. split; [vm_compute; reflexivity|]. split; reflexivity. }
  destruct E as [c [tr [E [-> E2]]]]. exists ex_c2, tr. split; [eapply apart_run_exec; [apply apart_start|exact E]|].
  split; [reflexivity|]. split; [|exact E2]. intros l [<-|[<-|[]]]; reflexivity.
Qed.

(** ** What fails *)
(** C18 as stated is false: an insert that runs while another thread grows the table can write into the old table after its cell
    has been migrated.  It returns true, the same thread's next lookup returns false, and another handle inserts the key a second time. *)
Definition lost_progs : list (list gop) := [[GInsert 5; GContains 5]; [GInsert 6; GInsert 7; GInsert 8; GInsert 5]].
Theorem C18_insert_kept_refuted : exists c tr, g_init ex_tab /\ gkeys_nz lost_progs /\
  exec (g_step ex_mult) (g_start ex_tab lost_progs) c tr /\ all_between c /\
  exists late mid, tr = late ++ (0, Return (GContains 5) (RB false)) :: (0, Call (GContains 5)) :: (0, Return (GInsert 5) (RB true)) :: mid /\
    ~ in_tab (c_sh c) (g_tr (c_sh c)) 5.
Proof.
  assert (Hnz : gkeys_nz lost_progs).
  { intros p o [<-|[<-|[]]] Ho; cbn [In] in Ho; repeat (destruct Ho as [<-|Ho]); try contradiction; cbn; discriminate. }
  assert (E : exists c tr, run_sched (g_step ex_mult) (g_start ex_tab lost_progs) [] (repeat 0 5 ++ repeat 1 55 ++ repeat 0 11) = Some (c, tr) /\
    c_loc c = [mkl 1 1 PIdle []; mkl 1 1 PIdle [GInsert 5]] /\
    c_sh c = mkg [mkt (mkset [0; 5; 6; 7]%N 3 1) 512; mkt (mkset [8; 0; 0; 0; 0; 0; 6; 7]%N 3 1) 0] 1 1 1 1 0 /\
    exists mid, tr = (0, Return (GContains 5) (RB false)) :: (0, Call (GContains 5)) :: (0, Return (GInsert 5) (RB true)) :: mid).
  { do 2 eexists. split; [vm_compute; reflexivity|]. split; [reflexivity|]. split; [reflexivity|]. eexists. reflexivity. }
  destruct E as [c [tr [E [E1 [E2 [mid E3]]]]]]. exists c, tr. split; [exact ex_init|]. split; [exact Hnz|]. split; [|split].
  - eapply (run_sched_exec _ _ _ (g_step ex_mult)); [apply exec_start|exact E].
  - intros l Hl. rewrite E1 in Hl. destruct Hl as [<-|[<-|[]]]; reflexivity.
  - exists [], mid. split; [exact E3|]. rewrite E2. intros [tb [Et [Hs _]]]. cbn in Et. injection Et as <-. cbn [t_set s_arr In] in Hs.
    repeat (destruct Hs as [Hs|Hs]; [discriminate|]). destruct Hs.
Qed.
Print Assumptions C18_insert_kept_refuted.

Theorem C18_insert_once_refuted : exists c tr, g_init ex_tab /\ exec (g_step ex_mult) (g_start ex_tab lost_progs) c tr /\
  In (0, Return (GInsert 5) (RB true)) tr /\ In (1, Return (GInsert 5) (RB true)) tr.
Proof.
  assert (E : exists c tr, run_sched (g_step ex_mult) (g_start ex_tab lost_progs) [] (repeat 0 5 ++ repeat 1 63 ++ repeat 0 3) = Some (c, tr) /\
    In (0, Return (GInsert 5) (RB true)) tr /\ In (1, Return (GInsert 5) (RB true)) tr).
  { do 2 eexists. split; [vm_compute; reflexivity|]. cbn [In]. split; auto 10. }
  destruct E as [c [tr [E [E1 E2]]]]. exists c, tr. split; [exact ex_init|]. split; [|auto]. eapply (run_sched_exec _ _ _ (g_step ex_mult)); [apply exec_start|exact E].
Qed.
Print Assumptions C18_insert_once_refuted.

(** getTable copies the shared pointer g_table_r (340) without the lock under which grow assigns it (392-397): there is a moment at which
    one thread is about to assign it and another is about to copy it.  In C++ this is a data race. *)
Theorem C18_race_free_refuted : exists c tr l0 l1 w k0 k1, exec (g_step ex_mult) (g_start ex_tab ex_progs) c tr /\
  nth_error (c_loc c) 0 = Some l0 /\ nth_error (c_loc c) 1 = Some l1 /\ l_pc l0 = PGetT k0 /\ l_pc l1 = PLock2 w k1 /\ g_tr (c_sh c) < w.
Proof.
  assert (E : exists c tr, run_sched (g_step ex_mult) (g_start ex_tab ex_progs) [] (repeat 1 16 ++ repeat 0 6 ++ repeat 1 24 ++ repeat 0 3 ++ repeat 1 4) = Some (c, tr) /\
    exists l0 l1 w k0 k1, nth_error (c_loc c) 0 = Some l0 /\ nth_error (c_loc c) 1 = Some l1 /\ l_pc l0 = PGetT k0 /\ l_pc l1 = PLock2 w k1 /\ g_tr (c_sh c) < w).
  { do 2 eexists. split; [vm_compute; reflexivity|]. do 5 eexists. split; [reflexivity|]. split; [reflexivity|]. split; [reflexivity|]. split; [reflexivity|]. cbn. lia. }
  destruct E as [c [tr [E [l0 [l1 [w [k0 [k1 H]]]]]]]]. exists c, tr, l0, l1, w, k0, k1. split; [|exact H]. eapply (run_sched_exec _ _ _ (g_step ex_mult)); [apply exec_start|exact E].
Qed.
Print Assumptions C18_race_free_refuted.

(** A growing table made with size 0 (kWaySplitter with fewer points than parts, for instance): no insert ever returns, ... *)
Theorem C18_size_zero_never_returns : forall mult a progs, (forall p o, In p progs -> In o p -> no_lookup o) ->
  forall c tr, exec (g_step mult) (g_start (cs_new 0 a) progs) c tr -> forall t k r, ~ In (t, Return (GInsert k) r) tr.
Proof. exact zero_never. Qed.
Print Assumptions C18_size_zero_never_returns.
Example C18_size_zero_ex : exists c tr, exec (g_step ex_mult) (g_start (cs_new 0 1) [[GInsert 5]]) c tr /\ g_tr (c_sh c) = 3 /\ tr = [(0, Call (GInsert 5))].
Proof.
  assert (E : exists c tr, run_sched (g_step ex_mult) (g_start (cs_new 0 1) [[GInsert 5]]) [] (repeat 0 42) = Some (c, tr) /\ g_tr (c_sh c) = 3 /\ tr = [(0, Call (GInsert 5))]).
  { do 2 eexists. split; [vm_compute; reflexivity|]. split; reflexivity. }
  destruct E as [c [tr [E H]]]. exists c, tr. split; [|exact H]. eapply (run_sched_exec _ _ _ (g_step ex_mult)); [apply exec_start|exact E].
Qed.
(** ... and a lookup is undefined. *)
Theorem C18_size_zero_lookup_refuted : exists c tr l, exec (g_step ex_mult) (g_start (cs_new 0 1) [[GContains 5]]) c tr /\
  nth_error (c_loc c) 0 = Some l /\ g_step ex_mult (c_sh c) l = Bad.
Proof.
  assert (E : exists c tr, run_sched (g_step ex_mult) (g_start (cs_new 0 1) [[GContains 5]]) [] (repeat 0 4) = Some (c, tr) /\
    exists l, nth_error (c_loc c) 0 = Some l /\ g_step ex_mult (c_sh c) l = Bad).
  { do 2 eexists. split; [vm_compute; reflexivity|]. eexists. split; reflexivity. }
  destruct E as [c [tr [E [l H]]]]. exists c, tr, l. split; [|exact H]. eapply (run_sched_exec _ _ _ (g_step ex_mult)); [apply exec_start|exact E].
Qed.
Print Assumptions C18_size_zero_lookup_refuted.
