(** Concurrent_LP_Set: once all threads of an inserting phase are done, every key is stored. *)
From Verif Require Import Outcome ListUtil WordsModel WordsProofs LPSetModel ProbeTheory LPSetProofs LPSetHistory Conc ConcProbe ConcSetModel ConcSetProofs ConcSetWait ConcSetSpec ConcSetMerge.
Local Open Scope nat_scope.

Section W.
Variable w : N.
Hypothesis Hw : (w <= 64)%N.
Variable g : bool.
Variables (n : nat) (a : N).
Hypothesis Hn : pow2cap w n.
Variable U : list N.

(** A call that cannot give up because of the load: _insert, or insert on a table that does not grow. *)
Definition adds (o : csop) : Prop := is_put o \/ (g = false /\ puts o).
Lemma adds_puts o : adds o -> puts o.
Proof. intros [H|[_ H]]; [|exact H]. destruct o; [exact I|exact I|destruct H]. Qed.

Lemma head_adds s o idx cols p sh' l' evs : adds o -> cs_head w g s o idx cols p = Step sh' l' evs -> sh' = s /\ todo l' = o :: p.
Proof.
  intros Ho. unfold cs_head. assert (E : g && is_insert o = false). { destruct Ho as [Ho|[-> _]]; [destruct o; try destruct Ho; apply andb_false_r|reflexivity]. }
  rewrite E. cbn [andb]. intros H; injection H as <- <- <-. auto.
Qed.

(** A full table of distinct keys from [U] holds every key that fits. *)
Lemma full_has S0 c tr k : csI w g n a S0 c tr -> (forall k, In k (s_arr (c_sh c)) -> k <> 0%N -> In k U) -> distinct (k :: U) <= n -> In k U ->
  n <= length (keys_of (s_arr (c_sh c))) -> In k (s_arr (c_sh c)).
Proof.
  intros [H1 [_ [_ [HU _]]]] HsU Hd HkU Hl. destruct (in_dec N.eq_dec k (keys_of (s_arr (c_sh c)))) as [H|H]; [apply in_keys_of in H; apply H|exfalso].
  assert (Hnd : NoDup (k :: keys_of (s_arr (c_sh c)))) by (constructor; [exact H|now apply uniq_NoDup]).
  assert (Hincl : incl (k :: keys_of (s_arr (c_sh c))) (nodup N.eq_dec (k :: U))).
  { intros x [<-|Hx]; apply nodup_In; [now left|right]. apply in_keys_of in Hx. apply HsU; apply Hx. }
  pose proof (NoDup_incl_length Hnd Hincl) as Hlen. cbn [length] in Hlen. unfold distinct in Hd. lia.
Qed.

Lemma add_todo S0 c tr t l sh' l' evs o : wI w g n a U S0 c tr -> nth_error (c_loc c) t = Some l -> cs_step w g (c_sh c) l = Step sh' l' evs ->
  (forall x, In x (rest l) -> adds x) -> In o (todo l) -> In o (todo l') \/ In (cs_key o) (s_arr sh').
Proof.
  intros [HI [HsU Hops]] Et E Hp Hin. specialize (Hops l (nth_error_In _ _ Et)). clear Et. destruct l as [[|x p]|x p|x i cols p|x i cols p|x p|x r p]; cbn [cs_step] in E; cbn [rest todo] in *.
  - discriminate.
  - injection E as <- <- <-. left. exact Hin.
  - assert (Hx : adds x) by (apply Hp; now left). destruct (is_insert x && cs_full g (c_sh c)) eqn:Ef.
    + injection E as <- <- <-. cbn [todo]. destruct Hin as [<-|Hin]; [right|now left].
      destruct Hx as [Hx|[Eg Hx]]; [destruct x; try destruct Hx; discriminate|]. apply andb_true_iff in Ef. destruct Ef as [_ Ef]. unfold cs_full in Ef. rewrite Eg in Ef. apply Nat.eqb_eq in Ef.
      destruct (Hops x (or_introl eq_refl)) as [HU Hd]. eapply full_has; [exact HI|exact HsU|exact Hd|now apply HU|].
      destruct HI as [H1 [_ [_ [_ [_ [_ Hc]]]]]]. lia.
    + apply head_adds in E; [|exact Hx]. destruct E as [_ ->]. left. exact Hin.
  - assert (Hx : adds x) by (apply Hp; now left). destruct (nth_error _ _) as [c0|] eqn:Ec; [|discriminate].
    assert (E' : (if N.eqb c0 (cs_key x) then Step (c_sh c) (LRet x (RB false) p) [Lin x (RB false)]
                  else if negb (N.eqb c0 0) then cs_next w g (c_sh c) x i cols p else Step (c_sh c) (LCas x i cols p) []) = Step sh' l' evs).
    { pose proof (adds_puts x Hx) as Hpx. destruct x as [k|k|k]; [exact E|exact E|destruct Hpx]. }
    clear E. destruct (N.eqb_spec c0 (cs_key x)) as [Ek|].
    + injection E' as <- <- <-. cbn [todo]. destruct Hin as [<-|Hin]; [right|now left]. rewrite <- Ek. eapply nth_error_In; eassumption.
    + destruct (N.eqb c0 0); cbn [negb] in E'; [injection E' as <- <- <-; left; exact Hin|]. apply head_adds in E'; [|exact Hx]. destruct E' as [_ ->]. left. exact Hin.
  - assert (Hx : adds x) by (apply Hp; now left). destruct (nth_error _ _) as [c0|] eqn:Ec; [|discriminate]. destruct (N.eqb_spec c0 0) as [E0|].
    + injection E as <- <- <-. cbn [todo s_arr]. destruct Hin as [<-|Hin]; [right|now left]. apply (nth_error_In _ (N.to_nat i)).
      apply nth_error_upd_eq. eapply nth_error_lt; eassumption.
    + destruct (N.eqb_spec c0 (cs_key x)) as [Ek|].
      * injection E as <- <- <-. cbn [todo]. destruct Hin as [<-|Hin]; [right|now left]. rewrite <- Ek. eapply nth_error_In; eassumption.
      * apply head_adds in E; [|exact Hx]. destruct E as [_ ->]. left. exact Hin.
  - injection E as <- <- <-. left. exact Hin.
  - injection E as <- <- <-. left. exact Hin.
Qed.
End W.

Section P.
Variable w : N.
Hypothesis Hw : (w <= 64)%N.
Variable g : bool.
Variables (s : lpset) (progs : list (list csop)) (U : list N).
Hypothesis Hm : cs_made w g s.
Hypothesis Hp : keys_nz progs.
Hypothesis HU : fits s progs U.
Hypothesis Ha : forall p o, In p progs -> In o p -> adds g o.
Notation n := (length (s_arr s)).

Lemma adds_left c tr : exec (cs_step w g) (cs_start s progs) c tr ->
  (forall l o, In l (c_loc c) -> In o (rest l) -> adds g o) /\
  forall t p o, nth_error progs t = Some p -> In o p -> (exists l, nth_error (c_loc c) t = Some l /\ In o (todo l)) \/ In (cs_key o) (s_arr (c_sh c)).
Proof.
  intros H. induction H as [|c tr u l sh' l' evs H [IH1 IH2] Et Es].
  - split.
    + intros l o Hl Ho. cbn [cs_start c_loc] in Hl. apply in_map_iff in Hl. destruct Hl as [p [<- Hin]]. exact (Ha p o Hin Ho).
    + intros t p o Hpt Ho. left. exists (LIdle p). split; [cbn [cs_start c_loc]; now apply map_nth_error|exact Ho].
  - pose proof (wI_exec w Hw g n (s_mult s) (proj1 (made_wf w Hw g s Hm)) U (memb s) _ _ _ (wI_start w Hw g s (memb s) progs Hm (memb_same s) Hp U HU) H) as HW.
    cbn [c_loc c_sh]. split.
    + intros x o Hx Ho. apply In_upd_any in Hx. destruct Hx as [->|Hx]; [|eapply IH1; eassumption].
      apply (IH1 l o (nth_error_In _ _ Et)). now apply (proj1 (step_rest w g _ _ _ _ _ Es)).
    + intros t p o Hpt Ho. assert (Hk0 : cs_key o <> 0%N) by (eapply Hp; [eapply nth_error_In; exact Hpt|exact Ho]).
      destruct (IH2 t p o Hpt Ho) as [[lt [Hlt Hin]]|Hin].
      * destruct (Nat.eq_dec t u) as [->|Hne].
        -- rewrite Et in Hlt. injection Hlt as <-.
           destruct (add_todo w Hw g n (s_mult s) U _ _ _ _ _ _ _ _ o HW Et Es (fun x => IH1 l x (nth_error_In _ _ Et)) Hin) as [Hl'|Hx]; [|now right].
           left. exists l'. split; [apply nth_error_upd_eq; eapply nth_error_lt; eassumption|exact Hl'].
        -- left. exists lt. split; [rewrite nth_error_upd_neq by congruence; exact Hlt|exact Hin].
      * right. eapply step_mono; eassumption.
Qed.

(** The table after the phase: as made, holding the old keys and those of the calls. *)
Lemma phase_done c tr : exec (cs_step w g) (cs_start s progs) c tr -> cs_finished c ->
  cs_made w g (c_sh c) /\ length (s_arr (c_sh c)) = n /\
  forall k, stored (c_sh c) k <-> stored s k \/ exists p o, In p progs /\ In o p /\ cs_key o = k.
Proof.
  intros H Hf. pose proof (inv_of w Hw g s (memb s) progs Hm (memb_same s) Hp c tr H) as HI. split; [|split].
  - apply (made_run w g s progs c tr Hm Hp H). intros l Hl. exists []. now apply Hf.
  - apply HI.
  - intros k. split.
    + destruct HI as [_ [_ [_ [_ [[S [HL HS]] _]]]]]. intros Hk. apply HS in Hk. destruct (csspec_origin _ _ _ _ _ HL Hk) as [H0|[o [r [Ho [_ Ek]]]]].
      * left. apply (memb_same s). exact H0.
      * right. destruct (lin_inv tr o r (stages w Hw g s (memb s) progs Hm (memb_same s) Hp c tr H) Ho) as [v Hv].
        destruct (ops_from w g s progs (fun o => exists p o', In p progs /\ In o' p /\ cs_key o' = cs_key o) c tr) with (o := o) as [p [o' [H1 [H2 H3]]]].
        -- intros p o' H1 H2. now exists p, o'.
        -- exact H.
        -- now exists v.
        -- exists p, o'. rewrite H3. auto.
    + intros [Hk|[p [o [Hpi [Ho <-]]]]].
      * split; [|apply Hk]. clear Hf HI. induction H as [|c tr u l sh' l' evs H IH Et Es]; [apply Hk|]. eapply step_mono; [exact Es|apply Hk|exact IH].
      * split; [|now apply (Hp p o)]. apply In_nth_error in Hpi. destruct Hpi as [t Ht]. destruct (proj2 (adds_left c tr H) t p o Ht Ho) as [[l [Hl Hin]]|Hin]; [|exact Hin].
        rewrite (Hf l (nth_error_In _ _ Hl)) in Hin. destruct Hin.
Qed.
End P.
