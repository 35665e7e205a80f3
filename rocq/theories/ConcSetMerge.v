(** Concurrent_LP_Set::unsafe_merge under every schedule of the parallel copy. *)
From Verif Require Import Outcome ListUtil WordsModel WordsProofs LPSetModel ProbeTheory LPSetProofs Conc ConcProbe ConcSetModel ConcSetProofs ConcSetWait ConcSetSpec.
From Coq Require Import Permutation.
Local Open Scope nat_scope.

(** *** the new size *)
Lemma grow_size_ok w comb : (w <= 64)%N -> (1 <= comb)%N -> (4 * comb <= 2 ^ w)%N ->
  exists k, returns (fun f => grow_size f comb (nextPow2 64 comb)) (2 ^ k)%N /\ (k <= w)%N /\ (comb <= 2 ^ k / 2)%N.
Proof.
  intros Hw H1 H4. assert (Hw2 : (2 <= w)%N).
  { destruct (N.lt_ge_cases w 2) as [Hlt|]; [exfalso|assumption]. assert (2 ^ w <= 2 ^ 1)%N by (apply N.pow_le_mono_r; [discriminate|lia]). change (2 ^ 1)%N with 2%N in *. lia. }
  assert (Hc : (comb <= 2 ^ (w - 2))%N).
  { replace w with (w - 2 + 2)%N in H4 by lia. rewrite N.pow_add_r in H4. change (2 ^ 2)%N with 4%N in H4. lia. }
  assert (Hc63 : (comb <= 2 ^ (64 - 1))%N). { etransitivity; [exact Hc|]. apply N.pow_le_mono_r; [discriminate|lia]. }
  destruct (nextPow2_least 64 comb) as [[k [Ek Hk]] [Hge Hle]]; [discriminate|exact H1|exact Hc63|].
  pose proof (Hle _ Hc) as Hk2. rewrite Ek in *. apply N.pow_le_mono_r_iff in Hk2; [|reflexivity].
  assert (E2 : (2 * 2 ^ k = 2 ^ (k + 1))%N) by (rewrite N.add_1_r, N.pow_succ_r'; reflexivity).
  assert (Hwr : wrap 64 (2 * 2 ^ k) = (2 ^ (k + 1))%N).
  { rewrite E2. apply wrap_id. apply N.pow_lt_mono_r; [reflexivity|lia]. }
  assert (Hhalf : (2 ^ (k + 1) / 2 = 2 ^ k)%N) by (rewrite <- E2, N.mul_comm; apply N.div_mul; discriminate).
  destruct (N.leb_spec comb (2 ^ k / 2)) as [Hin|Hout].
  - exists k. split; [|split; [lia|exact Hin]]. exists 0. intros f _. destruct f; cbn [grow_size]; apply N.leb_le in Hin; now rewrite Hin.
  - exists (k + 1)%N. split; [|split; [lia|rewrite Hhalf; exact Hge]]. exists 1. intros f Hf. destruct f as [|f]; [lia|]. cbn [grow_size].
    destruct (N.leb_spec comb (2 ^ k / 2)); [lia|]. rewrite Hwr.
    destruct f; cbn [grow_size]; rewrite Hhalf; destruct (N.leb_spec comb (2 ^ k)); (reflexivity || lia).
Qed.

(** *** every call of the copy leaves its key in the table *)
Definition todo (l : csloc) : list csop :=
  match l with
  | LIdle p | LCount _ p | LRet _ _ p => p
  | LEntry o p | LProbe o _ _ p | LCas o _ _ p => o :: p
  end.
Definition is_put (o : csop) : Prop := match o with SPut _ => True | _ => False end.

Section W.
Variable w : N.
Variable g : bool.

Lemma head_todo s o idx cols p sh' l' evs : is_put o -> cs_head w g s o idx cols p = Step sh' l' evs -> sh' = s /\ todo l' = o :: p.
Proof. destruct o; intros []. unfold cs_head. cbn [is_insert]. rewrite andb_false_r. cbn [andb]. intros E; injection E as <- <- <-. auto. Qed.

Lemma step_mono s l sh' l' evs k : cs_step w g s l = Step sh' l' evs -> k <> 0%N -> In k (s_arr s) -> In k (s_arr sh').
Proof.
  intros E Hk Hin. destruct l as [[|o p]|o p|o i cols p|o i cols p|o p|o r p]; cbn [cs_step] in E.
  - discriminate.
  - injection E as <- <- <-. exact Hin.
  - unfold cs_head in E. destruct (_ && _); [injection E as <- <- <-; exact Hin|]. destruct (_ && _); injection E as <- <- <-; exact Hin.
  - unfold cs_next, cs_head in E. destruct (nth_error _ _) as [c|]; [|discriminate]. destruct o; destruct (N.eqb c _); try (injection E as <- <- <-; exact Hin);
     destruct (N.eqb c 0); cbn [negb] in E; try (injection E as <- <- <-; exact Hin); destruct (_ && _); injection E as <- <- <-; exact Hin.
  - unfold cs_next, cs_head in E. destruct (nth_error _ _) as [c|] eqn:Ec; [|discriminate]. destruct (N.eqb_spec c 0) as [E0|].
    + subst c. injection E as <- <- <-. cbn [s_arr]. apply In_nth_error in Hin. destruct Hin as [q Hq].
      apply (nth_error_In _ q). rewrite nth_error_upd. destruct (Nat.eqb_spec (N.to_nat i) q) as [Eq|]; [|exact Hq]. exfalso. rewrite Eq, Hq in Ec. congruence.
    + destruct (N.eqb c _); [injection E as <- <- <-; exact Hin|]. destruct (_ && _); injection E as <- <- <-; exact Hin.
  - injection E as <- <- <-. exact Hin.
  - injection E as <- <- <-. exact Hin.
Qed.

Lemma step_todo s l sh' l' evs o : cs_step w g s l = Step sh' l' evs -> (forall x, In x (rest l) -> is_put x) ->
  In o (todo l) -> In o (todo l') \/ In (cs_key o) (s_arr sh').
Proof.
  intros E Hp Hin. destruct l as [[|x p]|x p|x i cols p|x i cols p|x p|x r p]; cbn [cs_step] in E; cbn [rest todo] in *.
  - discriminate.
  - injection E as <- <- <-. left. exact Hin.
  - assert (Hx : is_put x) by (apply Hp; now left). assert (Ei : is_insert x = false) by (destruct x; try destruct Hx; reflexivity). rewrite Ei in E. cbn [andb] in E.
    apply head_todo in E; [|exact Hx]. destruct E as [_ ->]. left. exact Hin.
  - assert (Hx : is_put x) by (apply Hp; now left). destruct (nth_error _ _) as [c|] eqn:Ec; [|discriminate]. destruct x as [k|k|k]; try destruct Hx.
    destruct (N.eqb_spec c k) as [Ek|].
    + injection E as <- <- <-. cbn [todo]. destruct Hin as [<-|Hin]; [right|now left]. cbn [cs_key]. subst k. eapply nth_error_In; eassumption.
    + destruct (N.eqb c 0); cbn [negb] in E; [injection E as <- <- <-; left; exact Hin|]. apply head_todo in E; [|exact I]. destruct E as [_ ->]. left. exact Hin.
  - assert (Hx : is_put x) by (apply Hp; now left). destruct (nth_error _ _) as [c|] eqn:Ec; [|discriminate]. destruct (N.eqb_spec c 0) as [E0|].
    + injection E as <- <- <-. cbn [todo s_arr]. destruct Hin as [<-|Hin]; [right|now left]. apply (nth_error_In _ (N.to_nat i)).
      apply nth_error_upd_eq. eapply nth_error_lt; eassumption.
    + destruct (N.eqb_spec c (cs_key x)) as [Ek|].
      * injection E as <- <- <-. cbn [todo]. destruct Hin as [<-|Hin]; [right|now left]. rewrite <- Ek. eapply nth_error_In; eassumption.
      * apply head_todo in E; [|exact Hx]. destruct E as [_ ->]. left. exact Hin.
  - injection E as <- <- <-. left. exact Hin.
  - injection E as <- <- <-. left. exact Hin.
Qed.

Lemma step_inv s l sh' l' evs o : cs_step w g s l = Step sh' l' evs -> In (Inv o) evs -> In o (rest l).
Proof.
  intros E Hin. destruct l as [[|x p]|x p|x i cols p|x i cols p|x p|x r p]; cbn [cs_step] in E; unfold cs_next, cs_head in E; cbn [rest] in *;
  repeat match type of E with
   | Stop = _ => discriminate
   | Bad = _ => discriminate
   | Step _ _ _ = _ => injection E as <- <- <-
   | context [match ?x with _ => _ end] => destruct x
   end; cbn [In] in *; intuition congruence.
Qed.
Lemma ops_from s progs (P : csop -> Prop) c tr : (forall p o, In p progs -> In o p -> P o) -> exec (cs_step w g) (cs_start s progs) c tr ->
  forall o, (exists v, In (v, Inv o) tr) -> P o.
Proof.
  intros HP H. assert (G : (forall l o, In l (c_loc c) -> In o (rest l) -> P o) /\ forall v o, In (v, Inv o) tr -> P o); [|intros o [v Hv]; exact (proj2 G v o Hv)].
  induction H as [|c tr u l sh' l' evs H [IH1 IH2] Et Es].
  - split; [|intros ? ? []]. intros l o Hl Ho. cbn [cs_start c_loc] in Hl. apply in_map_iff in Hl. destruct Hl as [p [<- Hin]]. exact (HP p o Hin Ho).
  - cbn [c_loc]. split.
    + intros x o Hx Ho. apply In_upd_any in Hx. destruct Hx as [->|Hx]; [|eapply IH1; eassumption].
      apply (IH1 l o (nth_error_In _ _ Et)). now apply (proj1 (step_rest w g _ _ _ _ _ Es)).
    + intros v o Hv. apply in_app_or in Hv. destruct Hv as [Hv|Hv]; [|eapply IH2; exact Hv]. apply in_map_iff in Hv. destruct Hv as [e [E He]]. injection E as -> ->.
      apply (IH1 l o (nth_error_In _ _ Et)). eapply step_inv; eassumption.
Qed.

Lemma puts_left s progs c tr : keys_nz progs -> (forall p o, In p progs -> In o p -> is_put o) ->
  exec (cs_step w g) (cs_start s progs) c tr ->
  (forall l o, In l (c_loc c) -> In o (rest l) -> is_put o) /\
  forall t p o, nth_error progs t = Some p -> In o p -> (exists l, nth_error (c_loc c) t = Some l /\ In o (todo l)) \/ In (cs_key o) (s_arr (c_sh c)).
Proof.
  intros Hnz Hput H. induction H as [|c tr u l sh' l' evs H [IH1 IH2] Et Es].
  - split.
    + intros l o Hl Ho. cbn [cs_start c_loc] in Hl. apply in_map_iff in Hl. destruct Hl as [p [<- Hin]]. exact (Hput p o Hin Ho).
    + intros t p o Hp Ho. left. exists (LIdle p). split; [cbn [cs_start c_loc]; now apply map_nth_error|exact Ho].
  - cbn [c_loc c_sh]. split.
    + intros x o Hx Ho. apply In_upd_any in Hx. destruct Hx as [->|Hx]; [|eapply IH1; eassumption].
      apply (IH1 l o (nth_error_In _ _ Et)). now apply (proj1 (step_rest w g _ _ _ _ _ Es)).
    + intros t p o Hp Ho. assert (Hk0 : cs_key o <> 0%N) by (eapply Hnz; [eapply nth_error_In; exact Hp|exact Ho]).
      destruct (IH2 t p o Hp Ho) as [[lt [Hlt Hin]]|Hin].
      * destruct (Nat.eq_dec t u) as [->|Hne].
        -- rewrite Et in Hlt. injection Hlt as <-. destruct (step_todo _ _ _ _ _ o Es (fun x => IH1 l x (nth_error_In _ _ Et)) Hin) as [Hl'|Ha]; [|now right].
           left. exists l'. split; [apply nth_error_upd_eq; eapply nth_error_lt; eassumption|exact Hl'].
        -- left. exists lt. split; [rewrite nth_error_upd_neq by congruence; exact Hlt|exact Hin].
      * right. eapply step_mono; eassumption.
Qed.
End W.

(** *** the merge *)
Section M.
Variable w : N.
Hypothesis Hw : (w <= 64)%N.
Variable g : bool.
Variables (s : lpset) (other : list N) (nother : nat) (flt : N -> bool).

Definition chunk_ops (ch : list nat) : list csop := flat_map (merge_work flt (s_arr s) other) ch.
Definition loop_len : nat := Nat.max (length (s_arr s)) (length other).
(** What the merged set should hold. *)
Definition in_union (k : N) : Prop := k <> 0%N /\ (In k (s_arr s) \/ In k other) /\ flt k = false.

Lemma merge_cell_in l i o : In o (merge_cell flt l i) <-> exists v, o = SPut v /\ nth_error l i = Some v /\ v <> 0%N /\ flt v = false.
Proof.
  unfold merge_cell. destruct (nth_error l i) as [v|]; [|split; [intros []|intros [v [_ [H _]]]; discriminate]].
  destruct (N.eqb_spec v 0) as [E|E]; cbn [negb andb]; [split; [intros []|intros [x [_ [H [Hx _]]]]; congruence]|].
  destruct (flt v) eqn:Ef; cbn [negb]; [split; [intros []|intros [x [_ [H [Hx Hf]]]]; congruence]|]. split.
  - intros [<-|[]]. exists v. auto.
  - intros [x [-> [H _]]]. injection H as ->. now left.
Qed.

Lemma chunk_in chunks : Permutation (concat chunks) (seq 0 loop_len) ->
  forall k, in_union k <-> exists p, In p (map chunk_ops chunks) /\ In (SPut k) p.
Proof.
  intros Hperm k. split.
  - intros [Hk [Hin Hf]].
    assert (Hi : exists i, i < loop_len /\ In (SPut k) (merge_work flt (s_arr s) other i)).
    { unfold loop_len, merge_work. destruct Hin as [Hin|Hin]; apply In_nth_error in Hin; destruct Hin as [i Hi]; exists i; pose proof (nth_error_lt _ _ _ Hi);
        (split; [lia|]); apply in_or_app; [left|right]; apply merge_cell_in; exists k; auto. }
    destruct Hi as [i [Hi Hw']]. assert (Hc : In i (concat chunks)) by (eapply Permutation_in; [apply Permutation_sym; exact Hperm|]; apply in_seq; lia).
    apply in_concat in Hc. destruct Hc as [ch [Hch Hich]]. exists (chunk_ops ch). split; [now apply in_map|]. unfold chunk_ops. apply in_flat_map. exists i. auto.
  - intros [p [Hp Ho]]. apply in_map_iff in Hp. destruct Hp as [ch [<- Hch]]. unfold chunk_ops in Ho. apply in_flat_map in Ho. destruct Ho as [i [Hi Ho]].
    unfold merge_work in Ho. apply in_app_or in Ho. destruct Ho as [Ho|Ho]; apply merge_cell_in in Ho; destruct Ho as [v [E [Hn [Hv Hf]]]]; injection E as ->;
      (split; [exact Hv|]; split; [|exact Hf]); apply nth_error_In in Hn; auto.
Qed.

Lemma chunk_put chunks p o : In p (map chunk_ops chunks) -> In o p -> is_put o /\ cs_key o <> 0%N /\ flt (cs_key o) = false /\ (In (cs_key o) (s_arr s) \/ In (cs_key o) other).
Proof.
  intros Hp Ho. apply in_map_iff in Hp. destruct Hp as [ch [<- Hch]]. unfold chunk_ops in Ho. apply in_flat_map in Ho. destruct Ho as [i [Hi Ho]].
  unfold merge_work in Ho. apply in_app_or in Ho. destruct Ho as [Ho|Ho]; apply merge_cell_in in Ho; destruct Ho as [v [-> [Hn [Hv Hf]]]]; apply nth_error_In in Hn; cbn; auto.
Qed.

Definition combined : N := N.of_nat (s_items s + nother).
Definition union_keys : list N := keys_of (s_arr s) ++ keys_of other.

Lemma in_union_keys k : k <> 0%N -> In k (s_arr s) \/ In k other -> In k union_keys.
Proof. intros Hk H. unfold union_keys. apply in_or_app. rewrite !in_keys_of. tauto. Qed.

Hypothesis Hs : s_items s = length (keys_of (s_arr s)).
Hypothesis Ho : nother = length (keys_of other).
Hypothesis Hpos : combined <> 0%N.
Hypothesis Hbig : (4 * combined <= 2 ^ w)%N.

Lemma distinct_le l : distinct l <= length l.
Proof. unfold distinct. induction l as [|a l IH]; [reflexivity|]. cbn [nodup length]. destruct (in_dec N.eq_dec a l); cbn [length]; lia. Qed.

Lemma merge_ok : exists sz, returns (fun f => grow_size f combined (nextPow2 64 combined)) sz /\
  forall chunks, Permutation (concat chunks) (seq 0 loop_len) ->
  let c0 := cs_start (merge_table s sz) (map chunk_ops chunks) in
  cs_made w g (merge_table s sz) /\ keys_nz (map chunk_ops chunks) /\
  safe (cs_step w g) c0 /\ terminates (cs_step w g) c0 /\
  (forall c tr, exec (cs_step w g) c0 c tr -> (exists c', cstep (cs_step w g) c c') \/ cs_finished c) /\
  forall c tr, exec (cs_step w g) c0 c tr -> cs_finished c ->
    cs_made w g (c_sh c) /\ (forall k, stored (c_sh c) k <-> in_union k) /\
    s_items (c_sh c) = length (keys_of (s_arr (c_sh c))) /\ 2 * s_items (c_sh c) <= length (s_arr (c_sh c)).
Proof.
  destruct (grow_size_ok w combined Hw ltac:(lia) Hbig) as [k [Hret [Hk Hhalf]]]. exists (2 ^ k)%N. split; [exact Hret|]. intros chunks Hperm c0.
  assert (Hmade : cs_made w g (merge_table s (2 ^ k))) by (apply made_table; exact Hk).
  assert (Hnz : keys_nz (map chunk_ops chunks)) by (intros p o Hp Ho'; apply (chunk_put _ _ _ Hp Ho')).
  assert (Hsame : same_keys (fun _ => false) (merge_table s (2 ^ k))).
  { intros x. split; [discriminate|]. intros [Hx Hx0]. cbn [merge_table s_arr] in Hx. unfold alloc in Hx. apply repeat_spec in Hx. congruence. }
  assert (Hlen : length (s_arr (merge_table s (2 ^ k))) = N.to_nat (2 ^ k)) by (cbn [merge_table s_arr]; unfold alloc; apply repeat_length).
  assert (Hcl : length union_keys = N.to_nat combined) by (unfold union_keys, combined; rewrite app_length; lia).
  assert (H2c : 2 * N.to_nat combined <= N.to_nat (2 ^ k)).
  { assert (2 * combined <= 2 ^ k)%N; [|lia]. pose proof (N.mul_div_le (2 ^ k) 2 ltac:(discriminate)). lia. }
  assert (Hfit : fits (merge_table s (2 ^ k)) (map chunk_ops chunks) union_keys).
  { split; [intros x Hx; apply Hsame in Hx; discriminate|]. intros p o Hp Hop. destruct (chunk_put _ _ _ Hp Hop) as [_ [Hk0 [_ Hin]]].
    assert (HinU : In (cs_key o) union_keys) by now apply in_union_keys.
    split; [intros _; exact HinU|]. rewrite Hlen, (distinct_same _ union_keys).
    - pose proof (distinct_le union_keys). lia.
    - intros x. split; [intros [<-|H]; assumption|now right]. }
  split; [exact Hmade|]. split; [exact Hnz|].
  split; [exact (cs_safe w Hw g _ _ _ Hmade Hsame Hnz)|].
  split; [exact (cs_terminating w Hw g _ _ _ Hmade Hsame Hnz union_keys Hfit)|].
  split; [exact (cs_progress w Hw g _ _ _ Hmade Hsame Hnz)|].
  intros c tr He Hf. assert (Hrest : cs_resting c) by (intros l Hl; exists []; apply Hf, Hl).
  pose proof (cs_size w Hw g _ _ _ Hmade Hsame Hnz c tr He) as [_ Hsz]. specialize (Hsz Hrest).
  assert (Hput : forall p o, In p (map chunk_ops chunks) -> In o p -> is_put o) by (intros p o Hp Hop; apply (chunk_put _ _ _ Hp Hop)).
  assert (Hin : forall x, stored (c_sh c) x <-> in_union x).
  { intros x. split.
    - intros [Hx Hx0]. pose proof (inv_of w Hw g _ _ _ Hmade Hsame Hnz c tr He) as HI.
        destruct HI as [_ [_ [_ [_ [[S [HL HSt]] [Ht _]]]]]]. assert (HS : S x = true) by (apply HSt; split; assumption).
        destruct (csspec_origin _ x _ _ _ HL HS) as [|[o [r [Hi [Hpo Hko]]]]]; [discriminate|].
        destruct (lin_inv tr o r (thr_stages _ _ _ _ Ht) Hi) as [v Hv].
        assert (Hprog : exists p, In p (map chunk_ops chunks) /\ In o p).
        { apply (ops_from w g (merge_table s (2 ^ k)) (map chunk_ops chunks) (fun o => exists p, In p (map chunk_ops chunks) /\ In o p) c tr); [eauto|exact He|now exists v]. }
        destruct Hprog as [p [Hp Hop]]. apply (chunk_in chunks Hperm). exists p. split; [exact Hp|].
        specialize (Hput p o Hp Hop). destruct o; destruct Hput. cbn [cs_key] in Hko. now subst.
    - intros Hx. pose proof Hx as [Hx0 _]. split; [|exact Hx0]. apply (chunk_in chunks Hperm) in Hx. destruct Hx as [p [Hp Hop]].
      apply In_nth_error in Hp. destruct Hp as [t Ht].
      destruct (proj2 (puts_left w g _ _ c tr Hnz Hput He) t p _ Ht Hop) as [[l [Hl Hd]]|Hin]; [|exact Hin].
      rewrite (Hf l (nth_error_In _ _ Hl)) in Hd. destruct Hd. }
  split; [exact (made_run w g _ _ c tr Hmade Hnz He Hrest)|]. split; [exact Hin|]. split; [exact Hsz|].
  destruct (inv_of w Hw g _ _ _ Hmade Hsame Hnz c tr He) as [HL [_ [_ [HU _]]]]. rewrite HL, Hlen, Hsz.
  assert (length (keys_of (s_arr (c_sh c))) <= length union_keys); [|lia].
  apply NoDup_incl_length; [now apply uniq_NoDup|]. intros x Hx. apply in_keys_of in Hx. destruct (proj1 (Hin x)) as [H1 [H2 _]]; [exact Hx|]. now apply in_union_keys.
Qed.
End M.
