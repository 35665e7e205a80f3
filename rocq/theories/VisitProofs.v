From Verif Require Import Outcome ListUtil WordsModel RangeModel RangeProofs BlockModel BlockProofs BlockIter Pool VisitModel.
From Coq Require Import Permutation.
Local Open Scope nat_scope.

Section V.
Context {A : Type}.
Variable valid : A -> bool.
Variable body : A -> option A.
Variable l0 : list (block A).
Hypothesis W0 : wf l0.
Notation blk := (block A).
Notation size := (@BlockIter.total A).
Let n := size l0.
Notation live := (BlockIter.live (Some valid)).
Notation loc := (locate l0).
Notation flt := (Some valid).

(** Arrays with the same blocks. *)
Definition same (l : list blk) : Prop := Forall2 (fun a b => b_min a = b_min b /\ b_max a = b_max b) l0 l.
Definition val (l : list blk) (p : nat) : option A := match it_deref l (loc p) with Val a => Some a | _ => None end.

Lemma same_refl : same l0.
Proof. unfold same. clear. induction l0; constructor; auto. Qed.
Lemma same_locate_gen : forall k l : list blk, Forall2 (fun a b => b_min a = b_min b /\ b_max a = b_max b) k l -> forall p, locate l p = locate k p.
Proof.
  intros k l H. induction H as [|a b k l [H1 H2] H IH]; intros p; [reflexivity|]. cbn [locate]. unfold bsize. rewrite H1, H2, IH.
  replace (last_block l) with (last_block k) by (inversion H; reflexivity). reflexivity.
Qed.
Lemma same_locate l p : same l -> locate l p = loc p.
Proof. intros H. now apply same_locate_gen. Qed.
Lemma same_total l : same l -> size l = n.
Proof.
  assert (G : forall k l : list blk, Forall2 (fun a b => b_min a = b_min b /\ b_max a = b_max b) k l -> size l = size k).
  { intros k m H. induction H as [|a b k m [H1 H2] H IH]; [reflexivity|]. rewrite !total_cons, IH. unfold bsize. now rewrite H1, H2. }
  apply G.
Qed.

Lemma same_length l : same l -> length l = length l0.
Proof.
  assert (G : forall k l : list blk, Forall2 (fun a b => b_min a = b_min b /\ b_max a = b_max b) k l -> length l = length k).
  { intros k m H. induction H as [|a b k m _ H IH]; [reflexivity|]. cbn [length]. now rewrite IH. }
  apply G.
Qed.

Lemma cells_total (l : list blk) : wf l -> cells l = size l.
Proof.
  intros [_ [_ H]]. induction l as [|b l IH]; [reflexivity|]. rewrite total_cons. cbn [cells fold_right]. unfold cells in IH. rewrite IH by apply H. destruct H as [[_ [_ H]] _]. rewrite H. reflexivity.
Qed.

Lemma write_same l p v : same l -> same (it_write l (loc p) v).
Proof.
  intros H. unfold it_write. destruct (nth_error l (i_block (loc p))) as [b|] eqn:E; [|exact H]. unfold same in *. revert E. generalize (i_block (loc p)) as k.
  generalize (i_idx (loc p)) as i. clear - H. induction H as [|a c k l [H1 H2] H IH]; intros i [|j] E; try discriminate; cbn [upd nth_error] in *; constructor; auto.
  injection E as <-. cbn [blk_set b_min b_max]. auto.
Qed.
Lemma write_wf (l : list blk) p v : wf l -> wf (it_write l (loc p) v).
Proof. intros H. unfold it_write. destruct (nth_error l (i_block (loc p))) as [b|] eqn:E; [|exact H]. eapply wf_upd; eauto. Qed.

Lemma val_ex l p : same l -> wf l -> p < n -> exists a, val l p = Some a /\ it_deref l (loc p) = Val a /\ cell l (i_idx (loc p)) a.
Proof.
  intros H W Hp. destruct (deref_loc l W p) as [a [Ea Hc]]; [rewrite same_total by exact H; exact Hp|]. rewrite same_locate in Ea, Hc by exact H. exists a. unfold val. rewrite Ea. auto.
Qed.
Lemma loc_inj p q : p <= n -> q <= n -> i_idx (loc p) = i_idx (loc q) -> p = q.
Proof.
  intros Hp Hq E. pose proof (idx_lt_p l0 W0 p q Hp Hq). pose proof (idx_lt_p l0 W0 q p Hq Hp). rewrite E in *. lia.
Qed.
Lemma write_val l p v q : same l -> wf l -> p < n -> q < n -> val (it_write l (loc p) v) q = if Nat.eqb q p then Some v else val l q.
Proof.
  intros S W Hp Hq. destruct (locate_valid l p (proj2 (proj2 W))) as [b [Eb Hb]]; [rewrite same_total; auto|]. rewrite same_locate in Eb, Hb by exact S.
  destruct (locate_valid l q (proj2 (proj2 W))) as [c [Ec Hc]]; [rewrite same_total; auto|]. rewrite same_locate in Ec, Hc by exact S.
  unfold val, it_write, it_deref. rewrite Eb. assert (Hk : i_block (loc p) < length l) by (eapply nth_error_lt; eauto).
  destruct (wf_bok l b W (nth_error_In _ _ Eb)) as [_ [_ B3]].
  destruct (Nat.eq_dec (i_block (loc q)) (i_block (loc p))) as [E|E].
  - rewrite E in *. rewrite nth_error_upd_eq by exact Hk. rewrite Eb in *. injection Ec as <-. unfold blk_at. cbn [blk_set b_min b_data].
    destruct (N.leb_spec (b_min b) (i_idx (loc q))); [|lia]. destruct (Nat.eqb_spec q p) as [->|Hne].
    + rewrite nth_error_upd_eq by lia. reflexivity.
    + rewrite nth_error_upd_neq; [reflexivity|]. intros E'. apply Hne, loc_inj; lia.
  - rewrite nth_error_upd_neq by auto. destruct (Nat.eqb_spec q p) as [->|Hne]; [congruence|reflexivity].
Qed.
Lemma live_val l p : same l -> wf l -> p < n -> live l p = match val l p with Some a => valid a | None => true end.
Proof. intros S W Hp. unfold BlockIter.live, val. rewrite same_locate by exact S. destruct (it_deref l (loc p)); reflexivity. Qed.

(** The middle of a range whose end may have dropped out. *)
Lemma half_any l b e : same l -> wf l -> b < e -> e <= n -> live l b = true ->
  exists m, it_half flt (S (cells l)) l (loc b) (loc e) = Val (Some (loc m)) /\ b <= m <= n /\ (m < e -> live l m = true).
Proof.
  intros S W Hbe He Lb. rewrite cells_total by exact W. pose proof (same_total l S) as Hn.
  rewrite <- (same_locate l b S), <- (same_locate l e S). unfold it_half. cbv zeta.
  pose proof (proj1 (idx_lt_p l W b e ltac:(lia) ltac:(lia)) Hbe) as Hlt. pose proof (idx_lt64 l W e ltac:(lia)) as H64.
  unfold it_minus. rewrite wrap_sub by lia. set (ib := i_idx (locate l b)) in *. set (ie := i_idx (locate l e)) in *.
  assert (Hd : ((ie - ib) / 2 < ie - ib)%N) by (apply N.div_lt; lia).
  rewrite wrap_small by lia. set (idx := (ib + (ie - ib) / 2)%N) in *. assert (Hidx : (ib <= idx < ie)%N) by lia. clearbody idx.
  destruct (find_block_spec l idx true W) as [k [F ->]]. destruct (upper_loc l W) as [Hu _].
  assert (Hup : (ie <= i_idx (locate l (size l)))%N).
  { destruct (Nat.eq_dec e (size l)) as [->|Hne]; [unfold ie; lia|]. pose proof (proj1 (idx_lt_p l W e (size l) ltac:(lia) (le_n _)) ltac:(lia)). unfold ie. lia. }
  assert (Hk : k < length l).
  { destruct (Nat.eq_dec k (length l)) as [->|]; [exfalso|destruct F as [_ [_ F]]; lia].
    unfold ba_upper in Hu. destruct (nth_error l (length l - 1)) as [d|] eqn:Ed; [|discriminate]. injection Hu as Hu.
    assert (b_max d <= idx)%N. { destruct F as [F _]. apply (F (length l - 1)); [|exact Ed]. destruct W as [W _]. destruct l; [congruence|]. cbn [length]. lia. }
    lia. }
  destruct (Nat.eqb_spec k (length l)); [lia|]. cbn [andb rbind]. destruct (nth_error_ex l k Hk) as [bk Ek]. rewrite Ek.
  destruct (set_idx_loc l idx k bk (proj2 (proj2 W)) F Ek) as [p [P1 [-> [P3 P4]]]].
  assert (Hpb : b <= p). { destruct (Nat.le_gt_cases b p) as [|Hgt]; [assumption|]. pose proof (proj1 (idx_lt_p l W p b ltac:(lia) ltac:(lia)) Hgt) as H. fold ib in H. lia. }
  assert (Hpe : p <= e). { destruct (Nat.le_gt_cases p e) as [|Hgt]; [assumption|]. specialize (P4 e Hgt). fold ie in P4. lia. }
  rewrite adv_spec by (try exact W; lia). cbn [rbind]. destruct (sk_skips flt l p ltac:(lia)) as [S1 [S2 S3]].
  rewrite it_eqb_loc by (try exact W; lia). destruct (Nat.eqb_spec (sk flt l p) e) as [Ee|Ene].
  - rewrite Ee. destruct (prev_spec flt l W e (Datatypes.S (size l))) as [q [Q1 [Q2 [Q3 Q4]]]]; [lia|lia|]. rewrite Q1. cbn [rmap].
    assert (Hbq : b <= q). { destruct (Nat.le_gt_cases b q) as [|Hgt]; [assumption|]. rewrite Q3 in Lb by lia. discriminate. }
    rewrite it_ltb_loc by (try exact W; lia). destruct (Nat.ltb_spec q b); [lia|]. rewrite same_locate by exact S.
    exists q. split; [reflexivity|]. split; [lia|]. intros _. destruct Q4 as [->|]; [|assumption]. replace b with 0 in Lb by lia. exact Lb.
  - rewrite same_locate by exact S. exists (sk flt l p). split; [reflexivity|]. split; [lia|]. intros H. apply S3. lia.
Qed.
Lemma mid_any l b e g : same l -> wf l -> b <= e -> e <= n -> (b < e -> live l b = true) ->
  exists m, br_mid flt (S (cells l)) l (loc b) (loc e) g = Val (Some (mkbr (loc b) (loc e) (loc m) g)) /\ b <= m <= n /\ (m < e -> live l m = true).
Proof.
  intros S W Hbe He Lb. pose proof (same_total l S) as Hn. unfold br_mid. rewrite it_eqb_loc by (try exact W0; fold n; lia). destruct (Nat.eqb_spec b e) as [->|Hne].
  - exists e. split; [reflexivity|]. split; [lia|]. lia.
  - destruct (half_any l b e S W ltac:(lia) He ltac:(apply Lb; lia)) as [m [-> [Hm Lm]]]. exists m. split; [reflexivity|]. auto.
Qed.

(** ** The invariant. *)
Definition live0 (p : nat) : bool := live l0 p.
Definition owns (t : vtask) (p : nat) : bool :=
  match t with
  | VRange _ r => (i_idx (g_begin r) <=? i_idx (loc p))%N && (i_idx (loc p) <? i_idx (g_end r))%N
  | VLoop it e => (i_idx it <=? i_idx (loc p))%N && (i_idx (loc p) <? i_idx e)%N
  | VNext it e => (i_idx it <? i_idx (loc p))%N && (i_idx (loc p) <? i_idx e)%N
  end.
Definition own (T : list vtask) (p : nat) : nat := Pool.total (fun t => if owns t p then 1 else 0) T.
Definition tI (t : vtask) : Prop :=
  match t with
  | VRange _ r => exists b e m, g_begin r = loc b /\ g_end r = loc e /\ g_mid r = loc m /\ b <= e /\ e <= n /\ b <= m <= n /\ (b < e -> live0 b = true) /\ (m < e -> live0 m = true)
  | VLoop it e => exists b c, it = loc b /\ e = loc c /\ b <= n /\ c <= n /\ (b < c -> live0 b = true)
  | VNext it e => exists b c, it = loc b /\ e = loc c /\ b < c /\ c <= n
  end.
Record vI (vp : list nat) (a : pool (vsh A) vtask) : Prop := mkvI {
  k_same : same (v_arr (p_sh a)); k_wf : wf (v_arr (p_sh a));
  k_vp : forall p, In p vp -> p < n /\ live0 p = true;
  k_log : map fst (v_log (p_sh a)) = map (fun p => i_idx (loc p)) vp;
  k_logv : forall i x, In (i, x) (v_log (p_sh a)) -> exists p, p < n /\ i = i_idx (loc p) /\ val l0 p = Some x;
  k_val : forall p, p < n -> val (v_arr (p_sh a)) p = if in_dec Nat.eq_dec p vp then match val l0 p with Some x => body x | None => None end else val l0 p;
  k_own : forall p, p < n -> live0 p = true -> own (p_tasks a) p + count_occ Nat.eq_dec vp p = 1;
  k_t : forall t, In t (p_tasks a) -> tI t }.

Lemma own_app T1 T2 p : own (T1 ++ T2) p = own T1 p + own T2 p. Proof. apply (total_app (Sh := unit) (fun _ _ => TBad)). Qed.
Lemma own_in T t p : In t T -> owns t p = true -> 1 <= own T p.
Proof.
  induction T as [|x T IH]; [intros []|]. intros [->|H] E; unfold own in *; cbn [Pool.total]; [rewrite E; lia|specialize (IH H E); lia].
Qed.

Lemma idx_le p q : p <= n -> q <= n -> (i_idx (loc p) <=? i_idx (loc q))%N = Nat.leb p q.
Proof.
  intros Hp Hq. destruct (Nat.leb_spec p q) as [L|L].
  - apply N.leb_le. destruct (Nat.eq_dec p q) as [->|]; [lia|]. pose proof (proj1 (idx_lt_p l0 W0 p q Hp Hq) ltac:(lia)). lia.
  - apply N.leb_gt. apply idx_lt_p; auto.
Qed.
Lemma idx_ltb p q : p <= n -> q <= n -> (i_idx (loc p) <? i_idx (loc q))%N = Nat.ltb p q.
Proof. intros. now apply idx_lt. Qed.
Lemma owns_ivl b e p : b <= n -> e <= n -> p < n -> (i_idx (loc b) <=? i_idx (loc p))%N && (i_idx (loc p) <? i_idx (loc e))%N = (b <=? p) && (p <? e).
Proof. intros. rewrite idx_le, idx_ltb by lia. reflexivity. Qed.

Section St.
Variable vp : list nat.
Variable a : pool (vsh A) vtask.
Hypothesis I : vI vp a.
Let l := v_arr (p_sh a).
Variable t : vtask.
Hypothesis Ht : In t (p_tasks a).

(** An owned cell is as it was. *)
Lemma owned_live p : p < n -> owns t p = true -> live l p = live0 p /\ val l p = val l0 p.
Proof.
  intros Hp Ho. destruct I as [S W Vp Lg Lv Va Ow Ts]. fold l in S, W, Va. rewrite live_val by assumption. unfold live0. rewrite live_val by (auto using same_refl).
  rewrite Va by exact Hp. destruct (in_dec Nat.eq_dec p vp) as [Hin|_]; [|auto]. destruct (Vp p Hin) as [_ L]. pose proof (Ow p Hp L) as E. pose proof (own_in _ t p Ht Ho).
  apply (count_occ_In Nat.eq_dec) in Hin. lia.
Qed.
End St.

Lemma vI_step vp a b : vI vp a -> pstep (v_step valid body) a b -> exists vp', vI vp' b.
Proof.
  intros HI (l1 & t & l2 & sh' & next & E1 & E2 & ->). assert (Ht : In t (p_tasks a)) by (rewrite E1; apply in_or_app; right; now left).
  pose proof (k_t _ _ HI t Ht) as Tt. pose proof (owned_live vp a HI t Ht) as OL.
  destruct HI as [S W Vp Lg Lv Va Ow Ts]. set (l := v_arr (p_sh a)) in *. rewrite E1 in Ow.
  assert (Ho : forall p, own (l1 ++ t :: l2) p = own l1 p + (if owns t p then 1 else 0) + own l2 p).
  { intros p. rewrite own_app. unfold own at 2. cbn [Pool.total]. unfold own. lia. }
  assert (Hsimple : sh' = p_sh a -> (forall p, p < n -> live0 p = true -> own next p = if owns t p then 1 else 0) -> (forall x, In x next -> tI x) -> exists vp', vI vp' (mkp sh' (l1 ++ next ++ l2))).
  { intros -> H1 H2. exists vp. split; cbn [p_sh p_tasks]; auto.
    - intros p Hp L. specialize (Ow p Hp L). rewrite Ho in Ow. rewrite !own_app, H1 by assumption. lia.
    - intros x Hx. rewrite !in_app_iff in Hx. destruct Hx as [Hx|[Hx|Hx]]; [apply Ts; rewrite E1; apply in_or_app; auto|auto|apply Ts; rewrite E1; apply in_or_app; right; now right]. }
  destruct t as [sp r|it e|it e]; cbn [v_step] in E2; fold l in E2.
  - destruct Tt as (b & e & m & Eb & Ee & Em & Hbe & Hen & Hm & Lb & Lm). destruct sp as [|f k].
    + injection E2 as <- <-. apply Hsimple; [reflexivity| |].
      * intros p Hp _. unfold own. cbn [Pool.total owns]. lia.
      * intros x [<-|[]]. cbn [tI]. exists b, e. split; [exact Eb|]. split; [exact Ee|]. split; [lia|]. auto.
    + destruct (br_divisible r) eqn:Ed.
      * unfold br_divisible in Ed. rewrite Eb, Ee, Em in *. rewrite !it_ltb_loc in Ed by (try exact W0; lia). apply andb_prop in Ed. destruct Ed as [Ed _]. apply andb_prop in Ed. destruct Ed as [D1 D2]. apply Nat.ltb_lt in D1, D2.
        assert (OwI : forall p, p < n -> owns (VRange (Split f k) r) p = (b <=? p) && (p <? e)) by (intros p Hp; cbn [owns]; rewrite Eb, Ee; apply owns_ivl; lia).
        assert (Lc : forall p, b <= p < e -> live l p = live0 p). { intros p Hp. apply OL; [lia|]. rewrite OwI by lia. destruct (Nat.leb_spec b p), (Nat.ltb_spec p e); try lia; reflexivity. }
        destruct (mid_any l b m (g_grain r) S W ltac:(lia) ltac:(lia)) as [m1 [F1 [G1 G2]]]; [intros _; rewrite Lc by lia; apply Lb; lia|].
        destruct (mid_any l m e (g_grain r) S W ltac:(lia) ltac:(lia)) as [m2 [F2 [G3 G4]]]; [intros _; rewrite Lc by lia; apply Lm; lia|].
        rewrite F1, F2 in E2. injection E2 as <- <-. apply Hsimple; [reflexivity| |].
        -- intros p Hp _. rewrite OwI by exact Hp. unfold own. cbn [Pool.total owns g_begin g_end]. rewrite !owns_ivl by lia.
           destruct (Nat.leb_spec b p), (Nat.ltb_spec p m), (Nat.leb_spec m p), (Nat.ltb_spec p e); cbn [andb]; lia.
        -- intros x [<-|[<-|[]]]; cbn [tI g_begin g_end g_mid].
           ++ exists b, m, m1. repeat (split; [first [reflexivity|lia|intros; apply Lb; lia]|]). intros H. rewrite <- Lc by lia. auto.
           ++ exists m, e, m2. repeat (split; [first [reflexivity|lia|intros; apply Lm; lia]|]). intros H. rewrite <- Lc by lia. auto.
      * injection E2 as <- <-. apply Hsimple; [reflexivity| |].
        -- intros p Hp _. unfold own. cbn [Pool.total owns]. lia.
        -- intros x [<-|[]]. cbn [tI]. exists b, e. split; [exact Eb|]. split; [exact Ee|]. split; [lia|]. auto.
  - destruct Tt as (b & c & -> & -> & Hb & Hc & Lb). rewrite it_ltb_loc in E2 by (try exact W0; assumption). destruct (Nat.ltb_spec b c) as [L|L].
    + assert (Hob : owns (VLoop (loc b) (loc c)) b = true) by (cbn [owns]; rewrite owns_ivl by lia; destruct (Nat.leb_spec b b), (Nat.ltb_spec b c); try lia; reflexivity).
      destruct (OL b ltac:(lia) Hob) as [_ OV]. destruct (val_ex l b S W ltac:(lia)) as [x [Ex [Dx _]]]. rewrite Dx in E2. destruct (body x) as [x'|] eqn:Bx; [|discriminate]. injection E2 as <- <-.
      assert (Nb : ~ In b vp). { intros H. apply (count_occ_In Nat.eq_dec) in H. pose proof (Ow b ltac:(lia) (Lb L)) as E. rewrite Ho, Hob in E. lia. }
      exists (b :: vp). split; cbn [p_sh p_tasks v_arr v_log].
      * now apply write_same.
      * now apply write_wf.
      * intros p [<-|Hp]; [split; [lia|auto]|auto].
      * cbn [map fst]. f_equal. exact Lg.
      * intros i y [E|Hin]; [|auto]. injection E as <- <-. exists b. split; [lia|]. split; [reflexivity|]. congruence.
      * intros p Hp. rewrite write_val by (assumption || lia). destruct (Nat.eqb_spec p b) as [->|Hne].
        -- destruct (in_dec Nat.eq_dec b (b :: vp)) as [_|H]; [|exfalso; apply H; now left]. rewrite <- OV, Ex. now rewrite Bx.
        -- rewrite Va by exact Hp. destruct (in_dec Nat.eq_dec p (b :: vp)) as [[E|H]|H], (in_dec Nat.eq_dec p vp) as [H'|H']; try reflexivity; try congruence; try contradiction; exfalso; apply H; now right.
      * intros p Hp Lp. specialize (Ow p Hp Lp). rewrite Ho in Ow. rewrite !own_app. unfold own at 2. cbn [Pool.total owns count_occ] in *. rewrite owns_ivl in Ow by lia. rewrite !idx_ltb by lia.
        destruct (Nat.eq_dec b p) as [Ebp|Hne]; destruct (Nat.leb_spec b p), (Nat.ltb_spec p c), (Nat.ltb_spec b p); cbn [andb] in *; lia.
      * intros y Hy. rewrite !in_app_iff in Hy. destruct Hy as [Hy|[[<-|[]]|Hy]]; [apply Ts; rewrite E1; apply in_or_app; auto| |apply Ts; rewrite E1; apply in_or_app; right; now right].
        cbn [tI]. exists b, c. auto.
    + injection E2 as <- <-. apply Hsimple; [reflexivity| |intros x []]. intros p Hp _. cbn [owns]. rewrite owns_ivl by lia. destruct (Nat.leb_spec b p), (Nat.ltb_spec p c); cbn [andb]; try lia; reflexivity.
  - destruct Tt as (b & c & -> & -> & Hb & Hc). rewrite cells_total in E2 by exact W. pose proof (same_total l S) as Hn.
    rewrite <- (same_locate l b S), next_spec, (same_locate l _ S) in E2 by (try exact W; lia). injection E2 as <- <-.
    destruct (sk_skips flt l (Datatypes.S b) ltac:(lia)) as [S1 [S2 S3]]. set (q := sk flt l (Datatypes.S b)) in *.
    assert (OwI : forall p, p < n -> owns (VNext (loc b) (loc c)) p = (b <? p) && (p <? c)) by (intros p Hp; cbn [owns]; rewrite !idx_ltb by lia; reflexivity).
    assert (Lc : forall p, b < p < c -> live l p = live0 p). { intros p Hp. apply OL; [lia|]. rewrite OwI by lia. destruct (Nat.ltb_spec b p), (Nat.ltb_spec p c); try lia; reflexivity. }
    apply Hsimple; [reflexivity| |].
    + intros p Hp Lp. rewrite OwI by exact Hp. unfold own. cbn [Pool.total owns]. rewrite owns_ivl by lia.
      destruct (Nat.leb_spec q p), (Nat.ltb_spec p c), (Nat.ltb_spec b p); cbn [andb]; try lia. exfalso. rewrite <- Lc, S2 in Lp by lia. discriminate.
    + intros x [<-|[]]. cbn [tI]. exists q, c. split; [reflexivity|]. split; [reflexivity|]. split; [lia|]. split; [lia|]. intros H. rewrite <- Lc by lia. apply S3. lia.
Qed.

Variable grain : N.
Variable tree : splits.
Lemma v_start_ok : exists a, v_start valid l0 grain tree = Val a /\ vI [] a.
Proof.
  unfold v_start. rewrite cells_total by exact W0. pose proof (n_pos l0 W0) as Hn. fold n in Hn. rewrite begin_spec, end_spec by (try exact W0; lia). cbn [rbind]. fold n.
  destruct (sk_skips flt l0 0 ltac:(lia)) as [S1 [S2 S3]]. set (b := sk flt l0 0) in *. fold n in S1.
  destruct (mid_any l0 b n grain same_refl W0 ltac:(lia) ltac:(lia)) as [m [F [M1 M2]]]; [intros H; apply S3; fold n; lia|].
  rewrite cells_total in F by exact W0. fold n in F. rewrite F. cbn [rbind]. eexists. split; [reflexivity|]. split; cbn [p_sh p_tasks v_arr v_log].
  - exact same_refl.
  - exact W0.
  - intros p [].
  - reflexivity.
  - intros i x [].
  - intros p Hp. destruct (in_dec Nat.eq_dec p []) as [[]|_]. reflexivity.
  - intros p Hp Lp. unfold own. cbn [Pool.total owns g_begin g_end count_occ]. rewrite owns_ivl by lia. destruct (Nat.leb_spec b p), (Nat.ltb_spec p n); cbn [andb]; try lia.
    exfalso. unfold live0 in Lp. rewrite S2 in Lp by lia. discriminate.
  - intros t [<-|[]]. cbn [tI g_begin g_end g_mid]. exists b, n, m. repeat (split; [first [reflexivity|lia|intros; apply S3; fold n; lia]|]). intros H. apply M2. exact H.
Qed.

Variable a0 : pool (vsh A) vtask.
Hypothesis H0 : v_start valid l0 grain tree = Val a0.
Lemma v_inv a : pexec (v_step valid body) a0 a -> exists vp, vI vp a.
Proof.
  apply (pexec_inv (v_step valid body) (fun a => exists vp, vI vp a)).
  - destruct v_start_ok as [a' [E H]]. rewrite H0 in E. injection E as ->. eauto.
  - intros b c [vp Hb] Hs. eapply vI_step; eauto.
Qed.

Lemma cell_val l p x : same l -> wf l -> p < n -> cell l (i_idx (loc p)) x <-> val l p = Some x.
Proof.
  intros S W Hp. destruct (val_ex l p S W Hp) as [y [Ey [_ Hc]]]. split.
  - intros H. rewrite (cell_fun l _ x y W H Hc). exact Ey.
  - intros H. congruence.
Qed.
Lemma cell_pos l i x : same l -> wf l -> cell l i x -> exists p, p < n /\ i = i_idx (loc p).
Proof. intros S W H. destruct (cell_loc l i x W H) as [p [Hp E]]. rewrite same_locate in E by exact S. rewrite same_total in Hp by exact S. eauto. Qed.

Lemma v_final sh : pexec (v_step valid body) a0 (mkp sh []) ->
  wf (v_arr sh) /\ length (v_arr sh) = length l0 /\ NoDup (map fst (v_log sh)) /\ (forall i x, In (i, x) (v_log sh) <-> cell l0 i x /\ valid x = true) /\
  forall i y, cell (v_arr sh) i y <-> exists x, cell l0 i x /\ if valid x then body x = Some y else x = y.
Proof.
  intros H. destruct (v_inv _ H) as [vp [S W Vp Lg Lv Va Ow Ts]]. cbn [p_sh p_tasks] in *.
  assert (Cn : forall p, p < n -> live0 p = true -> In p vp) by (intros p Hp L; specialize (Ow p Hp L); unfold own in Ow; cbn [Pool.total] in Ow; apply (count_occ_In Nat.eq_dec); lia).
  assert (Lx : forall p x, p < n -> val l0 p = Some x -> live0 p = valid x) by (intros p x Hp E; unfold live0; rewrite live_val by (auto using same_refl); now rewrite E).
  split; [exact W|]. split; [now apply same_length|]. split; [|split].
  - rewrite Lg. assert (Nd : NoDup vp). { apply (NoDup_count_occ Nat.eq_dec). intros p. destruct (in_dec Nat.eq_dec p vp) as [Hp|Hp]; [|apply (count_occ_not_In Nat.eq_dec) in Hp; lia].
      destruct (Vp p Hp) as [Hp1 Hp2]. specialize (Ow p Hp1 Hp2). lia. }
    clear - Nd Vp W0. induction vp as [|p vp IH]; cbn [map]; [constructor|]. inversion Nd; subst. constructor; [|apply IH; [intros q Hq; apply Vp; now right|assumption]].
    rewrite in_map_iff. intros [q [E Hq]]. apply loc_inj in E; [subst; contradiction| |]; (destruct (Vp q ltac:(now right)), (Vp p ltac:(now left)); unfold n in *; lia).
  - intros i x. split.
    + intros Hin. destruct (Lv i x Hin) as [p [Hp [-> E]]]. split; [now apply cell_val; auto using same_refl|].
      assert (Hi : In (i_idx (loc p)) (map fst (v_log sh))) by (rewrite in_map_iff; eexists; split; [|exact Hin]; reflexivity).
      rewrite Lg, in_map_iff in Hi. destruct Hi as [q [Eq Hq]]. destruct (Vp q Hq) as [Hq1 Hq2]. apply loc_inj in Eq; [subst|lia|lia]. now rewrite <- (Lx p x Hp E).
    + intros [Hc Hv]. destruct (cell_pos l0 i x same_refl W0 Hc) as [p [Hp ->]]. apply cell_val in Hc; auto using same_refl.
      assert (Hin : In p vp) by (apply Cn; [exact Hp|]; now rewrite (Lx p x Hp Hc)).
      assert (Hi : In (i_idx (loc p)) (map fst (v_log sh))) by (rewrite Lg, in_map_iff; eauto). rewrite in_map_iff in Hi. destruct Hi as [[i y] [Ei Hy]]. cbn [fst] in Ei. subst i.
      destruct (Lv _ _ Hy) as [q [Hq [Eq Ev]]]. apply loc_inj in Eq; [subst q|lia|lia]. rewrite Hc in Ev. injection Ev as <-. exact Hy.
  - intros i y. split.
    + intros Hc. destruct (cell_pos _ i y S W Hc) as [p [Hp ->]]. apply cell_val in Hc; [|assumption|assumption|assumption]. rewrite Va in Hc by exact Hp.
      destruct (val_ex l0 p same_refl W0 Hp) as [x [Ex [_ Hx]]]. exists x. split; [exact Hx|]. rewrite Ex in Hc. rewrite <- (Lx p x Hp Ex).
      destruct (in_dec Nat.eq_dec p vp) as [Hin|Hin].
      * rewrite (proj2 (Vp p Hin)). exact Hc.
      * destruct (live0 p) eqn:L; [exfalso; auto|congruence].
    + intros [x [Hx Hb]]. destruct (cell_pos l0 i x same_refl W0 Hx) as [p [Hp ->]]. apply cell_val in Hx; auto using same_refl. apply cell_val; auto. rewrite Va by exact Hp. rewrite Hx.
      rewrite <- (Lx p x Hp Hx) in Hb. destruct (in_dec Nat.eq_dec p vp) as [Hin|Hin].
      * rewrite (proj2 (Vp p Hin)) in Hb. exact Hb.
      * destruct (live0 p) eqn:L; [exfalso; auto|congruence].
Qed.

Hypothesis Hbody : forall i x, cell l0 i x -> valid x = true -> body x <> None.
Lemma v_safe : psafe (v_step valid body) a0.
Proof.
  intros a t Ha Hint Hbad. destruct (v_inv a Ha) as [vp HI]. pose proof (k_t _ _ HI t Hint) as Tt. pose proof (owned_live vp a HI t Hint) as OL.
  destruct HI as [S W Vp Lg Lv Va Ow Ts]. set (l := v_arr (p_sh a)) in *.
  destruct t as [sp r|it e|it e]; cbn [v_step] in Hbad; fold l in Hbad.
  - destruct Tt as (b & e & m & Eb & Ee & Em & Hbe & Hen & Hm & Lb & Lm). destruct sp as [|f k]; [discriminate|]. destruct (br_divisible r) eqn:Ed; [|discriminate].
    unfold br_divisible in Ed. rewrite Eb, Ee, Em in *. rewrite !it_ltb_loc in Ed by (try exact W0; lia). apply andb_prop in Ed. destruct Ed as [Ed _]. apply andb_prop in Ed. destruct Ed as [D1 D2]. apply Nat.ltb_lt in D1, D2.
    assert (Lc : forall p, b <= p < e -> live l p = live0 p). { intros p Hp. apply OL; [lia|]. cbn [owns]. rewrite Eb, Ee, owns_ivl by lia. destruct (Nat.leb_spec b p), (Nat.ltb_spec p e); try lia; reflexivity. }
    destruct (mid_any l b m (g_grain r) S W ltac:(lia) ltac:(lia)) as [m1 [F1 _]]; [intros _; rewrite Lc by lia; apply Lb; lia|].
    destruct (mid_any l m e (g_grain r) S W ltac:(lia) ltac:(lia)) as [m2 [F2 _]]; [intros _; rewrite Lc by lia; apply Lm; lia|].
    rewrite F1, F2 in Hbad. discriminate.
  - destruct Tt as (b & c & -> & -> & Hb & Hc & Lb). rewrite it_ltb_loc in Hbad by (try exact W0; assumption). destruct (Nat.ltb_spec b c) as [L|L]; [|discriminate].
    destruct (OL b ltac:(lia)) as [_ OV]; [cbn [owns]; rewrite owns_ivl by lia; destruct (Nat.leb_spec b b), (Nat.ltb_spec b c); try lia; reflexivity|].
    destruct (val_ex l b S W ltac:(lia)) as [x [Ex [Dx _]]]. rewrite Dx in Hbad. destruct (body x) eqn:Bx; [discriminate|]. rewrite Ex in OV.
    apply (Hbody (i_idx (loc b)) x); [apply cell_val; auto using same_refl; lia| |exact Bx]. specialize (Lb L). unfold live0 in Lb. rewrite live_val, <- OV in Lb by (auto using same_refl; lia). exact Lb.
  - destruct Tt as (b & c & -> & -> & Hb & Hc). rewrite cells_total in Hbad by exact W. pose proof (same_total l S) as Hn.
    rewrite <- (same_locate l b S), next_spec in Hbad by (try exact W; lia). discriminate.
Qed.

(** ** Termination. *)
Fixpoint s_wt (t : splits) : nat := match t with Run => 1 | Split f k => s_wt f + s_wt k + 2 end.
Definition d_wt (b e : iter) : nat := 2 * N.to_nat (i_idx e - i_idx b).
Definition v_wt (t : vtask) : nat :=
  match t with
  | VRange t r => d_wt (g_begin r) (g_end r) + 1 + s_wt t
  | VLoop it e => d_wt it e + 1
  | VNext it e => d_wt it e
  end.
Lemma s_wt_pos t : 1 <= s_wt t. Proof. destruct t; cbn [s_wt]; lia. Qed.
Lemma v_terminates : pterminates (v_step valid body) a0.
Proof.
  apply (pterm_measure (v_step valid body) (fun a => exists vp, vI vp a) (fun _ => 0) (fun _ => v_wt)).
  - apply v_inv. apply pexec_start.
  - intros b c [vp Hb] Hs. eapply vI_step; eauto.
  - intros a t sh' next [vp HI] Ht E2. right. split; [reflexivity|]. split; [auto|]. pose proof (k_t _ _ HI t Ht) as Tt. pose proof (owned_live vp a HI t Ht) as OL.
    destruct HI as [S W Vp Lg Lv Va Ow Ts]. set (l := v_arr (p_sh a)) in *.
    destruct t as [sp r|it e|it e]; cbn [v_step] in E2; fold l in E2.
    + destruct Tt as (b & e & m & Eb & Ee & Em & Hbe & Hen & Hm & Lb & Lm). destruct sp as [|f k].
      * injection E2 as <- <-. cbn [Pool.total v_wt s_wt]. lia.
      * destruct (br_divisible r) eqn:Ed.
        -- unfold br_divisible in Ed. rewrite Eb, Ee, Em in *. rewrite !it_ltb_loc in Ed by (try exact W0; lia). apply andb_prop in Ed. destruct Ed as [Ed _]. apply andb_prop in Ed. destruct Ed as [D1 D2]. apply Nat.ltb_lt in D1, D2.
           assert (Lc : forall p, b <= p < e -> live l p = live0 p). { intros p Hp. apply OL; [lia|]. cbn [owns]. rewrite Eb, Ee, owns_ivl by lia. destruct (Nat.leb_spec b p), (Nat.ltb_spec p e); try lia; reflexivity. }
           destruct (mid_any l b m (g_grain r) S W ltac:(lia) ltac:(lia)) as [m1 [F1 _]]; [intros _; rewrite Lc by lia; apply Lb; lia|].
           destruct (mid_any l m e (g_grain r) S W ltac:(lia) ltac:(lia)) as [m2 [F2 _]]; [intros _; rewrite Lc by lia; apply Lm; lia|].
           rewrite F1, F2 in E2. injection E2 as <- <-. cbn [Pool.total v_wt s_wt g_begin g_end]. rewrite Eb, Ee. unfold d_wt.
           pose proof (proj1 (idx_lt_p l0 W0 b m ltac:(lia) ltac:(lia)) D1). pose proof (proj1 (idx_lt_p l0 W0 m e ltac:(lia) ltac:(lia)) D2). lia.
        -- injection E2 as <- <-. cbn [Pool.total v_wt s_wt]. pose proof (s_wt_pos f). lia.
    + destruct Tt as (b & c & -> & -> & Hb & Hc & Lb). rewrite it_ltb_loc in E2 by (try exact W0; assumption). destruct (Nat.ltb_spec b c) as [L|L].
      * destruct (it_deref l (loc b)) as [x| |]; try discriminate. destruct (body x); [|discriminate]. injection E2 as <- <-. cbn [Pool.total v_wt]. lia.
      * injection E2 as <- <-. cbn [Pool.total v_wt]. lia.
    + destruct Tt as (b & c & -> & -> & Hb & Hc). rewrite cells_total in E2 by exact W. pose proof (same_total l S) as Hn.
      rewrite <- (same_locate l b S), next_spec, (same_locate l _ S) in E2 by (try exact W; lia). injection E2 as <- <-.
      destruct (sk_skips flt l (Datatypes.S b) ltac:(lia)) as [S1 _]. set (q := sk flt l (Datatypes.S b)) in *. cbn [Pool.total v_wt]. unfold d_wt.
      pose proof (proj1 (idx_lt_p l0 W0 b c ltac:(lia) ltac:(lia)) Hb). pose proof (proj1 (idx_lt_p l0 W0 b q ltac:(lia) ltac:(lia)) ltac:(lia)). lia.
Qed.
End V.
