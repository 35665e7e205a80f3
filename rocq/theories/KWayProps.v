(** C40: the k-way splitter. *)
From Coq Require Import Reals Lra Floats.SpecFloat.
From Verif Require Import Outcome ListUtil WordsModel LPSetModel SimplexModel PointModel PointProofs GeoModel GeoSpec GeoProofs PartModel PartProofs GeoProps KWayModel KWayProofs KWayRet.
Open Scope list_scope.
Import ListNotations.

(** If it returns, for any arithmetic: as many leaves as the largest power of two within the request, every finite id
    in exactly one leaf, whose box has it, every infinite id in all of them, and nothing else.  Partial: it need not
    return, see below; inserts lost in the growing tables are not modelled. *)
Theorem C40_partial : forall rf rp D pts tiny huge p s ls, (0 < D)%nat -> (N.of_nat D <= 30)%N -> NoDup (k_ids s) -> k_way rf rp D pts tiny huge p s = Val ls ->
  N.of_nat (length ls) = (2 ^ N.log2 p)%N /\ (N.of_nat (length ls) <= p)%N /\
  (forall i, In i (k_ids s) -> p_finite (N.of_nat D) i = true -> times i ls = 1%nat) /\
  (forall l i, In l ls -> In i (snd l) -> In i (k_ids s) \/ In i (inf_ids D)) /\
  (forall l i, In l ls -> In i (inf_ids D) -> In i (snd l)) /\
  (forall l, In l ls -> NoDup (snd l)) /\
  (forall l i c, In l ls -> In i (snd l) -> p_finite (N.of_nat D) i = true -> p_get (N.of_nat D) pts i = Val c -> in_box D (fst l) c).
Proof.
  intros rf rp D pts tiny huge p s ls HD HD30 HN H. unfold k_way in H. destruct (N.eq_dec p 0) as [->|Hp]; [discriminate|]. destruct (splits_ok D p HD Hp) as (ss & E & _ & P & _). rewrite E in H. cbn [rbind] in H.
  destruct (k_rec_ok D HD30 pts tiny huge rf rp ss 0%nat s ls HN H) as (A1 & A2 & A3 & A4 & A5 & A6).
  assert (L : N.of_nat (length ls) = (2 ^ N.log2 p)%N). { rewrite A1, P. clear. induction (N.log2 p) as [|k IH] using N.peano_ind; [reflexivity|]. rewrite N2Nat.inj_succ, N.pow_succ_r', <- IH. cbn [Nat.pow]. lia. }
  split; [exact L|]. split; [rewrite L; apply N.log2_spec; lia|]. auto 8.
Qed.
Print Assumptions C40_partial.

(** Every point between the extremes gets a part, whatever the rounding, as long as the extremes are floats that differ. *)
Theorem C40_index : forall rf rp mn mx c p, rounding rf -> rounding rp -> (1 <= Z.of_nat p <= 2 ^ 20)%Z -> rf mn = mn -> rf mx = mx -> (mn <= c <= mx)%R -> (0 < rf (mx - mn))%R ->
  exists j, k_index rf rp mn mx c p = Val j /\ (j < p)%nat.
Proof. exact k_index_in. Qed.
Print Assumptions C40_index.
Example C40_index_case : rounding (fun x => x) /\ exists j, k_index (fun x => x) (fun x => x) 2 10 7 4 = Val j /\ slab 4 2 10 j 7 /\ j = 2%nat.
Proof.
  split; [apply rounding_id|]. destruct (C40_index (fun x => x) (fun x => x) 2 10 7 4 rounding_id rounding_id) as (j & E & L); [lia|reflexivity|reflexivity|lra|lra|]. exists j. split; [exact E|].
  assert (Sl : slab 4 2 10 j 7) by (eapply k_index_exact; [| | |exact E]; [lia|lra|lra]). split; [exact Sl|]. destruct Sl as [Sl|[_ X]]; [|lra]. cbn [INR] in Sl. destruct j as [|[|[|[|j]]]]; [| |reflexivity| |lia]; cbn [INR] in Sl; lra.
Qed.

(** In exact arithmetic it returns if every group it has to split is at least as large as the number of its parts and is
    not flat in the dimension to be split. *)
Theorem C40_returns : forall D pts co tiny huge p splits s, (0 < D)%nat -> gen_splits D p = Val splits -> (p <= 2 ^ 20)%N -> k_cap s <> 0%N -> NoDup (k_ids s) ->
  (forall i, In i (fins D s) -> p_get (N.of_nat D) pts i = Val (co i)) -> (forall i d, In i (fins D s) -> (d < D)%nat -> tiny <= co i d <= huge)%R ->
  spread co splits 0 (fins D s) -> exists ls, k_way (fun x => x) (fun x => x) D pts tiny huge p s = Val ls.
Proof.
  intros D pts co tiny huge p splits s HD E Hp Hc HN Hg Hb Hs. unfold k_way. rewrite E. cbn [rbind]. assert (Hp0 : p <> 0%N) by (intros ->; discriminate). destruct (splits_ok D p HD Hp0) as (ss & E' & L & P & F).
  assert (ss = splits) by congruence. subst ss. apply (k_rec_returns D pts co tiny huge splits 0%nat s); try assumption; [|lia].
  assert (B : (2 ^ N.to_nat (N.log2 p) <= N.to_nat p)%nat).
  { assert (X : (2 ^ N.log2 p <= p)%N) by (apply N.log2_spec; lia). assert (Y : N.of_nat (2 ^ N.to_nat (N.log2 p)) = (2 ^ N.log2 p)%N). { clear. induction (N.log2 p) as [|k IH] using N.peano_ind; [reflexivity|]. rewrite N2Nat.inj_succ, N.pow_succ_r', <- IH. cbn [Nat.pow]. lia. } lia. }
  rewrite <- P in B. clear - F B Hp. assert (Z : (Z.of_nat (fold_right Nat.mul 1%nat splits) <= 2 ^ 20)%Z). { change (2 ^ 20)%N with 1048576%N in Hp. change (2 ^ 20)%Z with 1048576%Z. lia. } clear B Hp p.
  induction F as [|k r [F1 _] F IH]; [constructor|]. cbn [fold_right] in Z. assert (Q : (1 <= fold_right Nat.mul 1 r)%nat). { clear - F. induction F as [|a r [A _] F IH]; [cbn; lia|]. cbn [fold_right]. nia. }
  constructor; [nia|]. apply IH. nia.
Qed.
Print Assumptions C40_returns.

(** Four points in the plane, two parts. *)
Definition ex_co (i : N) : vec := match i with 1%N => v2 1 1 | 2%N => v2 2 5 | 3%N => v2 9 2 | _ => v2 10 6 end.
Definition ex_pts : points vec := mkpts ([v2 0 0] ++ map ex_co [1; 2; 3; 4]%N) 0 [].
Definition ex_set : kset := mkk 8 [1; 2; 3; 4; 18446744073709551612]%N.
Lemma ex_fins : fins 2 ex_set = [1; 2; 3; 4]%N.
Proof. vm_compute. reflexivity. Qed.
Lemma ex_get i : In i [1; 2; 3; 4]%N -> p_get 2 ex_pts i = Val (ex_co i).
Proof. intros [<-|[<-|[<-|[<-|[]]]]]; reflexivity. Qed.
Lemma ex_spread : spread ex_co [2; 1]%nat 0 [1; 2; 3; 4]%N.
Proof.
  cbn [spread]. split; [cbn; lia|]. exists 1%R, 10%R. split; [lra|]. split; [exists 1%N; cbn; auto 9|]. split; [exists 4%N; cbn; auto 9|]. split; [intros i [<-|[<-|[<-|[<-|[]]]]]; cbn; lra|].
  intros j G Hj HN HG. assert (T : forall i, slab 2 1 10 j (ex_co i 0) -> In i [1; 2; 3; 4]%N -> In i G) by (intros; apply HG; auto).
  assert (Hin : forall i, In i G -> In i [1; 2; 3; 4]%N /\ slab 2 1 10 j (ex_co i 0)) by (intros; now apply HG).
  assert (Ne : forall i, In i G -> (1 <= length G)%nat) by (intros i Hi; destruct G; [destruct Hi|cbn; lia]).
  destruct j as [|[|j]]; [| |lia].
  - assert (G1 : In 1%N G) by (apply T; [left; cbn; lra|cbn; auto]). assert (G2 : In 2%N G) by (apply T; [left; cbn; lra|cbn; auto]).
    split; [now apply (Ne 1%N)|]. exists 1%R, 5%R. split; [lra|]. split; [exists 1%N; split; [exact G1|reflexivity]|]. split; [exists 2%N; split; [exact G2|reflexivity]|]. split; [|auto].
    intros i Hi. destruct (Hin i Hi) as [[<-|[<-|[<-|[<-|[]]]]] Hsl]; cbn in *; try lra; destruct Hsl as [Hsl|[Hsl _]]; cbn in Hsl; try lia; try lra.
  - assert (G1 : In 3%N G) by (apply T; [left; cbn; lra|cbn; auto]). assert (G2 : In 4%N G) by (apply T; [right; cbn; split; [lia|reflexivity]|cbn; auto]).
    split; [now apply (Ne 3%N)|]. exists 2%R, 6%R. split; [lra|]. split; [exists 3%N; split; [exact G1|reflexivity]|]. split; [exists 4%N; split; [exact G2|reflexivity]|]. split; [|auto].
    intros i Hi. destruct (Hin i Hi) as [[<-|[<-|[<-|[<-|[]]]]] Hsl]; cbn in *; try lra; destruct Hsl as [Hsl|[_ Hsl]]; cbn in Hsl; try lra.
Qed.
Lemma ex_nodup : NoDup (k_ids ex_set).
Proof. cbn [ex_set k_ids]. repeat (constructor; [cbn [In]; intuition discriminate|]). constructor. Qed.
Example C40_case : exists ls, k_way (fun x => x) (fun x => x) 2 ex_pts (1 / 2) 1000 3 ex_set = Val ls /\ length ls = 2%nat /\ forall i, In i [1; 2; 3; 4]%N -> times i ls = 1%nat.
Proof.
  destruct (C40_returns 2 ex_pts ex_co (1 / 2) 1000 3 [2; 1]%nat ex_set) as [ls E]; [lia|reflexivity|discriminate|discriminate|exact ex_nodup| | | |].
  - rewrite ex_fins. exact ex_get.
  - rewrite ex_fins. intros i d Hi Hd. destruct d as [|[|d]]; [| |lia]; destruct Hi as [<-|[<-|[<-|[<-|[]]]]]; cbn; lra.
  - rewrite ex_fins. exact ex_spread.
  - exists ls. split; [exact E|]. assert (H2 : (0 < 2)%nat) by lia. assert (H3 : (N.of_nat 2 <= 30)%N) by discriminate. destruct (C40_partial _ _ 2 _ _ _ _ _ _ H2 H3 ex_nodup E) as (A & _ & B & _). split; [change (2 ^ N.log2 3)%N with 2%N in A; lia|].
    intros i Hi. apply B; destruct Hi as [<-|[<-|[<-|[<-|[]]]]]; solve [cbn; auto | vm_compute; reflexivity].
Qed.

(** A request for no parts. *)
Theorem C40_zero_refuted : forall rf rp D pts tiny huge s, k_way rf rp D pts tiny huge 0 s = Undef.
Proof. reflexivity. Qed.
Print Assumptions C40_zero_refuted.
(** All points with the same positive first coordinate: 0 / 0 is converted to an integer. *)
Theorem C40_flat_refuted : forall rf rp D pts co tiny huge p s v, (0 < D)%nat -> (p <> 0)%N -> rf 0%R = 0%R -> (exists i, In i (fins D s)) ->
  (forall i, In i (fins D s) -> p_get (N.of_nat D) pts i = Val (co i) /\ co i 0%nat = v) -> (tiny <= v <= huge)%R -> k_way rf rp D pts tiny huge p s = Undef.
Proof.
  intros rf rp D pts co tiny huge p s v HD Hp R0 Hi H Hv. unfold k_way. destruct (splits_ok D p HD Hp) as (ss & -> & L & _). cbn [rbind]. destruct ss as [|p0 rest]; [cbn in L; lia|]. eapply (k_equal D pts co); eassumption.
Qed.
Print Assumptions C40_flat_refuted.
(** In particular with a single finite point. *)
Example C40_flat_case : k_way (fun x => x) (fun x => x) 2 ex_pts (1 / 2) 1000 4 (mkk 8 [3; 18446744073709551612]%N) = Undef.
Proof.
  apply (C40_flat_refuted _ _ 2 ex_pts ex_co _ _ 4 _ 9); [lia|discriminate|reflexivity| | |lra]; replace (fins 2 (mkk 8 [3; 18446744073709551612]%N)) with [3%N] by (vm_compute; reflexivity).
  - exists 3%N. now left.
  - intros i [<-|[]]. split; reflexivity.
Qed.
(** A group with fewer ids than parts: its tables have no cells and an insert never returns. *)
Theorem C40_few_refuted : forall rf rp D pts tiny huge p0 rest dim s, (length (k_ids s) < p0)%nat -> (exists i, In i (fins D s)) -> forall ls, k_rec rf rp D pts tiny huge (p0 :: rest) dim s <> Val ls.
Proof. intros. now apply k_few. Qed.
Print Assumptions C40_few_refuted.
(** 16 parts in the plane and a set of three ids. *)
Example C40_few_case : gen_splits 2 16 = Val [4; 4]%nat /\ forall ls, k_way (fun x => x) (fun x => x) 2 ex_pts (1 / 2) 1000 16 (mkk 8 [1; 2; 3]%N) <> Val ls.
Proof. split; [reflexivity|]. apply C40_few_refuted; [cbn; lia|]. exists 1%N. vm_compute. auto. Qed.
(** The smallest coordinate is a double that rounds up to a float: its position is negative and cannot be converted. *)
Theorem C40_round_refuted : forall rf rp D pts co tiny huge p s lo hi ls, (0 < D)%nat -> (p <= 2 ^ 20)%N -> NoDup (k_ids s) -> (forall i, In i (fins D s) -> p_get (N.of_nat D) pts i = Val (co i)) ->
  (exists i, In i (fins D s) /\ co i 0%nat = lo) -> (exists i, In i (fins D s) /\ co i 0%nat = hi) -> (forall i, In i (fins D s) -> lo <= co i 0%nat <= hi)%R -> (tiny <= hi)%R -> (lo <= huge)%R ->
  (lo < rf lo)%R -> (rf (rf hi - rf lo) > 0)%R -> (forall x, x < 0 -> rf x < 0)%R -> (forall x, x < 0 -> rp x < 0)%R -> (forall k, (1 <= k)%nat -> 0 < rf (INR k))%R ->
  k_way rf rp D pts tiny huge p s <> Val ls.
Proof.
  intros rf rp D pts co tiny huge p s lo hi ls HD Hp HN Hg Hlo Hhi Hr Ht Hh Hup Hd Nf Np Pf H. unfold k_way in H. destruct (N.eq_dec p 0) as [->|Hp0]; [discriminate|]. destruct (splits_ok D p HD Hp0) as (ss & E & L & _ & F). rewrite E in H. cbn [rbind] in H.
  destruct ss as [|p0 rest]; [cbn in L; lia|]. clear L. inversion F as [|? ? [F1 _] _]; subst. cbn [k_rec] in H. destruct (stats_val D pts co tiny huge s) as (st & Es & Q); [intros i Hi Hf; apply Hg, filter_In; auto|]. rewrite Es in H. cbn [rbind] in H. rewrite Nat.mod_small in H by exact HD.
  destruct (Q 0%nat lo hi Hlo Hhi Hr Ht Hh) as [E1 E2]. rewrite E1, E2 in H. set (index := fun c : vec => _) in H. destruct (k_split D pts index (k_ids s) _) as [ss'| |] eqn:Ek; try discriminate.
  destruct (k_split_ok D pts index _ _ _ Ek) as (_ & G & _). destruct Hlo as (i & Hi & Ei). pose proof Hi as Hi'. apply filter_In in Hi'. destruct (G i (proj1 Hi') (proj2 Hi')) as (j & _ & c & Hc & Hj). pose proof (eq_trans (eq_sym (Hg i Hi)) Hc) as X. injection X as X. subst c.
  unfold index in Hj. rewrite (k_index_negative rf rp) in Hj; [discriminate|exact F1|exact Hd|exact Nf|exact Np|now apply Pf|lra].
Qed.
Print Assumptions C40_round_refuted.
(** 0.1 as a double, 3602879701896397 / 2^55, becomes the float 13421773 / 2^27, which is larger. *)
Example C40_round_tenth : binary_normalize 24 128 3602879701896397 (-55) false = S754_finite false 13421773 (-27) /\ (3602879701896397 < 13421773 * 2 ^ (55 - 27))%Z.
Proof. vm_compute. auto. Qed.
(** Two points with first coordinates 0.1 and 1, and a function that rounds 0.1 so. *)
Definition up_rf (x : R) : R := if Req_EM_T x (1 / 10) then (100000001 / 1000000000)%R else x.
Definition up_co (i : N) : vec := match i with 1%N => v2 (1 / 10) 1 | _ => v2 1 2 end.
Example C40_round_case : forall ls, k_way up_rf (fun x => x) 2 (mkpts [v2 0 0; up_co 1; up_co 2] 0 []) (1 / 100) 1000 2 (mkk 8 [1; 2]%N) <> Val ls.
Proof.
  assert (F : fins 2 (mkk 8 [1; 2]%N) = [1; 2]%N) by (vm_compute; reflexivity).
  assert (U : up_rf (1 / 10) = (100000001 / 1000000000)%R) by (unfold up_rf; destruct (Req_EM_T (1 / 10) (1 / 10)); [reflexivity|lra]).
  assert (V : forall x, x <> (1 / 10)%R -> up_rf x = x) by (intros x Hx; unfold up_rf; destruct (Req_EM_T x (1 / 10)); [contradiction|reflexivity]).
  intros ls. apply (C40_round_refuted up_rf _ 2 _ up_co _ _ 2 _ (1 / 10) 1); rewrite ?F; try lra; try lia.
  - cbn [k_ids]. repeat (constructor; [cbn [In]; intuition discriminate|]). constructor.
  - intros i [<-|[<-|[]]]; reflexivity.
  - exists 1%N. cbn. auto.
  - exists 2%N. cbn. auto.
  - intros i [<-|[<-|[]]]; cbn; lra.
  - rewrite U, (V 1%R), V by lra. lra.
  - intros x Hx. rewrite V; lra.
  - auto.
  - intros k Hk. assert (1 <= INR k)%R by (apply (le_INR 1); exact Hk). rewrite V; lra.
Qed.
