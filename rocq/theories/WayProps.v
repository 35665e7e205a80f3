(** C74: the load balanced triangulator with the k-way splitter. *)
From Coq Require Import Permutation Lra.
From Verif Require Import Outcome ListUtil WordsModel WordsProofs LPSetModel LPSetProofs LPSetHistory LPSetIter SimplexModel PointModel PointProofs GeoModel GeoSpec PartModel PartProofs PartTop InfModel InfProofs MergeModel TriSpec DelSpec PlaceSpec DelPlace
  DcModel DcSpec DcBase DcProofs DcEx MeshSpec MeshProofs TreeModel TreeSpec SplitModel SplitProofs SplitEx StepCase TopSpec TopProofs TopRuns DcProps LbModel LbSpec LbProofs LbEx LbTrees LbTop LbProps KWayModel KWayProofs KWayRet KWayProps KTree.
Local Open Scope nat_scope.

(** The splitter is called with all points, and returns; the coordinates are floats.  Then, however Precision and float round, its tree keeps the contract of the
    triangulator; there are as many leaves as the largest power of two within the request.  (When it returns: C40.) *)
Theorem C74_kway D tiny huge p c work q rf rp n s ls b t : D = 2 \/ D = 3 -> input D tiny huge p c ->
  (forall i, In i (concat work) <-> is_fin_id p i) -> ctor_points D tiny huge p work = Val q ->
  rounding rf -> rounding rp -> (forall v d, is_fin_id p v -> d < D -> rf (c v d) = c v d) -> rf tiny = tiny \/ (forall v d, is_fin_id p v -> d < D -> (tiny <= c v d)%R) ->
  let P := id_keys (N.of_nat D) q in
  NoDup (k_ids s) -> (forall v, In v (k_ids s) <-> In v P) -> (n <= 2 ^ 20)%N -> k_way rf rp D q tiny huge n s = Val ls -> kway_tree b ls t ->
  (forall r, placed (N.of_nat D) (co_of D q) r P -> (forall d, d < D -> (tiny <= r d)%R) -> tree_ok (N.of_nat D) (co_of D q) r box (box_ck (N.of_nat D)) t P) /\
  exists l, Leaves t l /\ entries l <= Nat.pow 2 (N.to_nat (N.log2 n)) * length P /\ height t <= 1 /\ width t <= Nat.pow 2 (N.to_nat (N.log2 n)).
Proof.
  intros HD HI Hw Hq Hrf Hrp Hflt Htiny P Hn Hin Hpar Hk Ht. destruct (top_ex D HD tiny huge p c HI work Hw q Hq) as [r0 T]. pose proof T as [T1 T2 T3 T4 T5 T6 T7 T8 T9 _].
  assert (Hf : forall v, In v P -> p_finite (N.of_nat D) v = true -> is_fin_id p v).
  { intros v Hv Fv. apply T8 in Hv as [Hv|Hv]; [exact Hv|]. pose proof (inf_infinite D ltac:(lia) v Hv). congruence. }
  split.
  - intros r Hr Hrt.
    assert (F1 : forall v k, In v P -> p_finite (N.of_nat D) v = true -> k < D -> rf (co_of D q v k) = co_of D q v k) by (intros v k Hv Fv Hk'; rewrite (T9 v (Hf v Hv Fv)); apply Hflt; auto).
    assert (F2 : rf tiny = tiny \/ forall v k, In v P -> p_finite (N.of_nat D) v = true -> k < D -> (tiny <= co_of D q v k)%R) by (destruct Htiny as [H|H]; [now left|right]; intros v k Hv Fv Hk'; rewrite (T9 v (Hf v Hv Fv)); apply H; auto).
    assert (F3 : exists u, In u P /\ p_finite (N.of_nat D) u = true) by exact (old_fin D HD tiny huge p c HI work Hw q Hq Cycle ltac:(discriminate) 0).
    exact (kway_ok D ltac:(lia) q tiny huge (co_of D q) P rf rp Hrf Hrp T6 T7 F1 F2 r Hr T3 F3 ltac:(lia) n s ls b t (conj Hn Hin) Hpar Hk Ht).
  - destruct (kway_size D ltac:(lia) q tiny huge (co_of D q) P rf rp r0 T1 T3 n s ls b t (conj Hn Hin) Hpar Hk Ht) as (L & l & H1 & H2 & H3 & H4). exists l. rewrite L in *. auto.
Qed.
Print Assumptions C74_kway.

(** And the triangulator gives a mesh. *)
Theorem C74_mesh over D tiny huge p c work q hgt cgal depth par_base par_edge rf rp n s ls b t c0 out takes : D = 2 \/ D = 3 -> input D tiny huge p c ->
  (forall i, In i (concat work) <-> is_fin_id p i) -> ctor_points D tiny huge p work = Val q ->
  rounding rf -> rounding rp -> (forall v d, is_fin_id p v -> d < D -> rf (c v d) = c v d) -> rf tiny = tiny \/ (forall v d, is_fin_id p v -> d < D -> (tiny <= c v d)%R) ->
  let P := id_keys (N.of_nat D) q in
  breaks D (co_of D q) hgt P -> cgal_right (N.of_nat D) (co_of D q) hgt P cgal ->
  NoDup (k_ids s) -> (forall v, In v (k_ids s) <-> In v P) -> (n <= 2 ^ 20)%N -> k_way rf rp D q tiny huge n s = Val ls -> kway_tree b ls t ->
  depth <= 42 -> (4 * (n * N.of_nat (length P)) <= 2 ^ 63)%N ->
  lb_run over (N.of_nat D) (co_of D q) cgal (splits D q tiny huge Cycle) depth box (fun b => b) (box_ck (N.of_nat D)) par_base par_edge [] t out takes ->
  drawn c0 takes -> (c0 + total takes < 2 ^ 64)%N -> (N.of_nat (length takes) < 2 ^ 32)%N ->
  exists r, (forall v d, is_fin_id p v -> d < D -> (Rabs (c v d) <= r d)%R) /\ (forall v, is_inf_id (N.of_nat D) v -> veq D (co_of D q v) (corner r v)) /\
    mesh (N.of_nat D) (co_of D q) r P out.
Proof.
  intros HD HI Hw Hq Hrf Hrp Hflt Htiny P HB Hc Hn Hin Hpar Hk Ht Hd Hsz Hr Htk H1 H2.
  destruct (C74_kway D tiny huge p c work q rf rp n s ls b t HD HI Hw Hq Hrf Hrp Hflt Htiny Hn Hin Hpar Hk Ht) as (Hok & l & HL & HE & Hh & _).
  eapply (C72_load_balanced over D tiny huge p c work q hgt cgal depth box (fun b => b) (box_ck (N.of_nat D)) par_base par_edge t l c0 out takes HD HI Hw Hq HB Hc Hok HL); eauto; [|lia].
  fold P in HE. assert (Hn0 : n <> 0%N) by (intros ->; discriminate).
  assert (B : Nat.pow 2 (N.to_nat (N.log2 n)) <= N.to_nat n).
  { assert (X : (2 ^ N.log2 n <= n)%N) by (apply N.log2_spec; lia). assert (Y : N.of_nat (Nat.pow 2 (N.to_nat (N.log2 n))) = (2 ^ N.log2 n)%N). { clear. induction (N.log2 n) as [|k IH] using N.peano_ind; [reflexivity|]. rewrite N2Nat.inj_succ, N.pow_succ_r', <- IH. cbn [Nat.pow]. lia. } lia. }
  assert (E : entries l <= N.to_nat n * length P) by (eapply Nat.le_trans; [exact HE|]; now apply Nat.mul_le_mono_r). lia.
Qed.
Print Assumptions C74_mesh.

(** The parabola in two halves. *)
Lemma g_spread (K : list N) : NoDup K -> (forall i, In i K <-> (1 <= i <= 600)%N) -> spread g_c [2; 1] 0 K.
Proof.
  intros HN HK. assert (Hx : forall i, g_c i 0 = IZR (Z.of_N i)) by reflexivity. assert (Hy : forall i, g_c i 1 = IZR (Z.of_N (i * i))) by reflexivity.
  assert (Two : forall G a b, In a G -> In b G -> (a < b)%N -> 2 <= length G) by (intros G a b Ha Hb Hab; destruct G as [|x [|y G]]; [destruct Ha|destruct Ha as [<-|[]], Hb as [<-|[]]; lia|cbn; lia]).
  cbn [spread]. split; [apply (Two K 1%N 2%N); [apply HK; lia|apply HK; lia|lia]|]. exists 1%R, 600%R. split; [lra|]. split; [exists 1%N; split; [apply HK; lia|reflexivity]|]. split; [exists 600%N; split; [apply HK; lia|reflexivity]|]. split; [intros i Hi; apply HK in Hi; rewrite Hx; split; apply IZR_le; lia|].
  intros j G Hj HG HGi.
  assert (S0 : forall i, (1 <= i <= 300)%N -> slab 2 1 600 0 (g_c i 0)) by (intros i Hi; left; rewrite Hx; assert (1 <= IZR (Z.of_N i) <= 300)%R by (split; apply IZR_le; lia); cbn [INR]; lra).
  assert (S1 : forall i, (301 <= i <= 600)%N -> slab 2 1 600 1 (g_c i 0)).
  { intros i Hi. destruct (N.eq_dec i 600) as [->|Hne]; [right; split; reflexivity|]. left. rewrite Hx. assert (301 <= IZR (Z.of_N i) <= 599)%R by (split; apply IZR_le; lia). cbn [INR]. lra. }
  assert (Sn : forall i, (301 <= i <= 600)%N -> ~ slab 2 1 600 0 (g_c i 0)).
  { intros i Hi [H|[H _]]; [|lia]. rewrite Hx in H. assert (301 <= IZR (Z.of_N i) <= 600)%R by (split; apply IZR_le; lia). cbn [INR] in H. lra. }
  assert (Sm : forall i, (1 <= i <= 300)%N -> ~ slab 2 1 600 1 (g_c i 0)).
  { intros i Hi [H|[_ H]]; rewrite Hx in H; assert (1 <= IZR (Z.of_N i) <= 300)%R by (split; apply IZR_le; lia); [|lra]. cbn [INR] in H. lra. }
  assert (X : exists a b, (a < b)%N /\ (1 <= a)%N /\ (forall i, In i G <-> (a <= i <= b)%N)).
  { destruct j as [|[|j]]; [exists 1%N, 300%N|exists 301%N, 600%N|lia]; (split; [lia|]; split; [lia|]; intros i; rewrite HGi, HK; split; [intros [H1 H2]|intros H; split; [lia|auto]]).
    - destruct (N.le_gt_cases i 300) as [Hle|Hgt]; [lia|]. destruct (Sn i ltac:(lia) H2).
    - destruct (N.le_gt_cases i 300) as [Hle|Hgt]; [|lia]. destruct (Sm i ltac:(lia) H2). }
  destruct X as (a & b & Hab & Ha & HG'). assert (Ia : In a G) by (apply HG'; lia). assert (Ib : In b G) by (apply HG'; lia).
  split; [pose proof (Two G a b Ia Ib Hab); lia|]. exists (IZR (Z.of_N (a * a))), (IZR (Z.of_N (b * b))). split; [apply IZR_lt; nia|]. split; [exists a; auto|]. split; [exists b; auto|].
  split; [intros i Hi; apply HG' in Hi; rewrite Hy; split; apply IZR_le; nia|auto].
Qed.
Lemma kway_tree_ex b ls : (forall l, In l ls -> NoDup (snd l) /\ ~ In 0%N (snd l) /\ small 64 (4 * (length (snd l) + 4))) -> exists t, kway_tree b ls t.
Proof.
  intros H. assert (X : exists ch, Forall2 (fun (l : kleaf) c => exists s, c = Tleaf (Some (fst l)) s /\ lists s (snd l)) ls ch).
  { induction ls as [|l ls IH]; [exists []; constructor|]. destruct IH as [ch Hch]; [intros; apply H; now right|]. destruct (H l ltac:(now left)) as (H1 & H2 & H3). destruct (ids_ex (snd l) H1 H2 H3) as [s Hs].
    exists (Tleaf (Some (fst l)) s :: ch). constructor; [eauto|exact Hch]. }
  destruct X as [ch Hch]. exists (Tnode (Some b) ch), ch. auto.
Qed.
Example C74_ex par_base par_edge : exists work q hgt s ls t out takes, input 2 (1 / 1000) 1000000 g_pts g_c /\ (forall i, In i (concat work) <-> is_fin_id g_pts i) /\
  ctor_points 2 (1 / 1000) 1000000 g_pts work = Val q /\ rounding (fun x => x) /\ breaks 2 (co_of 2 q) hgt (id_keys 2 q) /\ cgal_right 2 (co_of 2 q) hgt (id_keys 2 q) (g_cgal hgt (co_of 2 q)) /\
  NoDup (k_ids s) /\ (forall v, In v (k_ids s) <-> In v (id_keys 2 q)) /\
  k_way (fun x => x) (fun x => x) 2 q (1 / 1000) 1000000 2 s = Val ls /\ length ls = 2 /\ kway_tree (mkbox (v2 0 0) (v2 600 360000)) ls t /\
  lb_run (fun x => x) 2 (co_of 2 q) (g_cgal hgt (co_of 2 q)) (splits 2 q (1 / 1000) 1000000 Cycle) 1 box (fun b => b) (box_ck 2) par_base par_edge [] t out takes /\
  drawn 1 takes /\ (1 + total takes < 2 ^ 64)%N /\ (N.of_nat (length takes) < 2 ^ 32)%N.
Proof.
  destruct (C67_ex DWay ltac:(discriminate)) as (work & q & hgt & _ & _ & HI & Hw & Hq & HB & Hc & He & _ & _ & _ & _ & Hl).
  destruct (top_ex 2 (or_introl eq_refl) _ _ _ _ HI work Hw q Hq) as [r T]. pose proof T as [T1 T2 T3 T4 T5 T6 T7 T8 T9 _].
  assert (Hlen : length (id_keys 2 q) = 604) by (apply N.ltb_lt in Hl; unfold ctor_points in Hq; destruct (stats_par _ _ _ _ _ _) as [st| |]; try discriminate Hq; injection Hq as <-; apply g_len).
  set (s := mkk 604 (id_keys 2 q)).
  assert (Hf : forall v, In v (fins 2 s) <-> (1 <= v <= 600)%N).
  { intros v. unfold fins. rewrite filter_In. cbn [s k_ids]. split.
    - intros [Hv Fv]. apply g_fin. apply T8 in Hv as [Hv|Hv]; [exact Hv|]. pose proof (inf_infinite 2 ltac:(lia) v Hv) as E. change (N.of_nat 2) with 2%N in *. congruence.
    - intros Hv. apply g_fin in Hv. split; [apply T8; now left|]. eapply (fin_finite 2); eauto. lia. }
  assert (Hco : forall v, In v (fins 2 s) -> co_of 2 q v = g_c v) by (intros v Hv; apply T9, g_fin, Hf, Hv).
  destruct (C40_returns 2 q g_c (1 / 1000) 1000000 2 [2; 1] s) as [ls Hk].
  { lia. } { reflexivity. } { discriminate. } { discriminate. } { exact T3. }
  { intros i Hi. pose proof (Hco i Hi) as E. apply filter_In in Hi as [Hi Fi]. rewrite <- E. apply T6; auto. }
  { intros i d Hi Hd. apply Hf in Hi. assert (H2 : d = 0 \/ d = 1) by lia. unfold g_c, v2. destruct H2 as [-> | ->]; cbn; (split; [apply Rle_trans with 1%R; [lra|apply IZR_le; nia]|apply IZR_le; nia]). }
  { apply g_spread; [apply NoDup_filter, T3|exact Hf]. }
  assert (Hin : forall v, In v (k_ids s) <-> In v (id_keys 2 q)) by (intros v; reflexivity).
  destruct (C40_partial (fun x => x) (fun x => x) 2 q (1 / 1000) 1000000 2 s ls ltac:(lia) ltac:(discriminate) T3 Hk) as (A1 & _ & _ & A3 & _ & A5 & _).
  assert (L2 : length ls = 2) by (change (2 ^ N.log2 2)%N with 2%N in A1; lia).
  assert (Hm : forall l v, In l ls -> In v (snd l) -> In v (id_keys 2 q)).
  { intros l v Il Iv. destruct (A3 l v Il Iv) as [H|H]; [now apply Hin|]. apply (inf_in 2 ltac:(lia)) in H. now apply (pl_inf _ _ _ _ T1). }
  destruct (kway_tree_ex (mkbox (v2 0 0) (v2 600 360000)) ls) as [t Ht].
  { intros l Il. split; [now apply A5|]. split; [intros H0; exact (T4 (Hm l _ Il H0))|]. assert (Hle : length (snd l) <= 604) by (rewrite <- Hlen; apply NoDup_incl_length; [now apply A5|intros v; now apply Hm]).
    clear - Hle. split; lia. }
  assert (Hid : forall v d, is_fin_id g_pts v -> d < 2 -> (fun x : R => x) (g_c v d) = g_c v d) by reflexivity.
  destruct (C74_kway 2 _ _ _ _ work q (fun x => x) (fun x => x) 2 s ls (mkbox (v2 0 0) (v2 600 360000)) t (or_introl eq_refl) HI Hw Hq rounding_id rounding_id Hid (or_introl eq_refl) T3 Hin ltac:(discriminate) Hk Ht) as (Hok & l & HL & HE & Hh & Hwd).
  change (N.of_nat 2) with 2%N in HE. rewrite Hlen in HE. change (Nat.pow 2 (N.to_nat (N.log2 2))) with 2 in *.
  destruct (C72_runs (fun x => x) 2 _ _ _ _ work q hgt (g_cgal hgt (co_of 2 q)) 1 box (fun b => b) (box_ck 2) par_base par_edge t l 1 (604 ^ 3) 4 1 (or_introl eq_refl) HI Hw Hq HB Hc He Hok HL) as (out & takes & H).
  - lia.
  - exact Hh.
  - lia.
  - lia.
  - lia.
  - discriminate.
  - reflexivity.
  - reflexivity.
  - exists work, q, hgt, s, ls, t, out, takes. split; [exact HI|]. split; [exact Hw|]. split; [exact Hq|]. split; [exact rounding_id|]. auto 15.
Qed.
