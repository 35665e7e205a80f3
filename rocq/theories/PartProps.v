(** C34, C35: point statistics and partitioners. *)
From Verif Require Import Outcome ListUtil WordsModel WordsProofs LPSetModel ProbeTheory LPSetProofs LPSetHistory LPSetIter SimplexModel PointModel PointProofs GeoModel GeoSpec GeoProofs
  Conc ConcSetModel ConcSetProofs ConcSetSpec PartModel PartStats PartSpec PartProofs PartConc PartTop.
From Coq Require Import Permutation Lia Lra.
Local Open Scope nat_scope.

(** [good_partition], [answering], [covers]: PartSpec.v.  [small 64 n]: a table for n ids can be allocated, LPSetHistory.v. *)

(** The way a parallel loop hands the ids of the set out to threads: every id to exactly one. *)
Definition split_of (ids : lpset) (K : list N) (work : list (list N)) : Prop :=
  repr 64 ids K /\ NoDup (concat work) /\ forall i, In i (concat work) <-> In i K.

Lemma split_size ids K work : split_of ids K work -> set_size ids = length (concat work).
Proof.
  intros (Hr & Hn & Hs). unfold set_size. rewrite (repr_items 64 ids K Hr), (distinct_same K (concat work)) by (intros x; symmetry; apply Hs).
  unfold distinct. now rewrite nodup_fixed_point.
Qed.

(** ** C34 *)
(** dWayPartitioner: it returns 2^D parts that are a partition; lookups in them are answered if there are at least two
    ids per part on average.  Missing: without that many ids a part's table can be full, see the refutations. *)
Theorem C34_d_way_partial : forall D pts st mult ids K ignore, (N.of_nat D <= 30)%N -> repr 64 ids K ->
  (forall i, In i K -> (i < 2 ^ 64)%N) -> covers D pts K st -> small 64 (4 * (set_size ids + 2 ^ D)) ->
  exists ps, returns (fun f => d_way D pts st mult f ids ignore) ps /\ length ps = 2 ^ D /\ good_partition D pts K ignore ps /\
  ((2 * 2 ^ N.of_nat D <= N.of_nat (set_size ids))%N -> answering ps).
Proof.
  intros D pts st mult ids K ignore HD Hr Hw Hc Hs. destruct (d_way_ok D HD pts st mult ids K ignore Hr Hw Hc Hs) as [ps [E [P F]]].
  exists ps. split; [exact E|]. pose proof P as [l [_ [_ R]]]. split; [exact (proj1 R)|]. split; [exact (parts_good D HD pts ids K ignore Hr _ _ _ ps P)|].
  intros H. exact (free_answering D HD _ _ _ ps R (F H)).
Qed.
Print Assumptions C34_d_way_partial.

(** OneDimPartitioner for a dimension below D. *)
Theorem C34_one_dim_partial : forall D pts st mult ids K ignore k, (N.of_nat D <= 30)%N -> k < D -> repr 64 ids K ->
  (forall i, In i K -> (i < 2 ^ 64)%N) -> covers D pts K st -> small 64 (4 * (set_size ids + 2 ^ D)) ->
  exists ps, returns (fun f => one_dim D pts st mult k f ids ignore) ps /\ length ps = 2 /\ good_partition D pts K ignore ps /\
  (4 <= set_size ids -> answering ps).
Proof.
  intros D pts st mult ids K ignore k HD Hk Hr Hw Hc Hs. destruct (one_dim_ok D HD pts st mult ids K ignore Hr Hw Hc Hs k Hk) as [ps [E [P F]]].
  exists ps. split; [exact E|]. pose proof P as [l [_ [_ R]]]. split; [exact (proj1 R)|]. split; [exact (parts_good D HD pts ids K ignore Hr _ _ _ ps P)|].
  intros H. exact (free_answering D HD _ _ _ ps R (F H)).
Qed.
Print Assumptions C34_one_dim_partial.

(** What is said of the two parallel partitioners, which differ in how they choose [k]: under every schedule the loop
    does nothing undefined, cannot run forever and cannot get stuck; when all threads are through, the rest returns two
    parts that are a partition.  Lookups in them are answered if the infinite ids are added, or some id does not go to
    either part, or both parts get one. *)
Definition halves (D : nat) (pts : points vec) (st : stats) (mult : nat -> N) (ids : lpset) (K : list N) (ignore : bool) (work : list (list N))
  (k : nat) (route : N -> res (option nat)) : Prop :=
  let c0 := pstart mult (N.of_nat (set_size ids)) work in
  safe (pstep route) c0 /\ terminates (pstep route) c0 /\
  (forall c tr, exec (pstep route) c0 c tr -> (exists c', cstep (pstep route) c c') \/ pdone c) /\
  forall c tr, exec (pstep route) c0 c tr -> pdone c ->
  exists ps, returns (fun f => half_finish D st k f (c_sh c) ignore) ps /\ length ps = 2 /\ good_partition D pts K ignore ps /\
  (2 <= set_size ids ->
   ignore = false \/ (exists i, In i K /\ is_inf_id (N.of_nat D) i) \/
   (exists i i' c c', In i K /\ In i' K /\ p_get (N.of_nat D) pts i = Val c /\ p_get (N.of_nat D) pts i' = Val c' /\ (c k <= st_mid st k < c' k)%R) ->
   answering ps).

Lemma filter_lt {A} (f : A -> bool) l x : In x l -> f x = false -> length (filter f l) < length l.
Proof.
  induction l as [|a t IH]; intros Hin Hf; [easy|]. cbn [filter length]. assert (Hle : forall u : list A, length (filter f u) <= length u).
  { induction u as [|y u IHu]; cbn [filter length]; [lia|]. destruct (f y); cbn [length]; lia. }
  destruct Hin as [->|Hin]; [rewrite Hf; specialize (Hle t); lia|]. specialize (IH Hin Hf). destruct (f a); cbn [length]; lia.
Qed.

Lemma halves_ok D pts st mult ids K ignore work k : (N.of_nat D <= 30)%N -> k < D -> split_of ids K work -> (forall i, In i K -> (0 < i < 2 ^ 64)%N) ->
  covers D pts K st -> 1 <= set_size ids -> small 64 (4 * (set_size ids + 2 ^ D)) ->
  halves D pts st mult ids K ignore work k (route_id D pts (route1 D st k)).
Proof.
  intros HD Hk Hsp Hw Hc H1 Hs. pose proof (split_size _ _ _ Hsp) as El. destruct Hsp as (Hr & Hn & Hsame). rewrite El in H1, Hs.
  unfold halves. rewrite El. cbv zeta. split; [exact (two_safe D HD pts st mult K work k Hk Hsame Hw Hc H1 Hs)|].
  split; [exact (two_terminates D HD pts st mult K work k Hk Hsame Hw Hc H1 Hs)|].
  split; [exact (two_progress D HD pts st mult K work k Hk Hsame Hw Hc H1 Hs)|].
  intros c tr E Hd. destruct (two_done D HD pts st mult K ignore work k Hk Hsame Hw Hc H1 Hs c tr E Hd) as [ps [E' [P F]]].
  exists ps. split; [exact E'|]. pose proof P as [l [_ [_ R]]]. split; [exact (proj1 R)|]. split; [exact (parts_good D HD pts ids K ignore Hr _ _ _ ps P)|].
  intros H2 HX. apply (free_answering D HD _ _ _ ps R), F; [exact H2|]. rewrite nodup_fixed_point by exact Hn.
  pose proof (ids_routes D HD pts st K work k Hk Hsame Hw Hc) as Hrt.
  assert (Hfin : forall i, In i K -> p_finite (N.of_nat D) i = true <-> ~ is_inf_id (N.of_nat D) i) by (intros i Hi; apply (finite_iff D HD), Hw, Hi).
  assert (Hgo : forall i c j, In i K -> p_finite (N.of_nat D) i = true -> p_get (N.of_nat D) pts i = Val c -> goes D pts (route1 D st k) j i = Nat.eqb (if rltb (st_mid st k) (c k) then 1 else 0) j).
  { intros i v j Hi Hf Hg. unfold goes, route_id. rewrite Hf, Hg. cbn [rbind]. unfold route1. apply Nat.ltb_lt in Hk. rewrite Hk. reflexivity. }
  destruct HX as [HX|HX]; [now left|right]. intros j Hj.
  assert (HI : forall i, In i K -> is_inf_id (N.of_nat D) i -> goes D pts (route1 D st k) j i = false).
  { intros i Hi Hinf. destruct (routes_id D HD pts _ _ _ _ i Hrt (proj2 (Hsame i) Hi)) as [[_ Eq]|[Hx _]]; [|contradiction]. unfold goes. now rewrite Eq. }
  assert (HG : forall i, In i K -> goes D pts (route1 D st k) j i = false -> length (filter (goes D pts (route1 D st k) j) (concat work)) < length (concat work)).
  { intros i Hi Hf. apply (filter_lt _ _ i); [apply Hsame, Hi|exact Hf]. }
  destruct HX as [[i [Hi Hinf]]|[i [i' [v [v' [Hi [Hi' [Hv [Hv' Hlt]]]]]]]]]; [apply (HG i Hi), HI; assumption|].
  destruct (p_finite (N.of_nat D) i) eqn:Ef.
  - destruct (p_finite (N.of_nat D) i') eqn:Ef'.
    + destruct j as [|j].
      * apply (HG i' Hi'). rewrite (Hgo i' v' _ Hi' Ef' Hv'). assert (Eq : rltb (st_mid st k) (v' k) = true) by (apply rltb_iff, Hlt). now rewrite Eq.
      * apply (HG i Hi). rewrite (Hgo i v _ Hi Ef Hv). assert (Eq : rltb (st_mid st k) (v k) = false) by (apply rltb_false, Hlt). now rewrite Eq.
    + apply (HG i' Hi'). unfold goes, route_id. now rewrite Ef'.
  - apply (HG i Hi). unfold goes, route_id. now rewrite Ef.
Qed.

(** CyclePartitioner: the dimension is chosen by the length of the provenance.  Missing as above. *)
Theorem C34_cycle_partial : forall D pts st mult ids K ignore work provenance, 0 < D -> (N.of_nat D <= 30)%N -> split_of ids K work ->
  (forall i, In i K -> (0 < i < 2 ^ 64)%N) -> covers D pts K st -> 1 <= set_size ids -> small 64 (4 * (set_size ids + 2 ^ D)) ->
  halves D pts st mult ids K ignore work (cycle_dim D provenance) (route_id D pts (route1 D st (cycle_dim D provenance))).
Proof. intros D pts st mult ids K ignore work prov H0 HD. intros. apply halves_ok; auto. apply (cycle_dim_lt D HD mult); lia. Qed.
Print Assumptions C34_cycle_partial.

(** ExtendPartitioner when the statistics are wider than a point: it splits in a widest dimension. *)
Theorem C34_extend_partial : forall D pts st mult ids K ignore work, (N.of_nat D <= 30)%N -> split_of ids K work ->
  (forall i, In i K -> (0 < i < 2 ^ 64)%N) -> covers D pts K st -> 1 <= set_size ids -> small 64 (4 * (set_size ids + 2 ^ D)) ->
  (exists d, d < D /\ (st_min st d < st_max st d)%R) ->
  exists k, extend_dim D st = Some k /\ k < D /\ (forall d, d < D -> (st_max st d - st_min st d <= st_max st k - st_min st k)%R) /\
  halves D pts st mult ids K ignore work k (route_id D pts (extend_route D st)).
Proof.
  intros D pts st mult ids K ignore work HD Hsp Hw Hc H1 Hs He. destruct (extend_some D HD st mult He) as [k [E [Hk Hmax]]].
  exists k. split; [exact E|]. split; [exact Hk|]. split; [exact Hmax|].
  assert (Er : route_id D pts (extend_route D st) = route_id D pts (route1 D st k)).
  { unfold extend_route. rewrite E. reflexivity. }
  rewrite Er. now apply halves_ok.
Qed.
Print Assumptions C34_extend_partial.

(** Partitioning::partition(id): the part that holds the id (the first one for infinite ids, which are in all parts), an
    exception if there is none; Partition::contains of a simplex. *)
Theorem C34_lookup : forall D pts K ignore ps i, good_partition D pts K ignore ps -> answering ps -> (i <> 0)%N ->
  (forall p, In p ps -> ~ holds p i) /\ returns (fun f => part_of f ps i) None \/
  exists j p, nth_error ps j = Some p /\ holds p i /\ returns (fun f => part_of f ps i) (Some j) /\
  (In i K -> ~ is_inf_id (N.of_nat D) i -> forall j' p', nth_error ps j' = Some p' -> holds p' i -> j' = j) /\
  (ignore = false -> is_inf_id (N.of_nat D) i -> j = 0).
Proof.
  intros D pts K ignore ps i [G1 [G2 [G3 G4]]] Ha Hi. destruct (part_of_first ps Ha i Hi) as [[j [p [Hj [Hp [Hfirst E]]]]]|[H1 H2]]; [right|left; auto].
  exists j, p. rewrite (G1 j p Hj) in E. split; [exact Hj|]. split; [exact Hp|]. split; [exact E|]. split.
  - intros HK Hinf j' p' Hj' Hp'. destruct (G2 i HK) as [Hx|[j0 [p0 [c0 [_ [_ [_ [_ Hu]]]]]]]]; [contradiction|].
    rewrite (Hu j' p' Hj' Hp'). symmetry. exact (Hu j p Hj Hp).
  - intros Hf Hinf. destruct j as [|j]; [reflexivity|exfalso]. destruct ps as [|p0 ps]; [discriminate|].
    apply (Hfirst 0 p0); [lia|reflexivity|]. apply (G4 Hf 0 p0 i); [reflexivity|exact Hinf].
Qed.
Print Assumptions C34_lookup.
Theorem C34_contains_simplex : forall ps p vs, answering ps -> In p ps -> ~ In 0%N vs ->
  (exists b, returns (fun f => part_has_simplex f p vs false) b /\ (b = true <-> forall v, In v vs -> holds p v)) /\
  (exists b, returns (fun f => part_has_simplex f p vs true) b /\ (b = true <-> exists v, In v vs /\ holds p v)).
Proof.
  intros ps p vs Ha Hp Hz. assert (Hv : forall v, In v vs -> holds p v \/ lacks p v) by (intros v Hv; apply (Ha p v Hp); intros ->; contradiction).
  assert (Hx : forall v, holds p v -> lacks p v -> False) by (intros v H1 H2; discriminate (returns_det _ _ _ H1 H2)).
  split.
  - destruct (has_simplex_all p vs Hv) as [[E H]|[E [v [H1 H2]]]]; [exists true|exists false]; (split; [exact E|]); split; auto; try discriminate.
    intros H. exfalso. exact (Hx v (H v H1) H2).
  - destruct (has_simplex_some p vs Hv) as [[E H]|[E H]]; [exists true|exists false]; (split; [exact E|]); split; auto; try discriminate.
    intros [v [H1 H2]]. exfalso. exact (Hx v H2 (H v H1)).
Qed.
Print Assumptions C34_contains_simplex.

(** *** Cases *)
Definition v2 (x y : R) : vec := fun d => match d with O => x | _ => y end.
(** Five points in the plane, the third on the splitting lines, and the four infinite ones. *)
Definition ex_pts : points vec := mkpts [v2 0 0; v2 0 0; v2 1 0; v2 (1 / 2) (1 / 2); v2 0 1; v2 1 1] 0 [v2 0 0; v2 0 0; v2 0 0; v2 0 0].
Definition ex_st : stats := mkst (v2 0 0) (v2 (1 / 2) (1 / 2)) (v2 1 1).
Definition ex_ids : lpset := match set_run 64 true 50 (set_new 8 3) (map OpInsert [1; 2; 3; 4; 5]%N) with Val (s, _) => s | _ => set_new 8 3 end.
Lemma ex_repr : repr 64 ex_ids [5; 4; 3; 2; 1]%N.
Proof.
  apply (LPSetSpec.after_repr 64 true 8 3 (map OpInsert [1; 2; 3; 4; 5]%N)). split; [unfold LPSetSpec.in_range; repeat split; vm_compute; discriminate|].
  split; [repeat constructor; discriminate|]. exists (repeat (OutBool true) 5). exists 50. intros m Hm. do 50 (destruct m as [|m]; [exfalso; lia|]). vm_compute. reflexivity.
Qed.
Lemma ex_get : forall i, In i [5; 4; 3; 2; 1]%N -> p_get 2 ex_pts i = Val (nth (N.to_nat i) (p_vec ex_pts) (v2 0 0)).
Proof. intros i Hi. repeat (destruct Hi as [<-|Hi]; [reflexivity|]). easy. Qed.
Lemma ex_covers : covers 2 ex_pts [5; 4; 3; 2; 1]%N ex_st.
Proof.
  intros i Hi _. eexists. split; [exact (ex_get i Hi)|]. intros d Hd. assert (Ed : d = 0 \/ d = 1) by lia.
  repeat (destruct Hi as [<-|Hi]; [destruct Ed as [-> | ->]; cbv -[IZR Rdiv Rle]; lra|]). easy.
Qed.
Example C34_case : (N.of_nat 2 <= 30)%N /\ repr 64 ex_ids [5; 4; 3; 2; 1]%N /\ (forall i, In i [5; 4; 3; 2; 1]%N -> (0 < i < 2 ^ 64)%N) /\
  covers 2 ex_pts [5; 4; 3; 2; 1]%N ex_st /\ set_size ex_ids = 5 /\ small 64 (4 * (set_size ex_ids + 2 ^ 2)) /\
  split_of ex_ids [5; 4; 3; 2; 1]%N [[2; 4]; []; [1; 3; 5]]%N /\ (st_min ex_st 0%nat < st_max ex_st 0%nat)%R.
Proof.
  split; [lia|]. split; [exact ex_repr|]. split; [intros i Hi; repeat (destruct Hi as [<-|Hi]; [split; reflexivity|]); easy|].
  split; [exact ex_covers|]. split; [reflexivity|]. split; [split; vm_compute; discriminate|]. split.
  - split; [exact ex_repr|]. split; [repeat constructor; cbn; intuition discriminate|]. intros i. cbn. tauto.
  - cbn. lra.
Qed.

(** *** Refutations *)
(** Two ids and ignoreInfinite: the tables have one cell, and asking for the part of the second point does not return. *)
Definition ex2_ids : lpset := match set_run 64 true 50 (set_new 4 3) (map OpInsert [1; 2]%N) with Val (s, _) => s | _ => set_new 4 3 end.
Lemma ex2_repr : repr 64 ex2_ids [2; 1]%N.
Proof.
  apply (LPSetSpec.after_repr 64 true 4 3 (map OpInsert [1; 2]%N)). split; [unfold LPSetSpec.in_range; repeat split; vm_compute; discriminate|].
  split; [repeat constructor; discriminate|]. exists (repeat (OutBool true) 2). exists 50. intros m Hm. do 50 (destruct m as [|m]; [exfalso; lia|]). vm_compute. reflexivity.
Qed.
Theorem C34_one_dim_lookup_refuted : exists pts st mult ids K, repr 64 ids K /\ covers 2 pts K st /\ In 2%N K /\
  exists ps, returns (fun f => one_dim 2 pts st mult 0 f ids true) ps /\ good_partition 2 pts K true ps /\ diverges (fun f => part_of f ps 2).
Proof.
  exists ex_pts, ex_st, (fun _ => 3%N), ex2_ids, [2; 1]%N. split; [exact ex2_repr|].
  assert (Hc : covers 2 ex_pts [2; 1]%N ex_st).
  { intros i Hi Hf. apply (ex_covers i); [|exact Hf]. destruct Hi as [<-|[<-|[]]]; cbn; tauto. }
  split; [exact Hc|]. split; [now left|].
  assert (HE : exists x y, returns (fun f => one_dim 2 ex_pts ex_st (fun _ => 3%N) 0 f ex2_ids true) [mkpart 0 (mkset [1%N] 1 3) x; mkpart 1 (mkset [2%N] 1 3) y]).
  { exists (half_box ex_st 0 0), (half_box ex_st 0 1). exists 20. intros f Hf. unfold one_dim. do 20 (destruct f as [|f]; [exfalso; lia|]).
    set (F := S _). assert (EI : set_iterate F ex2_ids = Val (keys_of (s_arr ex2_ids))) by (vm_compute; reflexivity). rewrite EI. cbn [rbind].
    assert (R1 : route_id 2 ex_pts (route1 2 ex_st 0) 1 = Val (Some 0)).
    { unfold route_id. change (p_get (N.of_nat 2) ex_pts 1) with (Val (v2 0 0)). cbn [rbind p_finite]. change (p_finite (N.of_nat 2) 1) with true. cbv iota.
      unfold route1. cbn [Nat.ltb Nat.leb rmap st_mid ex_st v2]. assert (Eq : rltb (1 / 2) 0 = false) by (apply rltb_false; lra). now rewrite Eq. }
    assert (R2 : route_id 2 ex_pts (route1 2 ex_st 0) 2 = Val (Some 1)).
    { unfold route_id. change (p_get (N.of_nat 2) ex_pts 2) with (Val (v2 1 0)). change (p_finite (N.of_nat 2) 2) with true. cbn [rbind].
      unfold route1. cbn [Nat.ltb Nat.leb rmap st_mid ex_st v2]. assert (Eq : rltb (1 / 2) 1 = true) by (apply rltb_iff; lra). now rewrite Eq. }
    cbn [map seq]. generalize (half_box ex_st 0 0) (half_box ex_st 0 1). intros x y.
    let l := eval vm_compute in (keys_of (s_arr ex2_ids)) in change (keys_of (s_arr ex2_ids)) with l.
    cbn [distribute]. rewrite R2. cbn [rbind].
    lazymatch goal with |- context [part_put ?f ?p ?j ?k] => let v := eval vm_compute in (part_put f p j k) in replace (part_put f p j k) with v by (vm_compute; reflexivity) end.
    cbn [distribute rbind]. rewrite R1. cbn [rbind].
    lazymatch goal with |- context [part_put ?f ?p ?j ?k] => let v := eval vm_compute in (part_put f p j k) in replace (part_put f p j k) with v by (vm_compute; reflexivity) end.
    reflexivity. }
  destruct HE as [x [y HE]]. eexists. split; [exact HE|]. split.
  - destruct (C34_one_dim_partial 2 ex_pts ex_st (fun _ => 3%N) ex2_ids [2; 1]%N true 0) as [ps [E [_ [G _]]]]; [lia|lia|exact ex2_repr| |exact Hc|split; vm_compute; discriminate|].
    + intros i Hi. destruct Hi as [<-|[<-|[]]]; reflexivity.
    + rewrite <- (returns_det _ _ _ HE E) in G. exact G.
  - intros f. cbn [part_of]. unfold part_has at 1. cbn [pa_pts].
    assert (Hd : diverges (fun f => set_contains 64 f (mkset [1%N] 1 3) 2)); [|now rewrite (Hd f)].
    apply (contains_full_diverges 64 PartProofs.w64); [|discriminate|intros [Hn|[]]; discriminate Hn|reflexivity].
    assert (T : repr 64 (mkset [1%N] 1 3) [1%N]); [|exact (proj1 T)].
    apply (LPSetSpec.after_repr 64 true 1 3 [OpInsert 1]). split; [unfold LPSetSpec.in_range; repeat split; vm_compute; discriminate|].
    split; [repeat constructor; discriminate|]. exists [OutBool true]. exists 50. intros m Hm. do 50 (destruct m as [|m]; [exfalso; lia|]). vm_compute. reflexivity.
Qed.
Print Assumptions C34_one_dim_lookup_refuted.

(** CyclePartitioner, ignoreInfinite and a power of two of ids that all go to the first part, for instance because they
    agree in the splitting dimension: under every schedule, asking for the part of an id that is not there does not
    return, where it should throw. *)
Theorem C34_cycle_full_refuted : forall D pts st mult ids K work provenance e i, 0 < D -> (N.of_nat D <= 30)%N -> split_of ids K work ->
  (forall i, In i K -> (0 < i < 2 ^ 64)%N) -> covers D pts K st -> small 64 (4 * (set_size ids + 2 ^ D)) ->
  let k := cycle_dim D provenance in
  N.of_nat (set_size ids) = (2 ^ e)%N -> (forall x, In x K -> ~ is_inf_id (N.of_nat D) x /\ exists c, p_get (N.of_nat D) pts x = Val c /\ (c k <= st_mid st k)%R) ->
  (i <> 0)%N -> ~ In i K -> forall c tr, exec (pstep (route_id D pts (route1 D st k))) (pstart mult (N.of_nat (set_size ids)) work) c tr -> pdone c ->
  exists ps, returns (fun f => half_finish D st k f (c_sh c) true) ps /\ diverges (fun f => part_of f ps i).
Proof.
  intros D pts st mult ids K work prov e i H0 HD Hsp Hw Hc Hs k He Hall Hi HiK c tr HE Hd.
  assert (Hk : k < D) by (apply (cycle_dim_lt D HD mult); lia). pose proof (split_size _ _ _ Hsp) as El. destruct Hsp as (Hr & Hn & Hsame). rewrite El in *.
  assert (H1 : 1 <= length (concat work)).
  { assert ((2 ^ e <> 0)%N) by (apply N.pow_nonzero; discriminate). lia. }
  destruct (two_full D HD pts st mult K work k Hk Hsame Hw Hc H1 Hs c tr e i HE Hd Hn He) as [ps [E Dv]]; auto.
  - intros x Hx. apply Hsame in Hx. destruct (Hall x Hx) as [Hinf [v [Hv Hle]]]. unfold route_id.
    assert (Ef : p_finite (N.of_nat D) x = true) by (apply (finite_iff D HD); [apply Hw, Hx|exact Hinf]). rewrite Ef, Hv. cbn [rbind]. unfold route1.
    apply Nat.ltb_lt in Hk. rewrite Hk. assert (Eq : rltb (st_mid st k) (v k) = false) by now apply rltb_false. now rewrite Eq.
  - exists ps. split; [|exact Dv]. exists 0. intros m _. apply E.
Qed.
Print Assumptions C34_cycle_full_refuted.
Definition ex3_pts : points vec := mkpts [v2 0 0; v2 0 0; v2 0 1] 0 [v2 0 0; v2 0 0; v2 0 0; v2 0 0].
Definition ex3_st : stats := mkst (v2 0 0) (v2 0 (1 / 2)) (v2 0 1).
Example C34_cycle_full_case : let k := cycle_dim 2 1 in k = 0 /\ split_of ex2_ids [2; 1]%N [[1]; [2]]%N /\ covers 2 ex3_pts [2; 1]%N ex3_st /\ N.of_nat (set_size ex2_ids) = (2 ^ 1)%N /\
  (forall x, In x [2; 1]%N -> ~ is_inf_id (N.of_nat 2) x /\ exists c, p_get (N.of_nat 2) ex3_pts x = Val c /\ (c k <= st_mid ex3_st k)%R).
Proof.
  cbv zeta. split; [reflexivity|]. split; [|split; [|split; [reflexivity|]]].
  - split; [exact ex2_repr|]. split; [repeat constructor; cbn; intuition discriminate|]. intros i. cbn. tauto.
  - intros i Hi _. destruct Hi as [<-|[<-|[]]]; (eexists; split; [reflexivity|]; intros d Hd; assert (Ed : d = 0 \/ d = 1) by lia; destruct Ed as [-> | ->]; cbv -[IZR Rdiv Rle]; lra).
  - intros i Hi. change (cycle_dim 2 1) with 0. destruct Hi as [<-|[<-|[]]]; (split; [unfold is_inf_id; intros [Hx _]; apply N.lt_nge in Hx; [exact Hx|reflexivity]|]); (eexists; split; [reflexivity|]; cbv -[IZR Rdiv Rle]; lra).
Qed.

(** ExtendPartitioner on points that all coincide: the dimension stays -1 and the loop reads beyond the coordinates. *)
Theorem C34_extend_refuted : forall D pts st mult n work t i l c, (N.of_nat D <= 30)%N -> (forall d, d < D -> (st_max st d <= st_min st d)%R) ->
  nth_error work t = Some (i :: l) -> (i < 2 ^ 64)%N -> ~ is_inf_id (N.of_nat D) i -> p_get (N.of_nat D) pts i = Val c ->
  ~ safe (pstep (route_id D pts (extend_route D st))) (pstart mult n work).
Proof.
  intros D pts st mult n work t i l c HD Hz Ht Hi Hinf Hg Hs. specialize (Hs (pstart mult n work) [] t (mkpl None (i :: l)) (exec_start _ _ _ _ _)).
  apply Hs; [cbn [pstart c_loc]; now rewrite nth_error_map, Ht|]. cbn [pstep pl_cur pl_ids]. unfold route_id.
  assert (Ef : p_finite (N.of_nat D) i = true) by (apply (finite_iff D HD); assumption). rewrite Ef, Hg. cbn [rbind]. unfold extend_route. now rewrite (extend_none D HD st mult Hz).
Qed.
Print Assumptions C34_extend_refuted.
(** Two coinciding points. *)
Example C34_extend_refuted_case : let pts := mkpts [v2 0 0; v2 1 1; v2 1 1] 0 [v2 0 0; v2 0 0; v2 0 0; v2 0 0] in
  stats_seq 2 pts (1 / 2) 2 true [1; 2]%N <> Undef /\ p_get (N.of_nat 2) pts 1 = Val (v2 1 1) /\
  forall s, stats_seq 2 pts (1 / 2) 2 true [1; 2]%N = Val s -> forall d, d < 2 -> (st_max s d <= st_min s d)%R.
Proof.
  cbv zeta. split; [discriminate|]. split; [reflexivity|]. intros s E d Hd. injection E as <-. cbn -[IZR Rdiv Rle Rmin Rmax].
  assert (Ed : d = 0 \/ d = 1) by lia. destruct Ed as [-> | ->]; cbn -[IZR Rdiv Rle Rmin Rmax];
  (rewrite (Rmin_right 2 1) by lra; rewrite (Rmax_right (1 / 2) 1) by lra; unfold Rmin, Rmax; repeat destruct (Rle_dec _ _); lra).
Qed.

(** No ids and infinite points to add: the new tables have no cells, and inserting into them is undefined. *)
Theorem C34_empty_refuted : forall D st mult k, (N.of_nat D <= 30)%N -> undefined (fun f => half_finish D st k f (two_tables mult 0) false).
Proof.
  intros D st mult k HD. exists 1. intros f Hf. destruct f as [|f]; [exfalso; lia|]. cbn [half_finish two_tables add_inf pa_pts].
  assert (E : exists a t, inf_ids D = a :: t).
  { unfold inf_ids. rewrite (p_ninf_val (N.of_nat D) HD). destruct (N.to_nat (2 ^ N.of_nat D)) as [|m] eqn:Em.
    - assert ((2 ^ N.of_nat D <> 0)%N) by (apply N.pow_nonzero; discriminate). lia.
    - cbn [seq map]. eauto. }
  destruct E as [a [t E]]. rewrite E. cbn [add_all]. change (cs_new 0 (mult 0)) with (mkset [] 0 (mult 0)).
  unfold set_insert, insert_raw. cbn [s_arr s_items s_mult length Nat.eqb negb andb probe]. now destruct (N.to_nat (mask 64 0 _)).
Qed.
Print Assumptions C34_empty_refuted.

(** ** C35 *)
Section Stats.
Variables (D : nat) (pts : points vec) (ids : list N) (c : N -> vec).
(** The finite points among the ids, and the extremes of their coordinates. *)
Definition fin_in (i : N) : Prop := In i ids /\ ~ is_inf_id (N.of_nat D) i.
Definition least_coord (d : nat) (m : R) : Prop := (exists i, fin_in i /\ c i d = m) /\ forall i, fin_in i -> (m <= c i d)%R.
Definition greatest_coord (d : nat) (m : R) : Prop := (exists i, fin_in i /\ c i d = m) /\ forall i, fin_in i -> (c i d <= m)%R.
(** [c] are the coordinates of the finite points. *)
Definition coords_are : Prop := forall i, fin_in i -> p_get (N.of_nat D) pts i = Val (c i).
End Stats.

Lemma fin_counted D ids i : (N.of_nat D <= 30)%N -> (forall i, In i ids -> (i < 2 ^ 64)%N) -> In i ids -> counted D true i = true <-> ~ is_inf_id (N.of_nat D) i.
Proof. intros HD Hw Hi. unfold counted. cbn [negb]. rewrite Bool.orb_false_r. apply (finite_iff D HD), Hw, Hi. Qed.
Lemma stats_coords D pts ids c : (N.of_nat D <= 30)%N -> (forall i, In i ids -> (i < 2 ^ 64)%N) -> coords_are D pts ids c -> coords D pts true c ids.
Proof. intros HD Hw Hc i Hi Hf. apply Hc. split; [exact Hi|]. now apply (fin_counted D ids). Qed.
Lemma stats_least D ids c d m : (N.of_nat D <= 30)%N -> (forall i, In i ids -> (i < 2 ^ 64)%N) -> least_coord D ids c d m -> least (counted_coords D true c ids) d m.
Proof.
  intros HD Hw [[i [[Hi Hf] E]] Hle]. split.
  - exists (c i). split; [|exact E]. apply in_counted. exists i. split; [exact Hi|]. split; [now apply (fin_counted D ids)|reflexivity].
  - intros x Hx. apply in_counted in Hx. destruct Hx as [j [Hj [Hcj ->]]]. apply Hle. split; [exact Hj|]. now apply (fin_counted D ids).
Qed.
Lemma stats_greatest D ids c d m : (N.of_nat D <= 30)%N -> (forall i, In i ids -> (i < 2 ^ 64)%N) -> greatest_coord D ids c d m -> greatest (counted_coords D true c ids) d m.
Proof.
  intros HD Hw [[i [[Hi Hf] E]] Hle]. split.
  - exists (c i). split; [|exact E]. apply in_counted. exists i. split; [exact Hi|]. split; [now apply (fin_counted D ids)|reflexivity].
  - intros x Hx. apply in_counted in Hx. destruct Hx as [j [Hj [Hcj ->]]]. apply Hle. split; [exact Hj|]. now apply (fin_counted D ids).
Qed.

(** getPointStats for every way the ids are handed out to threads: minimum and maximum are exact if they are not beyond
    the start values, numeric_limits::max() and min().  Missing: the latter is the smallest positive number, see the
    refutation. *)
Theorem C35_stats_partial : forall D pts tiny huge ids c work, (N.of_nat D <= 30)%N -> (forall i, In i ids -> (i < 2 ^ 64)%N) -> coords_are D pts ids c ->
  (forall i, In i (concat work) <-> In i ids) ->
  exists s, stats_par D pts tiny huge true work = Val s /\
  (forall d m, least_coord D ids c d m -> (m <= huge)%R -> st_min s d = m) /\
  (forall d m, greatest_coord D ids c d m -> (tiny <= m)%R -> st_max s d = m) /\
  (forall d, st_mid s d = ((st_min s d + st_max s d) / 2)%R).
Proof.
  intros D pts tiny huge ids c work HD Hw Hc Hsame. pose proof (stats_coords D pts ids c HD Hw Hc) as Hcc.
  destruct (par_tight D pts tiny huge true c work) as [s [E T]]; [intros i Hi; apply Hcc, Hsame, Hi|]. apply (tight_perm _ _ _ _ _ _ ids s Hsame) in T.
  exists (st_finish s). split; [exact E|]. split; [|split].
  - intros d m Hm Hle. cbn [st_finish st_min]. rewrite (tight_min _ _ _ _ _ _ _ d m T (stats_least D ids c d m HD Hw Hm)). now apply Rmin_right.
  - intros d m Hm Hle. cbn [st_finish st_max]. rewrite (tight_max _ _ _ _ _ _ _ d m T (stats_greatest D ids c d m HD Hw Hm)). now apply Rmax_right.
  - intros d. cbn [st_finish st_max st_min st_mid]. lra.
Qed.
Print Assumptions C35_stats_partial.
(** Whatever the coordinates, the result does not depend on the threads: it is that of the sequential variant. *)
Theorem C35_schedule : forall D pts tiny huge ids c work, (N.of_nat D <= 30)%N -> (forall i, In i ids -> (i < 2 ^ 64)%N) -> coords_are D pts ids c ->
  (forall i, In i (concat work) <-> In i ids) ->
  exists s s', stats_par D pts tiny huge true work = Val s /\ stats_seq D pts tiny huge true ids = Val s' /\
  forall d, st_min s d = st_min s' d /\ st_mid s d = st_mid s' d /\ st_max s d = st_max s' d.
Proof.
  intros D pts tiny huge ids c work HD Hw Hc Hsame. pose proof (stats_coords D pts ids c HD Hw Hc) as Hcc.
  destruct (par_tight D pts tiny huge true c work) as [s [E T]]; [intros i Hi; apply Hcc, Hsame, Hi|]. apply (tight_perm _ _ _ _ _ _ ids s Hsame) in T.
  destruct (seq_tight D pts tiny huge true c ids Hcc) as [s' [E' T']]. exists (st_finish s), (st_finish s'). split; [exact E|]. split; [exact E'|].
  intros d. destruct (tight_unique _ _ _ _ _ _ _ _ d T T') as [A B]. cbn [st_finish st_max st_min st_mid]. rewrite A, B. auto.
Qed.
Print Assumptions C35_schedule.
(** The statistics cover the points, so the partitioners can be used with them. *)
Theorem C35_covers : forall D pts tiny huge ids c work s, (N.of_nat D <= 30)%N -> (forall i, In i ids -> (i < 2 ^ 64)%N) -> coords_are D pts ids c ->
  (forall i, In i (concat work) <-> In i ids) -> stats_par D pts tiny huge true work = Val s -> covers D pts ids s.
Proof.
  intros D pts tiny huge ids c work s HD Hw Hc Hsame Es. pose proof (stats_coords D pts ids c HD Hw Hc) as Hcc.
  destruct (par_tight D pts tiny huge true c work) as [s' [E T]]; [intros i Hi; apply Hcc, Hsame, Hi|]. apply (tight_perm _ _ _ _ _ _ ids s' Hsame) in T.
  rewrite E in Es. injection Es as <-. intros i Hi Hinf. exists (c i). split; [apply Hc; split; assumption|]. intros d _. cbn [st_finish st_min st_max].
  apply (tight_bounds _ _ _ _ _ _ _ i d T Hi). now apply (fin_counted D ids).
Qed.
Print Assumptions C35_covers.
(** If all coordinates are below the smallest positive number, for instance negative, that number is reported. *)
Theorem C35_maximum_refuted : forall D pts tiny huge ids c work d m, (N.of_nat D <= 30)%N -> (forall i, In i ids -> (i < 2 ^ 64)%N) -> coords_are D pts ids c ->
  (forall i, In i (concat work) <-> In i ids) -> greatest_coord D ids c d m -> (m < tiny)%R ->
  exists s, stats_par D pts tiny huge true work = Val s /\ st_max s d = tiny /\ st_max s d <> m.
Proof.
  intros D pts tiny huge ids c work d m HD Hw Hc Hsame Hm Hlt. pose proof (stats_coords D pts ids c HD Hw Hc) as Hcc.
  destruct (par_tight D pts tiny huge true c work) as [s [E T]]; [intros i Hi; apply Hcc, Hsame, Hi|]. apply (tight_perm _ _ _ _ _ _ ids s Hsame) in T.
  exists (st_finish s). split; [exact E|]. cbn [st_finish st_max]. rewrite (tight_max _ _ _ _ _ _ _ d m T (stats_greatest D ids c d m HD Hw Hm)).
  rewrite Rmax_left by lra. split; [reflexivity|lra].
Qed.
Print Assumptions C35_maximum_refuted.
(** One point at (-1,2), one at (-3,5) and an infinite one. *)
Example C35_case : let pts := mkpts [v2 0 0; v2 (-1) 2; v2 (-3) 5] 0 [v2 0 0; v2 0 0; v2 0 0; v2 0 0] in
  let ids := [1; 2; 2 ^ 64 - 1]%N in let c i := if (i =? 1)%N then v2 (-1) 2 else v2 (-3) 5 in
  (forall i, In i ids -> (i < 2 ^ 64)%N) /\ coords_are 2 pts ids c /\ (forall i, In i (concat [[2 ^ 64 - 1]; [2; 1]]%N) <-> In i ids) /\
  least_coord 2 ids c 0 (-3) /\ greatest_coord 2 ids c 1 5 /\ greatest_coord 2 ids c 0 (-1).
Proof.
  cbv zeta. set (c := fun i => _).
  assert (HF : forall i, fin_in 2 [1; 2; 2 ^ 64 - 1]%N i -> i = 1%N \/ i = 2%N).
  { intros i [Hi Hn]. destruct Hi as [<-|[<-|[<-|[]]]]; [now left|now right|]. exfalso. apply Hn. unfold is_inf_id. vm_compute. split; [discriminate|reflexivity]. }
  assert (H1 : fin_in 2 [1; 2; 2 ^ 64 - 1]%N 1) by (split; [now left|]; intros [Hx _]; apply N.lt_nge in Hx; [exact Hx|reflexivity]).
  assert (H2 : fin_in 2 [1; 2; 2 ^ 64 - 1]%N 2) by (split; [right; now left|]; intros [Hx _]; apply N.lt_nge in Hx; [exact Hx|reflexivity]).
  split; [intros i Hi; destruct Hi as [<-|[<-|[<-|[]]]]; reflexivity|].
  split; [intros i Hi; destruct (HF i Hi) as [-> | ->]; reflexivity|]. split; [intros i; cbn [concat app In]; tauto|].
  repeat split.
  - exists 2%N. split; [exact H2|reflexivity].
  - intros i Hi. destruct (HF i Hi) as [-> | ->]; cbn; lra.
  - exists 2%N. split; [exact H2|reflexivity].
  - intros i Hi. destruct (HF i Hi) as [-> | ->]; cbn; lra.
  - exists 1%N. split; [exact H1|reflexivity].
  - intros i Hi. destruct (HF i Hi) as [-> | ->]; cbn; lra.
Qed.
