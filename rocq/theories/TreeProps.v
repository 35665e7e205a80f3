(** C39, C46: partition trees and the divide and conquer recursion. *)
From Verif Require Import Outcome ListUtil WordsModel WordsProofs WordsProps LPSetModel ProbeTheory LPSetProofs LPSetHistory LPSetIter LPSetSpec SimplexModel PointModel PointProofs GeoModel GeoSpec GeoProofs
  PartModel PartSpec PartProofs PartProps TreeModel TreeSpec TreeProofs TreeTop TreeCalls.
From Coq Require Import Lia Lra.
Local Open Scope nat_scope.

(** [Leaves], [good_sets], [in_leaves], [entries], [leaf_at], [has], [at_most], [only]: TreeSpec.v. *)

(** ** C39 *)
(** flatten keeps the checker of the root and the leaves in their order; below the root there are only leaves. *)
Theorem C39_flatten : forall C (t : tree C) l, Leaves t l -> Leaves (flatten t) l /\ t_ck (flatten t) = t_ck t /\
  (forall d s, leaf_at (flatten t) d s -> d <= 1) /\ (is_leaf t = false -> is_leaf (flatten t) = false).
Proof.
  intros C t l H. split; [now apply flatten_leaves|]. destruct t as [ck s|ck ch]; [split; [reflexivity|]; split; [|easy]; intros d s' Hat; inversion Hat; lia|].
  split; [reflexivity|]. split; [|reflexivity]. intros d s Hat. unfold flatten in Hat. rewrite (flat_leaves C _ l H) in Hat. inversion Hat as [|? ? c d' ? Hin Hat']; subst.
  apply in_map_iff in Hin. destruct Hin as [x [<- _]]. inversion Hat'. lia.
Qed.
Print Assumptions C39_flatten.

(** collect: a leaf with the checker of the tree and exactly the ids of its leaves.  A leaf is returned as it is; for
    another tree, lookups in the new set are answered if it has at least three ids. *)
Theorem C39_collect : forall C (t : tree C) l m, Leaves t l -> good_sets l -> small 64 (4 * entries l) ->
  exists s, returns (fun f => collect f m t) (Tleaf (t_ck t) s) /\ (forall i, (i <> 0)%N -> has s i <-> in_leaves l i) /\
  (forall F, NoDup F -> (forall i, In i F <-> (i <> 0)%N /\ in_leaves l i) -> set_size s = length F) /\
  (is_leaf t = true -> t = Tleaf (t_ck t) s) /\
  (is_leaf t = false -> 3 <= set_size s -> forall i, (i <> 0)%N -> ~ in_leaves l i -> returns (fun f => set_contains 64 f s i) false).
Proof.
  intros C t l m HL Hg Hs. destruct (collect_ok C m t l HL Hg Hs) as [s [E [U [A B]]]]. exists s. split; [exact E|]. pose proof (fun i Hz => union_has C l s i U Hz Hg) as HU.
  split; [exact HU|]. pose proof U as [K [R _]]. split; [|split; [exact A|]].
  - intros F HF HI. unfold set_size. rewrite (repr_items 64 s K R). rewrite (distinct_same K F).
    + unfold distinct. now rewrite nodup_fixed_point.
    + intros x. rewrite HI. split.
      * intros Hx. pose proof (rep_nz s K x R Hx). split; [assumption|]. apply HU; [assumption|]. now apply (has_in s K x R).
      * intros [Hz Hx]. apply (has_in s K x R Hz). now apply HU.
  - intros Hl H3 i Hz Hi. exists (cap s). intros f Hf. apply (contains_out 64 w64 s i f (proj1 R) Hz); [|exact (B Hl H3)|exact Hf].
    intros He. apply Hi, HU; [exact Hz|]. apply (has_in s K i R Hz), (proj2 R), He.
Qed.
Print Assumptions C39_collect.

(** toOldPartitioning: one part per child, numbered from 0, with the bounds of the child's checker and the ids of the
    child's leaves; the checkers are handed over in the same order. *)
Theorem C39_to_old : forall C (bounds : C -> box) m (ch : list (tree C)) ls, Forall2 Leaves ch ls -> good_sets (concat ls) -> small 64 (4 * entries (concat ls)) ->
  (forall c, In c ch -> t_ck c <> None) ->
  exists ps cks, returns (fun f => to_old_partitioning C bounds f m ch) (ps, cks) /\ length ps = length ch /\ map Some cks = map t_ck ch /\
  forall j c l, nth_error ch j = Some c -> nth_error ls j = Some l -> exists p k, nth_error ps j = Some p /\ nth_error cks j = Some k /\
    pa_id p = j /\ pa_box p = bounds k /\ forall i, (i <> 0)%N -> holds p i <-> in_leaves l i.
Proof.
  intros C bounds m ch ls HF Hg Hs Hc. destruct (to_old_ok C bounds m ch ls HF Hg Hs Hc 0) as [ps [cks [E [L1 [L2 H]]]]]. exists ps, cks. split; [exact E|]. split; [exact L1|].
  assert (Hlen : length ch = length ls) by (clear - HF; induction HF; cbn; lia). split.
  - apply nth_ext with (d := None) (d' := None); [rewrite !map_length; lia|]. rewrite map_length. intros j Hj.
    destruct (nth_error ch j) as [c|] eqn:Ec; [|apply nth_error_None in Ec; lia]. destruct (nth_error ls j) as [l|] eqn:El; [|apply nth_error_None in El; lia].
    destruct (H j c l Ec El) as [k [s [Q1 [Q2 _]]]]. rewrite (nth_error_nth _ _ _ (map_nth_error Some j cks Q2)), (nth_error_nth _ _ _ (map_nth_error t_ck j ch Ec)). now rewrite Q1.
  - intros j c l Ec El. destruct (H j c l Ec El) as [k [s [Q1 [Q2 [Q3 [Q4 _]]]]]]. exists (mkpart j s (bounds k)), k. split; [exact Q3|]. split; [exact Q2|]. split; [reflexivity|]. split; [reflexivity|].
    intros i Hz. apply (union_has C l s i Q4 Hz). intros ck s' Hin. apply (Hg ck s'), in_concat. exists l. split; [exact (nth_error_In _ _ El)|exact Hin].
Qed.
Print Assumptions C39_to_old.

(** *** Cases *)
(** A root with a leaf of three ids and a node with two leaves, sharing an id; the checkers are numbers. *)
Definition set_of (l : list N) : lpset := match set_run 64 true 50 (set_new 8 3) (map OpInsert l) with Val (s, _) => s | _ => set_new 8 3 end.
Definition ex_tree : tree nat := Tnode (Some 0) [Tleaf (Some 1) (set_of [1; 2; 3]%N); Tnode (Some 2) [Tleaf (Some 3) (set_of [3; 4]%N); Tleaf None (set_of [7]%N)]].
Definition ex_leaves : list (option nat * lpset) := [(Some 1, set_of [1; 2; 3]%N); (Some 3, set_of [3; 4]%N); (None, set_of [7]%N)].
Lemma ex_set l : l = [1; 2; 3]%N \/ l = [3; 4]%N \/ l = [7]%N -> repr 64 (set_of l) (rev l).
Proof.
  intros H.
  assert (Hs : set_after 64 true 8 3 (map OpInsert l) (set_of l)).
  { destruct H as [->|[->| ->]]; (split; [unfold in_range; repeat split; vm_compute; discriminate|]; split; [repeat constructor; discriminate|]).
    - exists (repeat (OutBool true) 3). exists 50. intros m Hm. do 50 (destruct m as [|m]; [exfalso; lia|]). vm_compute. reflexivity.
    - exists (repeat (OutBool true) 2). exists 50. intros m Hm. do 50 (destruct m as [|m]; [exfalso; lia|]). vm_compute. reflexivity.
    - exists (repeat (OutBool true) 1). exists 50. intros m Hm. do 50 (destruct m as [|m]; [exfalso; lia|]). vm_compute. reflexivity. }
  apply after_repr in Hs. destruct H as [->|[->| ->]]; exact Hs.
Qed.
Example C39_case : Leaves ex_tree ex_leaves /\ good_sets ex_leaves /\ small 64 (4 * entries ex_leaves) /\ entries ex_leaves = 6 /\
  is_leaf ex_tree = false /\ t_ck (flatten ex_tree) = Some 0 /\ length (flat ex_tree) = 3 /\
  (exists s, returns (fun f => collect f 5 ex_tree) (Tleaf (Some 0) s) /\ set_size s = 5) /\
  (forall c, In c [ex_tree] -> t_ck c <> None).
Proof.
  split; [|split; [|split; [split; vm_compute; discriminate|split; [reflexivity|split; [reflexivity|split; [reflexivity|split; [reflexivity|split]]]]]]].
  - unfold ex_tree, ex_leaves. apply (L_node _ _ [[(Some 1, set_of [1; 2; 3]%N)]; [(Some 3, set_of [3; 4]%N); (None, set_of [7]%N)]]). constructor; [constructor|]. constructor; [|constructor].
    apply (L_node _ _ [[(Some 3, set_of [3; 4]%N)]; [(None, set_of [7]%N)]]). repeat constructor.
  - intros ck s [H|[H|[H|[]]]]; apply (f_equal snd) in H; cbn [snd] in H; rewrite <- H; eexists; apply ex_set; [left; reflexivity|right; left; reflexivity|right; right; reflexivity].
  - exists (match collect 50 5 ex_tree with Val (Tleaf _ s) => s | _ => set_of [] end). split; [|vm_compute; reflexivity].
    exists 50. intros m Hm. do 50 (destruct m as [|m]; [exfalso; lia|]). vm_compute. reflexivity.
  - intros c [<-|[]]. discriminate.
Qed.

(** *** Refutations *)
Definition ex_full : lpset := match collect 50 3 (Tnode (Some 0) [Tleaf (Some 1) (set_of [3; 4]%N)]) with Val (Tleaf _ s) => s | _ => set_of [] end.
(** A collected set of one or two ids is full: asking it for another id never returns. *)
Theorem C39_collect_full_refuted : exists (t : tree nat) l m s, Leaves t l /\ good_sets l /\ small 64 (4 * entries l) /\ set_size s = 2 /\
  returns (fun f => collect f m t) (Tleaf (t_ck t) s) /\ diverges (fun f => set_contains 64 f s 8%N).
Proof.
  exists (Tnode (Some 0) [Tleaf (Some 1) (set_of [3; 4]%N)]), [(Some 1, set_of [3; 4]%N)], 3%N.
  assert (HR : repr 64 (set_of [3; 4]%N) [4; 3]%N) by (apply (ex_set [3; 4]%N); right; left; reflexivity).
  assert (HL : Leaves (Tnode (Some 0) [Tleaf (Some 1) (set_of [3; 4]%N)]) [(Some 1, set_of [3; 4]%N)]) by (apply (L_node _ _ [[(Some 1, set_of [3; 4]%N)]]); repeat constructor).
  assert (Hg : good_sets [(Some 1, set_of [3; 4]%N)]) by (intros ck s [H|[]]; apply (f_equal snd) in H; cbn [snd] in H; rewrite <- H; eexists; exact HR).
  assert (Hs : small 64 (4 * entries [(Some 1, set_of [3; 4]%N)])) by (split; vm_compute; discriminate).
  destruct (collect_ok nat 3 _ _ HL Hg Hs) as [s [E [[K [R [_ U]]] _]]].
  assert (E2 : returns (fun f => collect f 3 (Tnode (Some 0) [Tleaf (Some 1) (set_of [3; 4]%N)])) (Tleaf (Some 0) ex_full)).
  { exists 50. intros m Hm. do 50 (destruct m as [|m]; [exfalso; lia|]). vm_compute. reflexivity. }
  pose proof (returns_det _ _ _ E E2) as Heq. apply (f_equal (fun t => match t with Tleaf _ x => x | Tnode _ _ => s end)) in Heq. rewrite Heq in R. clear U E Heq.
  exists ex_full. split; [exact HL|]. split; [exact Hg|]. split; [exact Hs|]. split; [reflexivity|]. split; [exact E2|].
  apply (contains_full_diverges 64 w64 ex_full 8 (proj1 R)); [discriminate| |reflexivity].
  vm_compute. intros [|[|[]]]; discriminate.
Qed.
Print Assumptions C39_collect_full_refuted.
(** A child without checker: the conversion dereferences the null pointer. *)
Theorem C39_to_old_refuted : forall C (bounds : C -> box) m s r, undefined (fun f => to_old_partitioning C bounds f m (Tleaf None s :: r)).
Proof. intros C bounds m s r. exists 0. intros f _. reflexivity. Qed.
Print Assumptions C39_to_old_refuted.

(** ** C46 *)
(** A wrapped partitioner: given admissible ids it returns parts that are a partition (C34), whatever the set looks like. *)
Definition splitter (D : nat) (pts : points vec) (P : N -> Prop) (split : lpset -> nat -> res (list part)) : Prop :=
  forall ids K, repr 64 ids K -> (forall i, In i K -> P i) ->
  exists ps, returns (split ids) ps /\ good_partition D pts K false ps /\ forall p, In p ps -> exists K', repr 64 (pa_pts p) K'.

(** buildTree returns a tree in which every finite point is in exactly one leaf and in the bounds of that leaf, no leaf has
    foreign ids, and every leaf is at depth maxRecursions + 1 or has at most cutoff finite points. *)
Theorem C46_build_tree : forall C (bounds : C -> box) (mk : box -> C) D pts (P : N -> Prop) split cutoff rem prov b ids K,
  (N.of_nat D <= 30)%N -> (forall b, bounds (mk b) = b) -> (forall i, is_inf_id (N.of_nat D) i -> P i) ->
  (forall prov, splitter D pts P (fun ids f => split f prov ids)) -> repr 64 ids K -> (forall i, In i K -> P i) ->
  (forall i, In i K -> ~ is_inf_id (N.of_nat D) i -> exists c, p_get (N.of_nat D) pts i = Val c /\ in_box D b c) ->
  exists t l, returns (fun f => build_tree C mk split f cutoff rem prov b ids) t /\ Leaves t l /\ t_ck t = Some (mk b) /\
  (forall i, In i K -> ~ is_inf_id (N.of_nat D) i -> exists j ck s c, only (fun x => has (snd x) i) l j (Some ck, s) /\ p_get (N.of_nat D) pts i = Val c /\ in_box D (bounds ck) c) /\
  (forall ck s i, In (ck, s) l -> (i <> 0)%N -> has s i -> In i K \/ is_inf_id (N.of_nat D) i) /\
  (forall d s, leaf_at t d s -> d = S rem \/ d <= rem /\ at_most D s cutoff).
Proof.
  intros C bounds mk D pts P split cutoff rem prov b ids K HD Hmk HP Hs HR HK Hb.
  destruct (build_ok C bounds D HD pts mk Hmk P HP split Hs cutoff rem prov b ids K HR HK Hb) as [t [l [E [_ [Ck [T1 [_ [T2 [T3 T4]]]]]]]]]. exists t, l.
  split; [exact E|]. split; [exact T1|]. split; [exact Ck|]. split; [exact T2|]. split; [exact T3|]. intros d s Hat. destruct (T4 d s Hat) as [H|[H1 H2]]; [now left|right; split; [lia|exact H2]].
Qed.
Print Assumptions C46_build_tree.

(** The recursion of DCTriangulator terminates; a base case has at most 500 ids, or is at the depth limit, or is an edge
    triangulation while those are not split; every finite id of the input is in exactly one base case that is not part of an edge triangulation,
    which get no foreign ids; the provenances of the base cases are distinct. *)
Theorem C46_recursion : forall D pts (P : N -> Prop) dsplit edge depth pe ids K,
  (forall i, is_inf_id (N.of_nat D) i -> P i) -> (forall prov, splitter D pts P (fun ids f => dsplit f prov ids)) ->
  (forall prov ids K, repr 64 ids K -> (forall i, In i K -> P i) ->
     exists s Ks, returns (fun f => edge f prov ids) s /\ repr 64 s Ks /\ forall i, In i Ks -> P i) ->
  repr 64 ids K -> (forall i, In i K -> P i) ->
  exists cs, returns (fun f => dc_calls dsplit edge f depth pe [] ids) cs /\
  (forall pv s, In (pv, s) cs -> (N.of_nat (set_size s) <= 500)%N \/ length pv = depth \/ pe = false /\ exists q, pv = q ++ [None]) /\
  (forall i, In i K -> ~ is_inf_id (N.of_nat D) i -> exists pv s, In (pv, s) cs /\ ~ In None pv /\ has s i /\
     forall pv' s', In (pv', s') cs -> ~ In None pv' -> has s' i -> pv' = pv /\ s' = s) /\
  (forall pv s i, In (pv, s) cs -> ~ In None pv -> (i <> 0)%N -> has s i -> In i K \/ is_inf_id (N.of_nat D) i) /\
  NoDup (map fst cs).
Proof.
  intros D pts P dsplit edge depth pe ids K HP Hs He HR HK. destruct (dc_ok D pts P HP dsplit Hs edge He depth pe _ [] ids K (le_n _) HR HK) as [cs [E [A1 [A2 [A3 [A4 [A5 A6]]]]]]].
  exists cs. split; [exact E|]. split; [|split; [exact A4|split; [exact A5|exact A6]]].
  intros pv s Hin. destruct (A3 pv s Hin) as [H|[H|H]]; [now left| |right; right; exact H]. right. left. destruct (A2 pv s Hin) as [H2| ->]; [lia|]. cbn in *. lia.
Qed.
Print Assumptions C46_recursion.

(** With the d-way partitioner and its recursion depth for t threads there are at most t base cases besides edge
    triangulations. *)
Lemma distribute_length D pts f route ids : forall ps ps', distribute D pts f route ids ps = Val ps' -> length ps' = length ps.
Proof.
  induction ids as [|i t IH]; intros ps ps' E; cbn [distribute] in E; [now injection E as <-|]. destruct (route_id D pts route i) as [[j|]| |]; cbn [rbind] in E; try discriminate; [|now apply IH].
  destruct (part_put f ps j i) as [p2| |] eqn:Ep; cbn [rbind] in E; try discriminate. rewrite (IH _ _ E). unfold part_put in Ep. destruct (nth_error ps j); [|discriminate].
  destruct (set_insert 64 true f _ i); cbn [rmap rbind] in Ep; try discriminate. injection Ep as <-. apply upd_length.
Qed.
Lemma add_inf_length D f ignore : forall ps ps', add_inf D f ignore ps = Val ps' -> length ps' = length ps.
Proof.
  induction ps as [|p t IH]; intros ps' E; cbn [add_inf] in E; [now injection E as <-|]. destruct (if ignore then _ else _) as [s| |]; cbn [rbind] in E; try discriminate.
  destruct (add_inf D f ignore t) as [t'| |] eqn:Et; cbn [rmap rbind] in E; try discriminate. injection E as <-. cbn. now rewrite (IH t').
Qed.
Lemma d_way_length D pts st mult f ids ignore ps : d_way D pts st mult f ids ignore = Val ps -> length ps = 2 ^ D.
Proof.
  unfold d_way. destruct (set_iterate f ids) as [l| |]; cbn [rbind]; try discriminate. destruct (distribute _ _ _ _ _ _) as [q| |] eqn:Eq; cbn [rbind]; try discriminate.
  intros E. rewrite (add_inf_length _ _ _ _ _ E), (distribute_length _ _ _ _ _ _ _ Eq), map_length, seq_length. reflexivity.
Qed.
Theorem C46_threads : forall D pts st mult edge pe threads ids depth cs fuel, 1 <= D -> (1 <= threads)%N ->
  returns (fun f => logNm f threads (2 ^ N.of_nat D)) (N.of_nat depth) ->
  dc_calls (fun f (_ : list (option nat)) ids => d_way D pts (st ids) mult f ids false) edge fuel depth pe [] ids = Val cs ->
  (N.of_nat (length (filter (fun c : call => negb (is_edge c)) cs)) <= threads)%N /\ (forall c, is_edge c = true <-> In None (fst c)).
Proof.
  intros D pts st mult edge pe threads ids depth cs fuel HD Ht Hl E. split.
  - destruct (C27_logN_floor threads (N.of_nat D) ltac:(lia) Ht) as [k [Hk [Hle _]]]. pose proof (returns_det _ _ _ Hl Hk) as <-.
    assert (H1 : forall f (prov : list (option nat)) i ps, d_way D pts (st i) mult f i false = Val ps -> length ps <= 2 ^ D) by (intros f prov i ps Ev; apply d_way_length in Ev; lia).
    assert (H2 : 1 <= 2 ^ D) by (pose proof (Nat.pow_nonzero 2 D ltac:(discriminate)); lia).
    pose proof (dc_count (fun f (_ : list (option nat)) ids => d_way D pts (st ids) mult f ids false) edge depth pe (2 ^ D) H1 H2 fuel [] ids cs eq_refl E) as Hc.
    cbn [length] in Hc. rewrite Nat.sub_0_r in Hc. etransitivity; [|exact Hle]. clear - Hc. transitivity (N.of_nat ((2 ^ D) ^ depth)); [lia|]. rewrite !Nat2N.inj_pow. reflexivity.
  - intros [pv s]. unfold is_edge. cbn [fst]. rewrite existsb_exists. split; [intros [[x|] [H1 H2]]; [discriminate|exact H1]|intros H; exists None; auto].
Qed.
Print Assumptions C46_threads.

(** *** The hypotheses hold for the d-way partitioner on every data set *)
(** The admissible ids: finitely many, with coordinates in a box, few enough for their tables. *)
Definition data_set (D : nat) (pts : points vec) (P : N -> Prop) (lo hi : vec) (M : nat) : Prop :=
  (forall i, is_inf_id (N.of_nat D) i -> P i) /\ (forall i, P i -> (i < 2 ^ 64)%N) /\
  (forall i, P i -> ~ is_inf_id (N.of_nat D) i -> exists c, p_get (N.of_nat D) pts i = Val c /\ forall d, d < D -> (lo d <= c d <= hi d)%R) /\
  (forall F, NoDup F -> (forall i, In i F -> P i) -> length F <= M) /\ small 64 (4 * (M + 2 ^ D)).
Theorem C46_d_way_splits : forall D pts P lo hi M mid mult, (N.of_nat D <= 30)%N -> data_set D pts P lo hi M ->
  splitter D pts P (fun ids f => d_way D pts (mkst lo (mid ids) hi) mult f ids false).
Proof.
  intros D pts P lo hi M mid mult HD [D1 [D2 [D3 [D4 D5]]]] ids K HR HK.
  destruct (d_way_ok D HD pts (mkst lo (mid ids : vec) hi) mult ids K false HR) as [ps [E [HP _]]].
  - intros i Hi. apply D2, HK, Hi.
  - intros i Hi Hinf. destruct (D3 i (HK i Hi) Hinf) as [c [Hc H]]. exists c. auto.
  - eapply (small_le 64 w64); [|exact D5]. unfold set_size. rewrite (repr_items 64 ids K HR). assert (distinct K <= M); [|lia]. unfold distinct. apply D4; [apply NoDup_nodup|]. intros i Hi. apply nodup_In in Hi. auto.
  - exists ps. split; [exact E|]. split; [exact (PartProofs.parts_good D HD pts ids K false HR _ _ _ ps HP)|]. intros p Hp. destruct HP as [l [_ [_ R]]]. apply In_nth_error in Hp. destruct Hp as [j Hj].
    destruct R as [_ R]. destruct (R j p Hj) as [_ [_ R']]. eauto.
Qed.
Print Assumptions C46_d_way_splits.

(** Five points and the four infinite ones in the plane; the ids of the points, their box. *)
Definition ex_P (i : N) : Prop := In i [5; 4; 3; 2; 1]%N \/ is_inf_id 2 i.
Lemma inf2 i : is_inf_id 2 i <-> In i (inf_ids 2).
Proof. symmetry. apply (inf_iff 2). lia. Qed.
Example C46_case : data_set 2 ex_pts ex_P (v2 0 0) (v2 1 1) 9 /\ repr 64 ex_ids [5; 4; 3; 2; 1]%N /\ (forall i, In i [5; 4; 3; 2; 1]%N -> ex_P i) /\
  (forall i, In i [5; 4; 3; 2; 1]%N -> ~ is_inf_id 2 i -> exists c, p_get 2 ex_pts i = Val c /\ in_box 2 (mkbox (v2 0 0) (v2 1 1)) c) /\
  (forall b : box, (fun x => x) ((fun x => x) b) = b).
Proof.
  assert (HC : forall i, In i [5; 4; 3; 2; 1]%N -> exists c, p_get 2 ex_pts i = Val c /\ forall d, d < 2 -> (v2 0 0 d <= c d <= v2 1 1 d)%R).
  { intros i Hi. destruct (ex_covers i Hi) as [c [Hc H]]; [|exists c; auto]. rewrite inf2. repeat (destruct Hi as [<-|Hi]; [vm_compute; intuition discriminate|]). easy. }
  split; [|split; [exact ex_repr|split; [now left|split; [intros i Hi _; destruct (HC i Hi) as [c [Hc H]]; exists c; split; [exact Hc|exact H]|reflexivity]]]].
  split; [now right|]. split; [|split; [|split; [|split; vm_compute; discriminate]]].
  - intros i [Hi|Hi]; [repeat (destruct Hi as [<-|Hi]; [reflexivity|]); easy|]. apply inf2 in Hi. vm_compute in Hi. repeat (destruct Hi as [<-|Hi]; [reflexivity|]). easy.
  - intros i [Hi|Hi] Hinf; [exact (HC i Hi)|contradiction].
  - intros F HF HI. change 9 with (length ([5; 4; 3; 2; 1]%N ++ inf_ids 2)). apply NoDup_incl_length; [exact HF|]. intros x Hx. apply in_app_iff. destruct (HI x Hx) as [H|H]; [now left|right; now apply inf2].
Qed.
(** 600 points on a line: more than a base case takes. *)
Definition ex6_pts : points vec := mkpts (map (fun i => v2 (INR i) 0) (seq 0 601)) 0 [v2 0 0; v2 0 0; v2 0 0; v2 0 0].
Definition ex6_K : list N := map N.of_nat (seq 1 600).
Definition ex6_P (i : N) : Prop := In i ex6_K \/ is_inf_id 2 i.
Lemma ex6_set : exists ids, repr 64 ids ex6_K.
Proof.
  destruct (new_room 3) as [R _]. destruct (add_all_ok (rev ex6_K) (set_new 1 3) [] R) as [s [_ [R2 _]]].
  - intros H. apply in_rev in H. unfold ex6_K in H. apply in_map_iff in H. destruct H as [x [Ex Hx]]. apply in_seq in Hx. lia.
  - rewrite rev_length. unfold ex6_K. rewrite map_length, seq_length. split; vm_compute; discriminate.
  - exists s. rewrite rev_involutive, app_nil_r in R2. exact R2.
Qed.
Example C46_large_case : data_set 2 ex6_pts ex6_P (v2 0 0) (v2 600 0) 604 /\ (exists ids, repr 64 ids ex6_K /\ (500 < N.of_nat (set_size ids))%N) /\ (forall i, In i ex6_K -> ex6_P i) /\
  returns (fun f => logNm f 20 (2 ^ N.of_nat 2)) (N.of_nat 2).
Proof.
  split; [|split; [|split; [now left|]]].
  - split; [now right|]. split; [|split; [|split; [|split; vm_compute; discriminate]]].
    + intros i [Hi|Hi]; [|apply inf2 in Hi; vm_compute in Hi; repeat (destruct Hi as [<-|Hi]; [reflexivity|]); easy]. unfold ex6_K in Hi. apply in_map_iff in Hi. destruct Hi as [x [<- Hx]]. apply in_seq in Hx.
      assert (600 < 2 ^ 64)%N by reflexivity. lia.
    + intros i [Hi|Hi] Hinf; [|contradiction]. unfold ex6_K in Hi. apply in_map_iff in Hi. destruct Hi as [x [<- Hx]]. apply in_seq in Hx. exists (v2 (INR x) 0). split.
      * unfold p_get. replace (p_finite (N.of_nat 2) (N.of_nat x)) with true.
        2:{ symmetry. apply (finite_iff 2 ltac:(lia)); [assert (600 < 2 ^ 64)%N by reflexivity; lia|exact Hinf]. }
        assert (En : nth_error (map (fun i => v2 (INR i) 0) (seq 0 601)) x = Some (v2 (INR x) 0)) by (apply (map_nth_error (fun i => v2 (INR i) 0)); rewrite (nth_error_nth' _ 0) by (rewrite seq_length; lia); rewrite seq_nth by lia; reflexivity).
        replace (fin_idx ex6_pts (N.of_nat x)) with (N.of_nat x).
        -- rewrite Nat2N.id. unfold ex6_pts. cbn [p_vec]. rewrite En. reflexivity.
        -- unfold fin_idx, ex6_pts. cbn [p_off]. unfold wrap. rewrite N.sub_0_r. replace (N.of_nat x + 2 ^ 64)%N with (N.of_nat x + 1 * 2 ^ 64)%N by lia. rewrite N.mod_add by discriminate. symmetry. apply N.mod_small. assert (600 < 2 ^ 64)%N by reflexivity. lia.
      * intros d Hd. destruct d as [|d]; cbn [v2]; [|lra]. split; [apply pos_INR|]. replace 600%R with (INR 600) by (rewrite INR_IZR_INZ; reflexivity). apply le_INR. lia.
    + intros F HF HI. replace 604 with (length (ex6_K ++ inf_ids 2)) by (rewrite app_length; unfold ex6_K; rewrite map_length, seq_length; reflexivity).
      apply NoDup_incl_length; [exact HF|]. intros x Hx. apply in_app_iff. destruct (HI x Hx) as [H|H]; [now left|right; now apply inf2].
  - destruct ex6_set as [ids R]. exists ids. split; [exact R|]. unfold set_size. rewrite (repr_items 64 ids _ R). unfold distinct. rewrite nodup_fixed_point.
    + unfold ex6_K. rewrite map_length, seq_length. reflexivity.
    + unfold ex6_K. apply FinFun.Injective_map_NoDup; [intros x y H; now apply Nat2N.inj|apply seq_NoDup].
  - exists 50. intros m Hm. do 50 (destruct m as [|m]; [exfalso; lia|]). vm_compute. reflexivity.
Qed.

(** *** SimplePartitioner *)
(** Two leaves, split in the middle of dimension 0: every finite id goes to exactly one, to the left one iff its point is
    in the left box; if the point is in the given bounds, it is in the bounds of its leaf.  The infinite ids go to both. *)
Theorem C46_simple : forall C (mk : box -> C) D pts m0 m1 b ids K, (1 <= N.of_nat D <= 30)%N -> repr 64 ids K ->
  (forall i, In i K -> (i < 2 ^ 64)%N /\ exists c, p_get (N.of_nat D) pts i = Val c) -> small 64 (4 * (set_size ids + 2 ^ D)) -> (b_lo b 0%nat <= b_hi b 0%nat)%R ->
  exists lb rb sl sr, returns (fun f => simple_partition C D pts mk f m0 m1 b ids) (Tnode (Some (mk b)) [Tleaf (Some (mk lb)) sl; Tleaf (Some (mk rb)) sr]) /\
  (forall i, is_inf_id (N.of_nat D) i -> has sl i /\ has sr i) /\
  (forall i c, In i K -> ~ is_inf_id (N.of_nat D) i -> p_get (N.of_nat D) pts i = Val c ->
     (has sl i /\ ~ has sr i /\ in_box D lb c) \/ (~ has sl i /\ has sr i /\ ~ in_box D lb c /\ (in_box D b c -> in_box D rb c))) /\
  (forall i, (i <> 0)%N -> has sl i \/ has sr i -> In i K \/ is_inf_id (N.of_nat D) i) /\
  (forall p, in_box D b p <-> in_box D lb p \/ in_box D rb p).
Proof.
  intros C mk D pts m0 m1 b ids K HD HR HK Hs Hb. destruct (simple_ok C D (proj2 HD) pts mk m0 m1 b ids K) as [sl [sr [lb [rb [E [_ [_ [_ [_ [Es [H1 [H2 H3]]]]]]]]]]]]; auto; [lia|].
  exists lb, rb, sl, sr. split; [exact E|]. split; [exact H1|].
  assert (HB : forall p, in_box D b p <-> in_box D lb p \/ in_box D rb p).
  { intros p. rewrite (split_box_spec D b 0 ((b_lo b 0%nat + b_hi b 0%nat) / 2)); [now rewrite <- Es|lia|lra]. }
  split; [|split; [exact H3|exact HB]]. intros i c Hi Hinf Hc. destruct (H2 i c Hi Hinf Hc) as [A B]. destruct (box_has D lb c) eqn:Eb.
  - apply box_has_spec in Eb. left. split; [now apply A|]. split; [|exact Eb]. intros Hr. now apply B in Hr.
  - assert (Hn : ~ in_box D lb c) by (intros H; apply box_has_spec in H; congruence). right. split; [intros H; apply Hn, A, H|]. split; [now apply B|]. split; [exact Hn|].
    intros Hin. apply HB in Hin. destruct Hin; [contradiction|assumption].
Qed.
Print Assumptions C46_simple.
Example C46_simple_case : (1 <= N.of_nat 2 <= 30)%N /\ repr 64 ex_ids [5; 4; 3; 2; 1]%N /\
  (forall i, In i [5; 4; 3; 2; 1]%N -> (i < 2 ^ 64)%N /\ exists c, p_get (N.of_nat 2) ex_pts i = Val c) /\ small 64 (4 * (set_size ex_ids + 2 ^ 2)) /\
  (b_lo (mkbox (v2 0 0) (v2 1 1)) 0%nat <= b_hi (mkbox (v2 0 0) (v2 1 1)) 0%nat)%R.
Proof.
  split; [lia|]. split; [exact ex_repr|]. split; [|split; [split; vm_compute; discriminate|cbn; lra]]. intros i Hi. split; [repeat (destruct Hi as [<-|Hi]; [reflexivity|]); easy|].
  eexists. exact (ex_get i Hi).
Qed.

(** *** The load balanced triangulator *)
(** recursiveTriangulate on a tree whose nodes have checkers and two or more children or a single leaf ([proper],
    TreeCalls.v; FlatPartitioner and buildTree make such trees): the base cases besides edge triangulations get the sets
    of the leaves, in order. *)
Theorem C46_load_balanced : forall C (tedge : list (option nat) -> list (tree C) -> lpset) t l, proper C t -> Leaves t l ->
  exists cs, lb_calls C tedge [] t = Val cs /\ map snd (filter (fun c => negb (is_edge c)) cs) = map snd l /\ (forall c : call, is_edge c = true <-> In None (fst c)).
Proof.
  intros C tedge t l Hp HL. destruct (lb_ok C tedge t Hp [] eq_refl l HL) as [cs [E [H _]]]. exists cs. split; [exact E|]. split; [exact H|].
  intros [pv s]. unfold is_edge. cbn [fst]. rewrite existsb_exists. split; [intros [[x|] [H1 H2]]; [discriminate|exact H1]|intros H1; exists None; auto].
Qed.
Print Assumptions C46_load_balanced.
(** A node whose only child is a node, or that has no children, or a tree without checker: undefined (an exception that
    nobody catches, an access beyond the vector, a null dereference; the latter also if it is below one of several children, which are copied). *)
Theorem C46_load_balanced_refuted : forall C (tedge : list (option nat) -> list (tree C) -> lpset) prov ck k ch,
  lb_calls C tedge prov (Tnode (Some k) [Tnode ck ch]) = Undef /\ lb_calls C tedge prov (Tnode (Some k) []) = Undef /\ lb_calls C tedge prov (Tnode None ch) = Undef /\
  forall t c r, copyable t = false -> lb_calls C tedge prov (Tnode (Some k) (t :: c :: r)) = Undef.
Proof. intros. repeat split; try reflexivity. intros t c r H. rewrite lb_many. cbn [child_calls]. now rewrite H. Qed.
Print Assumptions C46_load_balanced_refuted.
Definition ex_proper : tree nat := Tnode (Some 0) [Tleaf (Some 1) (set_of [1; 2; 3]%N); Tnode (Some 2) [Tleaf (Some 3) (set_of [3; 4]%N); Tleaf (Some 4) (set_of [7]%N)]; Tnode (Some 5) [Tleaf (Some 6) (set_of [7]%N)]].
Example C46_load_balanced_case : proper nat ex_proper /\ (exists l, Leaves ex_proper l /\ length l = 4) /\
  exists cs, lb_calls nat (fun _ _ => set_of [9]%N) [] ex_proper = Val cs /\ length cs = 6 /\ length (filter (fun c : call => negb (is_edge c)) cs) = 4.
Proof.
  split; [|split].
  - unfold ex_proper. repeat constructor.
  - exists [(Some 1, set_of [1; 2; 3]%N); (Some 3, set_of [3; 4]%N); (Some 4, set_of [7]%N); (Some 6, set_of [7]%N)]. split; [|reflexivity].
    apply (L_node _ _ [[(Some 1, set_of [1; 2; 3]%N)]; [(Some 3, set_of [3; 4]%N); (Some 4, set_of [7]%N)]; [(Some 6, set_of [7]%N)]]).
    constructor; [constructor|]. constructor; [apply (L_node _ _ [[(Some 3, set_of [3; 4]%N)]; [(Some 4, set_of [7]%N)]]); repeat constructor|].
    constructor; [apply (L_node _ _ [[(Some 6, set_of [7]%N)]]); repeat constructor|constructor].
  - eexists. split; [reflexivity|]. split; reflexivity.
Qed.
(** The trees of buildTree are of that kind if the partitioner always returns at least two parts. *)
Theorem C46_build_proper : forall C (mk : box -> C) split cutoff, (forall f prov ids ps, split f prov ids = Val ps -> 2 <= length ps) ->
  forall rem f prov b ids t, build_tree C mk split f cutoff rem prov b ids = Val t -> proper C t.
Proof.
  intros C mk split cutoff H2. induction rem as [|r IH]; intros f prov b ids t E.
  - cbn [build_tree] in E. injection E as <-. constructor.
  - rewrite build_S in E. destruct (split f prov ids) as [ps| |] eqn:Es; cbn [rbind] in E; try discriminate.
    destruct (build_parts _ _ _ _ _ _ _ _ _ _) as [ts| |] eqn:Et; cbn [rmap rbind] in E; try discriminate. injection E as <-. apply H2 in Es.
    assert (HF : length ts = length ps /\ Forall (proper C) ts).
    { clear Es. revert Et. generalize 0 as i. revert ts. induction ps as [|p q IHq]; intros ts i Et; cbn [build_parts] in Et; [injection Et as <-; split; [reflexivity|constructor]|].
      destruct (if Nat.ltb _ _ then _ else _) as [x| |] eqn:Ex; cbn [rbind] in Et; try discriminate. destruct (build_parts _ _ _ _ _ _ _ _ _ q) as [y| |] eqn:Ey; cbn [rmap rbind] in Et; try discriminate.
      injection Et as <-. destruct (IHq y (S i) Ey) as [L F]. split; [cbn; now rewrite L|]. constructor; [|exact F]. destruct (Nat.ltb _ _); [exact (IH _ _ _ _ _ Ex)|]. injection Ex as <-. constructor. }
    destruct HF as [HL HF]. destruct ts as [|t1 [|t2 ts]]; cbn in HL; try lia. constructor. exact HF.
Qed.
Print Assumptions C46_build_proper.
Example C46_build_proper_case : forall st mult f (prov : list nat) ids ps, d_way 2 ex_pts st mult f ids false = Val ps -> 2 <= length ps.
Proof. intros st mult f prov ids ps E. apply d_way_length in E. rewrite E. cbn. lia. Qed.
