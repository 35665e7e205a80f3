(** C62, C63 and C64: the partitioners that split in two. *)
From Coq Require Import Reals Lia Lra List Sorted Permutation.
From Verif Require Import Outcome ListUtil WordsModel LPSetModel SimplexModel PointModel GeoModel GeoSpec GeoProofs GeoCirc GeoBox GeoProps PartModel SampleModel KWayModel KWayProofs MakerModel AssignModel AssignProofs BisectModel BisectSpec BisectProofs BisectBox.
Open Scope list_scope.
Import ListNotations.
Local Open Scope R_scope.

(** ** C62: hyperplanes *)
(** Any sampler, any decomposition: the tree is complete of depth log2 p, its leaves divide the finite ids, and every leaf has
    all infinite ids.  If the decomposition never gives the zero vector and the bounds hold all points, the checker of every node
    answers yes for every ball around a point below it.  Missing: fewer than two ids, and the zero vector; see the refutations. *)
Theorem C62_tree_partial : forall D pts co smp svd b ids p, (0 < D)%nat -> (N.of_nat D <= 30)%N -> (forall path l, samp_ok (smp path l)) -> (forall i, In i ids \/ In i (inf_ids D) -> p_get (N.of_nat D) pts i = Val (co i)) ->
  NoDup ids -> (2 <= length ids)%nat -> (1 < p)%N ->
  exists t, returns (fun f => h_partition D pts smp svd f b ids p) t /\ divided (p_finite (N.of_nat D)) ids t /\ (forall q, N.of_nat (length q) = N.log2 p <-> exists l, leaf_ids t q l) /\ (forall q l, leaf_ids t q l -> incl (inf_ids D) l) /\
  ((forall ps, dot D (fst (svd ps)) (fst (svd ps)) <> 0) -> (forall i, In i ids -> p_finite (N.of_nat D) i = true -> in_box D b (co i)) ->
   forall q u, at_path t q u -> exists c, ck_of u = Some c /\ forall q' l, leaf_ids u q' l -> covers D (h_meets D) (p_finite (N.of_nat D)) co c l).
Proof.
  intros D pts co smp svd b ids p H0 HD Hsm Hg Hn Hl Hp. destruct (h_make_ok D pts co smp svd HD H0 Hsm (fun i Hi => Hg i (or_intror Hi)) (N.to_nat (N.log2 p)) p [] ids (HBox b)) as (t & F & Dv & L1 & L2 & I & _ & Sc); [lia|lia|exact Hn|now left|intros; apply Hg; now left|].
  exists t. split; [exists (S (N.to_nat (N.log2 p))); intros m Hm; apply F; lia|]. split; [exact Dv|]. split; [intros q; split; [intros Hq; apply L2; lia|intros (l & Hql); apply L1 in Hql; lia]|]. split; [apply I; right; pose proof (N.log2_pos p Hp); lia|].
  intros Hz Hb. apply Sc; [exact Hz|]. intros i s Hi Hf Hs. cbn [h_meets]. eapply box_covers; [exact H0|apply (Hb i Hi Hf)|exact Hs].
Qed.
Print Assumptions C62_tree_partial.

(** Four points, a sampling of two nodes with one edge, and the plane x = 2 through its midpoint. *)
Definition bi_pts : points vec := mkpts [v2 0 0; v2 0 0; v2 1 1; v2 3 0; v2 4 4] 0 [v2 (-9) (-9); v2 9 (-9); v2 (-9) 9; v2 9 9].
Definition bi_co (i : N) : vec := match p_get (N.of_nat 2) bi_pts i with Val c => c | _ => v2 0 0 end.
Definition bi_ids : list N := [1; 2; 3; 4]%N.
Definition bi_samp : samp := mksm (mkg [0; 1; 2]%nat [1; 0]%nat [1; 1]%Z) [0; 1]%Z [v2 1 0; v2 3 0].
Definition bi_svd (ps : list vec) : vec * R := (v2 1 0, -2).
Lemma bi_samp_ok : samp_ok bi_samp.
Proof. exists 2%nat. cbn. repeat split; intros x H; [destruct H as [<-|[<-|[<-|[]]]]; lia|destruct H as [<-|[<-|[]]]; lia]. Qed.
Lemma bi_inf : inf_ids 2 = [18446744073709551612; 18446744073709551613; 18446744073709551614; 18446744073709551615]%N.
Proof. vm_compute. reflexivity. Qed.
Lemma bi_get : forall i, In i bi_ids \/ In i (inf_ids 2) -> p_get (N.of_nat 2) bi_pts i = Val (bi_co i).
Proof. intros i H. rewrite bi_inf in H. destruct H as [[<-|[<-|[<-|[<-|[]]]]]|[<-|[<-|[<-|[<-|[]]]]]]; reflexivity. Qed.
Lemma bi_nodup : NoDup bi_ids.
Proof. repeat constructor; cbn; lia. Qed.
Example C62_tree_case : exists t, returns (fun f => h_partition 2 bi_pts (fun _ _ => bi_samp) bi_svd f (mkbox (v2 0 0) (v2 4 4)) bi_ids 4) t /\ (exists q l, leaf_ids t q l /\ In 3%N l) /\ exists l, leaf_ids t [true; false] l.
Proof.
  destruct (C62_tree_partial 2 bi_pts bi_co (fun _ _ => bi_samp) bi_svd (mkbox (v2 0 0) (v2 4 4)) bi_ids 4) as (t & R & [Dv _] & L & _); [lia|discriminate|intros; exact bi_samp_ok|exact bi_get|exact bi_nodup|cbn; lia|reflexivity|].
  exists t. split; [exact R|]. split; [destruct (Dv 3%N) as (q & l & A & B & _); [cbn; auto|reflexivity|eauto]|apply L; reflexivity].
Qed.
Example C62_tree_case_planes : (forall ps, dot 2 (fst (bi_svd ps)) (fst (bi_svd ps)) <> 0) /\ (forall i, In i bi_ids -> p_finite (N.of_nat 2) i = true -> in_box 2 (mkbox (v2 0 0) (v2 4 4)) (bi_co i)).
Proof. split; [intros ps; cbn; lra|]. intros i [<-|[<-|[<-|[<-|[]]]]] _; [change (bi_co 1) with (v2 0 0)|change (bi_co 2) with (v2 1 1)|change (bi_co 3) with (v2 3 0)|change (bi_co 4) with (v2 4 4)]; dims2. Qed.

(** The first split: the decomposition is asked for the midpoints of the edges between different labels, and a point goes to the
    left exactly if it is on the positive side of the plane found. *)
Theorem C62_sides : forall D pts co smp svd b ids p t, (0 < D)%nat -> (N.of_nat D <= 30)%N -> (forall path l, samp_ok (smp path l)) -> (forall i, In i ids \/ In i (inf_ids D) -> p_get (N.of_nat D) pts i = Val (co i)) ->
  NoDup ids -> (2 <= length ids)%nat -> (1 < p)%N -> returns (fun f => h_partition D pts smp svd f b ids p) t ->
  exists ps ck l r, t = PNode ck l r /\ (forall m, In m ps -> cut_mid (smp [] ids) (fun a b => a <> b) m) /\ (forall m, cut_mid (smp [] ids) (fun a b => a <> b) m -> exists m', In m' ps /\ forall d, m' d = m d) /\
  (dot D (fst (svd ps)) (fst (svd ps)) <> 0 -> forall i, In i ids -> p_finite (N.of_nat D) i = true ->
   ((exists q x, leaf_ids l q x /\ In i x) <-> 0 < dot D (fst (svd ps)) (co i) + snd (svd ps)) /\ ((exists q x, leaf_ids r q x /\ In i x) <-> dot D (fst (svd ps)) (co i) + snd (svd ps) <= 0)).
Proof.
  intros D pts co smp svd b ids p t H0 HD Hsm Hg Hn Hl Hp [n R]. destruct (h_root D pts co smp svd HD H0 Hsm (fun i Hi => Hg i (or_intror Hi)) n [] ids (HBox b) p t Hp Hn Hl (fun i Hi => Hg i (or_introl Hi)) (R n (le_n n))) as (ps & l & r & E & M1 & M2 & _ & _ & Q).
  exists ps, (Some (HBox b)), l, r. split; [exact E|]. split; [exact M1|]. split; [exact M2|]. intros Hz i Hi Hf. destruct (Q i Hi Hf) as [Q1 Q2]. destruct (plane_ok D (fst (svd ps)) (snd (svd ps)) Hz) as (nn & k & Ep & _ & Hd). rewrite Ep in Q1, Q2. cbn [h_above] in Q1, Q2. destruct (Hd (co i)) as (q & Hq & Eq).
  rewrite Q1, Q2, rltb_iff, rltb_false, Eq. split; split; nra.
Qed.
Print Assumptions C62_sides.
Example C62_sides_case : exists t, returns (fun f => h_partition 2 bi_pts (fun _ _ => bi_samp) bi_svd f (mkbox (v2 0 0) (v2 4 4)) bi_ids 2) t /\ exists ck l r, t = PNode ck l r /\ (exists q x, leaf_ids l q x /\ In 3%N x) /\ (exists q x, leaf_ids r q x /\ In 2%N x).
Proof.
  destruct (C62_tree_partial 2 bi_pts bi_co (fun _ _ => bi_samp) bi_svd (mkbox (v2 0 0) (v2 4 4)) bi_ids 2) as (t & R & _); [lia|discriminate|intros; exact bi_samp_ok|exact bi_get|exact bi_nodup|cbn; lia|reflexivity|].
  destruct (C62_sides 2 bi_pts bi_co (fun _ _ => bi_samp) bi_svd (mkbox (v2 0 0) (v2 4 4)) bi_ids 2 t) as (ps & ck & l & r & E & _ & _ & Q); [lia|discriminate|intros; exact bi_samp_ok|exact bi_get|exact bi_nodup|cbn; lia|reflexivity|exact R|].
  exists t. split; [exact R|]. exists ck, l, r. split; [exact E|]. assert (Hz : dot 2 (fst (bi_svd ps)) (fst (bi_svd ps)) <> 0) by (cbn; lra). split; [apply (Q Hz 3%N); [cbn; auto|reflexivity|change (bi_co 3) with (v2 3 0); cbn; lra]|apply (Q Hz 2%N); [cbn; auto|reflexivity|change (bi_co 2) with (v2 1 1); cbn; lra]].
Qed.

(** If the decomposition gives the zero vector (as for a sample without cut edges), every point goes to the right, and
    no sphere meets either child, not even a ball around one of these points. *)
Theorem C62_zero_refuted : forall D pts co smp svd b ids p t, (0 < D)%nat -> (N.of_nat D <= 30)%N -> (forall path l, samp_ok (smp path l)) -> (forall i, In i ids \/ In i (inf_ids D) -> p_get (N.of_nat D) pts i = Val (co i)) ->
  NoDup ids -> (2 <= length ids)%nat -> (1 < p)%N -> returns (fun f => h_partition D pts smp svd f b ids p) t -> (forall ps, dot D (fst (svd ps)) (fst (svd ps)) = 0) ->
  exists ck l r c, t = PNode ck l r /\ ck_of r = Some c /\ (forall s, h_meets D c s = false) /\ forall i, In i ids -> p_finite (N.of_nat D) i = true -> exists q x, leaf_ids r q x /\ In i x.
Proof.
  intros D pts co smp svd b ids p t H0 HD Hsm Hg Hn Hl Hp [n R] Hz. destruct (h_root D pts co smp svd HD H0 Hsm (fun i Hi => Hg i (or_intror Hi)) n [] ids (HBox b) p t Hp Hn Hl (fun i Hi => Hg i (or_introl Hi)) (R n (le_n n))) as (ps & l & r & E & _ & _ & _ & K & Q).
  assert (Ep : h_plane D (fst (svd ps)) (snd (svd ps)) = None). { unfold h_plane, len2. rewrite scalar_dot, Hz. unfold reqb. destruct (Req_EM_T 0 0); [reflexivity|congruence]. }
  rewrite Ep in K, Q. exists (Some (HBox b)), l, r, (HPlane None). split; [exact E|]. split; [exact K|]. split; [reflexivity|]. intros i Hi Hf. now apply (Q i Hi Hf).
Qed.
Print Assumptions C62_zero_refuted.
(** A sampling with all nodes in one partition. *)
Definition bz_samp : samp := mksm (mkg [0; 1; 2]%nat [1; 0]%nat [1; 1]%Z) [0; 0]%Z [v2 1 0; v2 3 0].
Definition bz_svd (ps : list vec) : vec * R := (v2 0 0, 1).
Example C62_zero_case : cut_edges bz_samp (fun a b => negb (Z.eqb a b)) = Val [] /\ exists t ck l r c, returns (fun f => h_partition 2 bi_pts (fun _ _ => bz_samp) bz_svd f (mkbox (v2 0 0) (v2 4 4)) bi_ids 2) t /\ t = PNode ck l r /\ ck_of r = Some c /\
  (exists q x, leaf_ids r q x /\ In 1%N x) /\ in_ball 2 (mksph (v2 0 0) 1) (bi_co 1) /\ h_meets 2 c (mksph (v2 0 0) 1) = false.
Proof.
  split; [reflexivity|]. assert (S : samp_ok bz_samp) by (exists 2%nat; cbn; repeat split; intros x H; [destruct H as [<-|[<-|[<-|[]]]]; lia|destruct H as [<-|[<-|[]]]; lia]).
  destruct (C62_tree_partial 2 bi_pts bi_co (fun _ _ => bz_samp) bz_svd (mkbox (v2 0 0) (v2 4 4)) bi_ids 2) as (t & R & _); [lia|discriminate|intros; exact S|exact bi_get|exact bi_nodup|cbn; lia|reflexivity|].
  destruct (C62_zero_refuted 2 bi_pts bi_co (fun _ _ => bz_samp) bz_svd (mkbox (v2 0 0) (v2 4 4)) bi_ids 2 t) as (ck & l & r & c & E & K & M & Q); [lia|discriminate|intros; exact S|exact bi_get|exact bi_nodup|cbn; lia|reflexivity|exact R|intros ps; cbn; lra|].
  exists t, ck, l, r, c. split; [exact R|]. split; [exact E|]. split; [exact K|]. split; [apply Q; [cbn; auto|reflexivity]|]. split; [|apply M]. split; [cbn; lra|]. change (bi_co 1) with (v2 0 0). rewrite dist2_2. cbn. lra.
Qed.
(** One id: its table has no cells and the insertion never returns. *)
Theorem C62_single_refuted : forall D pts smp svd b i p c, (1 < p)%N -> (forall path l, samp_ok (smp path l)) -> p_get (N.of_nat D) pts i = Val c -> diverges (fun f => h_partition D pts smp svd f b [i] p).
Proof.
  intros D pts smp svd b i p c Hp Hsm Hg [|f]; [reflexivity|]. unfold h_partition. cbn [h_make]. destruct (N.ltb_spec 1 p) as [_|X]; [|lia]. destruct (h_find_ok D smp svd Hsm [] [i]) as (ps & -> & _). cbn [rbind h_split]. rewrite Hg. cbn [rbind].
  destruct (h_above D (h_plane D (fst (svd ps)) (snd (svd ps))) c); reflexivity.
Qed.
Print Assumptions C62_single_refuted.
Example C62_single_case : p_get (N.of_nat 2) bi_pts 1 = Val (v2 0 0) /\ samp_ok bi_samp.
Proof. split; [reflexivity|exact bi_samp_ok]. Qed.

(** ** C63: boxes *)
(** Any sampler, any sorting: the leaves divide the finite ids and have all infinite ids; none is deeper than 10, and one
    that is less deep has fewer ids than the cutoff; the box of every node holds the points below it and its checker answers yes
    for every ball around one of them; the boxes of the children are a split of the box. *)
Theorem C63_tree : forall D pts co smp srt cutoff b ids, (0 < D)%nat -> (N.of_nat D <= 30)%N -> (forall path l, samp_ok (smp path l)) -> sorts srt -> (forall i, In i ids -> p_finite (N.of_nat D) i = true -> p_get (N.of_nat D) pts i = Val (co i)) -> NoDup ids ->
  exists t, e_partition D pts smp srt cutoff b ids = Val t /\ divided (p_finite (N.of_nat D)) ids t /\ (forall q l, leaf_ids t q l -> (length q <= 10)%nat /\ (length q = 10%nat \/ (length l < cutoff)%nat)) /\
  (forall q l, leaf_ids t q l -> q <> [] -> incl (inf_ids D) l) /\
  (forall q ck l r, at_path t q (PNode (Some ck) l r) -> exists d x, (d < D)%nat /\ ck_of l = Some (fst (split_box ck d x)) /\ ck_of r = Some (snd (split_box ck d x))) /\
  ((forall i, In i ids -> p_finite (N.of_nat D) i = true -> in_box D b (co i)) ->
   forall q u, at_path t q u -> exists bx, ck_of u = Some bx /\ forall q' l, leaf_ids u q' l -> (forall i, In i l -> p_finite (N.of_nat D) i = true -> in_box D bx (co i)) /\ covers D (box_meets D) (p_finite (N.of_nat D)) co bx l).
Proof.
  intros D pts co smp srt cutoff b ids H0 HD Hsm Hs Hg Hn. destruct (e_build_ok D pts co smp srt HD H0 Hsm Hs cutoff 10 [] b ids Hn Hg) as (t & E & Dv & L & I & _ & B & S). exists t. split; [exact E|]. split; [exact Dv|]. split; [exact L|]. split; [intros q l H Hq; apply (I q l H); now left|]. split; [exact S|].
  intros Hb q u Hu. destruct (B Hb q u Hu) as (bx & K & Q). exists bx. split; [exact K|]. intros q' l Hl. specialize (Q q' l Hl). split; [exact Q|]. intros i s Hi Hf Hsp. eapply box_covers; [exact H0|apply (Q i Hi Hf)|exact Hsp].
Qed.
Print Assumptions C63_tree.

(** A sort for the examples. *)
Fixpoint ins (d : nat) (v : vec) (l : list vec) : list vec := match l with [] => [v] | w :: r => if Rle_dec (v d) (w d) then v :: l else w :: ins d v r end.
Definition isort (d : nat) (l : list vec) : list vec := fold_right (ins d) [] l.
Lemma ins_perm d v l : Permutation (v :: l) (ins d v l).
Proof. induction l as [|w l IH]; cbn [ins]; [apply Permutation_refl|]. destruct (Rle_dec (v d) (w d)); [apply Permutation_refl|]. eapply Permutation_trans; [apply perm_swap|]. now constructor. Qed.
Lemma ins_sorted d v l : StronglySorted (fun a b => a d <= b d) l -> StronglySorted (fun a b => a d <= b d) (ins d v l).
Proof.
  induction l as [|w l IH]; intros H; cbn [ins]; [repeat constructor|]. inversion H as [|? ? S F]; subst. destruct (Rle_dec (v d) (w d)) as [L|L].
  - constructor; [exact H|]. constructor; [exact L|]. rewrite Forall_forall in *. intros x Hx. specialize (F x Hx). lra.
  - constructor; [now apply IH|]. rewrite Forall_forall in *. intros x Hx. apply (Permutation_in _ (Permutation_sym (ins_perm d v l))) in Hx. destruct Hx as [<-|Hx]; [lra|auto].
Qed.
Lemma isort_sorts : sorts isort.
Proof.
  intros d l. induction l as [|v l [P S]]; cbn [isort fold_right]; [split; constructor|]. split; [|now apply ins_sorted]. eapply Permutation_trans; [apply perm_skip, P|apply ins_perm].
Qed.
Example C63_tree_case : exists t, e_partition 2 bi_pts (fun _ _ => bi_samp) isort 3 (mkbox (v2 0 0) (v2 4 4)) bi_ids = Val t /\ (exists q l, leaf_ids t q l /\ In 3%N l) /\ (forall q l, leaf_ids t q l -> length q = 10%nat).
Proof.
  destruct (C63_tree 2 bi_pts bi_co (fun _ _ => bi_samp) isort 3 (mkbox (v2 0 0) (v2 4 4)) bi_ids) as (t & E & [Dv _] & L & I & _); [lia|discriminate|intros; exact bi_samp_ok|exact isort_sorts|intros i Hi _; apply bi_get; now left|exact bi_nodup|].
  exists t. split; [exact E|]. split; [destruct (Dv 3%N) as (q & l & A & B & _); [cbn; auto|reflexivity|eauto]|]. intros q l H. destruct (L q l H) as [_ [X|X]]; [exact X|]. exfalso. destruct q as [|x q].
  - destruct H as [ck H]. assert (Et : t = PLeaf ck l) by (inversion H; reflexivity). subst t. assert (Y : incl bi_ids l) by (intros i Hi; destruct (Dv i Hi) as (q & l' & A & B & _); [destruct Hi as [<-|[<-|[<-|[<-|[]]]]]; reflexivity|]; apply leaf_leaf in A; destruct A as [_ ->]; exact B). pose proof (NoDup_incl_length bi_nodup Y) as Z. cbn [length bi_ids] in Z. lia.
  - assert (Y : incl (inf_ids 2) l) by (apply (I _ _ H); discriminate). rewrite bi_inf in Y. assert (N4 : NoDup [18446744073709551612; 18446744073709551613; 18446744073709551614; 18446744073709551615]%N) by (repeat constructor; cbn [In]; intuition discriminate). pose proof (NoDup_incl_length N4 Y) as Z. cbn [length] in Z. lia.
Qed.

(** The first cut: its place is a median of the midpoints of the edges out of partition 0, or the middle if there are none. *)
Theorem C63_median : forall D pts co smp srt cutoff b ids ck l r, (0 < D)%nat -> (N.of_nat D <= 30)%N -> (forall path l, samp_ok (smp path l)) -> sorts srt -> (forall i, In i ids -> p_finite (N.of_nat D) i = true -> p_get (N.of_nat D) pts i = Val (co i)) -> NoDup ids ->
  e_partition D pts smp srt cutoff b ids = Val (PNode ck l r) ->
  exists ps d x, (forall m, In m ps -> cut_mid (smp [] ids) (fun a b => a = 0%Z /\ b <> 0%Z) m) /\ (forall m, cut_mid (smp [] ids) (fun a b => a = 0%Z /\ b <> 0%Z) m -> exists m', In m' ps /\ forall d, m' d = m d) /\
  (d < D)%nat /\ (ps <> [] -> median d ps x) /\ (ps = [] -> x = (b_lo b 0%nat + b_hi b 0%nat) / 2 /\ d = 0%nat) /\ ck_of l = Some (fst (split_box b d x)) /\ ck_of r = Some (snd (split_box b d x)) /\
  forall i, In i ids -> p_finite (N.of_nat D) i = true -> ((exists q x, leaf_ids l q x /\ In i x) <-> in_box D (fst (split_box b d x)) (co i)).
Proof. intros D pts co smp srt cutoff b ids ck l r H0 HD Hsm Hs Hg Hn E. exact (e_root D pts co smp srt HD H0 Hsm Hs cutoff 10 [] b ids ck l r E Hn Hg). Qed.
Print Assumptions C63_median.
Example C63_median_case : exists ck l r, e_partition 2 bi_pts (fun _ _ => bi_samp) isort 3 (mkbox (v2 0 0) (v2 4 4)) bi_ids = Val (PNode ck l r) /\ median 0 [v2 2 0] 2.
Proof.
  destruct C63_tree_case as (t & E & _ & L). destruct t as [ck x|ck l r]; [exfalso; specialize (L [] x); cbn in L; discriminate L; exists ck; constructor|]. exists ck, l, r. split; [exact E|]. unfold median. cbn [filter v2]. 
  assert (Z : rltb 2 2 = false) by (apply rltb_false; lra). cbn. rewrite Z. cbn. repeat split; [lia|lia|]. exists (v2 2 0). split; [now left|reflexivity].
Qed.

(** The dimension of the cut is meant to be one in which the border, run through in the order of that coordinate, is shortest;
    but only the last step of each run counts. *)
Fixpoint run (D : nat) (l : list vec) : R := match l with x :: (y :: _) as r => dist2 D x y + run D r | _ => 0 end.
Definition border (D d : nat) (l : list vec) (x : R) : Prop := exists l', Permutation l l' /\ StronglySorted (fun a b => a d <= b d) l' /\ x = run D l'.
Lemma sorted_unique (d : nat) : forall l1 l2 : list vec, Permutation l1 l2 -> StronglySorted (fun a b => a d <= b d) l1 -> StronglySorted (fun a b => a d <= b d) l2 -> (forall x y, In x l1 -> In y l1 -> x d <= y d -> y d <= x d -> x = y) -> l1 = l2.
Proof.
  induction l1 as [|a l1 IH]; intros l2 P S1 S2 A; [apply Permutation_nil in P; now subst|]. destruct l2 as [|b l2]; [apply Permutation_sym, Permutation_nil in P; discriminate|].
  inversion S1 as [|? ? S1' F1]; subst. inversion S2 as [|? ? S2' F2]; subst. rewrite Forall_forall in F1, F2. assert (Hb : In b (a :: l1)) by (apply (Permutation_in _ (Permutation_sym P)); now left). assert (Ha : In a (b :: l2)) by (apply (Permutation_in _ P); now left).
  assert (a = b). { destruct Hb as [Hb|Hb]; [exact Hb|]. destruct Ha as [Ha|Ha]; [congruence|]. apply A; [now left|now right|now apply F1|now apply F2]. }
  subst b. f_equal. apply IH; [now apply Permutation_cons_inv in P|exact S1'|exact S2'|]. intros x y Hx Hy. apply A; now right.
Qed.
Definition bo_a : vec := v2 0 10.
Definition bo_b : vec := v2 5 0.
Definition bo_c : vec := v2 6 1.
Theorem C63_border_refuted : forall srt b, sorts srt -> exists x bb, est_boxes 2 srt [bo_a; bo_b; bo_c] b = Val bb /\ bb = split_box b 0 x /\ (forall z, border 2 0 [bo_a; bo_b; bo_c] z -> z = 127) /\ border 2 1 [bo_a; bo_b; bo_c] 119.
Proof.
  intros srt b Hs. set (l0 := [bo_a; bo_b; bo_c]).
  assert (U0 : forall l, Permutation l0 l -> StronglySorted (fun a b => a 0%nat <= b 0%nat) l -> l = l0).
  { intros l P S. symmetry. apply (sorted_unique 0); [exact P| |exact S|]; [unfold l0, bo_a, bo_b, bo_c; repeat constructor; cbn; lra|]. intros x y Hx Hy. unfold l0 in Hx, Hy. cbn [In] in Hx, Hy. destruct Hx as [<-|[<-|[<-|[]]]], Hy as [<-|[<-|[<-|[]]]]; try reflexivity; cbn; intros; exfalso; lra. }
  assert (U1 : forall l, Permutation l0 l -> StronglySorted (fun a b => a 1%nat <= b 1%nat) l -> l = [bo_b; bo_c; bo_a]).
  { intros l P S. symmetry. apply (sorted_unique 1); [| |exact S|]; [eapply Permutation_trans; [|exact P]; apply Permutation_sym, (Permutation_cons_append [bo_b; bo_c] bo_a)|unfold bo_a, bo_b, bo_c; repeat constructor; cbn; lra|]. intros x y Hx Hy. cbn [In] in Hx, Hy. destruct Hx as [<-|[<-|[<-|[]]]], Hy as [<-|[<-|[<-|[]]]]; try reflexivity; cbn; intros; exfalso; lra. }
  assert (E0 : srt 0%nat l0 = l0) by (apply U0; apply Hs). assert (E1 : srt 1%nat l0 = [bo_b; bo_c; bo_a]) by (apply U1; apply Hs).
  exists 5. eexists. split; [|split; [reflexivity|split]].
  - unfold est_boxes. fold l0. change (length l0 / 2)%nat with 1%nat. cbn [seq est_loop]. rewrite E0, E1. unfold l0. cbn [get nth_error rbind rmap fst snd border_len]. unfold get. cbn [nth_error rbind].
    unfold min_idx. rewrite !len2_minus, !dist2_2. unfold bo_a, bo_b, bo_c. cbn. match goal with |- context [rltb ?x ?y] => replace (rltb x y) with false by (symmetry; apply rltb_false; lra) end. cbn. reflexivity.
  - intros z (l & P & S & ->). rewrite (U0 l P S). unfold l0. cbn [run]. rewrite !dist2_2. cbn. lra.
  - exists [bo_b; bo_c; bo_a]. split; [apply (Permutation_cons_append [bo_b; bo_c] bo_a)|]. split; [unfold bo_a, bo_b, bo_c; repeat constructor; cbn; lra|]. cbn [run]. rewrite !dist2_2. cbn. lra.
Qed.
Print Assumptions C63_border_refuted.
Example C63_border_case : sorts isort /\ border 2 0 [bo_a; bo_b; bo_c] 127.
Proof. split; [exact isort_sorts|]. exists [bo_a; bo_b; bo_c]. split; [apply Permutation_refl|]. split; [unfold bo_a, bo_b, bo_c; repeat constructor; cbn; lra|]. cbn [run]. rewrite !dist2_2. cbn. lra. Qed.

(** ** C64: nearest samples *)
(** The leaves divide the finite ids and have all infinite ids; none is deeper than log2 p, and one that is less deep has no more
    ids than the cutoff; every node but the root has a checker.  Missing: one id with a cutoff of 0, and the root, whose checker is
    missing when it is split. *)
Theorem C64_tree_partial : forall D keeps part cutoff ids p, (0 < D)%nat -> (N.of_nat D <= 30)%N -> (1 <= p)%N -> NoDup ids -> (2 <= length ids)%nat \/ (1 <= cutoff)%nat -> (forall pa i, In i ids -> p_finite (N.of_nat D) i = true -> exists j, (j < 2)%nat /\ part pa i = Val j) ->
  exists t, returns (fun f => n_partition D keeps part f cutoff ids p) t /\ divided (p_finite (N.of_nat D)) ids t /\ (forall q l, leaf_ids t q l -> (N.of_nat (length q) <= N.log2 p)%N /\ (N.of_nat (length q) = N.log2 p \/ (length l <= cutoff)%nat)) /\
  (forall q l, leaf_ids t q l -> q <> [] -> incl (inf_ids D) l) /\ (forall q u, at_path t q u -> q <> [] -> ck_of u <> None) /\ (forall ck l r, t = PNode ck l r -> ck = None).
Proof.
  intros D keeps part cutoff ids p H0 HD Hp Hn Hl Hpart. destruct (n_make_ok D keeps part HD H0 cutoff (N.to_nat (N.log2 p)) p [] OCaller ids) as (t & F & Dv & L & I & _ & K & T); [exact Hp|lia|exact Hn|tauto|exact Hpart|].
  exists t. split; [exists (S (N.to_nat (N.log2 p))); intros m Hm; apply F; lia|]. split; [exact Dv|]. split; [intros q l H; destruct (L q l H) as [X [Y|Y]]; lia|]. split; [intros q l H Hq; apply (I q l H); now left|]. split; [exact K|exact T].
Qed.
Print Assumptions C64_tree_partial.
Definition bn_part (pa : list bool) (i : N) : res nat := Val (match pa with [] => if (i <? 3)%N then 0 else 1 | _ => if N.even i then 0 else 1 end)%nat.
Lemma bn_part_ok : forall pa i, In i bi_ids -> p_finite (N.of_nat 2) i = true -> exists j, (j < 2)%nat /\ bn_part pa i = Val j.
Proof. intros pa i _ _. unfold bn_part. eexists. split; [|reflexivity]. destruct pa; [destruct (i <? 3)%N|destruct (N.even i)]; lia. Qed.
Definition bn_inf : list N := [18446744073709551612; 18446744073709551613; 18446744073709551614; 18446744073709551615]%N.
Example C64_tree_case : exists t, returns (fun f => n_partition 2 true bn_part f 2 bi_ids 4) t /\ leaf_ids t [false; true] (1 :: bn_inf)%N /\ leaf_ids t [true; false] (4 :: bn_inf)%N.
Proof.
  destruct (C64_tree_partial 2 true bn_part 2 bi_ids 4) as (t & [n R] & _); [lia|discriminate|discriminate|exact bi_nodup|cbn; lia|exact bn_part_ok|]. exists t. split; [exists n; exact R|].
  specialize (R (3 + n)%nat ltac:(lia)). assert (E : n_partition 2 true bn_part (3 + n) 2 bi_ids 4 = n_partition 2 true bn_part 3 2 bi_ids 4) by (vm_compute; reflexivity). rewrite E in R. vm_compute in R. injection R as <-. split; eexists; repeat constructor.
Qed.

(** With at most two partitions a checker keeps no address but of the ids of the caller. *)
Theorem C64_alive_partial : forall D keeps part cutoff ids p t, (0 < D)%nat -> (N.of_nat D <= 30)%N -> (1 <= p < 4)%N -> NoDup ids -> (2 <= length ids)%nat \/ (1 <= cutoff)%nat -> (forall pa i, In i ids -> p_finite (N.of_nat D) i = true -> exists j, (j < 2)%nat /\ part pa i = Val j) ->
  returns (fun f => n_partition D keeps part f cutoff ids p) t -> forall q u pa j o, at_path t q u -> ck_of u = Some (NMade pa j (Some o)) -> o = OCaller.
Proof.
  intros D keeps part cutoff ids p t H0 HD Hp Hn Hl Hpart [n R] q u pa j o Hu Hc. assert (Lp : (N.log2 p <= 1)%N) by (assert (N.log2 p < 2)%N by (apply N.log2_lt_pow2; cbn; lia); lia).
  destruct (n_make_ok D keeps part HD H0 cutoff (N.to_nat (N.log2 p)) p [] OCaller ids) as (t' & F & _ & L & _ & Q & _); [lia|lia|exact Hn|tauto|exact Hpart|]. specialize (R (n + S (N.to_nat (N.log2 p)))%nat ltac:(lia)). unfold n_partition in R. rewrite F in R by lia. injection R as ->.
  specialize (Q q u _ Hu Hc). assert (Lq : (length q <= 1)%nat). { assert (X : exists q' l, leaf_ids u q' l) by (clear; induction u as [ck x|ck l [q' [x H]] r _]; [exists [], x; now apply leaf_leaf|exists (false :: q'), x; apply leaf_node; exists false, q'; auto]). destruct X as (q' & l & X). apply (at_leaf t q u Hu) in X. apply L in X. rewrite app_length in X. lia. }
  destruct q as [|x [|y q]]; cbn [length] in Lq; [congruence| |lia]. destruct Q as [j' Q]. destruct keeps; congruence.
Qed.
Print Assumptions C64_alive_partial.
Example C64_alive_case : exists t, returns (fun f => n_partition 2 true bn_part f 2 bi_ids 2) t /\ exists u pa j, at_path t [true] u /\ ck_of u = Some (NMade pa j (Some OCaller)).
Proof.
  destruct (C64_tree_partial 2 true bn_part 2 bi_ids 2) as (t & [n R] & _); [lia|discriminate|discriminate|exact bi_nodup|cbn; lia|exact bn_part_ok|]. exists t. split; [exists n; exact R|].
  specialize (R (3 + n)%nat ltac:(lia)). assert (E : n_partition 2 true bn_part (3 + n) 2 bi_ids 2 = n_partition 2 true bn_part 3 2 bi_ids 2) by (vm_compute; reflexivity). rewrite E in R. vm_compute in R. injection R as <-. eexists. eexists. eexists. split; [repeat constructor|reflexivity].
Qed.
(** With the accurate grid checkers every checker at depth two or more keeps the address of a set that a finished call owned. *)
Theorem C64_dangling_refuted : forall D part cutoff ids p t, (0 < D)%nat -> (N.of_nat D <= 30)%N -> (1 <= p)%N -> NoDup ids -> (2 <= length ids)%nat \/ (1 <= cutoff)%nat -> (forall pa i, In i ids -> p_finite (N.of_nat D) i = true -> exists j, (j < 2)%nat /\ part pa i = Val j) ->
  returns (fun f => n_partition D true part f cutoff ids p) t -> forall q u, at_path t q u -> (2 <= length q)%nat -> exists pa j path, ck_of u = Some (NMade pa j (Some (OLocal path))).
Proof.
  intros D part cutoff ids p t H0 HD Hp Hn Hl Hpart [n R] q u Hu Hq.
  destruct (n_make_ok D true part HD H0 cutoff (N.to_nat (N.log2 p)) p [] OCaller ids) as (t' & F & _ & _ & _ & Q & K & _); [lia|lia|exact Hn|tauto|exact Hpart|]. specialize (R (n + S (N.to_nat (N.log2 p)))%nat ltac:(lia)). unfold n_partition in R. rewrite F in R by lia. injection R as ->.
  destruct (ck_of u) as [c|] eqn:Ec; [|destruct (K q u Hu); [destruct q; [cbn in Hq; lia|discriminate]|exact Ec]]. specialize (Q q u c Hu Ec). destruct q as [|x [|y q]]; cbn [length] in Hq; [lia|lia|]. destruct Q as (pa & j & ->). eauto.
Qed.
Print Assumptions C64_dangling_refuted.
Example C64_dangling_case : exists t u pa j path, returns (fun f => n_partition 2 true bn_part f 2 bi_ids 4) t /\ at_path t [true; false] u /\ ck_of u = Some (NMade pa j (Some (OLocal path))).
Proof.
  destruct C64_tree_case as (t & R & _ & [ck L]). destruct (C64_dangling_refuted 2 bn_part 2 bi_ids 4 t) with (q := [true; false]) (u := PLeaf ck (4 :: bn_inf)%N) as (pa & j & path & E); [lia|discriminate|discriminate|exact bi_nodup|cbn; lia|exact bn_part_ok|exact R|exact L|cbn; lia|]. exists t, (PLeaf ck (4 :: bn_inf)%N), pa, j, path. auto.
Qed.
