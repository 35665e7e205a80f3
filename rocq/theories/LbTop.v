(** LoadBalancing::DCTriangulator::triangulate, called on the points the constructor left, with a partitioner that keeps its contract. *)
From Verif Require Import Outcome ListUtil WordsModel LPSetModel LPSetProofs LPSetHistory SimplexModel PointModel PointProofs GeoModel GeoSpec PartModel InfModel InfProofs MergeModel TriSpec DelSpec PlaceSpec DelPlace DcModel DcSpec DcProofs DcEx MeshSpec MeshProofs
  TreeModel TreeSpec SplitModel SplitProofs SplitEx TopSpec TopProofs TopRuns LbModel LbSpec LbProofs LbEx LbTrees.
Local Open Scope nat_scope.

Section Top.
Variable over : N -> N.
Variable D : nat.
Hypothesis HD : D = 2 \/ D = 3.
Variables tiny huge : R.
Variables (p : points vec) (c : N -> vec).
Hypothesis HI : input D tiny huge p c.
Variable work : list (list N).
Hypothesis Hw : forall i, In i (concat work) <-> is_fin_id p i.
Variable q : points vec.
Hypothesis Hq : ctor_points D tiny huge p work = Val q.
Notation DN := (N.of_nat D).
Notation co := (co_of D q).
Notation P := (id_keys DN q).
Variable hgt : N -> R.
Hypothesis HB : breaks D co hgt P.
Variable cgal : list N -> N -> list cell -> Prop.
Hypothesis Hcgal : cgal_right DN co hgt P cgal.
Variable depth : nat.
Variable C : Type.
Variable cbox : C -> box.
Variable meets : C -> sphere -> simplex -> bool.
Variables par_base par_edge : bool.
Notation run := (lb_run over DN co cgal (splits D q tiny huge Cycle) depth C cbox meets par_base par_edge).
Variables (t : tree C) (l : list (option C * lpset)) (n : nat).
Hypothesis Hok : forall r, placed DN co r P -> (forall d, d < D -> (tiny <= r d)%R) -> tree_ok DN co r C meets t P.
Hypothesis HL : Leaves t l.
Hypothesis Hsm : small 64 (4 * entries l).
Hypothesis Hh : height t <= n.
Hypothesis Hd : depth <= n.
Hypothesis Hn : n <= 42.

Lemma lb_DN : DN = 2%N \/ DN = 3%N. Proof. clear - HD. destruct HD as [-> | ->]; auto. Qed.
Lemma cyc k : Cycle = OneDim k -> k < D. Proof. discriminate. Qed.
Lemma lb_top_whole out takes : run [] t out takes -> takes_ok takes -> done over DN co hgt n P out takes.
Proof.
  intros Hr Ht. destruct (top_ex D HD tiny huge p c HI work Hw q Hq) as [r T].
  apply (lb_run_done over DN lb_DN co hgt r P (tf_placed _ _ _ _ _ _ _ T) (breaks_n D q hgt HB) cgal (cgal_placed D tiny huge p c q hgt cgal Hcgal r T) (splits D q tiny huge Cycle)
    (splits_placed D HD tiny huge p c q Cycle cyc r T) depth ltac:(lia) C cbox meets par_base par_edge n t P l [] out takes); auto.
  - apply Hok; apply T.
  - cbn. lia.
  - apply incl_refl.
  - apply T.
  - lia.
Qed.
Lemma lb_top_done out takes : run [] t out takes -> takes_ok takes -> triangulation over DN co hgt P out.
Proof. intros Hr Ht. exact (proj1 (lb_top_whole out takes Hr Ht)). Qed.

Variables (M K : N) (c0 : N).
Hypothesis Hends : cgal_ends DN P M cgal.
Hypothesis HK : (N.of_nat (width t) <= K)%N.
Hypothesis HK2 : (2 ^ DN <= K)%N.
Hypothesis Hc0 : (c0 + (K + 1) ^ N.of_nat n * M < 2 ^ 64)%N.
Hypothesis Hblk : ((K + 1) ^ N.of_nat n < 2 ^ 32)%N.
Lemma lb_top_run : exists out takes, run [] t out takes /\ fetched c0 takes /\ (total takes <= (K + 1) ^ N.of_nat n * M)%N /\ (N.of_nat (length takes) <= (K + 1) ^ N.of_nat n)%N.
Proof.
  destruct (top_ex D HD tiny huge p c HI work Hw q Hq) as [r T].
  destruct (lb_run_ex over DN lb_DN co hgt r P (tf_placed _ _ _ _ _ _ _ T) (breaks_n D q hgt HB) cgal (cgal_placed D tiny huge p c q hgt cgal Hcgal r T) (splits D q tiny huge Cycle)
    (splits_placed D HD tiny huge p c q Cycle cyc r T) depth ltac:(lia) C cbox meets par_base par_edge M K) with (n := n) (t := t) (S := P) (l := l) (prov := @nil (option nat)) (c := c0) as (out & takes & H); auto.
  - intros S H1 H2 H3. apply Hends; auto. apply H3.
  - intros prov S H1 H2 H3 H4. destruct (splits_run D HD tiny huge p c HI work q Hq hgt HB cgal Hcgal Cycle cyc r T prov S H1 H2 H3 H4) as (ps & A & B). exists ps. split; [exact A|]. lia.
  - apply Hok; apply T.
  - cbn. lia.
  - apply incl_refl.
  - apply T.
  - lia.
  - exists out, takes. exact H.
Qed.
End Top.

(** OldPartitionerPartitioner keeps its contract. *)
Section Old.
Variable D : nat.
Hypothesis HD : D = 2 \/ D = 3.
Variables tiny huge : R.
Variables (p : points vec) (c : N -> vec).
Hypothesis HI : input D tiny huge p c.
Variable work : list (list N).
Hypothesis Hw : forall i, In i (concat work) <-> is_fin_id p i.
Variable q : points vec.
Hypothesis Hq : ctor_points D tiny huge p work = Val q.
Notation DN := (N.of_nat D).
Notation co := (co_of D q).
Notation P := (id_keys DN q).
Variable sp : splitter.
Hypothesis Hsp : forall k, sp = OneDim k -> k < D.
Variables (ids : lpset) (cutoff rem : nat) (b : box) (t : tree box).
Hypothesis Hids : lists ids P.
Hypothesis Hb : built D q tiny huge sp cutoff rem [] b ids t.

Lemma old_fin : exists u, In u P /\ p_finite DN u = true.
Proof.
  destruct (top_ex D HD tiny huge p c HI work Hw q Hq) as [r T]. destruct (in_extent _ _ _ _ _ HI 0 ltac:(lia)) as (j & _ & Hj & _). exists j. split; [apply (tf_keys _ _ _ _ _ _ _ T); now left|]. eapply fin_finite; eauto. lia.
Qed.
Lemma old_tree : filled DN t -> forall r, placed DN co r P -> (forall d, d < D -> (tiny <= r d)%R) -> tree_ok DN co r box (box_ck DN) t P.
Proof.
  intros Hf r Hp Ht. destruct (top_ex D HD tiny huge p c HI work Hw q Hq) as [r' [T1 T2 T3 T4 T5 T6 T7 _ _ _]].
  exact (built_ok D ltac:(lia) q tiny huge co r P T5 T6 T7 Ht sp Hsp cutoff rem [] b ids t Hb Hf P Hids (incl_refl _) Hp).
Qed.
Lemma old_size : exists l, Leaves t l /\ entries l <= Nat.pow (Nat.pow 2 D) rem * length P /\ height t <= rem /\ width t <= Nat.pow 2 D.
Proof.
  destruct (top_ex D HD tiny huge p c HI work Hw q Hq) as [r [T1 T2 T3 T4 T5 T6 T7 _ _ _]].
  destruct (built_leaves D ltac:(lia) q tiny huge co r P T5 T6 T7 T2 sp Hsp cutoff rem [] b ids t Hb P Hids (incl_refl _) T1) as (_ & l & HL & HE).
  exists l. split; [exact HL|]. split; [exact HE|]. split; [exact (built_height D ltac:(lia) q tiny huge co r P T5 T7 T2 sp Hsp cutoff rem [] b ids t Hb)|].
  exact (built_width D ltac:(lia) q tiny huge co r P T5 T6 T7 T2 sp Hsp cutoff rem [] b ids t Hb P Hids (incl_refl _) T1).
Qed.
Lemma old_filled : rem <= 1 \/ set_size ids <= cutoff \/ (sp = Extend /\ (tiny <= huge)%R) -> filled DN t.
Proof.
  intros H. destruct (top_ex D HD tiny huge p c HI work Hw q Hq) as [r [T1 T2 T3 T4 T5 T6 T7 _ _ _]].
  assert (H' : (rem <= 1 \/ set_size ids <= cutoff) \/ (sp = Extend /\ (tiny <= huge)%R)) by tauto. destruct H' as [H'|[He Hth]].
  - exact (filled_one D ltac:(lia) q tiny huge co r P T5 T6 T7 T2 sp Hsp cutoff rem [] b ids t P Hb Hids (incl_refl _) T1 old_fin H').
  - exact (filled_extend D ltac:(lia) q tiny huge co r P T5 T6 T7 T2 sp Hsp cutoff rem [] b ids t He Hth Hb P Hids (incl_refl _) T1).
Qed.
End Old.
