(** The recursion, called as DCTriangulator::triangulate does, on the points the constructor left. *)
From Coq Require Import Permutation.
From Verif Require Import Outcome ListUtil WordsModel SimplexModel PointModel PointProofs GeoModel GeoSpec PartModel PartProps InfModel InfProofs MergeModel TriSpec DelSpec PlaceSpec DelPlace DcModel DcSpec DcProofs DcEx MeshSpec MeshProofs SplitModel SplitProofs SplitEx TopSpec TopProofs.
Local Open Scope nat_scope.

Lemma ctor_ex D tiny huge p c work : 0 < D <= 30 -> input D tiny huge p c -> (forall i, In i (concat work) <-> is_fin_id p i) -> exists q, ctor_points D tiny huge p work = Val q.
Proof.
  intros HD HI Hw. assert (H30 : (N.of_nat D <= 30)%N) by lia. destruct (C35_stats_partial D p tiny huge (p_range p) c work H30) as (s & Es & _).
  - intros i Hi. apply (range_In (N.of_nat D) H30) in Hi; [|apply HI]. eapply fin_small; eauto.
  - intros i [Hi _]. apply (range_In (N.of_nat D) H30) in Hi; [|apply HI]. now apply HI.
  - intros i. rewrite Hw. symmetry. apply (range_In (N.of_nat D) H30). apply HI.
  - exists (add_infinite D p s). unfold ctor_points. now rewrite Es.
Qed.

Section Top.
Variable over : N -> N.
Variable D : nat.
Hypothesis HD : D = 2 \/ D = 3.
Notation DN := (N.of_nat D).
Variables tiny huge : R.
Variable p : points vec.
Variable c : N -> vec.
Hypothesis HI : input D tiny huge p c.
Variable work : list (list N).
Hypothesis Hw : forall i, In i (concat work) <-> is_fin_id p i.
Variable q : points vec.
Hypothesis Hq : ctor_points D tiny huge p work = Val q.
Variable hgt : N -> R.
Notation P := (id_keys DN q).
Hypothesis HB : breaks D (co_of D q) hgt P.
Variable cgal : list N -> N -> list cell -> Prop.
Hypothesis Hcgal : cgal_right DN (co_of D q) hgt P cgal.
Variable sp : splitter.
Hypothesis Hsp : forall k, sp = OneDim k -> k < D.
Variable depth : nat.
Hypothesis Hdepth : 6 * depth < 256.
Variable par_edge : bool.
Notation run := (dc_run over DN (co_of D q) cgal (splits D q tiny huge sp) depth par_edge).

Let HDN : DN = 2%N \/ DN = 3%N. Proof. clear - HD. destruct HD as [-> | ->]; [now left|now right]. Qed.
Let HDr : 0 < D <= 30. Proof. clear - HD. lia. Qed.
Let HDb : (0 < DN <= 30)%N. Proof. clear - HD. lia. Qed.
Let Dn : N.to_nat DN = D. Proof. apply Nat2N.id. Qed.

Lemma ctor_q : exists st, stats_par D p tiny huge true work = Val st /\ q = add_infinite D p st.
Proof. clear - Hq. unfold ctor_points in Hq. destruct (stats_par D p tiny huge true work) as [st| |]; cbn in Hq; try discriminate. injection Hq as <-. eauto. Qed.

(** What is used of the place of the points: each input point and each corner. *)
Record top_facts (r : vec) : Prop := mktop {
  tf_placed : placed DN (co_of D q) r P;
  tf_tiny : forall d, d < D -> (tiny <= r d)%R;
  tf_nodup : NoDup P;
  tf_nz : ~ In 0%N P;
  tf_len : (N.of_nat (length P) <= 2 ^ 60)%N;
  tf_get : forall v, In v P -> p_finite DN v = true -> p_get DN q v = Val (co_of D q v);
  tf_huge : forall v k, In v P -> p_finite DN v = true -> k < D -> (co_of D q v k <= huge)%R;
  tf_keys : forall v, In v P <-> is_fin_id p v \/ is_inf_id DN v;
  tf_fin : forall v, is_fin_id p v -> co_of D q v = c v;
  tf_far : forall d j k, d < D -> is_fin_id p j -> is_fin_id p k -> (200 * (c j d - c k d) <= r d)%R }.
Lemma top_ex : exists r, top_facts r.
Proof.
  clear HB Hcgal Hsp Hdepth. destruct ctor_q as (st & Est & Eq). exists (far st). constructor; rewrite ?Eq.
  - eapply ctor_placed; eauto.
  - intros d Hd. eapply far_tiny; eauto.
  - eapply q_nodup; eauto.
  - eapply q_nz; eauto.
  - pose proof (top_pow D HDr) as Hp. pose proof (keys_length DN (proj2 HDb) (add_infinite D p st)) as Hk.
    assert (Hfs : finite_size (add_infinite D p st) = finite_size p) by (assert (Hl : length (p_infs p) = (2 ^ D)%nat) by (destruct (in_ok _ _ _ _ _ HI) as [_ [_ H]]; rewrite <- pow_of_nat in H; lia);
      destruct (add_infinite_spec D (top30 D HDr) p st Hl) as [A1 _]; unfold finite_size; now rewrite A1).
    pose proof (in_size _ _ _ _ _ HI) as Hs. rewrite Hk, Hfs; [|eapply q_ok; eauto]. unfold finite_size. lia.
  - intros v Hv Hf. eapply q_fin_in in Hv; eauto. rewrite (q_fin D HDr tiny huge p c HI) by exact Hv. now rewrite (q_co D HDr tiny huge p c HI) by exact Hv.
  - intros v k Hv Hf Hk. eapply q_fin_in in Hv; eauto. rewrite (q_co D HDr tiny huge p c HI) by exact Hv. now apply (in_huge _ _ _ _ _ HI).
  - intros v. eapply q_keys; eauto.
  - intros v Hv. eapply q_co; eauto.
  - intros d j k Hd Hj Hk. eapply far_ext; eauto.
Qed.

Lemma cgal_placed r : top_facts r -> forall S last cells, NoDup S -> incl S P -> placed DN (co_of D q) r S -> cgal S last cells -> cgal_ok DN (co_of D q) hgt S last cells.
Proof. intros _ S last cells Hn Hs Hp. apply Hcgal; auto. apply Hp. Qed.
Lemma placed_two r : top_facts r -> forall S, NoDup S -> incl S P -> placed DN (co_of D q) r S -> (500 < N.of_nat (length S))%N -> exists u v, In u S /\ In v S /\ p_finite DN u = true /\ p_finite DN v = true /\ u <> v.
Proof.
  clear Hdepth depth. intros T S Hn Hs Hp Hl. apply (two_fin D ltac:(lia) q tiny huge (co_of D q) r S Hp Hn); [| | |lia].
  - intros v Hv. apply (tf_get _ T). now apply Hs.
  - intros v k Hv. apply (tf_huge _ T). now apply Hs.
  - apply T.
Qed.
Lemma splits_placed r : top_facts r -> forall prov S ps, NoDup S -> incl S P -> placed DN (co_of D q) r S -> (500 < N.of_nat (length S))%N -> splits D q tiny huge sp prov S ps -> split_ok DN (co_of D q) r S ps.
Proof.
  clear Hdepth depth. intros T prov S ps Hn Hs Hp Hl H. apply (splits_ok D ltac:(lia) q tiny huge (co_of D q) r S Hp Hn) with (sp := sp) (prov := prov); auto.
  - pose proof (NoDup_incl_length Hn Hs). pose proof (tf_len _ T). lia.
  - intros v Hv. apply (tf_get _ T). now apply Hs.
  - intros v k Hv. apply (tf_huge _ T). now apply Hs.
  - apply T.
  - destruct (placed_two r T S Hn Hs Hp Hl) as (u & _ & Hu & _ & Hf & _). eauto.
Qed.
Lemma splits_run r : top_facts r -> forall prov S, NoDup S -> incl S P -> placed DN (co_of D q) r S -> (500 < N.of_nat (length S))%N ->
  exists ps, splits D q tiny huge sp prov S ps /\ (N.of_nat (length ps) <= 2 ^ DN)%N.
Proof.
  clear Hdepth depth. intros T prov S Hn Hs Hp Hl. destruct (placed_two r T S Hn Hs Hp Hl) as (u & v & Hu & Hv & Hfu & Hfv & Hne). assert (H2f : exists u v, In u S /\ In v S /\ p_finite DN u = true /\ p_finite DN v = true /\ u <> v) by (exists u, v; auto).
  assert (H1f : exists u, In u S /\ p_finite DN u = true) by eauto. clear u v Hu Hv Hfu Hfv Hne.
  destruct (splits_ex D ltac:(lia) q tiny huge (co_of D q) r S Hp Hn) with (sp := sp) (prov := prov) as (ps & H & Hk); auto.
  - pose proof (NoDup_incl_length Hn Hs). pose proof (tf_len _ T). lia.
  - intros v Hv. apply (tf_get _ T). now apply Hs.
  - intros v k Hv. apply (tf_huge _ T). now apply Hs.
  - apply T.
  - intros H0. apply (tf_nz _ T), Hs, H0.
  - exists ps. split; [exact H|]. assert (E : N.of_nat (Nat.pow 2 D) = (2 ^ DN)%N) by (destruct HD as [-> | ->]; reflexivity). rewrite <- E. lia.
Qed.
Lemma breaks_n : breaks (N.to_nat DN) (co_of D q) hgt P. Proof. now rewrite Dn. Qed.
Lemma top_whole out takes : run [] P out takes -> takes_ok takes -> done over DN (co_of D q) hgt depth P out takes.
Proof.
  intros Hr Ht. destruct top_ex as [r T].
  apply (run_done over DN HDN (co_of D q) hgt r P (tf_placed _ T) breaks_n cgal (cgal_placed r T) (splits D q tiny huge sp) (splits_placed r T) depth Hdepth par_edge depth [] P out takes); auto.
  - cbn. lia.
  - apply T.
  - apply incl_refl.
  - apply T.
Qed.
Lemma top_done out takes : run [] P out takes -> takes_ok takes -> triangulation over DN (co_of D q) hgt P out.
Proof. intros Hr Ht. exact (proj1 (top_whole out takes Hr Ht)). Qed.
Lemma top_mesh out r : top_facts r -> triangulation over DN (co_of D q) hgt P out -> mesh DN (co_of D q) r P out.
Proof. intros T H. exact (tri_mesh over DN HDb (co_of D q) hgt r P (tf_placed _ T) breaks_n out H). Qed.

Variable M : N.
Hypothesis Hends : cgal_ends DN P M cgal.
Lemma top_run c0 : (c0 + (2 ^ DN + 1) ^ N.of_nat depth * M < 2 ^ 64)%N -> ((2 ^ DN + 1) ^ N.of_nat depth < 2 ^ 32)%N ->
  exists out takes, run [] P out takes /\ fetched c0 takes /\ (total takes <= (2 ^ DN + 1) ^ N.of_nat depth * M)%N /\ (N.of_nat (length takes) <= (2 ^ DN + 1) ^ N.of_nat depth)%N.
Proof.
  intros H1 H2. destruct top_ex as [r T].
  apply (run_ex over DN HDN (co_of D q) hgt r P (tf_placed _ T) breaks_n cgal (cgal_placed r T) (splits D q tiny huge sp) (splits_placed r T) depth Hdepth par_edge M (2 ^ DN)); auto.
  - intros S Hn Hs Hp. apply Hends; auto. apply Hp.
  - exact (splits_run r T).
  - cbn. lia.
  - apply T.
  - apply incl_refl.
  - apply T.
Qed.
End Top.
