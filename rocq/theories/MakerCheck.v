(** Proofs about the checkers the partition makers build. *)
From Coq Require Import Reals Lia Lra List.
From Verif Require Import Outcome ListUtil WordsModel LPSetModel SimplexModel PointModel GeoModel GeoSpec GeoProofs GeoBox PartModel AABBModel AABBProofs AABBTop KWayModel KWayProofs MakerModel.
Open Scope list_scope.
Import ListNotations.
Local Open Scope R_scope.

Section C.
Variable D : nat.
Variable pts : points vec.
Notation Dn := (N.of_nat D).
Variable co : N -> vec.

(** A checker with the box of the points of the partition reports every ball with one of them. *)
Lemma bounds_meets_ok l b s i : (0 < D)%nat -> bounding D (map co l) = Some b -> In i l -> in_ball D s (co i) -> bounds_meets D (Some b) s = Val true.
Proof using.
  intros HD Hb Hi Hs. destruct (bounding_spec D (map co l)) as (b' & E & Hok & Hin & _); [intros X; destruct l; [destruct Hi|discriminate]|].
  assert (b' = b) by congruence. subst b'. unfold bounds_meets. f_equal. apply box_meets_spec; [exact Hok|exact HD|]. exists (co i). split; [|exact Hs]. apply Hin. now apply in_map.
Qed.

Variable w : R.
Notation same := (AABBTop.same D).
Notation reaches := (reaches D w).
Notation meets_cell := (meets_cell D w).

Lemma same_cell_iff i j : same_cell D i j = true <-> same i j.
Proof using.
  unfold same_cell, AABBTop.same. rewrite forallb_forall. split.
  - intros H d Hd. apply Z.eqb_eq, H. apply in_seq. lia.
  - intros H d Hd. apply in_seq in Hd. apply Z.eqb_eq, H. lia.
Qed.
Lemma same_trans i j k : same i j -> same j k -> same i k.
Proof using. intros H1 H2 d Hd. rewrite (H1 d Hd). now apply H2. Qed.
Lemma same_symm i j : same i j -> same j i.
Proof using. intros H d Hd. symmetry. now apply H. Qed.
Lemma same_refl i : same i i.
Proof using. intros d Hd. reflexivity. Qed.
Lemma reaches_same b i j : same i j -> reaches b i -> reaches b j.
Proof using. intros E H d Hd. rewrite <- (E d Hd). now apply H. Qed.
Lemma meets_same s i j : same i j -> meets_cell s i -> meets_cell s j.
Proof using. intros E (p & Hp & Hb). exists p. split; [|exact Hb]. intros d Hd. rewrite <- (E d Hd). now apply Hp. Qed.

Variable zi : N -> nat -> Z.
Lemma m_cells_ok : forall ids, (forall i, In i ids -> p_get Dn pts i = Val (co i) /\ index_at D w (co i) = Val (zi i)) ->
  exists cells, m_cells D pts w ids = Val cells /\ (forall z, In z cells -> exists i, In i ids /\ z = zi i) /\ forall i, In i ids -> exists z, In z cells /\ same z (zi i).
Proof using.
  induction ids as [|i ids IH]; intros H; cbn [m_cells].
  - exists []. split; [reflexivity|]. split; intros x [].
  - destruct (H i (or_introl eq_refl)) as [-> E]. cbn [rbind]. rewrite E. cbn [rbind]. destruct IH as (cells & -> & C1 & C2); [intros; apply H; now right|]. cbn [rmap]. eexists. split; [reflexivity|].
    destruct (existsb (same_cell D (zi i)) cells) eqn:Ex.
    + split; [intros z Hz; destruct (C1 z Hz) as (j & Hj & Ej); exists j; split; [now right|exact Ej]|]. intros j [<-|Hj]; [|now apply C2].
      apply existsb_exists in Ex. destruct Ex as (z & Hz & Ez). exists z. split; [exact Hz|]. apply same_symm, same_cell_iff, Ez.
    + split.
      * intros z [<-|Hz]; [exists i; split; [now left|reflexivity]|]. destruct (C1 z Hz) as (j & Hj & Ej); exists j; split; [now right|exact Ej].
      * intros j [<-|Hj]; [exists (zi i); split; [now left|apply same_refl]|]. destruct (C2 j Hj) as (z & Hz & Ez). exists z. split; [now right|exact Ez].
Qed.

Hypothesis HD : (0 < D)%nat.
Hypothesis Hw : 0 < w.
Variable l : list N.
Hypothesis Hco : forall i, In i l -> p_get Dn pts i = Val (co i) /\ index_at D w (co i) = Val (zi i).
Hypothesis Hz : forall i d, In i l -> (d < D)%nat -> (- 2 ^ 63 <= zi i d < 2 ^ 63 - 1)%Z.

Lemma grid_ok b : exists t, returns (fun f => grid_checker D pts w f (Some b) l) t /\
  (forall s, node_meets D t s = true <-> exists i, In i l /\ reaches b (zi i) /\ meets_cell s (zi i)) /\
  (forall s, exists cs, node_cells D w t s = Val cs /\
     (forall j, In j cs -> exists i, In i l /\ same j (zi i) /\ reaches b (zi i) /\ meets_cell s (zi i)) /\
     (forall i, In i l -> reaches b (zi i) -> meets_cell s (zi i) -> exists j, In j cs /\ same j (zi i))).
Proof using HD Hw Hco Hz.
  destruct (m_cells_ok l Hco) as (cells & Ec & C1 & C2). destruct (checker_spec D w HD Hw b cells) as (t & Ht & Hm & Hn).
  { intros z Hin. destruct (C1 z Hin) as (i & Hi & ->). intros d Hd. now apply Hz. }
  exists t. split; [destruct Ht as [n Hf]; exists n; intros f Lf; unfold grid_checker; rewrite Ec; cbn [rbind]; now apply Hf|]. split.
  - intros s. rewrite Hm. split.
    + intros (z & Hin & Hr & Hs). destruct (C1 z Hin) as (i & Hi & ->). now exists i.
    + intros (i & Hi & Hr & Hs). destruct (C2 i Hi) as (z & Hin & E). apply same_symm in E. exists z. split; [exact Hin|]. split; [exact (reaches_same b _ _ E Hr)|exact (meets_same s _ _ E Hs)].
  - intros s. destruct (Hn s) as (cs & E1 & E2 & E3). exists cs. split; [exact E1|]. split.
    + intros j Hj. destruct (E2 j Hj) as (z & Hin & Hs & Hr & Hme). destruct (C1 z Hin) as (i & Hi & ->). now exists i.
    + intros i Hi Hr Hs. destruct (C2 i Hi) as (z & Hin & E). destruct (E3 z Hin) as (j & Hj & Ej); [exact (reaches_same b _ _ (same_symm _ _ E) Hr)|exact (meets_same s _ _ (same_symm _ _ E) Hs)|]. exists j. split; [exact Hj|]. exact (same_trans _ _ _ Ej E).
Qed.
(** A point of the partition in the ball, away from the border of the box: its cell is kept and meets the ball. *)
Lemma own_cell b s i : bounding D (map co l) = Some b -> In i l -> in_ball D s (co i) -> (forall d z, (d < D)%nat -> ~ (co i d = b_hi b d /\ co i d = IZR z * w)) ->
  reaches b (zi i) /\ meets_cell s (zi i).
Proof using HD Hw Hco.
  clear Hz.
  intros Hb Hi Hs Hg. destruct (bounding_spec D (map co l)) as (b' & E & Hok & Hin & _); [intros X; destruct l; [destruct Hi|discriminate]|].
  assert (b' = b) by congruence. subst b'. destruct (Hco i Hi) as [_ Ei]. pose proof (index_at_val D w _ _ Ei Hw) as Hv. split.
  - apply (proj2 (points_reach D w b (co i) (zi i) (Hin _ (in_map co l i Hi)) Hv)). intros d Hd. now apply Hg.
  - exists (co i). split; [|exact Hs]. intros d Hd. specialize (Hv d Hd). lra.
Qed.

(** ** The cells with their ids *)
Lemma cm_find_add z y i : forall m, cm_find D z (cm_add D y i m) = if same_cell D z y then match cm_find D z m with Val l => Val (l ++ [i]) | _ => Val [i] end else cm_find D z m.
Proof using.
  induction m as [|[x lx] m IH]; cbn [cm_add cm_find].
  - destruct (same_cell D z y) eqn:E; reflexivity.
  - destruct (same_cell D y x) eqn:Ey; cbn [cm_find].
    + destruct (same_cell D z x) eqn:Ez.
      * assert (same_cell D z y = true) as ->; [|reflexivity]. apply same_cell_iff. apply same_cell_iff in Ey, Ez. eapply same_trans; [exact Ez|now apply same_symm].
      * assert (same_cell D z y = false) as ->; [|reflexivity]. destruct (same_cell D z y) eqn:E; [|reflexivity]. apply same_cell_iff in Ey, E. assert (same_cell D z x = true) by (apply same_cell_iff; eapply same_trans; eauto). congruence.
    + destruct (same_cell D z x) eqn:Ez; [|exact IH].
      assert (same_cell D z y = false) as ->; [|reflexivity]. destruct (same_cell D z y) eqn:E; [|reflexivity]. apply same_cell_iff in Ez, E. assert (same_cell D y x = true) by (apply same_cell_iff; eapply same_trans; [apply same_symm, E|exact Ez]). congruence.
Qed.
Definition cm_holds (m : cellmap) (ids : list N) : Prop :=
  (forall z lz, cm_find D z m = Val lz -> forall i, In i lz <-> In i ids /\ same z (zi i)) /\
  (forall i z, In i ids -> same z (zi i) -> exists lz, cm_find D z m = Val lz).
Lemma cm_build_ok : forall ids, (forall i, In i ids -> p_get Dn pts i = Val (co i) /\ index_at D w (co i) = Val (zi i)) -> forall m done, cm_holds m done ->
  exists m', cm_build D pts w ids m = Val m' /\ cm_holds m' (done ++ ids).
Proof using.
  induction ids as [|i ids IH]; intros H m done Hm; cbn [cm_build].
  - exists m. rewrite app_nil_r. auto.
  - destruct (H i (or_introl eq_refl)) as [-> E]. cbn [rbind]. rewrite E. cbn [rbind].
    destruct (IH ltac:(intros; apply H; now right) (cm_add D (zi i) i m) (done ++ [i])) as (m' & H1 & H2); [|exists m'; rewrite <- app_assoc in H2; auto].
    destruct Hm as [M1 M2]. split.
    + intros z lz. rewrite cm_find_add. destruct (same_cell D z (zi i)) eqn:Es.
      * apply same_cell_iff in Es. destruct (cm_find D z m) as [l0| |] eqn:E0; intros X; injection X as <-; intros x; rewrite ?in_app_iff; cbn [In].
        -- rewrite (M1 z l0 E0). intuition (subst; auto).
        -- split; [intros [<-|[]]; auto|]. intros [[Hx|[<-|[]]] Hs]; [|auto]. destruct (M2 x z Hx Hs). congruence.
        -- split; [intros [<-|[]]; auto|]. intros [[Hx|[<-|[]]] Hs]; [|auto]. destruct (M2 x z Hx Hs). congruence.
      * intros X x. rewrite (M1 z lz X), in_app_iff. cbn [In]. assert (Ns : ~ same z (zi i)) by (intros Y; apply same_cell_iff in Y; congruence). intuition (subst; auto; try contradiction).
    + intros x z Hx Hs. rewrite cm_find_add. destruct (same_cell D z (zi i)) eqn:Es; [destruct (cm_find D z m); eauto|].
      apply in_app_iff in Hx. destruct Hx as [Hx|[<-|[]]]; [eauto|]. apply same_cell_iff in Hs. congruence.
Qed.
Lemma acc_loop_ok hit ids m : cm_holds m ids -> forall cs, (forall z, In z cs -> exists i, In i ids /\ same z (zi i)) ->
  exists v, acc_loop D hit ids m cs = Val v /\ (v = true <-> exists z i, In z cs /\ In i ids /\ same z (zi i) /\ hit i = true).
Proof using.
  intros [M1 M2]. induction cs as [|z cs IH]; intros H; cbn [acc_loop].
  - exists false. split; [reflexivity|]. split; [discriminate|]. intros (z & i & [] & _).
  - destruct (H z (or_introl eq_refl)) as (i0 & Hi0 & Es). destruct (M2 i0 z Hi0 Es) as [lz Ez]. rewrite Ez. cbn [rbind]. destruct (existsb _ lz) eqn:Ex.
    + exists true. split; [reflexivity|]. split; [|auto]. intros _. apply existsb_exists in Ex. destruct Ex as (i & Hi & Hh). apply andb_prop in Hh. destruct Hh as [_ Hh]. apply (M1 z lz Ez) in Hi. destruct Hi as [A B]. exists z, i. repeat split; auto. now left.
    + destruct IH as (v & Ev & Hv); [intros; apply H; now right|]. exists v. split; [exact Ev|]. rewrite Hv. split.
      * intros (y & i & A & B). exists y, i. split; [now right|exact B].
      * intros (y & i & [<-|A] & B & C & F); [|exists y, i; auto]. exfalso. assert (X : existsb (fun i : N => k_mem i ids && hit i) lz = true); [|congruence]. apply existsb_exists. exists i. split; [now apply (M1 z lz Ez)|]. rewrite F. apply k_mem_iff in B. now rewrite B.
Qed.
Lemma acc_ok b ids : (forall i, In i l -> In i ids) -> (forall i, In i ids -> p_get Dn pts i = Val (co i) /\ index_at D w (co i) = Val (zi i)) ->
  exists t m, returns (fun f => grid_checker D pts w f (Some b) l) t /\ cm_build D pts w ids [] = Val m /\
  forall hit s, exists v, acc_meets D w t hit ids m s = Val v /\
    (v = true <-> exists i j, In i l /\ reaches b (zi i) /\ meets_cell s (zi i) /\ In j ids /\ same (zi j) (zi i) /\ hit j = true).
Proof using HD Hw Hco Hz.
  intros Hsub Hall. destruct (grid_ok b) as (t & Ht & _ & Hc). destruct (cm_build_ok ids Hall [] []) as (m & Em & Hm).
  { split; [intros z lz X; discriminate|intros i z []]. }
  exists t, m. split; [exact Ht|]. split; [exact Em|]. intros hit s. unfold acc_meets. destruct (Hc s) as (cs & Ecs & C1 & C2). rewrite Ecs. cbn [rbind].
  destruct (acc_loop_ok hit ids m Hm cs) as (v & Ev & Hv).
  { intros z Hin. destruct (C1 z Hin) as (i & Hi & Es & _). exists i. auto. }
  exists v. split; [exact Ev|]. rewrite Hv. split.
  - intros (z & j & A & B & C & F). destruct (C1 z A) as (i & Hi & Es & Hr & Hs). exists i, j. exact (conj Hi (conj Hr (conj Hs (conj B (conj (same_trans _ _ _ (same_symm _ _ C) Es) F))))).
  - intros (i & j & A & B & C & F & G & K). destruct (C2 i A B C) as (z & Hin & Es). exists z, j. exact (conj Hin (conj F (conj (same_trans _ _ _ Es (same_symm _ _ G)) K))).
Qed.
End C.
