(** Points in a box: heights that break ties exist, there are Delaunay simplices, and partitionings are divisions. *)
From Coq Require Import Permutation Classical Lra Lia.
From Verif Require Import Outcome ListUtil SimplexModel PointProofs GeoModel GeoSpec GeoProofs GeoBox DelSpec DelGeo DelMerge PlaceSpec.
Local Open Scope R_scope.

(** ** Some simplex *)
Section Some.
Variable D : nat.
Variable co : N -> vec.
Variable hgt : N -> R.
Notation dt := (dt D co hgt).
Notation general := (general D co hgt).
Hypothesis HD : (0 < D)%nat.

Lemma bound_of (f : N -> R) l : exists B, forall u, In u l -> Rabs (f u) <= B.
Proof.
  induction l as [|a l [B HB]]; [exists 0; intros u []|]. exists (Rmax (Rabs (f a)) B). intros u [<-|Hu]; [apply Rmax_l|]. eapply Rle_trans; [apply HB, Hu|apply Rmax_r].
Qed.
Lemma affine_coord d c b : (d < D)%nat -> affine D (fun z => c * z d + b).
Proof.
  intros Hd. exists (fun i => if Nat.eqb i d then c else 0), b. intros x. f_equal.
  assert (X : forall n, (n <= D)%nat -> sumn n (fun i => (if Nat.eqb i d then c else 0) * x i) = if (d <? n)%nat then c * x d else 0).
  { induction n as [|n IH]; intros Hn; cbn [sumn]; [reflexivity|]. rewrite IH by lia. destruct (Nat.eqb_spec n d) as [->|Hne].
    - replace (d <? d)%nat with false by (symmetry; apply Nat.ltb_irrefl). replace (d <? S d)%nat with true by (symmetry; apply Nat.ltb_lt; lia). lra.
    - destruct (Nat.ltb_spec d n), (Nat.ltb_spec d (S n)); try lia; lra. }
  rewrite (X D (le_n _)). replace (d <? D)%nat with true by (symmetry; now apply Nat.ltb_lt). reflexivity.
Qed.
(** One more point. *)
Lemma dt_grow S s q : general S -> dt S s -> exists s', dt (q :: S) s'.
Proof.
  intros G Hs. destruct (classic (exists f k, dt S f /\ through D co hgt f k /\ k (co q) <= hgt q)) as [(f & k & Hf & Hk & Hle)|Hno].
  - exists f. pose proof Hf as (H1 & H2 & k' & Hk' & H3). split; [intros v Hv; right; auto|]. split; [exact H2|]. exists k'. split; [exact Hk'|]. intros u [<-|Hu]; [|auto].
    rewrite (plane_uniq D co hgt f k' k H2 Hk' Hk). exact Hle.
  - assert (X : exists v d, In v s /\ (d < D)%nat /\ co v d <> co q d).
    { apply NNPP. intros Hn. assert (E : forall v, In v s -> veq D (co v) (co q)) by (intros v Hv d Hd; apply NNPP; intros C; apply Hn; eauto).
      destruct Hs as (_ & (Nd & Hlen & L & HL) & _). destruct s as [|a [|b s]]; cbn in Hlen; [lia|lia|]. destruct HL as (A1 & A2 & A3 & _).
      assert (a <> b) by (inversion Nd as [|? ? Ha _]; subst; intros ->; apply Ha; now left). pose proof (A2 a ltac:(now left)) as E1. pose proof (A3 a b ltac:(now left) ltac:(right; now left) ltac:(assumption)) as E2.
      rewrite (affine_veq D (L a) (co a) (co q)) in E1; [|apply A1; now left|apply E; now left]. rewrite (affine_veq D (L a) (co b) (co q)) in E2; [lra|apply A1; now left|apply E; right; now left]. }
    destruct X as (v & e & Hv & He & Hne). assert (HvS : In v S) by (destruct Hs; auto).
    destruct (bound_of (fun u => co u e) S) as [B HB]. set (w := co v e - co q e). assert (Hw : w <> 0) by (unfold w; lra).
    pose proof (Rabs_pos (co q e)) as Hq0. assert (HB0 : 0 <= B) by (pose proof (HB v HvS); pose proof (Rabs_pos (co v e)); lra).
    set (T := (B + Rabs (co q e) + 1) / Rabs w). assert (Hwp : 0 < Rabs w) by (now apply Rabs_pos_lt).
    assert (ET : T * Rabs w = B + Rabs (co q e) + 1) by (unfold T; field; lra). assert (HT : 0 < T) by (unfold T; apply Rdiv_lt_0_compat; lra).
    (* far beyond [v] *)
    set (p := line (co q) (co v) (1 + T)).
    assert (Hp : ~ hull_of D co S p).
    { intros Hh. assert (P : p e = co v e + T * w) by (unfold p, line, w; lra). destruct (Rle_lt_dec 0 w) as [Hw'|Hw'].
      - rewrite (Rabs_right w) in ET by lra. pose proof (Hh (fun z => -1 * z e + B) (affine_coord e (-1) B He)) as H. cbn beta in H.
        assert (0 <= -1 * p e + B) by (apply H; intros u Hu; pose proof (HB u Hu); pose proof (Rle_abs (co u e)); lra).
        assert (- Rabs (co q e) <= co q e) by (pose proof (Rle_abs (- co q e)); rewrite Rabs_Ropp in *; lra). unfold w in *. lra.
      - rewrite (Rabs_left w) in ET by lra. pose proof (Hh (fun z => 1 * z e + B) (affine_coord e 1 B He)) as H. cbn beta in H.
        assert (0 <= 1 * p e + B) by (apply H; intros u Hu; pose proof (HB u Hu); pose proof (Rle_abs (- co u e)); rewrite Rabs_Ropp in *; lra).
        pose proof (Rle_abs (co q e)). unfold w in *. lra. }
    revert s Hs Hv. intros s Hs _. revert s Hs. apply (towards D co hgt S p (fun _ => exists s', dt (q :: S) s') G). intros s L k Hs HL Hk Hf IH.
    destruct (classic (exists d, In d s /\ L d p < 0)) as [(d & Hd & Hlt)|Hin].
    + destruct (classic (exists u, In u S /\ L d (co u) < 0)) as [Hu|Hu].
      * destruct (next_one D co hgt S s L k p d G Hs HL Hk Hf Hd Hlt Hu) as (a & k' & H1 & H2 & H3 & H4 & H5 & H6). eapply IH; eauto.
      * pose proof Hs as (HsS & (Nd & Hlen & _) & _). assert (Pos : forall u, In u S -> 0 <= L d (co u)) by (intros u Hu'; destruct (Rle_lt_dec 0 (L d (co u))); [assumption|exfalso; eauto]).
        assert (Aff : affine D (L d)) by (destruct HL; auto). assert (Lq : 0 < L d (co q)).
        { unfold p in Hlt. rewrite (affine_line D (L d) (co q) (co v) (1 + T) Aff) in Hlt. pose proof (Pos v HvS). nra. }
        assert (Hbl : hgt q < k (co q)) by (destruct (Rlt_le_dec (hgt q) (k (co q))); [assumption|exfalso; apply Hno; exists s, k; auto]).
        assert (Hqs : ~ In q s) by (intros C; destruct Hk as [_ Hk]; rewrite (Hk q C) in Hbl; lra).
        destruct (full_swap D co hgt s L d q Nd Hlen HL Hd) as (F1 & F2 & L' & F3 & _); [lra|exact Hqs|]. exists (q :: remove N.eq_dec d s). split.
        { intros u [<-|Hu']; [now left|]. right. apply HsS. now apply in_remove in Hu'. }
        split; [split; [exact F1|]; split; [exact F2|]; eauto|]. set (c := (hgt q - k (co q)) / L d (co q)).
        assert (Ec : c * L d (co q) = hgt q - k (co q)) by (unfold c; field; lra). assert (Hc : c <= 0) by nra.
        exists (fun x => k x + c * L d x). split; [split|].
        -- apply affine_add; [apply Hk|]. now apply affine_scale.
        -- intros u [<-|Hu']; [lra|]. apply in_remove in Hu' as [Hu1 Hu2]. destruct HL as (_ & _ & A3 & _). rewrite (A3 d u Hd Hu1) by congruence. destruct Hk as [_ Hk]. rewrite (Hk u Hu1). lra.
        -- intros u [<-|Hu']; [lra|]. pose proof (Hf u Hu'). pose proof (Pos u Hu'). nra.
    + exfalso. apply Hp. intros g Ga Gp. rewrite (interp D co s L HL g p Ga). apply lsum_nonneg. intros u Hu. destruct Hs as (HsS & _).
      assert (0 <= L u p) by (destruct (Rle_lt_dec 0 (L u p)); [assumption|exfalso; eauto]). apply Rmult_le_pos; auto.
Qed.
Lemma generic_general S S' : generic D co hgt S -> (forall v, In v S' -> In v S) -> general S'.
Proof. intros G H s k q (H1 & H2 & _) Hk Hq E. apply (G s k q); auto. Qed.
Lemma generic_sub S S' : generic D co hgt S -> (forall v, In v S' -> In v S) -> generic D co hgt S'.
Proof. intros G H s k q H1 H2 Hk Hq E. apply (G s k q); auto. Qed.
Lemma ties_sub S S' : ties D co hgt S -> (forall v, In v S' -> In v S) -> ties D co hgt S'.
Proof. intros T H s k c r2 q H1. intros. apply T with (s := s); auto. Qed.
Lemma dt_same_set S S' s : (forall v, In v S <-> In v S') -> dt S s -> dt S' s.
Proof. intros H Hs. eapply dt_mono; [exact Hs| |]; intros v Hv; [apply H; destruct Hs; auto|now apply H]. Qed.
(** A full simplex in [S] is enough. *)
Lemma dt_ex S s0 : generic D co hgt S -> full D co s0 -> (forall v, In v s0 -> In v S) -> exists s, dt S s.
Proof.
  intros G F0 H0. assert (X : forall l, (forall v, In v l -> In v S) -> exists s, dt (l ++ s0) s).
  { induction l as [|q l IH]; intros Hl.
    - exists s0. cbn [app]. split; [auto|]. split; [exact F0|]. destruct (plane_ex D co hgt s0 F0) as [k Hk]. exists k. split; [exact Hk|]. intros u Hu. destruct Hk as [_ Hk]. rewrite (Hk u Hu). lra.
    - destruct IH as [s Hs]; [intros; apply Hl; now right|]. cbn [app]. apply (dt_grow (l ++ s0) s q); [|exact Hs]. apply (generic_general S _ G). intros v Hv. apply in_app_or in Hv as [Hv|Hv]; [apply Hl; now right|auto]. }
  destruct (X S (fun v H => H)) as [s Hs]. exists s. eapply dt_same_set; [|exact Hs]. intros v. rewrite in_app_iff. split; [intros [|]; auto|auto].
Qed.
End Some.

(** ** Heights that break ties *)
(** For all small positive t. *)
Definition ev (P : R -> Prop) : Prop := exists e, 0 < e /\ forall t, 0 < t < e -> P t.
Lemma ev_and P Q : ev P -> ev Q -> ev (fun t => P t /\ Q t).
Proof.
  intros (e & He & H) (f & Hf & H'). exists (Rmin e f). split; [now apply Rmin_pos|]. intros t [Ht Ht']. pose proof (Rmin_l e f). pose proof (Rmin_r e f). split; [apply H|apply H']; split; lra.
Qed.
Lemma ev_all {A} (l : list A) (P : A -> R -> Prop) : (forall x, In x l -> ev (P x)) -> ev (fun t => forall x, In x l -> P x t).
Proof.
  induction l as [|a l IH]; intros H; [exists 1; split; [lra|]; intros t _ x []|]. destruct (ev_and (P a) (fun t => forall x, In x l -> P x t)) as (e & He & H').
  - apply H. now left.
  - apply IH. intros x Hx. apply H. now right.
  - exists e. split; [exact He|]. intros t Ht x [<-|Hx]; destruct (H' t Ht) as [H1 H2]; auto.
Qed.
Lemma ev_imp (P Q : R -> Prop) : (forall t, P t -> Q t) -> ev P -> ev Q.
Proof. intros H (e & He & H'). exists e. split; [exact He|]. auto. Qed.
(** Polynomials. *)
Fixpoint peval (c : list R) (t : R) : R := match c with [] => 0 | a :: r => a + t * peval r t end.
Lemma peval_bound c : exists B, 0 < B /\ forall t, 0 <= t <= 1 -> Rabs (peval c t) <= B.
Proof.
  induction c as [|a c (B & HB & H)]; cbn [peval]; [exists 1; split; [lra|]; intros; rewrite Rabs_R0; lra|]. exists (Rabs a + B). pose proof (Rabs_pos a). split; [lra|]. intros t Ht.
  eapply Rle_trans; [apply Rabs_triang|]. rewrite Rabs_mult. rewrite (Rabs_right t) by lra. pose proof (H t Ht). pose proof (Rabs_pos (peval c t)). nra.
Qed.
Lemma peval_head a c : a <> 0 -> ev (fun t => (0 < a -> 0 < a + t * peval c t) /\ (a < 0 -> a + t * peval c t < 0)).
Proof.
  intros Ha. destruct (peval_bound c) as (B & HB & H). pose proof (Rabs_pos_lt a Ha) as Hp. exists (Rmin 1 (Rabs a / (2 * B))).
  split; [apply Rmin_pos; [lra|]; apply Rdiv_lt_0_compat; lra|]. intros t [Ht Ht']. pose proof (Rmin_l 1 (Rabs a / (2 * B))). pose proof (Rmin_r 1 (Rabs a / (2 * B))).
  assert (Hb : Rabs (t * peval c t) <= Rabs a / 2).
  { rewrite Rabs_mult, (Rabs_right t) by lra. pose proof (H t ltac:(lra)) as Hc. pose proof (Rabs_pos (peval c t)). apply Rle_trans with (Rabs a / (2 * B) * B); [nra|]. right. field. lra. }
  pose proof (Rle_abs (t * peval c t)). pose proof (Rle_abs (- (t * peval c t))) as Hn. rewrite Rabs_Ropp in Hn. split; intros Hs.
  - rewrite (Rabs_right a) in Hb by lra. lra.
  - rewrite (Rabs_left a) in Hb by lra. lra.
Qed.
Lemma peval_nonzero c : (exists a, In a c /\ a <> 0) -> ev (fun t => peval c t <> 0).
Proof.
  induction c as [|a c IH]; intros (x & Hx & Hne); [destruct Hx|]. cbn [peval]. destruct (Req_dec a 0) as [->|Ha].
  - destruct IH as (e & He & H); [destruct Hx as [C|Hx]; [exfalso; now apply Hne|eauto]|]. exists e. split; [exact He|]. intros t Ht. pose proof (H t Ht) as Hp. intros C.
    assert (Z : t * peval c t = 0) by lra. apply Rmult_integral in Z as [Z|Z]; [lra|contradiction].
  - eapply ev_imp; [|apply (peval_head a c Ha)]. cbn beta. intros t [H1 H2] C. destruct (Rtotal_order a 0) as [H|[H|H]]; [specialize (H2 H); lra|contradiction|specialize (H1 H); lra].
Qed.

Section Heights.
Variable D : nat.
Variable co : N -> vec.
(** The point at position i of the list is raised by t^(i + 1). *)
Fixpoint raise (l : list N) (u : N) (t : R) : R := match l with [] => 0 | a :: r => if N.eqb a u then 1 else t * raise r u t end.
Definition norm2 (x : vec) : R := sumn D (fun d => x d * x d).
Definition raised (l : list N) (t : R) (u : N) : R := norm2 (co u) + t * raise l u t.
Lemma raise_out l u t : ~ In u l -> raise l u t = 0.
Proof.
  induction l as [|a l IH]; intros H; cbn [raise]; [reflexivity|]. destruct (N.eqb_spec a u) as [->|]; [exfalso; apply H; now left|]. rewrite IH; [lra|]. intros C. apply H. now right.
Qed.
(** The coefficients of the height of [q] above the plane through [s], where [w] are the coordinates of [q]. *)
Definition coef (s : list N) (w : N -> R) (q a : N) : R := (if N.eqb a q then 1 else 0) - lsum (fun v => if N.eqb a v then w v else 0) s.
Lemma raise_coef s w q t : forall l, NoDup l -> raise l q t - lsum (fun v => w v * raise l v t) s = peval (map (coef s w q) l) t.
Proof.
  induction l as [|a l IH]; intros Hn.
  - cbn [raise map peval]. rewrite lsum_zero; [lra|]. intros; lra.
  - inversion Hn as [|? ? Ha Hl]; subst. cbn [map peval]. rewrite <- (IH Hl). unfold coef.
    assert (E : forall u, raise (a :: l) u t = (if N.eqb a u then 1 else 0) + t * raise l u t).
    { intros u. cbn [raise]. destruct (N.eqb_spec a u) as [->|]; [rewrite (raise_out l u t Ha)|]; lra. }
    rewrite E. rewrite (lsum_ext _ (fun v => (if N.eqb a v then w v else 0) + t * (w v * raise l v t))).
    + rewrite lsum_add, lsum_scale. lra.
    + intros v _. rewrite E. destruct (N.eqb a v); lra.
Qed.
Lemma norm_pow c r2 x : norm2 x = pow D c r2 x - (pow D c r2 x - norm2 x).
Proof. lra. Qed.
Lemma height_over s L l t k q c r2 : NoDup l -> coords D co s L -> through D co (raised l t) s k -> on_ball D co s c r2 ->
  raised l t q - k (co q) = pow D c r2 (co q) + t * peval (map (coef s (fun v => L v (co q)) q) l) t.
Proof.
  intros Hn HL [Ka Hk] Hb. rewrite (interp D co s L HL k (co q) Ka). rewrite (lsum_ext _ (fun v => L v (co q) * norm2 (co v) + t * (L v (co q) * raise l v t))) by (intros v Hv; rewrite (Hk v Hv); unfold raised; lra).
  rewrite lsum_add, lsum_scale. rewrite <- (raise_coef s (fun v => L v (co q)) q t l Hn). unfold raised.
  pose proof (interp D co s L HL (fun x => pow D c r2 x - sumn D (fun d => x d * x d)) (co q) (pow_affine D c r2)) as E. cbn beta in E.
  rewrite (lsum_ext _ (fun v => (-1) * (L v (co q) * norm2 (co v)))) in E by (intros v Hv; unfold pow; rewrite (Hb v Hv); unfold norm2; lra). rewrite lsum_scale in E. unfold norm2 in *. lra.
Qed.
(** For every finite set of points there are heights that break the ties. *)
Lemma heights_ex S : exists hgt, breaks D co hgt S.
Proof.
  set (l := nodup N.eq_dec S). assert (Nl : NoDup l) by apply NoDup_nodup. assert (Il : forall v, In v l <-> In v S) by (intros; apply nodup_In).
  set (Good := fun (s : list N) (q : N) (t : R) => forall k c r2, through D co (raised l t) s k -> on_ball D co s c r2 ->
    (~ In q s -> raised l t q <> k (co q)) /\ (r2 < dist2 D (co q) c -> k (co q) < raised l t q) /\ (dist2 D (co q) c < r2 -> raised l t q < k (co q))).
  assert (X : ev (fun t => forall s, In s (all_lists (Datatypes.S D) S) -> forall q, In q S -> full D co s -> Good s q t)).
  { apply ev_all. intros s _. apply ev_all. intros q Hq. destruct (classic (full D co s)) as [F|F]; [|exists 1; split; [lra|]; intros; contradiction].
    pose proof F as (Ns & _ & L & HL). destruct (ball_ex D co s F) as (c0 & r0 & B0). set (P := map (coef s (fun v => L v (co q)) q) l).
    assert (E0 : forall c r2, on_ball D co s c r2 -> pow D c r2 (co q) = pow D c0 r0 (co q)).
    { intros c r2 Hb. pose proof (interp_zero D co s L HL (fun x => pow D c r2 x - pow D c0 r0 x) (pow_diff D c r2 c0 r0)) as Z. cbn beta in Z.
      assert (pow D c r2 (co q) - pow D c0 r0 (co q) = 0); [|lra]. apply Z. intros v Hv. unfold pow. rewrite (Hb v Hv), (B0 v Hv). lra. }
    destruct (Req_dec (pow D c0 r0 (co q)) 0) as [Z|Z].
    - destruct (in_dec N.eq_dec q s) as [Hin|Hin].
      + exists 1. split; [lra|]. intros t Ht _ k c r2 Hk Hb. pose proof (E0 c r2 Hb) as E. unfold pow in E, Z. split; [contradiction|]. split; intros; lra.
      + assert (Hc : exists a, In a P /\ a <> 0).
        { exists 1. split; [|lra]. unfold P. apply in_map_iff. exists q. split; [|now apply Il]. unfold coef. rewrite N.eqb_refl, lsum_zero; [lra|].
          intros v Hv. destruct (N.eqb_spec q v) as [->|]; [contradiction|reflexivity]. }
        eapply ev_imp; [|apply (ev_and _ _ (peval_nonzero P Hc) (ex_intro _ 1 (conj Rlt_0_1 (fun t Ht => proj1 Ht))))]. cbn beta. intros t [Hp Ht] _ k c r2 Hk Hb.
        pose proof (height_over s L l t k q c r2 Nl HL Hk Hb) as E. fold P in E. rewrite (E0 c r2 Hb), Z in E. split; [|unfold pow in E0, Z; pose proof (E0 c r2 Hb); split; intros; lra].
        intros _ C. assert (Z' : t * peval P t = 0) by lra. apply Rmult_integral in Z' as [Z'|Z']; [lra|contradiction].
    - eapply ev_imp; [|apply (peval_head (pow D c0 r0 (co q)) P Z)]. cbn beta. intros t [H1 H2] _ k c r2 Hk Hb.
      pose proof (height_over s L l t k q c r2 Nl HL Hk Hb) as E. fold P in E. rewrite (E0 c r2 Hb) in E. pose proof (E0 c r2 Hb) as Ep. unfold pow in Ep at 1.
      split; [|split].
      + intros _ C. destruct (Rtotal_order (pow D c0 r0 (co q)) 0) as [H|[H|H]]; [specialize (H2 H); lra|contradiction|specialize (H1 H); lra].
      + intros H. specialize (H1 ltac:(lra)). lra.
      + intros H. specialize (H2 ltac:(lra)). lra. }
  destruct X as (e & He & X). specialize (X (e / 2) ltac:(lra)). exists (raised l (e / 2)). split.
  - intros s k c r2 q Hs F Hk Hb Hq. assert (Hl : In s (all_lists (Datatypes.S D) S)) by (destruct F as (_ & <- & _); now apply all_lists_in). destruct (X s Hl q Hq F k c r2 Hk Hb) as (_ & H1 & H2). auto.
  - intros s k q Hs F Hk Hq E. assert (Hl : In s (all_lists (Datatypes.S D) S)) by (destruct F as (_ & <- & _); now apply all_lists_in). destruct (ball_ex D co s F) as (c & r2 & Hb).
    destruct (X s Hl q Hq F k c r2 Hk Hb) as (H & _). apply NNPP. intros C. apply (H C). now symmetry.
Qed.
End Heights.

(** ** Points in a box *)
Lemma sumn_zero n f : (forall d, (d < n)%nat -> f d = 0) -> sumn n f = 0.
Proof. induction n as [|n IH]; intros H; cbn [sumn]; [reflexivity|]. rewrite IH, (H n) by auto. lra. Qed.
Lemma lsum_app f a b : lsum f (a ++ b) = lsum f a + lsum f b.
Proof. induction a as [|x a IH]; cbn [app]; [change (lsum f []) with 0; ring|]. rewrite !lsum_cons, IH. ring. Qed.
Lemma lsum_seq f g n : lsum f (map g (seq 0 n)) = sumn n (fun d => f (g d)).
Proof.
  induction n as [|n IH]; [reflexivity|]. rewrite seq_S, map_app, lsum_app, IH. cbn [sumn map Nat.add]. rewrite lsum_cons. change (lsum f []) with 0. ring.
Qed.

Section Ids.
Variable D : N.
Hypothesis HD : (0 < D <= 30)%N.
Notation Dn := (N.to_nat D).
Let HD' : (D <= 30)%N. Proof. lia. Qed.

Lemma inf_val : p_inf D = (2 ^ 64 - 2 ^ D)%N. Proof. exact (p_inf_val D HD'). Qed.
Lemma pow_le : (2 ^ D <= 2 ^ 64)%N. Proof. apply N.pow_le_mono_r; lia. Qed.
Lemma fin_lt v : (v < 2 ^ 64)%N -> p_finite D v = true <-> (v < p_inf D)%N.
Proof. intros Hv. rewrite inf_val. now apply p_finite_spec. Qed.
Lemma inf_ge v : (v < 2 ^ 64)%N -> p_finite D v = false <-> (p_inf D <= v)%N.
Proof. intros Hv. pose proof (fin_lt v Hv). destruct (p_finite D v); split; intros K; try discriminate; try reflexivity.
  - pose proof (proj1 H eq_refl). lia.
  - destruct (N.lt_ge_cases v (p_inf D)) as [C|C]; [|exact C]. apply H in C. discriminate.
Qed.
Lemma bit_low j d : (j < 2 ^ D)%N -> (d < Dn)%nat -> N.testbit (p_inf D + j) (N.of_nat d) = N.testbit j (N.of_nat d).
Proof.
  intros Hj Hd. rewrite <- (N.mod_pow2_bits_low (p_inf D + j) D (N.of_nat d)) by lia. f_equal. rewrite inf_val.
  replace (2 ^ 64)%N with (2 ^ (64 - D) * 2 ^ D)%N by (rewrite <- N.pow_add_r; f_equal; lia). replace (2 ^ (64 - D) * 2 ^ D - 2 ^ D + j)%N with (j + (2 ^ (64 - D) - 1) * 2 ^ D)%N.
  - rewrite N.mod_add by (apply N.pow_nonzero; lia). now apply N.mod_small.
  - rewrite N.mul_sub_distr_r, N.mul_1_l. assert (1 * 2 ^ D <= 2 ^ (64 - D) * 2 ^ D)%N; [|lia]. apply N.mul_le_mono_r. pose proof (N.pow_nonzero 2 (64 - D)). lia.
Qed.
Definition axis (d : nat) : N := (p_inf D + 2 ^ N.of_nat d)%N.
Lemma axis_lt d : (d < Dn)%nat -> (p_inf D < axis d < 2 ^ 64)%N.
Proof.
  intros Hd. unfold axis. pose proof (N.pow_nonzero 2 (N.of_nat d) ltac:(lia)). split; [lia|]. rewrite inf_val. pose proof pow_le.
  assert (2 ^ N.of_nat d < 2 ^ D)%N by (apply N.pow_lt_mono_r; lia). lia.
Qed.
Lemma axis_inj d e : axis d = axis e -> d = e.
Proof. unfold axis. intros H. assert (E : (2 ^ N.of_nat d = 2 ^ N.of_nat e)%N) by lia. apply N.pow_inj_r in E; lia. Qed.
Lemma axis_bit d e : (d < Dn)%nat -> (e < Dn)%nat -> N.testbit (axis e) (N.of_nat d) = Nat.eqb d e.
Proof.
  intros Hd He. unfold axis. rewrite bit_low by (auto; apply N.pow_lt_mono_r; lia). rewrite N.pow2_bits_eqb. destruct (Nat.eqb_spec d e) as [->|Hne]; [apply N.eqb_refl|]. apply N.eqb_neq. lia.
Qed.
Lemma base_bit d : (d < Dn)%nat -> N.testbit (p_inf D) (N.of_nat d) = false.
Proof. intros Hd. rewrite <- (N.add_0_r (p_inf D)). rewrite bit_low by (auto; pose proof (N.pow_nonzero 2 D); lia). apply N.bits_0. Qed.

(** The corner at the base of the box and those next to it. *)
Definition corners : list N := p_inf D :: map axis (seq 0 Dn).
Lemma corners_in v : In v corners <-> v = p_inf D \/ exists d, (d < Dn)%nat /\ v = axis d.
Proof.
  unfold corners. cbn [In]. rewrite in_map_iff. split.
  - intros [<-|(d & <- & Hd)]; [now left|]. apply in_seq in Hd. right. exists d. split; [lia|reflexivity].
  - intros [->|(d & Hd & ->)]; [now left|]. right. exists d. split; [reflexivity|]. apply in_seq. lia.
Qed.
End Ids.

Section Box.
Variable D : N.
Hypothesis HD : (0 < D <= 30)%N.
Notation Dn := (N.to_nat D).
Notation axis := (axis D).
Notation corners := (corners D).
Variable co : N -> vec.
Variable r : vec.
Definition part_along (x : vec) (d : nat) : R := (x d + r d) / (2 * r d).
Definition corner_co (v : N) (x : vec) : R := if N.eqb v (p_inf D) then 1 - sumn Dn (part_along x) else part_along x (N.to_nat (N.log2 (v - p_inf D))).
Lemma corner_axis d x : (d < Dn)%nat -> corner_co (axis d) x = part_along x d.
Proof.
  intros Hd. unfold corner_co. pose proof (axis_lt D HD d Hd). destruct (N.eqb_spec (axis d) (p_inf D)); [lia|]. unfold axis. replace (p_inf D + 2 ^ N.of_nat d - p_inf D)%N with (2 ^ N.of_nat d)%N by lia.
  rewrite N.log2_pow2 by lia. now rewrite Nat2N.id.
Qed.
Lemma corner_base x : corner_co (p_inf D) x = 1 - sumn Dn (part_along x).
Proof. unfold corner_co. now rewrite N.eqb_refl. Qed.
Section Half.
Hypothesis Hr : forall d, (d < Dn)%nat -> 0 < r d.
Hypothesis Hco : forall v, (p_inf D <= v < 2 ^ 64)%N -> veq Dn (co v) (corner r v).
Lemma part_base d : (d < Dn)%nat -> part_along (co (p_inf D)) d = 0.
Proof.
  intros Hd. unfold part_along. pose proof (pow_le D HD). pose proof (inf_val D HD). pose proof (N.pow_nonzero 2 D). rewrite (Hco (p_inf D) ltac:(lia) d Hd). unfold corner. rewrite (base_bit D HD d Hd). pose proof (Hr d Hd). field. lra.
Qed.
Lemma part_axis d e : (d < Dn)%nat -> (e < Dn)%nat -> part_along (co (axis e)) d = if Nat.eqb d e then 1 else 0.
Proof.
  intros Hd He. unfold part_along. pose proof (axis_lt D HD e He). rewrite (Hco (axis e) ltac:(lia) d Hd). unfold corner. rewrite (axis_bit D HD d e Hd He). pose proof (Hr d Hd). destruct (Nat.eqb d e); field; lra.
Qed.
Lemma corners_full : full Dn co corners.
Proof.
  split; [|split].
  - constructor.
    + rewrite in_map_iff. intros (d & E & Hd). apply in_seq in Hd. pose proof (axis_lt D HD d ltac:(lia)). lia.
    + apply FinFun.Injective_map_NoDup; [intros a b; apply (axis_inj D HD)|apply seq_NoDup].
  - unfold corners. cbn [length]. now rewrite map_length, seq_length.
  - exists corner_co. split; [|split; [|split]].
    + intros v Hv. apply (corners_in D HD) in Hv as [->|(d & Hd & ->)].
      * exists (fun d => - (1 / (2 * r d))), (1 - sumn Dn (fun d => 1 / 2)). intros x. rewrite corner_base.
        rewrite (sumn_ext Dn (part_along x) (fun d => 1 / (2 * r d) * x d + 1 / 2)) by (intros d Hd; unfold part_along; pose proof (Hr d Hd); field; lra).
        rewrite sumn_add. rewrite (sumn_ext Dn (fun d => - (1 / (2 * r d)) * x d) (fun d => (-1) * (1 / (2 * r d) * x d))) by (intros; ring). rewrite sumn_scale. lra.
      * eapply (affine_ext Dn (fun x => 1 / (2 * r d) * x d + 1 / 2)); [|refine (affine_coord Dn ltac:(lia) d (1 / (2 * r d)) (1 / 2) Hd)]. intros x. rewrite (corner_axis d x Hd). unfold part_along. pose proof (Hr d Hd). field. lra.
    + intros v Hv. apply (corners_in D HD) in Hv as [->|(d & Hd & ->)].
      * rewrite corner_base, sumn_zero; [lra|]. intros d Hd. now apply part_base.
      * rewrite corner_axis, part_axis, Nat.eqb_refl by assumption. reflexivity.
    + intros v w Hv Hw Hne. apply (corners_in D HD) in Hv as [->|(d & Hd & ->)]; apply (corners_in D HD) in Hw as [->|(e & He & ->)]; [contradiction| | |].
      * rewrite corner_base. rewrite (sumn_one Dn (part_along (co (axis e))) e He); [rewrite part_axis, Nat.eqb_refl by assumption; lra|].
        intros d Hd Hde. rewrite part_axis by assumption. apply Nat.eqb_neq in Hde. now rewrite Hde.
      * rewrite corner_axis by assumption. now apply part_base.
      * rewrite corner_axis, part_axis by assumption. destruct (Nat.eqb_spec d e) as [->|]; [contradiction|reflexivity].
    + intros x. assert (Sx : lsum (fun v => corner_co v x) corners = 1).
      { unfold corners. rewrite lsum_cons, lsum_seq, corner_base. rewrite (sumn_ext Dn (fun d => corner_co (axis d) x) (part_along x)); [lra|]. intros d Hd. now apply corner_axis. }
      split; [exact Sx|]. intros d Hd.
      rewrite (lsum_ext _ (fun v => (- r d) * corner_co v x + (co v d + r d) * corner_co v x)) by (intros; ring). rewrite lsum_add, lsum_scale, Sx. unfold corners. rewrite lsum_cons, lsum_seq.
      pose proof (pow_le D HD). pose proof (inf_val D HD). pose proof (N.pow_nonzero 2 D). rewrite (sumn_one Dn _ d Hd).
      * rewrite (corner_axis d x Hd). pose proof (axis_lt D HD d Hd). rewrite (Hco (axis d) ltac:(lia) d Hd), (Hco (p_inf D) ltac:(lia) d Hd). unfold corner. rewrite (axis_bit D HD d d Hd Hd), Nat.eqb_refl, (base_bit D HD d Hd).
        unfold part_along. pose proof (Hr d Hd). field. lra.
      * intros e He Hne. pose proof (axis_lt D HD e He). rewrite (Hco (axis e) ltac:(lia) d Hd). unfold corner. rewrite (axis_bit D HD d e Hd He). apply Nat.neq_sym, Nat.eqb_neq in Hne. rewrite Hne. lra.
Qed.
End Half.
End Box.

Lemma bits_ex n : forall P : nat -> bool, exists j, (j < 2 ^ N.of_nat n)%N /\ forall d, (d < n)%nat -> N.testbit j (N.of_nat d) = P d.
Proof.
  induction n as [|n IH]; intros P; [exists 0%N; split; [reflexivity|intros; lia]|]. destruct (IH (fun d => P (Datatypes.S d))) as (j & Hj & Hb). exists (2 * j + N.b2n (P 0%nat))%N. split.
  - rewrite Nat2N.inj_succ, N.pow_succ_r' by lia. destruct (P 0%nat); cbn [N.b2n]; lia.
  - intros [|d] Hd; [apply N.testbit_0_r|]. rewrite Nat2N.inj_succ, N.testbit_succ_r. apply Hb. lia.
Qed.

Section Placed.
Variable D : N.
Hypothesis HD : (0 < D <= 30)%N.
Notation Dn := (N.to_nat D).
Variable co : N -> vec.
Variable hgt : N -> R.
Variable r : vec.

Lemma placed_sub S S' : placed D co r S -> (forall v, In v S' -> In v S) -> (forall v, (p_inf D <= v < 2 ^ 64)%N -> In v S') -> placed D co r S'.
Proof.
  intros [A1 A2 A4 A5 A6 A7] Hs Hi. constructor; auto. intros u v Hu Hv. apply A7; auto.
Qed.
Section Set_.
Variable S : list N.
Hypothesis HS : placed D co r S.
Lemma inf_in v : In v S -> p_finite D v = false <-> (p_inf D <= v < 2 ^ 64)%N.
Proof. intros Hv. pose proof (pl_small _ _ _ _ HS v Hv). rewrite (inf_ge D HD v) by assumption. lia. Qed.
Lemma inf_out v : (p_inf D <= v < 2 ^ 64)%N -> In v S /\ p_finite D v = false.
Proof. intros Hv. split; [apply (pl_inf _ _ _ _ HS), Hv|]. apply (inf_ge D HD v); lia. Qed.
Lemma pick (P : nat -> bool) : exists w, In w S /\ p_finite D w = false /\ veq Dn (co w) (fun d => if P d then r d else - r d).
Proof.
  destruct (bits_ex Dn P) as (j & Hj & Hb). rewrite N2Nat.id in Hj. pose proof (inf_val D HD) as E. pose proof (pow_le D HD). destruct (inf_out (p_inf D + j)%N ltac:(lia)) as [Hin Hf]. exists (p_inf D + j)%N.
  split; [exact Hin|]. split; [exact Hf|]. intros d Hd. rewrite (pl_corner _ _ _ _ HS _ Hin Hf d Hd). unfold corner. rewrite (bit_low D HD j d Hj Hd), (Hb d Hd). reflexivity.
Qed.
Lemma corners_co v : (p_inf D <= v < 2 ^ 64)%N -> veq Dn (co v) (corner r v).
Proof. intros Hv. destruct (inf_out v Hv) as [Hi Hf]. exact (pl_corner _ _ _ _ HS v Hi Hf). Qed.
Lemma corners_sub v : In v (corners D) -> In v S.
Proof.
  intros Hv. apply (corners_in D HD) in Hv as [->|(d & Hd & ->)]; apply (pl_inf _ _ _ _ HS).
  - pose proof (inf_val D HD). pose proof (pow_le D HD). pose proof (N.pow_nonzero 2 D). lia.
  - pose proof (axis_lt D HD d Hd). lia.
Qed.
Lemma placed_dt : generic Dn co hgt S -> exists s, dt Dn co hgt S s.
Proof. intros G. refine (dt_ex Dn co hgt ltac:(lia) S (corners D) G _ corners_sub). apply (corners_full D HD co r (pl_half _ _ _ _ HS) corners_co). Qed.
Lemma placed_hull v : In v S -> hull_of Dn co (filter (fun u => negb (p_finite D u)) S) (co v).
Proof.
  intros Hv g [a [b Hg]] H. destruct (p_finite D v) eqn:Ev.
  - destruct (pick (fun d => if Rlt_dec (a d) 0 then true else false)) as (w & Hw & Hf & E). apply Rle_trans with (g (co w)); [apply H, filter_In; split; [exact Hw|now rewrite Hf]|].
    rewrite !Hg. apply Rplus_le_compat_r, sumn_le. intros d Hd. rewrite (E d Hd). pose proof (pl_box _ _ _ _ HS v d Hv Ev Hd) as B. assert (B' : - r d <= co v d <= r d) by (revert B; unfold Rabs; destruct (Rcase_abs (co v d)); lra). clear B. destruct (Rlt_dec (a d) 0) as [Ha|Ha]; nra.
  - apply H, filter_In. split; [exact Hv|now rewrite Ev].
Qed.
Lemma corner_len u : In u S -> p_finite D u = false -> dist2 Dn (co u) (fun _ => 0) = sumn Dn (fun d => r d * r d).
Proof. intros Hu Hf. apply sumn_ext. intros d Hd. rewrite (pl_corner _ _ _ _ HS u Hu Hf d Hd). unfold corner. destruct (N.testbit u (N.of_nat d)); ring. Qed.
Lemma fin_len q : In q S -> p_finite D q = true -> dist2 Dn (co q) (fun _ => 0) < sumn Dn (fun d => r d * r d).
Proof.
  intros Hq Hf. assert (B : forall d, (d < Dn)%nat -> 0 <= r d * r d - (co q d - 0) ^ 2).
  { intros d Hd. pose proof (pl_box _ _ _ _ HS q d Hq Hf Hd) as B. assert (B' : - r d <= co q d <= r d) by (revert B; unfold Rabs; destruct (Rcase_abs (co q d)); lra). clear B. nra. }
  pose proof (sumn_nonneg Dn _ B) as Sn. assert (E : sumn Dn (fun d => r d * r d - (co q d - 0) ^ 2) = sumn Dn (fun d => r d * r d) - dist2 Dn (co q) (fun _ => 0)).
  { unfold dist2. rewrite (sumn_ext Dn _ (fun d => r d * r d + (-1) * (co q d - 0) ^ 2)) by (intros; ring). rewrite sumn_add, sumn_scale. ring. }
  destruct (Rle_lt_or_eq_dec _ _ Sn) as [L|Z]; [lra|exfalso]. symmetry in Z. pose proof (GeoBox.sumn_zero Dn _ B Z) as Eq. cbn beta in Eq.
  destruct (pick (fun d => if Rlt_dec (co q d) 0 then false else true)) as (w & Hw & Hfw & Ew). assert (Eqw : q = w); [|congruence].
  apply (pl_distinct _ _ _ _ HS); auto. intros d Hd. rewrite (Ew d Hd). specialize (Eq d Hd). pose proof (pl_half _ _ _ _ HS d Hd).
  assert (F : (r d - co q d) * (r d + co q d) = 0) by nra. apply Rmult_integral in F. destruct (Rlt_dec (co q d) 0); lra.
Qed.
Lemma placed_outer q : In q S -> p_finite D q = true -> ties Dn co hgt S -> outer Dn co hgt (p_finite D) S.
Proof.
  intros Hq Hfq T s Hs. destruct (dt_delaunay Dn co hgt S s T Hs) as (Hin & Hf & c & r2 & Hb & Hfr). set (R2 := sumn Dn (fun d => r d * r d)).
  set (g := fun x => pow Dn c r2 x - pow Dn (fun _ => 0) R2 x). assert (Ag : affine Dn g) by apply pow_diff.
  assert (Gi : forall u, In u S -> p_finite D u = false -> g (co u) = dist2 Dn (co u) c - r2) by (intros u Hu Hfu; unfold g, pow; rewrite (corner_len u Hu Hfu); unfold R2; ring).
  exists g. split; [exact Ag|]. split; [|split].
  - intros u Hu Hfu. rewrite (Gi u (Hin u Hu) Hfu), (Hb u Hu). ring.
  - intros q' Hq'. apply (placed_hull q' Hq' g Ag). intros u Hu. apply filter_In in Hu as [Hu Hfu]. apply Bool.negb_true_iff in Hfu. rewrite (Gi u Hu Hfu). pose proof (Hfr u Hu). lra.
  - exists q. split; [exact Hq|]. unfold g, pow. pose proof (fin_len q Hq Hfq) as L. pose proof (Hfr q Hq). fold R2 in L. lra.
Qed.
End Set_.

Lemma placed_division np pt all : placed D co r all -> breaks Dn co hgt all -> partitioned D co np pt all -> division Dn co hgt (p_finite D) np pt all.
Proof.
  intros Hp [Ht Hg] [P1 P2 P3 P4 P5]. assert (Sub : forall i, (i < np)%nat -> forall v, In v (pt i) -> In v all) by (intros i Hi v Hv; apply P1; eauto).
  assert (Pi : forall i, (i < np)%nat -> placed D co r (pt i)) by (intros i Hi; exact (placed_sub all (pt i) Hp (Sub i Hi) (fun v => P3 i v Hi))).
  constructor; auto.
  - intros v j Hv Hf Hj. apply P3; [exact Hj|]. now apply (inf_in all Hp v Hv).
  - exact (pl_distinct _ _ _ _ Hp).
  - eapply generic_general; [exact Hg|auto].
  - intros i Hi. eapply generic_general; [exact Hg|exact (Sub i Hi)].
  - now apply (placed_dt all Hp).
  - intros i Hi. apply (placed_dt (pt i) (Pi i Hi)). eapply generic_sub; [exact Hg|exact (Sub i Hi)].
  - intros v Hv. now apply (placed_hull all Hp).
  - destruct P4 as (i & u & Hi & Hu & Hfu). apply (placed_outer all Hp u); eauto.
Qed.
End Placed.
