(** Affine functions, barycentric coordinates, Delaunay simplices and their neighbors. *)
From Coq Require Import Permutation Classical.
From Verif Require Import Outcome ListUtil GeoModel GeoSpec GeoProofs DelSpec.
Local Open Scope R_scope.

(** ** Sums over lists *)
Lemma lsum_ext f g l : (forall v, In v l -> f v = g v) -> lsum f l = lsum g l.
Proof. induction l as [|a l IH]; intros H; cbn [lsum fold_right]; [reflexivity|]. fold (lsum f l) (lsum g l). rewrite H, IH; [reflexivity| |now left]. intros; apply H; now right. Qed.
Lemma lsum_cons f a l : lsum f (a :: l) = f a + lsum f l. Proof. reflexivity. Qed.
Lemma lsum_add f g l : lsum (fun v => f v + g v) l = lsum f l + lsum g l.
Proof. induction l as [|a l IH]; [cbn; lra|]. rewrite !lsum_cons, IH. lra. Qed.
Lemma lsum_scale c f l : lsum (fun v => c * f v) l = c * lsum f l.
Proof. induction l as [|a l IH]; [cbn; lra|]. rewrite !lsum_cons, IH. lra. Qed.
Lemma lsum_scale_r c f l : lsum (fun v => f v * c) l = lsum f l * c.
Proof. induction l as [|a l IH]; [cbn; lra|]. rewrite !lsum_cons, IH. lra. Qed.
Lemma lsum_zero f l : (forall v, In v l -> f v = 0) -> lsum f l = 0.
Proof. induction l as [|a l IH]; intros H; [reflexivity|]. rewrite lsum_cons, H, IH; [lra| |now left]. intros; apply H; now right. Qed.
Lemma lsum_nonneg f l : (forall v, In v l -> 0 <= f v) -> 0 <= lsum f l.
Proof. induction l as [|a l IH]; intros H; [cbn; lra|]. rewrite lsum_cons. pose proof (H a (or_introl eq_refl)). assert (0 <= lsum f l) by (apply IH; intros; apply H; now right). lra. Qed.
Lemma lsum_nonneg_zero f l : (forall v, In v l -> 0 <= f v) -> lsum f l = 0 -> forall v, In v l -> f v = 0.
Proof.
  induction l as [|a l IH]; intros H E v Hv; [destruct Hv|]. rewrite lsum_cons in E. pose proof (H a (or_introl eq_refl)).
  assert (H1 : forall w, In w l -> 0 <= f w) by (intros; apply H; now right). pose proof (lsum_nonneg f l H1).
  destruct Hv as [<-|Hv]; [lra|]. apply IH; auto. lra.
Qed.
Lemma lsum_perm f l l' : Permutation l l' -> lsum f l = lsum f l'.
Proof. induction 1; rewrite ?lsum_cons in *; try lra; reflexivity. Qed.
Lemma lsum_one f l v : NoDup l -> In v l -> (forall w, In w l -> w <> v -> f w = 0) -> lsum f l = f v.
Proof.
  induction l as [|a l IH]; intros Hn Hv H; [destruct Hv|]. inversion Hn as [|? ? Ha Hl]; subst. rewrite lsum_cons. destruct Hv as [->|Hv].
  - rewrite lsum_zero; [lra|]. intros w Hw. apply H; [now right|]. intros ->. contradiction.
  - rewrite (H a); [|now left|intros ->; contradiction]. rewrite IH; auto; [lra|]. intros; apply H; [now right|assumption].
Qed.
Lemma lsum_sumn D f l : lsum (fun v => sumn D (f v)) l = sumn D (fun d => lsum (fun v => f v d) l).
Proof.
  induction l as [|a l IH].
  - cbn [lsum fold_right]. induction D; cbn [sumn]; [reflexivity|]. rewrite <- IHD. lra.
  - rewrite lsum_cons, IH. clear IH. induction D; cbn [sumn]; [lra|]. rewrite lsum_cons, <- IHD. lra.
Qed.
Lemma sumn_add D f g : sumn D (fun d => f d + g d) = sumn D f + sumn D g.
Proof. induction D; cbn [sumn]; lra. Qed.
Lemma sumn_scale D c f : sumn D (fun d => c * f d) = c * sumn D f.
Proof. induction D; cbn [sumn]; lra. Qed.

Section Del.
Variable D : nat.
Variable co : N -> vec.
Notation affine := (affine D).
Notation coords := (coords D co).
Notation full := (full D co).

(** ** Affine functions *)
Lemma affine_add f g : affine f -> affine g -> affine (fun x => f x + g x).
Proof.
  intros [a [b H]] [a' [b' H']]. exists (fun d => a d + a' d), (b + b'). intros x. rewrite H, H'.
  rewrite (sumn_ext D (fun d => (a d + a' d) * x d) (fun d => a d * x d + a' d * x d)) by (intros; ring). rewrite sumn_add. lra.
Qed.
Lemma affine_scale c f : affine f -> affine (fun x => c * f x).
Proof.
  intros [a [b H]]. exists (fun d => c * a d), (c * b). intros x. rewrite H.
  rewrite (sumn_ext D (fun d => c * a d * x d) (fun d => c * (a d * x d))) by (intros; ring). rewrite sumn_scale. lra.
Qed.
Lemma affine_sub f g : affine f -> affine g -> affine (fun x => f x - g x).
Proof. intros Hf Hg. destruct (affine_add _ _ Hf (affine_scale (-1) _ Hg)) as [a [b H]]. exists a, b. intros x. rewrite <- H. lra. Qed.
Lemma affine_ext f g : (forall x, f x = g x) -> affine f -> affine g.
Proof. intros E [a [b H]]. exists a, b. intros x. rewrite <- E. apply H. Qed.
Lemma affine_lsum (c : N -> R) (f : N -> vec -> R) l : (forall v, In v l -> affine (f v)) -> affine (fun x => lsum (fun v => c v * f v x) l).
Proof.
  induction l as [|u l IH]; intros H.
  - exists (fun _ => 0), 0. intros x. cbn. assert (Z : forall n, sumn n (fun d => 0 * x d) = 0) by (induction n; cbn [sumn]; lra). rewrite Z. lra.
  - eapply affine_ext; [|apply (affine_add _ _ (affine_scale (c u) _ (H u (or_introl eq_refl))) (IH (fun v Hv => H v (or_intror Hv))))]. intros x. now rewrite lsum_cons.
Qed.
(** Along a line. *)
Definition line (x y : vec) (t : R) : vec := fun d => x d + t * (y d - x d).
Lemma affine_line f x y t : affine f -> f (line x y t) = f x + t * (f y - f x).
Proof.
  intros [a [b H]]. rewrite !H. unfold line.
  rewrite (sumn_ext D _ (fun d => a d * x d + (t * (a d * y d) + (- t) * (a d * x d)))) by (intros; ring).
  rewrite !sumn_add, !sumn_scale. lra.
Qed.
Lemma affine_veq f x y : affine f -> veq D x y -> f x = f y.
Proof. intros [a [b H]] E. rewrite !H. f_equal. apply sumn_ext. intros d Hd. now rewrite (E d Hd). Qed.

(** ** Barycentric coordinates *)
Section Coords.
Variables (s : list N) (L : N -> vec -> R).
Hypothesis HL : coords s L.
(** An affine function is determined by its values at the vertices. *)
Lemma interp g x : affine g -> g x = lsum (fun v => L v x * g (co v)) s.
Proof.
  intros [a [b Hg]]. destruct HL as (_ & _ & _ & H4). destruct (H4 x) as [E1 E2]. rewrite Hg.
  rewrite (lsum_ext _ (fun v => sumn D (fun d => a d * (L v x * co v d)) + b * L v x)).
  2: { intros v _. rewrite Hg. rewrite (sumn_ext D (fun d => a d * (L v x * co v d)) (fun d => L v x * (a d * co v d))) by (intros; ring). rewrite sumn_scale. lra. }
  rewrite lsum_add, lsum_scale, E1, lsum_sumn. rewrite Rmult_1_r. f_equal. apply sumn_ext.
  intros d Hd. rewrite lsum_scale, E2 by exact Hd. reflexivity.
Qed.
Lemma interp_one g x v : affine g -> In v s -> NoDup s -> (forall w, In w s -> w <> v -> g (co w) = 0) -> g x = L v x * g (co v).
Proof.
  intros Ha Hv Hn H. rewrite (interp g x Ha). apply (lsum_one (fun v => L v x * g (co v))); auto. intros w Hw Hne. rewrite (H w Hw Hne). lra.
Qed.
Lemma interp_zero g : affine g -> (forall w, In w s -> g (co w) = 0) -> forall x, g x = 0.
Proof. intros Ha H x. rewrite (interp g x Ha). apply lsum_zero. intros v Hv. rewrite H by exact Hv. lra. Qed.
End Coords.
Lemma coords_uniq s L L' : NoDup s -> coords s L -> coords s L' -> forall v x, In v s -> L v x = L' v x.
Proof.
  intros Hn H H' v x Hv. destruct H' as (A1 & A2 & A3 & A4). rewrite (interp_one s L H (L' v) x v (A1 v Hv) Hv Hn).
  - rewrite (A2 v Hv). lra.
  - intros w Hw Hne. apply A3; auto.
Qed.
Lemma coords_perm s s' L : Permutation s s' -> coords s L -> coords s' L.
Proof.
  intros P (A1 & A2 & A3 & A4). assert (HP : forall v, In v s' -> In v s) by (intros; eapply Permutation_in; [apply Permutation_sym|]; eauto).
  split; [auto|]. split; [auto|]. split; [auto|]. intros x. destruct (A4 x) as [E1 E2]. split; [now rewrite <- (lsum_perm _ _ _ P)|].
  intros d Hd. rewrite <- (lsum_perm _ _ _ P). auto.
Qed.

(** ** Spheres *)
(** The power of a point with respect to a sphere. *)
Definition pow (c : vec) (r2 : R) (x : vec) : R := dist2 D x c - r2.
Lemma pow_affine c r2 : affine (fun x => pow c r2 x - sumn D (fun d => x d * x d)).
Proof.
  exists (fun d => - 2 * c d), (sumn D (fun d => c d * c d) - r2). intros x. unfold pow, dist2.
  rewrite (sumn_ext D (fun d => (x d - c d) ^ 2) (fun d => x d * x d + ((- 2 * c d) * x d + c d * c d))) by (intros; ring).
  rewrite !sumn_add. lra.
Qed.
Lemma pow_diff c r2 c' r2' : affine (fun x => pow c r2 x - pow c' r2' x).
Proof. eapply affine_ext; [|exact (affine_sub _ _ (pow_affine c r2) (pow_affine c' r2'))]. intros x. cbn beta. lra. Qed.
Lemma pow_self x : pow x 0 x = 0.
Proof.
  unfold pow, dist2. rewrite (sumn_ext D (fun d => (x d - x d) ^ 2) (fun _ => 0)) by (intros; ring). assert (Z : forall n, sumn n (fun _ => 0) = 0) by (induction n; cbn [sumn]; lra). rewrite Z. lra.
Qed.
Lemma dist2_zero x y : dist2 D x y = 0 -> veq D x y.
Proof.
  unfold dist2. intros H d Hd. assert (Z : forall n, (forall k, (k < n)%nat -> 0 <= (x k - y k) ^ 2) -> sumn n (fun d => (x d - y d) ^ 2) = 0 -> forall k, (k < n)%nat -> (x k - y k) ^ 2 = 0).
  { induction n as [|n IH]; intros Hp E k Hk; [lia|]. cbn [sumn] in E. assert (0 <= sumn n (fun d => (x d - y d) ^ 2)) by (apply sumn_nonneg; intros; apply Hp; lia).
    pose proof (Hp n ltac:(lia)). destruct (Nat.eq_dec k n) as [->|]; [lra|]. apply IH; [intros; apply Hp; lia|lra|lia]. }
  specialize (Z D (fun k _ => pow2_ge_0 _) H d Hd). assert (x d - y d = 0); [|lra]. destruct (Req_dec (x d - y d) 0); [assumption|]. exfalso. assert ((x d - y d) ^ 2 <> 0) by now apply pow_nonzero. contradiction.
Qed.
(** A convex combination of points on a sphere is inside, unless it is one of them. *)
Lemma ball_convex s L c r2 x : coords s L -> (forall v, In v s -> 0 <= L v x) -> on_ball D co s c r2 -> dist2 D x c < r2 \/ exists v, In v s /\ veq D (co v) x.
Proof.
  intros HL Hx Hc. pose proof (interp s L HL (fun z => pow c r2 z - pow x 0 z) x (pow_diff _ _ _ _)) as E. cbn beta in E. rewrite pow_self in E.
  rewrite (lsum_ext _ (fun v => (-1) * (L v x * dist2 D (co v) x))) in E by (intros v Hv; unfold pow; rewrite (Hc v Hv); lra). rewrite lsum_scale in E.
  assert (P : forall v, In v s -> 0 <= L v x * dist2 D (co v) x) by (intros v Hv; apply Rmult_le_pos; [auto|apply sumn_nonneg; intros; apply pow2_ge_0]).
  pose proof (lsum_nonneg _ s P) as G. destruct (Req_dec (lsum (fun v => L v x * dist2 D (co v) x) s) 0) as [Z|Z]; [|left; unfold pow in E; lra]. right.
  destruct (classic (exists v, In v s /\ L v x <> 0)) as [[v [Hv Hn]]|Hno].
  - exists v. split; [exact Hv|]. apply dist2_zero. pose proof (lsum_nonneg_zero _ s P Z v Hv) as Q. cbn beta in Q. apply Rmult_integral in Q as [Q|Q]; [contradiction|exact Q].
  - exfalso. destruct HL as (_ & _ & _ & H4). destruct (H4 x) as [E1 _]. rewrite (lsum_zero) in E1; [lra|]. intros v Hv. destruct (Req_dec (L v x) 0); [assumption|exfalso; eauto].
Qed.
(** A simplex that is not flat has a circumsphere. *)
Lemma ball_ex s : full s -> exists c r2, on_ball D co s c r2.
Proof.
  intros (Hn & _ & L & HL). set (z := fun _ : nat => 0).
  set (g := fun x => lsum (fun v => pow z 0 (co v) * L v x) s).
  assert (Ga : affine g) by (apply affine_lsum; destruct HL as (A1 & _); auto). destruct Ga as [a [b Hg]].
  exists (fun d => a d / 2), (b + dist2 D (fun d => a d / 2) z). intros v Hv.
  assert (E : g (co v) = pow z 0 (co v)).
  { unfold g. destruct HL as (_ & A2 & A3 & _). rewrite (lsum_one (fun w => pow z 0 (co w) * L w (co v)) s v Hn Hv); [rewrite (A2 v Hv); lra|]. intros w Hw Hne. rewrite (A3 w v) by auto. lra. }
  rewrite Hg in E. unfold pow in E. unfold dist2 in *.
  rewrite (sumn_ext D (fun d => (co v d - a d / 2) ^ 2) (fun d => (co v d - z d) ^ 2 + ((-1) * (a d * co v d) + (a d / 2 - z d) ^ 2))) by (intros; unfold z; field).
  rewrite !sumn_add, sumn_scale. lra.
Qed.

(** ** Delaunay simplices *)
Variable hgt : N -> R.
Notation through := (through D co hgt).
Notation free := (free co hgt).
Notation dt := (dt D co hgt).
Notation general := (general D co hgt).
Lemma dt_NoDup S s : dt S s -> NoDup s. Proof. intros (_ & (H & _) & _). exact H. Qed.
Lemma dt_perm S s s' : Permutation s s' -> dt S s -> dt S s'.
Proof.
  intros P (H1 & (H2 & H3 & L & H4) & k & [H5 H5'] & H6). assert (HP : forall v, In v s' -> In v s) by (intros; eapply Permutation_in; [apply Permutation_sym|]; eauto).
  split; [auto|]. split; [|exists k; split; [split; [exact H5|intros v Hv; auto]|exact H6]].
  split; [eapply Permutation_NoDup; eauto|]. split; [rewrite <- H3; symmetry; now apply Permutation_length|]. exists L. eapply coords_perm; eauto.
Qed.
Lemma dt_mono S S' s : dt S s -> (forall v, In v s -> In v S') -> (forall q, In q S' -> In q S) -> dt S' s.
Proof. intros (H1 & H2 & k & H3 & H4) Hv Hq. split; [exact Hv|]. split; [exact H2|]. exists k. split; [exact H3|]. intros q Q. apply H4; auto. Qed.

(** There is one plane through the lifted vertices of a full simplex. *)
Lemma plane_uniq s k k' : full s -> through s k -> through s k' -> forall x, k x = k' x.
Proof.
  intros (Hn & _ & L & HL) [Ha H] [Ha' H'] x. pose proof (interp_zero s L HL (fun z => k z - k' z) (affine_sub _ _ Ha Ha')) as E. cbn beta in E.
  assert (E0 : k x - k' x = 0); [|lra]. apply E. intros w Hw. rewrite (H w Hw), (H' w Hw). lra.
Qed.
Lemma plane_ex s : full s -> exists k, through s k.
Proof.
  intros (Hn & _ & L & HL). exists (fun x => lsum (fun v => hgt v * L v x) s). split; [apply affine_lsum; destruct HL as (A1 & _); auto|].
  intros v Hv. destruct HL as (_ & A2 & A3 & _). rewrite (lsum_one (fun w => hgt w * L w (co v)) s v Hn Hv); [rewrite (A2 v Hv); lra|]. intros w Hw Hne. rewrite (A3 w v) by auto. lra.
Qed.
(** A simplex of the lower hull has the Delaunay property. *)
Lemma dt_delaunay S s : ties D co hgt S -> dt S s -> delaunay D co S s.
Proof.
  intros Ht (Hin & Hf & k & Hk & Hfr). split; [exact Hin|]. split; [exact Hf|]. destruct (ball_ex s Hf) as (c & r2 & Hb). exists c, r2. split; [exact Hb|].
  intros q Hq. destruct (Rle_lt_dec r2 (dist2 D (co q) c)) as [|Hlt]; [assumption|]. destruct (Ht s k c r2 q Hin Hf Hk Hb Hq) as [_ H]. specialize (H Hlt). specialize (Hfr q Hq). lra.
Qed.

(** The points of a list satisfying [P] have one with the least value. *)
Lemma least_of (f : N -> R) (P : N -> Prop) l : (exists q, In q l /\ P q) -> exists a, In a l /\ P a /\ forall q, In q l -> P q -> f a <= f q.
Proof.
  induction l as [|b l IH]; intros [q [Hq Pq]]; [destruct Hq|].
  destruct (classic (exists q, In q l /\ P q)) as [X|X].
  - destruct (IH X) as [a [Ha [Pa La]]]. destruct (classic (P b /\ f b < f a)) as [[Pb Lb]|Hb].
    + exists b. split; [now left|]. split; [exact Pb|]. intros w [<-|Hw] Pw; [lra|]. specialize (La w Hw Pw). lra.
    + exists a. split; [now right|]. split; [exact Pa|]. intros w [<-|Hw] Pw; [|auto]. destruct (Rlt_le_dec (f b) (f a)); [exfalso; apply Hb; auto|assumption].
  - exists b. destruct Hq as [<-|Hq]; [|exfalso; apply X; eauto]. split; [now left|]. split; [exact Pq|].
    intros w [<-|Hw] Pw; [lra|]. exfalso. apply X. eauto.
Qed.

Lemma remove_perm (d : N) s : NoDup s -> In d s -> Permutation s (d :: remove N.eq_dec d s).
Proof.
  induction s as [|a s IH]; intros Hn Hd; [destruct Hd|]. inversion Hn as [|? ? Ha Hs]; subst. cbn [remove]. destruct (N.eq_dec d a) as [->|Hne].
  - rewrite notin_remove by exact Ha. reflexivity.
  - destruct Hd as [->|Hd]; [contradiction|]. rewrite perm_swap. constructor. auto.
Qed.
Lemma remove_spec (d : N) s v : In v (remove N.eq_dec d s) <-> In v s /\ v <> d.
Proof. split; [apply in_remove|intros [A B]; now apply in_in_remove]. Qed.
Lemma remove_NoDup (d : N) s : NoDup s -> NoDup (remove N.eq_dec d s).
Proof.
  induction s as [|a s IH]; intros Hn; cbn [remove]; [constructor|]. inversion Hn; subst. destruct (N.eq_dec d a); [auto|]. constructor; [|auto].
  rewrite remove_spec. tauto.
Qed.

(** Replacing the vertex [d] by a point that is not in the plane of the others. *)
Lemma full_swap s L d a : NoDup s -> length s = S D -> coords s L -> In d s -> L d (co a) <> 0 -> ~ In a s ->
  NoDup (a :: remove N.eq_dec d s) /\ length (a :: remove N.eq_dec d s) = S D /\
  exists L', coords (a :: remove N.eq_dec d s) L' /\ (forall x, L' a x = L d x / L d (co a)) /\
    forall v, In v (remove N.eq_dec d s) -> forall x, L' v x = L v x - L v (co a) / L d (co a) * L d x.
Proof.
  intros Hn Hlen HL Hd Hne Ha. pose proof (remove_perm d s Hn Hd) as P. set (f := remove N.eq_dec d s) in *.
  assert (Hf : forall v, In v f <-> In v s /\ v <> d) by (intros; apply remove_spec).
  split; [constructor; [rewrite Hf; tauto|now apply remove_NoDup]|]. split; [rewrite <- Hlen, (Permutation_length P); reflexivity|].
  destruct HL as (A1 & A2 & A3 & A4).
  exists (fun v x => if N.eq_dec v a then L d x / L d (co a) else L v x - L v (co a) / L d (co a) * L d x).
  assert (Q : forall v, In v f -> (if N.eq_dec v a then True else False) -> False).
  { intros v Hv E. destruct (N.eq_dec v a) as [->|]; [|exact E]. apply Hf in Hv. tauto. }
  split; [|split].
  - split; [|split; [|split]].
    + intros v [<-|Hv].
      * destruct (N.eq_dec a a); [|congruence]. eapply affine_ext; [|apply (affine_scale (/ L d (co a)) _ (A1 d Hd))]. intros x. cbn beta. unfold Rdiv. lra.
      * destruct (N.eq_dec v a) as [->|_]; [exfalso; apply Hf in Hv; tauto|]. apply Hf in Hv as [Hv _]. apply (affine_sub _ _ (A1 v Hv) (affine_scale _ _ (A1 d Hd))).
    + intros v [<-|Hv].
      * destruct (N.eq_dec a a); [|congruence]. now field.
      * destruct (N.eq_dec v a) as [->|_]; [exfalso; apply Hf in Hv; tauto|]. apply Hf in Hv as [Hv Hvd]. rewrite (A2 v Hv), (A3 d v Hd Hv) by congruence. lra.
    + intros v w Hv Hw Hvw. destruct (N.eq_dec v a) as [->|Hva].
      * destruct Hw as [<-|Hw]; [congruence|]. apply Hf in Hw as [Hw Hwd]. rewrite (A3 d w Hd Hw) by congruence. unfold Rdiv. lra.
      * destruct Hv as [<-|Hv]; [congruence|]. apply Hf in Hv as [Hv Hvd]. destruct Hw as [<-|Hw]; [now field|].
        apply Hf in Hw as [Hw Hwd]. rewrite (A3 v w Hv Hw Hvw), (A3 d w Hd Hw) by congruence. lra.
    + intros x. destruct (A4 x) as [E1 E2]. rewrite lsum_cons. destruct (N.eq_dec a a); [|congruence].
      rewrite (lsum_perm _ _ _ P), lsum_cons in E1. pose proof (A4 (co a)) as [F1 F2]. rewrite (lsum_perm _ _ _ P), lsum_cons in F1.
      assert (X : forall k : N -> R, lsum (fun v => (if N.eq_dec v a then L d x / L d (co a) else L v x - L v (co a) / L d (co a) * L d x) * k v) f
                   = lsum (fun v => L v x * k v) f + (- (L d x / L d (co a))) * lsum (fun v => L v (co a) * k v) f).
      { intros k. rewrite <- lsum_scale, <- lsum_add. apply lsum_ext. intros v Hv. destruct (N.eq_dec v a) as [->|_]; [exfalso; apply Hf in Hv; tauto|]. unfold Rdiv. ring. }
      split.
      * rewrite (lsum_ext _ (fun v => (if N.eq_dec v a then L d x / L d (co a) else L v x - L v (co a) / L d (co a) * L d x) * 1)) by (intros; lra).
        rewrite X. rewrite (lsum_ext (fun v => L v x * 1) (fun v => L v x)), (lsum_ext (fun v => L v (co a) * 1) (fun v => L v (co a))) by (intros; lra).
        assert (G1 : lsum (fun v => L v x) f = 1 - L d x) by lra. assert (G2 : lsum (fun v => L v (co a)) f = 1 - L d (co a)) by lra. rewrite G1, G2. now field.
      * intros k He. specialize (E2 k He). specialize (F2 k He). rewrite (lsum_perm _ _ _ P), lsum_cons in E2. rewrite (lsum_perm _ _ _ P), lsum_cons in F2.
        rewrite lsum_cons. destruct (N.eq_dec a a); [|congruence]. rewrite (X (fun v => co v k)).
        assert (G1 : lsum (fun v => L v x * co v k) f = x k - L d x * co d k) by lra. assert (G2 : lsum (fun v => L v (co a) * co v k) f = co a k - L d (co a) * co d k) by lra.
        rewrite G1, G2. now field.
  - intros x. destruct (N.eq_dec a a); [reflexivity|congruence].
  - intros v Hv x. destruct (N.eq_dec v a) as [->|_]; [exfalso; apply Hf in Hv; tauto|]. reflexivity.
Qed.

(** Behind a face with points behind it there is another Delaunay simplex. *)
Lemma nbr_ex S s L k d q0 : dt S s -> coords s L -> through s k -> free S k -> In d s -> In q0 S -> L d (co q0) < 0 ->
  exists a k', In a S /\ L d (co a) < 0 /\ ~ In a s /\ dt S (a :: remove N.eq_dec d s) /\
    through (a :: remove N.eq_dec d s) k' /\ free S k' /\
    (forall x, k' x = k x - (hgt a - k (co a)) / - L d (co a) * L d x).
Proof.
  intros Hdt HL [Hka Ht] Hf Hd Hq0 Hlt.
  destruct (least_of (fun q => (hgt q - k (co q)) / - L d (co q)) (fun q => L d (co q) < 0) S) as [a [Ha [La Lmin]]]; [eauto|].
  assert (Has : ~ In a s).
  { intros Ha'. destruct HL as (_ & A2 & A3 & _). destruct (N.eq_dec d a) as [<-|Hne]; [rewrite (A2 d Hd) in La; lra|]. rewrite (A3 d a Hd Ha' Hne) in La. lra. }
  set (mu := (hgt a - k (co a)) / - L d (co a)) in *.
  assert (Hmu : 0 <= mu).
  { unfold mu, Rdiv. apply Rmult_le_pos; [specialize (Hf a Ha); lra|]. apply Rlt_le, Rinv_0_lt_compat. lra. }
  assert (HLd : affine (L d)) by (destruct HL as (A1 & _); auto).
  set (k' := fun x => k x - mu * L d x). assert (Hk' : affine k') by (apply affine_sub; [exact Hka|now apply affine_scale]).
  assert (Hsub : forall v, In v (a :: remove N.eq_dec d s) -> In v S).
  { intros v [<-|Hv]; [exact Ha|]. apply remove_spec in Hv as [Hv _]. destruct Hdt as [H _]. auto. }
  assert (Hth : through (a :: remove N.eq_dec d s) k').
  { split; [exact Hk'|]. intros v Hv. unfold k'. destruct Hv as [<-|Hv].
    - unfold mu. field. lra.
    - apply remove_spec in Hv as [Hv Hne]. destruct HL as (_ & _ & A3 & _). rewrite (A3 d v Hd Hv) by congruence. rewrite (Ht v Hv). lra. }
  assert (Hfr : free S k').
  { intros q Hq. unfold k'. specialize (Hf q Hq).
    destruct (Rlt_le_dec (L d (co q)) 0) as [Hn|Hn]; [|nra]. specialize (Lmin q Hq Hn). fold mu in Lmin.
    assert (G : mu * (- L d (co q)) <= hgt q - k (co q)).
    { apply (Rmult_le_compat_r (- L d (co q))) in Lmin; [|lra]. replace ((hgt q - k (co q)) / - L d (co q) * - L d (co q)) with (hgt q - k (co q)) in Lmin by (field; lra). exact Lmin. }
    lra. }
  exists a, k'. split; [exact Ha|]. split; [exact La|]. split; [exact Has|]. split; [|split; [exact Hth|split; [exact Hfr|reflexivity]]].
  split; [exact Hsub|]. split; [|exists k'; auto]. destruct Hdt as (_ & (Hn & Hlen & _) & _).
  destruct (full_swap s L d a Hn Hlen HL Hd ltac:(lra) Has) as (B1 & B2 & L' & B3 & _). split; [exact B1|]. split; [exact B2|]. exists L'. exact B3.
Qed.

(** ** Going towards a point *)
Fixpoint all_lists (n : nat) (S : list N) : list (list N) :=
  match n with O => [[]] | Datatypes.S m => flat_map (fun a => map (cons a) (all_lists m S)) S end.
Lemma all_lists_in S : forall s, (forall v, In v s -> In v S) -> In s (all_lists (length s) S).
Proof.
  induction s as [|a s IH]; intros H; cbn [length all_lists]; [now left|]. apply in_flat_map. exists a. split; [apply H; now left|].
  apply in_map. apply IH. intros; apply H; now right.
Qed.
Lemma dt_listed S s : dt S s -> In s (all_lists (Datatypes.S D) S).
Proof. intros (H1 & (_ & H2 & _) & _). rewrite <- H2. now apply all_lists_in. Qed.

(** A transitive irreflexive relation within a finite list is well founded. *)
Lemma fin_acc {A} (eq : forall x y : A, {x = y} + {x <> y}) (R : A -> A -> Prop) :
  (forall x y z, R x y -> R y z -> R x z) -> (forall x, ~ R x x) ->
  forall n C, (length C <= n)%nat -> forall x, (forall y, R y x -> In y C) -> Acc R x.
Proof.
  intros HT HI. induction n as [|n IH]; intros C HC x Hx; constructor; intros y Hy; pose proof (Hx y Hy) as Hin.
  - destruct C; [destruct Hin|cbn in HC; lia].
  - apply (IH (remove eq y C)).
    + pose proof (remove_length_lt eq C y Hin). lia.
    + intros z Hz. apply in_in_remove; [intros ->; exact (HI y Hz)|]. apply Hx. eapply HT; eauto.
Qed.

Definition lower (S : list N) (p : vec) (s' s : list N) : Prop :=
  dt S s' /\ dt S s /\ forall k k', through s k -> through s' k' -> k p < k' p.
Lemma lower_acc S p : forall s, Acc (lower S p) s.
Proof.
  intros s. apply (fin_acc (list_eq_dec N.eq_dec) (lower S p)) with (n := length (all_lists (Datatypes.S D) S)) (C := all_lists (Datatypes.S D) S); [| |lia|].
  - intros x y z (A1 & A2 & A3) (B1 & B2 & B3). split; [exact A1|]. split; [exact B2|]. intros k k' Hc Hc'.
    destruct A2 as (_ & _ & ky & Hy & _). specialize (B3 k ky Hc Hy). specialize (A3 ky k' Hy Hc'). lra.
  - intros x (A1 & _ & A3). destruct A1 as (_ & _ & k & Hc & _). specialize (A3 k k Hc Hc). lra.
  - intros y (A1 & _). now apply dt_listed.
Qed.

(** Induction along the way from simplex to simplex towards [p]. *)
Lemma towards S p (Q : list N -> Prop) : general S ->
  (forall s L k, dt S s -> coords s L -> through s k -> free S k ->
     (forall d a k', In d s -> L d p < 0 -> In a S -> L d (co a) < 0 -> ~ In a s -> dt S (a :: remove N.eq_dec d s) ->
        through (a :: remove N.eq_dec d s) k' -> k p < k' p -> Q (a :: remove N.eq_dec d s)) -> Q s) ->
  forall s, dt S s -> Q s.
Proof.
  intros Hg H s. induction (lower_acc S p s) as [s _ IH]. intros Hs. pose proof Hs as (Hin & (Hn & Hlen & L & HL) & k & Ht & Hf).
  apply (H s L k Hs HL Ht Hf). intros d a k' Hd Hdp Ha Hda Has Hdt Hth Hlt. apply IH; [|exact Hdt].
  split; [exact Hdt|]. split; [exact Hs|]. intros k1 k1' H1 H1'.
  rewrite (plane_uniq s k1 k (proj1 (proj2 Hs)) H1 Ht). rewrite (plane_uniq _ k1' k' (proj1 (proj2 Hdt)) H1' Hth). exact Hlt.
Qed.
(** The next simplex. *)
Lemma next_one S s L k p d : general S -> dt S s -> coords s L -> through s k -> free S k -> In d s -> L d p < 0 ->
  (exists q, In q S /\ L d (co q) < 0) -> exists a k', In a S /\ L d (co a) < 0 /\ ~ In a s /\ dt S (a :: remove N.eq_dec d s) /\
    through (a :: remove N.eq_dec d s) k' /\ k p < k' p.
Proof.
  intros Hg Hs HL Ht Hf Hd Hp [q [Hq Hlt]]. destruct (nbr_ex S s L k d q Hs HL Ht Hf Hd Hq Hlt) as (a & k' & Ha & La & Has & Hdt & Hth & Hfr & E).
  exists a, k'. repeat (split; [assumption|]). rewrite E. assert (Hpa : 0 < hgt a - k (co a)).
  { specialize (Hf a Ha). destruct (Req_dec (k (co a)) (hgt a)) as [Eq|]; [|lra]. exfalso. apply Has. eapply Hg; eauto. }
  assert (0 < (hgt a - k (co a)) / - L d (co a)) by (unfold Rdiv; apply Rmult_lt_0_compat; [exact Hpa|apply Rinv_0_lt_compat; lra]). nra.
Qed.

(** For each point of the hull, a Delaunay simplex whose coordinates of the point are not negative, apart from those of vertices in [keep];
    the way there drops none of these. *)
Lemma located S (keep : N -> Prop) p : general S -> hull_of D co S p -> forall s, dt S s -> exists f Lf, dt S f /\ coords f Lf /\
  (forall v, keep v -> In v s -> In v f) /\ forall v, In v f -> ~ keep v -> 0 <= Lf v p.
Proof.
  intros Hg Hh. apply (towards S p); [exact Hg|]. intros s L k Hs HL Ht Hf IH.
  destruct (classic (exists d, In d s /\ ~ keep d /\ L d p < 0)) as [[d [Hd [Hk Hp]]]|Hno].
  - assert (Hq : exists q, In q S /\ L d (co q) < 0).
    { apply NNPP. intros Hno. assert (0 <= L d p); [|lra]. apply Hh; [destruct HL; auto|]. intros u Hu. destruct (Rlt_le_dec (L d (co u)) 0); [exfalso; eauto|assumption]. }
    destruct (next_one S s L k p d Hg Hs HL Ht Hf Hd Hp Hq) as (a & k' & Ha & La & Has & Hdt & Hth & Hlt).
    destruct (IH d a k' Hd Hp Ha La Has Hdt Hth Hlt) as (f & Lf & F1 & F2 & F3 & F4). exists f, Lf. split; [exact F1|]. split; [exact F2|]. split; [|exact F4].
    intros v Hv Hvs. apply F3; [exact Hv|]. right. apply remove_spec. split; [exact Hvs|]. intros ->. contradiction.
  - exists s, L. split; [exact Hs|]. split; [exact HL|]. split; [auto|]. intros v Hv Hk. destruct (Rlt_le_dec (L v p) 0); [exfalso; eauto|assumption].
Qed.

(** A point of the set in a Delaunay simplex is one of its vertices. *)
Lemma in_vertex S f Lf v : distinct D co S -> ties D co hgt S -> dt S f -> coords f Lf -> In v S -> (forall w, In w f -> 0 <= Lf w (co v)) -> In v f.
Proof.
  intros Hd Hti Hf HL Hv Hp. pose proof Hf as (Hin & Hfull & k & Ht & Hfr). destruct (ball_ex f Hfull) as (c & r2 & Hb).
  destruct (ball_convex f Lf c r2 (co v) HL Hp Hb) as [Hlt|(w & Hw & E)].
  - destruct (Hti f k c r2 v Hin Hfull Ht Hb Hv) as [_ H]. specialize (H Hlt). specialize (Hfr v Hv). lra.
  - rewrite <- (Hd w v (Hin w Hw) Hv E). exact Hw.
Qed.
Lemma self_hull S v : In v S -> hull_of D co S (co v). Proof. intros Hv g _ H. auto. Qed.
(** Every point is a vertex. *)
Lemma all_used S v s : distinct D co S -> ties D co hgt S -> general S -> In v S -> dt S s -> exists f, dt S f /\ In v f.
Proof.
  intros Hd Hti Hg Hv Hs. destruct (located S (fun _ => False) (co v) Hg (self_hull S v Hv) s Hs) as (f & Lf & F1 & F2 & _ & F4).
  exists f. split; [exact F1|]. eapply in_vertex; eauto.
Qed.

(** Two Delaunay simplices with a common point have it in their common face. *)
Lemma meet_face S f f' Lf Lf' y : general S -> dt S f -> dt S f' -> coords f Lf -> coords f' Lf' ->
  (forall v, In v f -> 0 <= Lf v y) -> (forall v, In v f' -> 0 <= Lf' v y) -> forall v, In v f -> 0 < Lf v y -> In v f'.
Proof.
  intros Hg Hf Hf' HL HL' Hy Hy' v Hv Hpos. pose proof Hf as (Hin & _ & k & Ht & Hfr). pose proof Hf' as (Hin' & _ & k' & Ht' & Hfr').
  set (h := fun z => k z - k' z). assert (Ha : affine h) by (apply affine_sub; [apply Ht|apply Ht']). destruct Ht as [Hka Ht], Ht' as [Hka' Ht'].
  assert (P : forall w, In w f -> 0 <= Lf w y * h (co w)).
  { intros w Hw. apply Rmult_le_pos; [auto|]. unfold h. rewrite (Ht w Hw). specialize (Hfr' w (Hin w Hw)). lra. }
  assert (G1 : 0 <= h y) by (rewrite (interp f Lf HL h y Ha); now apply lsum_nonneg).
  assert (G2 : 0 <= - h y).
  { rewrite (interp f' Lf' HL' h y Ha). replace (- lsum (fun v0 => Lf' v0 y * h (co v0)) f') with (lsum (fun v0 => (-1) * (Lf' v0 y * h (co v0))) f') by (rewrite lsum_scale; lra).
    apply lsum_nonneg. intros w Hw. specialize (Hy' w Hw). assert (h (co w) <= 0); [|nra]. unfold h. rewrite (Ht' w Hw). specialize (Hfr w (Hin' w Hw)). lra. }
  assert (E : h y = 0) by lra. rewrite (interp f Lf HL h y Ha) in E. pose proof (lsum_nonneg_zero _ f P E v Hv) as Z. cbn beta in Z.
  apply Rmult_integral in Z as [Z|Z]; [lra|]. apply (Hg f' k' v Hf' (conj Hka' Ht') (Hin v Hv)). unfold h in Z. rewrite (Ht v Hv) in Z. lra.
Qed.

(** ** Neighbors *)
(** At most one Delaunay simplex on each side of a face. *)
Lemma side_one S s s' d L a : general S -> dt S s -> coords s L -> In d s -> dt S s' -> (forall w, In w s -> w <> d -> In w s') -> In a s' -> ~ In a s ->
  L d (co a) < 0.
Proof.
  intros Hg Hs HL Hd Hs' Hsub Ha Has. destruct (Rlt_le_dec (L d (co a)) 0) as [|Hge]; [assumption|]. exfalso.
  pose proof Hs as (Hin & (Hn & Hlen & _) & k & [Hka Ht] & Hfr). pose proof Hs' as (Hin' & (Hn' & Hlen' & L' & HL') & k' & [Hka' Ht'] & Hfr').
  set (h := fun z => k' z - k z). assert (Hh : affine h) by now apply affine_sub.
  assert (E : forall x, h x = L d x * h (co d)).
  { intros x. apply (interp_one s L HL h x d Hh Hd Hn). intros w Hw Hne. unfold h. rewrite (Ht w Hw), (Ht' w (Hsub w Hw Hne)). lra. }
  assert (Hd0 : h (co d) <= 0) by (unfold h; rewrite (Ht d Hd); specialize (Hfr' d (Hin d Hd)); lra).
  assert (Ha0 : 0 < h (co a)).
  { unfold h. rewrite (Ht' a Ha). specialize (Hfr a (Hin' a Ha)). destruct (Req_dec (k (co a)) (hgt a)) as [Eq|]; [|lra]. exfalso. apply Has. apply (Hg s k a Hs (conj Hka Ht) (Hin' a Ha) Eq). }
  rewrite E in Ha0. nra.
Qed.
Lemma same_side S s s1 s2 d L : general S -> dt S s -> coords s L -> In d s -> dt S s1 -> dt S s2 ->
  (forall w, In w s -> (In w s1 <-> w <> d)) -> (forall w, In w s -> (In w s2 <-> w <> d)) -> forall v, In v s1 -> In v s2.
Proof.
  intros Hg Hs HL Hd Hs1 Hs2 H1 H2 v Hv. destruct (in_dec N.eq_dec v s) as [Hvs|Hvs]; [apply H2; auto; now apply H1|].
  pose proof Hs as (Hin & (Hn & Hlen & _) & _). pose proof Hs1 as (Hin1 & (Hn1 & Hlen1 & L1 & HL1) & k1 & [Ha1 Ht1] & Hf1). pose proof Hs2 as (Hin2 & (Hn2 & Hlen2 & L2 & HL2) & k2 & [Ha2 Ht2] & Hf2).
  assert (Hv1 : L d (co v) < 0) by (eapply (side_one S s s1 d L v); eauto; intros; now apply H1).
  assert (X : exists a, In a s2 /\ ~ In a s).
  { apply NNPP. intros Hno. assert (I : incl s2 (remove N.eq_dec d s)).
    { intros w Hw. apply remove_spec. destruct (in_dec N.eq_dec w s); [|exfalso; eauto]. split; [assumption|]. now apply (H2 w). }
    apply NoDup_incl_length in I; [|exact Hn2]. pose proof (remove_length_lt N.eq_dec s d Hd). lia. }
  destruct X as [a [Ha Has]].
  assert (Hal : L d (co a) < 0) by (eapply (side_one S s s2 d L a); eauto; intros; now apply H2).
  set (h := fun z => k2 z - k1 z). assert (Hh : affine h) by now apply affine_sub.
  assert (E : forall x, h x = L d x * h (co d)).
  { intros x. apply (interp_one s L HL h x d Hh Hd Hn). intros w Hw Hne. unfold h. rewrite (Ht1 w), (Ht2 w); [lra| |]; [now apply H2|now apply H1]. }
  assert (A1 : h (co v) <= 0) by (unfold h; rewrite (Ht1 v Hv); specialize (Hf2 v (Hin1 v Hv)); lra).
  assert (A2 : 0 <= h (co a)) by (unfold h; rewrite (Ht2 a Ha); specialize (Hf1 a (Hin2 a Ha)); lra).
  assert (Z : h (co d) = 0) by (rewrite E in A1, A2; nra).
  apply (Hg s2 k2 v Hs2 (conj Ha2 Ht2) (Hin1 v Hv)). assert (F : h (co v) = 0) by (rewrite E, Z; lra). unfold h in F. rewrite (Ht1 v Hv) in F. lra.
Qed.
End Del.
