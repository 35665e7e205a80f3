(** The simplices kept by a merge are the Delaunay simplices of all points. *)
From Coq Require Import Permutation Classical.
From Verif Require Import Outcome ListUtil GeoModel GeoSpec GeoProofs DelSpec DelGeo.
Local Open Scope R_scope.

(** ** Closed sets on a line *)
Definition closed (A : R -> Prop) : Prop := forall s, ~ A s -> exists e, 0 < e /\ forall t, Rabs (t - s) < e -> ~ A t.
Lemma closed_ext (A B : R -> Prop) : (forall t, A t <-> B t) -> closed A -> closed B.
Proof. intros E H s Hs. destruct (H s) as [e [He Ht]]; [now rewrite E|]. exists e. split; [exact He|]. intros t Htt. rewrite <- E. auto. Qed.
Lemma closed_false : closed (fun _ => False). Proof. intros s _. exists 1. split; [lra|tauto]. Qed.
Lemma closed_or A B : closed A -> closed B -> closed (fun t => A t \/ B t).
Proof.
  intros HA HB s Hs. destruct (HA s) as [e [He H1]]; [tauto|]. destruct (HB s) as [e' [He' H2]]; [tauto|]. exists (Rmin e e').
  split; [now apply Rmin_pos|]. intros t Ht [C|C]; [apply (H1 t); auto|apply (H2 t); auto]; eapply Rlt_le_trans; eauto; [apply Rmin_l|apply Rmin_r].
Qed.
Lemma closed_and A B : closed A -> closed B -> closed (fun t => A t /\ B t).
Proof.
  intros HA HB s Hs. destruct (classic (A s)) as [X|X].
  - destruct (HB s) as [e [He H]]; [tauto|]. exists e. split; [exact He|]. intros t Ht [_ C]. exact (H t Ht C).
  - destruct (HA s X) as [e [He H]]. exists e. split; [exact He|]. intros t Ht [C _]. exact (H t Ht C).
Qed.
Lemma closed_halfline a b : closed (fun t => 0 <= a + t * b).
Proof.
  intros s Hs. exists (- (a + s * b) / (Rabs b + 1)). pose proof (Rabs_pos b). assert (P : 0 < / (Rabs b + 1)) by (apply Rinv_0_lt_compat; lra).
  split; [unfold Rdiv; nra|]. intros t Ht C.
  assert (X : Rabs (t - s) * (Rabs b + 1) < - (a + s * b)).
  { apply (Rmult_lt_compat_r (Rabs b + 1)) in Ht; [|lra]. unfold Rdiv in Ht. rewrite Rmult_assoc, Rinv_l in Ht by lra. lra. }
  assert (Y : (t - s) * b <= Rabs (t - s) * Rabs b) by (rewrite <- Rabs_mult; apply Rle_abs). pose proof (Rabs_pos (t - s)). nra.
Qed.
Lemma closed_all (l : list N) (A : N -> R -> Prop) : (forall v, In v l -> closed (A v)) -> closed (fun t => forall v, In v l -> A v t).
Proof.
  induction l as [|a l IH]; intros H.
  - intros s Hs. exfalso. apply Hs. intros v [].
  - eapply closed_ext; [|apply (closed_and (A a) (fun t => forall v, In v l -> A v t)); [apply H; now left|apply IH; intros; apply H; now right]].
    intros t. cbn beta. split; [intros [X Y] v [<-|Hv]; auto|intros X; split; [apply X; now left|intros; apply X; now right]].
Qed.
Lemma closed_some {B} (l : list B) (A : B -> R -> Prop) : (forall f, In f l -> closed (A f)) -> closed (fun t => exists f, In f l /\ A f t).
Proof.
  induction l as [|a l IH]; intros H.
  - eapply closed_ext; [|exact closed_false]. intros t. split; [tauto|intros [f [[] _]]].
  - eapply closed_ext; [|apply (closed_or (A a) (fun t => exists f, In f l /\ A f t)); [apply H; now left|apply IH; intros; apply H; now right]].
    intros t. cbn beta. split; [intros [X|[f [X Y]]]; [exists a; split; [now left|exact X]|exists f; split; [now right|exact Y]]|].
    intros [f [[<-|X] Y]]; [now left|right; eauto].
Qed.
(** Two closed sets that cover [0, 1) without meeting there: the one with 0 has 1 too. *)
Lemma connected A B : closed A -> closed B -> (forall t, 0 <= t < 1 -> A t \/ B t) -> A 0 -> (forall t, 0 <= t < 1 -> A t -> B t -> False) -> A 1.
Proof.
  intros HA HB Hc H0 Hd. destruct (classic (A 1)) as [|N1]; [assumption|]. exfalso.
  destruct (completeness (fun t => 0 <= t <= 1 /\ A t)) as [s [Hub Hlub]].
  - exists 1. intros t [Ht _]. lra.
  - exists 0. split; [lra|exact H0].
  - assert (S0 : 0 <= s) by (apply Hub; split; [lra|exact H0]). assert (S1 : s <= 1) by (apply Hlub; intros t [Ht _]; lra).
    assert (As : A s).
    { destruct (classic (A s)) as [|Ns]; [assumption|]. exfalso. destruct (HA s Ns) as [e [He Ht]]. assert (s <= s - e / 2); [|lra]. apply Hlub. intros t [[T0 T1] At].
      destruct (Rle_lt_dec t (s - e / 2)); [assumption|]. exfalso. apply (Ht t); [|exact At]. assert (t <= s) by (apply Hub; split; [lra|exact At]). unfold Rabs. destruct (Rcase_abs (t - s)); lra. }
    assert (Sn : s <> 1) by (intros ->; contradiction). apply (Hd s); [lra|exact As|].
    destruct (classic (B s)) as [|Ns]; [assumption|]. exfalso. destruct (HB s Ns) as [e [He Ht]].
    set (t := Rmin (s + e / 2) ((s + 1) / 2)). assert (T1 : s < t) by (unfold t; apply Rmin_glb_lt; lra). assert (T2 : t <= s + e / 2) by apply Rmin_l. assert (T3 : t <= (s + 1) / 2) by apply Rmin_r.
    destruct (Hc t) as [X|X]; [lra| |].
    + assert (t <= s) by (apply Hub; split; [lra|exact X]). lra.
    + apply (Ht t); [|exact X]. unfold Rabs. destruct (Rcase_abs (t - s)); lra.
Qed.

Lemma same_perm (s s' : list N) : NoDup s -> NoDup s' -> same s s' -> Permutation s s'.
Proof. intros H1 H2 H. apply NoDup_Permutation; auto. Qed.

Section Merge.
Variable D : nat.
Variable co : N -> vec.
Notation coords := (coords D co).

(** [y] lies in the simplex [f]. *)
Definition inside_of (f : list N) (y : vec) : Prop := exists L, coords f L /\ forall v, In v f -> 0 <= L v y.
Lemma inside_closed f x y : NoDup f -> (exists L, coords f L) -> closed (fun t => inside_of f (line x y t)).
Proof.
  intros Hn [L HL]. eapply closed_ext; [|apply (closed_all f (fun v t => 0 <= L v x + t * (L v y - L v x))); intros; apply closed_halfline].
  intros t. cbn beta. assert (E : forall v, In v f -> L v (line x y t) = L v x + t * (L v y - L v x)) by (intros v Hv; destruct HL as [HL _]; now apply (affine_line D), HL).
  split.
  - intros H. exists L. split; [exact HL|]. intros v Hv. rewrite E by exact Hv. auto.
  - intros [L' [HL' H]] v Hv. rewrite <- E by exact Hv. rewrite (coords_uniq D co f L L' Hn HL HL') by exact Hv. auto.
Qed.

(** The centre of a simplex. *)
Definition centre (s : list N) : vec := fun d => lsum (fun v => co v d) s / INR (length s).
Lemma lsum_const c l : lsum (fun _ => c) l = c * INR (length l).
Proof. induction l as [|a l IH]; [cbn; lra|]. rewrite lsum_cons, IH. cbn [length]. rewrite S_INR. lra. Qed.
Lemma affine_centre f s : affine D f -> s <> [] -> f (centre s) = lsum (fun v => f (co v)) s / INR (length s).
Proof.
  intros [a [b H]] Hs. assert (Z : INR (length s) <> 0) by (apply not_0_INR; destruct s; [contradiction|discriminate]). rewrite H.
  rewrite (lsum_ext _ (fun v => sumn D (fun d => a d * co v d) + b)) by (intros; apply H). rewrite lsum_add, lsum_const, lsum_sumn. unfold centre.
  rewrite (sumn_ext D (fun d => a d * (lsum (fun v => co v d) s / INR (length s))) (fun d => / INR (length s) * lsum (fun v => a d * co v d) s)).
  - rewrite sumn_scale. now field.
  - intros d _. rewrite lsum_scale. now field.
Qed.
Lemma centre_pos s L v : NoDup s -> coords s L -> In v s -> 0 < L v (centre s).
Proof.
  intros Hn (A1 & A2 & A3 & _) Hv. assert (Hs : s <> []) by (intros ->; destruct Hv). rewrite (affine_centre (L v) s (A1 v Hv) Hs).
  rewrite (lsum_one (fun w => L v (co w)) s v Hn Hv); [|intros w Hw Hne; apply A3; congruence]. rewrite (A2 v Hv).
  assert (0 < INR (length s)) by (apply lt_0_INR; destruct s; [contradiction|cbn; lia]). unfold Rdiv. rewrite Rmult_1_l. now apply Rinv_0_lt_compat.
Qed.

Variable hgt : N -> R.
Notation dt := (dt D co hgt).
Notation through := (through D co hgt).
Variable fin : N -> bool.
Variable np : nat.
Variable part : nat -> list N.
Variable all : list N.
Hypothesis HD : division D co hgt fin np part all.
(** The edge simplices: all simplices with the lifted point of another partition not above them. *)
Variable edge : nat -> list N -> Prop.
Hypothesis edge_dt : forall i s, edge i s -> (i < np)%nat /\ dt (part i) s.
Hypothesis edge_below : forall i j s k p, (i < np)%nat -> (j < np)%nat -> i <> j -> dt (part i) s -> In p (part j) -> fin p = true -> through s k ->
  hgt p <= k (co p) -> edge i s.
(** The points of the edge. *)
Variable W : list N.
Hypothesis HW : forall v, In v W <-> (In v all /\ fin v = false) \/ exists i s, edge i s /\ In v s.
Hypothesis HWo : outer D co hgt fin W.

Let part_all i v : (i < np)%nat -> In v (part i) -> In v all.
Proof. intros Hi Hv. apply (dv_all _ _ _ _ _ _ _ HD). eauto. Qed.
Let W_all v : In v W -> In v all.
Proof. intros Hv. apply HW in Hv as [[H _]|(i & s & He & Hv)]; [exact H|]. apply edge_dt in He as [Hi (H & _)]. eauto. Qed.

Let ties_all : ties D co hgt all. Proof. exact (dv_ties _ _ _ _ _ _ _ HD). Qed.
Lemma part_ties i : (i < np)%nat -> ties D co hgt (part i).
Proof using HD. intros Hi s k c r2 q Hin Hf Ht Hb Hq. apply (ties_all s k c r2 q); eauto. Qed.
Lemma part_distinct i : (i < np)%nat -> distinct D co (part i).
Proof using HD. intros Hi u v Hu Hv. apply (dv_distinct _ _ _ _ _ _ _ HD); eauto. Qed.
(** What is not above the plane is not outside of the sphere. *)
Lemma below_ball i s k p : (i < np)%nat -> dt (part i) s -> In p all -> through s k -> hgt p <= k (co p) -> exists c r2, on_ball D co s c r2 /\ dist2 D (co p) c <= r2.
Proof using HD.
  intros Hi Hs Hp Hk Hle. pose proof Hs as (Hin & Hf & _). destruct (ball_ex D co s Hf) as (c & r2 & Hb). exists c, r2. split; [exact Hb|].
  destruct (Rle_lt_dec (dist2 D (co p) c) r2) as [|Hlt]; [assumption|]. assert (Hin' : forall v, In v s -> In v all) by eauto.
  destruct (ties_all s k c r2 p Hin' Hf Hk Hb Hp) as [H _]. specialize (H Hlt). lra.
Qed.
Lemma final_dt i s : (i < np)%nat -> dt (part i) s -> ~ edge i s -> dt all s.
Proof using HD edge_below.
  intros Hi Hs Hne. pose proof Hs as (Hin & Hf & k & Ht & Hfr). split; [eauto|]. split; [exact Hf|]. exists k. split; [exact Ht|].
  intros q Hq. pose proof Hq as Hq'. apply (dv_all _ _ _ _ _ _ _ HD) in Hq as [j [Hj Hq]]. destruct (Nat.eq_dec i j) as [<-|Hij]; [auto|].
  destruct (fin q) eqn:E; [|apply Hfr; eapply dv_inf; eauto]. destruct (Rlt_le_dec (k (co q)) (hgt q)); [lra|]. exfalso. apply Hne.
  apply (edge_below i j s k q Hi Hj Hij Hs Hq E Ht). lra.
Qed.
Lemma single_dt i s : (i < np)%nat -> dt all s -> (forall v, In v s -> In v (part i)) -> dt (part i) s.
Proof using HD. intros Hi Hs H. eapply dt_mono; [exact Hs|exact H|]. intros q Hq. eauto. Qed.

(** A vertex of a simplex that spans partitions is a vertex of an edge simplex. *)
Lemma spanning_vertex s i j v p : dt all s -> (i < np)%nat -> (j < np)%nat -> i <> j -> In v s -> In v (part i) -> fin v = true ->
  In p s -> In p (part j) -> fin p = true -> In v W.
Proof using HD edge_below HW.
  intros Hs Hi Hj Hij Hv Hvi Hvf Hp Hpj Hpf. pose proof Hs as (Hin & (Hn & _ & _) & k & [Hka Ht] & Hfr).
  destruct (dv_somes _ _ _ _ _ _ _ HD i Hi) as [s0 Hs0].
  destruct (all_used D co hgt (part i) v s0 (part_distinct i Hi) (part_ties i Hi) (dv_gens _ _ _ _ _ _ _ HD i Hi) Hvi Hs0) as [f0 [Hf0 Hvf0]].
  assert (Hh : hull_of D co (part i) (co p)).
  { intros g Hg H. apply (dv_hull _ _ _ _ _ _ _ HD p (Hin p Hp) g Hg). intros u Hu. apply filter_In in Hu as [Hu Hfu]. apply H. eapply dv_inf; eauto. now apply negb_true_iff. }
  destruct (located D co hgt (part i) (fun u => u = v) (co p) (dv_gens _ _ _ _ _ _ _ HD i Hi) Hh f0 Hf0) as (f & L & Hf & HL & Hk & Hpos). specialize (Hk v eq_refl Hvf0).
  apply HW. right. exists i, f. split; [|exact Hk]. pose proof Hf as (Hinf & _ & k' & [Hka' Ht'] & Hfr'). apply (edge_below i j f k' p Hi Hj Hij Hf Hpj Hpf (conj Hka' Ht')).
  set (h := fun z => k' z - k z). assert (Ha : affine D h) by now apply affine_sub.
  assert (G : 0 <= h (co p)).
  { rewrite (interp D co f L HL h (co p) Ha). apply lsum_nonneg. intros w Hw. destruct (N.eq_dec w v) as [->|Hne].
    - replace (h (co v)) with 0; [lra|]. unfold h. rewrite (Ht v Hv), (Ht' v Hw). lra.
    - apply Rmult_le_pos; [apply Hpos; auto|]. unfold h. rewrite (Ht' w Hw). assert (Hwa : In w all) by eauto. specialize (Hfr w Hwa). lra. }
  unfold h in G. rewrite (Ht p Hp) in G. lra.
Qed.
Lemma spanning s : dt all s -> ~ single np part s -> forall v, In v s -> In v W.
Proof using HD edge_below HW.
  intros Hs Hns v Hv. assert (Hva : In v all) by (destruct Hs; auto). destruct (fin v) eqn:E; [|apply HW; left; auto].
  pose proof Hva as Hva'. apply (dv_all _ _ _ _ _ _ _ HD) in Hva' as [i [Hi Hvi]].
  destruct (classic (exists p, In p s /\ ~ In p (part i))) as [[p [Hp Hpi]]|Hno].
  - assert (Hpa : In p all) by (destruct Hs; auto). destruct (fin p) eqn:Ep; [|exfalso; apply Hpi; eapply dv_inf; eauto].
    pose proof Hpa as Hpa'. apply (dv_all _ _ _ _ _ _ _ HD) in Hpa' as [j [Hj Hpj]]. eapply (spanning_vertex s i j v p); eauto. intros ->. contradiction.
  - exfalso. apply Hns. exists i. split; [exact Hi|]. intros w Hw. apply NNPP. intros Hc. apply Hno. eauto.
Qed.

(** ** Every Delaunay simplex of all points is in the result *)
Lemma merged_complete s : dt all s -> (exists i, (i < np)%nat /\ dt (part i) s /\ ~ edge i s) \/
  (dt W s /\ (~ single np part s \/ exists i s', edge i s' /\ same s s')).
Proof using HD edge_dt edge_below HW.
  intros Hs. destruct (classic (single np part s)) as [[i [Hi Hsi]]|Hns].
  - pose proof (single_dt i s Hi Hs Hsi) as Hi'. destruct (classic (edge i s)) as [He|He]; [|left; eauto]. right. split.
    + eapply dt_mono; [exact Hs| |exact W_all]. intros v Hv. apply HW. right. eauto.
    + right. exists i, s. split; [exact He|]. intros v. reflexivity.
  - right. split; [|now left]. eapply dt_mono; [exact Hs| |exact W_all]. apply spanning; auto.
Qed.

(** ** Nothing else is *)
(** A simplex of the edge triangulation that is no Delaunay simplex of all points ... *)
Section Junk.
Variable s : list N.
Hypothesis Hs : dt W s.
Hypothesis Hno : ~ dt all s.
Variable L : N -> vec -> R.
Hypothesis HL : coords s L.

Lemma junk_meets f x : (forall v, In v s -> 0 < L v x) -> dt all f -> inside_of f x -> exists p, In p f /\ ~ In p W.
Proof using Hs Hno HL W_all.
  intros Hx Hf [Lf [HLf Hxf]]. apply NNPP. intros Hc. assert (HfW : forall p, In p f -> In p W) by (intros p Hp; apply NNPP; eauto).
  pose proof Hs as (Hin & Hfull & k & [Hka Ht] & Hfr). pose proof Hf as (Hinf & _ & k' & [Hka' Ht'] & Hfr').
  set (h := fun z => k z - k' z). assert (Ha : affine D h) by now apply affine_sub.
  assert (P : forall w, In w s -> 0 <= L w x * h (co w)).
  { intros w Hw. apply Rmult_le_pos; [apply Rlt_le; auto|]. unfold h. rewrite (Ht w Hw). specialize (Hfr' w (W_all w (Hin w Hw))). lra. }
  assert (G1 : 0 <= h x) by (rewrite (interp D co s L HL h x Ha); apply lsum_nonneg; exact P).
  assert (G2 : 0 <= - h x).
  { rewrite (interp D co f Lf HLf h x Ha). replace (- lsum (fun v => Lf v x * h (co v)) f) with (lsum (fun v => (-1) * (Lf v x * h (co v))) f) by (rewrite lsum_scale; lra).
    apply lsum_nonneg. intros w Hw. specialize (Hxf w Hw). assert (h (co w) <= 0); [|nra]. unfold h. rewrite (Ht' w Hw). specialize (Hfr w (HfW w Hw)). lra. }
  assert (E : h x = 0) by lra. rewrite (interp D co s L HL h x Ha) in E. pose proof (lsum_nonneg_zero _ s P E) as Z.
  assert (Z' : forall y, h y = 0).
  { apply (interp_zero D co s L HL h Ha). intros w Hw. specialize (Z w Hw). cbn beta in Z. apply Rmult_integral in Z as [Z|Z]; [specialize (Hx w Hw); lra|exact Z]. }
  apply Hno. split; [auto|]. split; [exact Hfull|]. exists k. split; [exact (conj Hka Ht)|]. intros q Hq. specialize (Hfr' q Hq). specialize (Z' (co q)). unfold h in Z'. lra.
Qed.

Definition colored (j : nat) (f : list N) : Prop := dt all f /\ exists p, In p f /\ ~ In p W /\ In p (part j) /\ fin p = true.
Lemma colored_in j f : (j < np)%nat -> colored j f -> forall v, In v f -> In v (part j).
Proof using HD edge_below HW.
  intros Hj [Hf (p & Hp & HpW & Hpj & Hpf)] v Hv. destruct (classic (single np part f)) as [[i [Hi H]]|Hns].
  - assert (E : i = j); [apply (dv_one _ _ _ _ _ _ _ HD i j p); auto|]. subst i. auto.
  - exfalso. apply HpW. eapply spanning; eauto.
Qed.
Lemma colors_apart i j f f' y : (i < np)%nat -> (j < np)%nat -> i <> j -> colored i f -> colored j f' -> inside_of f y -> inside_of f' y ->
  (forall v, In v s -> 0 < L v y) -> False.
Proof using HD edge_below HW W_all Hs HL.
  intros Hi Hj Hij Hf Hf' [Lf [HLf Hy]] [Lf' [HLf' Hy']] Hpos. pose proof (colored_in i f Hi Hf) as If. pose proof (colored_in j f' Hj Hf') as If'.
  destruct Hf as [Hf _], Hf' as [Hf' _]. destruct (dv_outer _ _ _ _ _ _ _ HD f Hf) as (g & Ga & Gz & Gp & q & Hq & Gq).
  assert (E : g y = 0).
  { rewrite (interp D co f Lf HLf g y Ga). apply lsum_zero. intros v Hv. destruct (Rle_lt_dec (Lf v y) 0) as [Hle|Hlt].
    - specialize (Hy v Hv). replace (Lf v y) with 0 by lra. lra.
    - pose proof (meet_face D co hgt all f f' Lf Lf' y (dv_gen _ _ _ _ _ _ _ HD) Hf Hf' HLf HLf' Hy Hy' v Hv Hlt) as Hv'.
      rewrite Gz; [lra|exact Hv|]. destruct (fin v) eqn:Ev; [|reflexivity]. exfalso. apply Hij. eapply (dv_one _ _ _ _ _ _ _ HD i j v); eauto. }
  rewrite (interp D co s L HL g y Ga) in E. destruct Hs as (Hin & _).
  assert (Z : forall w, In w s -> g (co w) = 0).
  { intros w Hw. assert (Z : L w y * g (co w) = 0).
    { apply (lsum_nonneg_zero (fun v => L v y * g (co v)) s); auto. intros u Hu. apply Rmult_le_pos; [apply Rlt_le; auto|]. apply Gp. auto. }
    apply Rmult_integral in Z as [Z|Z]; [specialize (Hpos w Hw); lra|exact Z]. }
  pose proof (interp_zero D co s L HL g Ga Z (co q)). lra.
Qed.
Lemma covered y : (forall v, In v s -> 0 < L v y) -> exists j f, (j < np)%nat /\ colored j f /\ inside_of f y.
Proof using HD HW W_all Hs Hno HL.
  intros Hy. destruct (dv_some _ _ _ _ _ _ _ HD) as [s0 Hs0].
  assert (Hh : hull_of D co all y).
  { intros g Hg H. rewrite (interp D co s L HL g y Hg). apply lsum_nonneg. intros v Hv. apply Rmult_le_pos; [apply Rlt_le; auto|]. apply H. destruct Hs; auto. }
  destruct (located D co hgt all (fun _ => False) y (dv_gen _ _ _ _ _ _ _ HD) Hh s0 Hs0) as (f & Lf & Hf & HLf & _ & Hpos).
  assert (Hin : inside_of f y) by (exists Lf; auto). destruct (junk_meets f y Hy Hf Hin) as [p [Hp HpW]].
  assert (Hpa : In p all) by (destruct Hf; auto). pose proof Hpa as Hpa'. apply (dv_all _ _ _ _ _ _ _ HD) in Hpa' as [j [Hj Hpj]].
  exists j, f. split; [exact Hj|]. split; [|exact Hin]. split; [exact Hf|]. exists p. repeat (split; [assumption|]).
  destruct (fin p) eqn:E; [reflexivity|]. exfalso. apply HpW. apply HW. auto.
Qed.
(** ... has its input vertices in the partition that covers its centre. *)
Lemma junk_single j f v : (j < np)%nat -> colored j f -> inside_of f (centre s) -> In v s -> In v (part j).
Proof using HD edge_below HW W_all Hs Hno HL.
  intros Hj Hf Hin Hv. assert (Hn : NoDup s) by (eapply dt_NoDup; eauto).
  set (C := all_lists (S D) all). set (x := line (centre s) (co v)).
  assert (Hpos : forall t, 0 <= t < 1 -> forall w, In w s -> 0 < L w (x t)).
  { intros t Ht w Hw. unfold x. rewrite (affine_line D) by (destruct HL as [HL0 _]; auto). pose proof (centre_pos s L w Hn HL Hw).
    assert (0 <= L w (co v)) by (destruct HL as (_ & A2 & A3 & _); destruct (N.eq_dec w v) as [->|Hne]; [rewrite A2 by exact Hv; lra|rewrite A3; auto; lra]). nra. }
  set (A := fun t => exists f, In f C /\ (colored j f /\ inside_of f (x t))).
  set (B := fun t => exists f, In f C /\ ((exists i, (i < np)%nat /\ i <> j /\ colored i f) /\ inside_of f (x t))).
  assert (Hcl : forall (Q : list N -> Prop), (forall f, Q f -> dt all f) -> closed (fun t => exists f, In f C /\ (Q f /\ inside_of f (x t)))).
  { intros Q HQ. apply (closed_some C (fun f t => Q f /\ inside_of f (x t))). intros f0 _. destruct (classic (Q f0)) as [X|X].
    - eapply closed_ext; [|apply (inside_closed f0 (centre s) (co v))]; [intros t; cbn beta; tauto| |].
      + apply HQ in X. eapply dt_NoDup; eauto.
      + apply HQ in X as (_ & (_ & _ & Y) & _). exact Y.
    - eapply closed_ext; [|exact closed_false]. intros t. cbn beta. tauto. }
  assert (X : A 1).
  { apply (connected A B).
    - apply Hcl. intros f0 [H _]. exact H.
    - apply Hcl. intros f0 (i & _ & _ & [H _]). exact H.
    - intros t Ht. destruct (covered (x t) (Hpos t Ht)) as (i & f0 & Hi & Hc & Hx). assert (HC : In f0 C) by (apply (dt_listed D co hgt); destruct Hc; assumption).
      destruct (Nat.eq_dec i j) as [->|Hne]; [left; exists f0; auto|right; exists f0; split; [exact HC|split; [eauto|exact Hx]]].
    - exists f. split; [apply (dt_listed D co hgt); destruct Hf; assumption|]. split; [exact Hf|]. destruct Hin as [Lf [HLf Hin]]. exists Lf. split; [exact HLf|].
      intros w Hw. unfold x. rewrite (affine_line D) by (destruct HLf as [HL0 _]; auto). specialize (Hin w Hw). lra.
    - intros t Ht (f1 & _ & Hf1 & I1) (f2 & _ & (i & Hi & Hne & Hf2) & I2). apply (colors_apart j i f1 f2 (x t)); auto. }
  destruct X as (f1 & _ & Hf1 & [L1 [HL1 I1]]). apply (colored_in j f1 Hj Hf1).
  destruct Hf1 as [Hf1 _]. apply (in_vertex D co hgt all f1 L1 v (dv_distinct _ _ _ _ _ _ _ HD) ties_all Hf1 HL1); [destruct Hs; auto|].
  intros w Hw. specialize (I1 w Hw). unfold x in I1. rewrite (affine_line D) in I1 by (destruct HL1 as [HL0 _]; auto). lra.
Qed.
Lemma junk_unwanted : single np part s /\ ~ exists i s', edge i s' /\ same s s'.
Proof using HD edge_dt edge_below HW HWo W_all Hs Hno HL.
  assert (Hn : NoDup s) by (eapply dt_NoDup; eauto).
  destruct (covered (centre s) (fun v Hv => centre_pos s L v Hn HL Hv)) as (j & f & Hj & Hf & Hin).
  assert (Hsj : forall v, In v s -> In v (part j)) by (intros v Hv; eapply junk_single; eauto). split; [exists j; auto|].
  intros (i & s' & He & Hsame). apply edge_dt in He as [Hi Hs']. destruct (HWo s Hs) as (g & Ga & Gz & Gp & q & Hq & Gq).
  assert (Hfin : exists u, In u s /\ fin u = true).
  { apply NNPP. intros Hc. assert (Z : g (co q) = 0); [|lra]. apply (interp_zero D co s L HL g Ga).
    intros w Hw. apply Gz; [exact Hw|]. destruct (fin w) eqn:E; [exfalso; eauto|reflexivity]. }
  destruct Hfin as [u [Hu Hfu]]. assert (i = j).
  { apply (dv_one _ _ _ _ _ _ _ HD i j u); auto. destruct Hs' as (Hin' & _). apply Hin'. now apply Hsame. }
  subst i. pose proof (colored_in j f Hj Hf) as Hfj. destruct Hf as [Hf (p & Hp & HpW & _ & _)].
  pose proof (single_dt j f Hj Hf Hfj) as Hfj'. assert (Hsj' : dt (part j) s).
  { eapply dt_perm; [|exact Hs']. apply Permutation_sym, same_perm; auto. eapply dt_NoDup; eauto. }
  destruct Hin as [Lf [HLf Hin]].
  assert (I : incl s f).
  { intros v Hv. apply (meet_face D co hgt (part j) s f L Lf (centre s) (dv_gens _ _ _ _ _ _ _ HD j Hj) Hsj' Hfj' HL HLf); auto.
    - intros w Hw. apply Rlt_le. now apply centre_pos.
    - now apply centre_pos. }
  apply HpW. destruct Hs as (Hin' & (_ & Hl & _) & _). apply Hin'. assert (I' : incl f s); [|exact (I' p Hp)].
  apply NoDup_length_incl; [exact Hn| |exact I]. destruct Hf as (_ & (_ & Hl' & _) & _). lia.
Qed.
End Junk.

(** The result of a merge: the simplices of the partitions that are not on the edge, and those of the edge triangulation that span partitions or
    were on the edge. *)
Theorem merged s : ((exists i, (i < np)%nat /\ dt (part i) s /\ ~ edge i s) \/
  (dt W s /\ (~ single np part s \/ exists i s', edge i s' /\ same s s'))) <-> dt all s.
Proof using HD edge_dt edge_below HW HWo.
  split; [|apply merged_complete]. intros [(i & Hi & Hs & He)|[Hs Hw]]; [eapply final_dt; eauto|].
  apply NNPP. intros Hno. pose proof Hs as (_ & (_ & _ & L & HL) & _). destruct (junk_unwanted s Hs Hno L HL) as [H1 H2]. tauto.
Qed.

(** Two partitions with input points give the edge an input point. *)
Lemma edge_some i j p : (i < np)%nat -> (j < np)%nat -> i <> j -> outer D co hgt fin (part i) -> In p (part j) -> fin p = true -> exists v, In v W /\ fin v = true.
Proof using HD edge_below HW.
  intros Hi Hj Hij Ho Hp Hpf. destruct (dv_somes _ _ _ _ _ _ _ HD i Hi) as [s0 Hs0]. assert (Hpa : In p all) by eauto.
  assert (Hh : hull_of D co (part i) (co p)).
  { intros g Hg H. apply (dv_hull _ _ _ _ _ _ _ HD p Hpa g Hg). intros u Hu. apply filter_In in Hu as [Hu Hfu]. apply H. eapply dv_inf; eauto. now apply negb_true_iff. }
  destruct (located D co hgt (part i) (fun _ => False) (co p) (dv_gens _ _ _ _ _ _ _ HD i Hi) Hh s0 Hs0) as (f & L & Hf & HL & _ & Hpos).
  pose proof Hf as (Hin & Hfull & k & Ht & _). destruct (ball_ex D co f Hfull) as (c & r2 & Hb).
  assert (Hlt : dist2 D (co p) c < r2).
  { destruct (ball_convex D co f L c r2 (co p) HL (fun v Hv => Hpos v Hv (fun C => C)) Hb) as [H|(v & Hv & E)]; [exact H|]. exfalso. apply Hij. apply (dv_one _ _ _ _ _ _ _ HD i j p); auto.
    rewrite <- (dv_distinct _ _ _ _ _ _ _ HD v p); eauto. }
  assert (He : edge i f).
  { apply (edge_below i j f k p); auto. destruct (ties_all f k c r2 p) as [_ X]; eauto. specialize (X Hlt). lra. }
  destruct (Ho f Hf) as (g & Ga & Gz & Gp & q & Hq & Gq). destruct (classic (exists u, In u f /\ fin u = true)) as [(u & Hu & Hfu)|Hc].
  - exists u. split; [|exact Hfu]. apply HW. right. eauto.
  - exfalso. assert (Z : g (co q) = 0); [|lra]. apply (interp_zero D co f L HL g Ga). intros w Hw. apply Gz; [exact Hw|]. destruct (fin w) eqn:E; [exfalso; eauto|reflexivity].
Qed.

(** ** Reaching the edge simplices *)
(** A simplex whose sphere reaches a point of another partition is connected to a simplex with an infinite vertex, through such simplices. *)
Lemma reach i j p (R : list N -> Prop) : (i < np)%nat -> (j < np)%nat -> i <> j -> In p (part j) -> fin p = true ->
  (forall s, dt (part i) s -> (exists u, In u s /\ fin u = false) -> R s) ->
  (forall s s' d a c r2, dt (part i) s -> dt (part i) s' -> s' = a :: remove N.eq_dec d s -> In d s -> ~ In a s -> on_ball D co s' c r2 -> dist2 D (co p) c <= r2 -> R s' -> R s) ->
  forall s k, dt (part i) s -> through s k -> hgt p <= k (co p) -> R s.
Proof using HD.
  intros Hi Hj Hij Hp Hpf Hinf Hstep s k Hs Ht Hle. revert k Ht Hle. pattern s. assert (Hpa : In p all) by eauto.
  apply (towards D co hgt (part i) (co p)); [exact (dv_gens _ _ _ _ _ _ _ HD i Hi)| |exact Hs].
  clear s Hs. intros s L k Hs HL Ht Hf IH k1 Ht1 Hle. rewrite (plane_uniq D co hgt s k1 k (proj1 (proj2 Hs)) Ht1 Ht) in Hle.
  destruct (classic (exists d, In d s /\ L d (co p) < 0)) as [[d [Hd Hn]]|Hno].
  - assert (Hq : exists q, In q (part i) /\ L d (co q) < 0).
    { apply NNPP. intros Hno. assert (0 <= L d (co p)); [|lra]. apply (dv_hull _ _ _ _ _ _ _ HD p); [eauto|destruct HL; auto|].
      intros u Hu. apply filter_In in Hu as [Hu Hfu]. destruct (Rlt_le_dec (L d (co u)) 0); [|assumption]. exfalso. apply Hno. exists u. split; [|assumption].
      eapply dv_inf; eauto. now apply negb_true_iff. }
    destruct (next_one D co hgt (part i) s L k (co p) d (dv_gens _ _ _ _ _ _ _ HD i Hi) Hs HL Ht Hf Hd Hn Hq) as (a & k' & Ha & La & Has & Hdt & Hth & Hlt).
    destruct (below_ball i _ k' p Hi Hdt Hpa Hth ltac:(lra)) as (c & r2 & Hb & Hdist).
    apply (Hstep s _ d a c r2 Hs Hdt eq_refl Hd Has Hb Hdist). apply (IH d a k' Hd Hn Ha La Has Hdt Hth Hlt k' Hth). lra.
  - apply Hinf; [exact Hs|]. apply NNPP. intros Hc. destruct (dv_parted _ _ _ _ _ _ _ HD i j p Hi Hj Hij Hp Hpf) as (g & Ga & Gn & Gp).
    assert (0 <= g (co p)); [|lra]. rewrite (interp D co s L HL g (co p) Ga). apply lsum_nonneg. intros v Hv. apply Rmult_le_pos.
    + destruct (Rlt_le_dec (L v (co p)) 0); [exfalso; eauto|assumption].
    + apply Gp. apply filter_In. destruct Hs as (Hin & _). split; [auto|]. destruct (fin v) eqn:E; [reflexivity|exfalso; eauto].
Qed.
End Merge.
