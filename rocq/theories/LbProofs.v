(** The recursion over a partition tree gives the triangulation. *)
From Coq Require Import Permutation Classical.
From Verif Require Import Outcome ListUtil WordsModel LPSetModel ProbeTheory LPSetProofs LPSetHistory BlockModel BlockProofs BlockSpec SimplexModel Pool NbrModel MergeModel MergeSpec MergeProofs MergeUpdate GeoModel GeoSpec GeoProofs GeoCirc DelSpec DelGeo DelMerge PlaceSpec DelPlace
  StepModel TriSpec StepBase StepEdge StepJoin StepProofs StepPlaced StepEx MeshSpec MeshProofs DcModel DcSpec DcBase DcHits DcProofs DcEx PartModel TreeModel TreeSpec TreeProofs TreeTop SplitModel LbModel LbSpec LbLevel.
Local Open Scope nat_scope.

Lemma flat_map_len {A B} (f : A -> list B) l : (forall a, In a l -> 1 <= length (f a)) -> length l <= length (flat_map f l).
Proof. induction l as [|a l IH]; intros H; cbn [flat_map length]; [lia|]. rewrite app_length. pose proof (H a ltac:(now left)). specialize (IH ltac:(intros x Hx; apply H; now right)). lia. Qed.
Lemma digits_pos f i : 1 <= length (digits f i).
Proof. revert i. induction f as [|f IH]; intros i; cbn [digits length]; [lia|]. destruct (Nat.ltb i 10); cbn [length]; [lia|]. rewrite app_length. cbn [length]. lia. Qed.
Lemma chars_len prov : length prov <= length (chars prov).
Proof. apply flat_map_len. intros [i|] _; [rewrite map_length; apply digits_pos|cbn; lia]. Qed.
Lemma chars_app a b : chars (a ++ b) = chars a ++ chars b.
Proof. apply flat_map_app. Qed.
Lemma chars_grow prov o : length (chars prov) < length (chars (prov ++ [o])).
Proof. rewrite chars_app, app_length. pose proof (chars_len [o]). cbn [length] in H. lia. Qed.

Lemma lists_fun s L L' : lists s L -> lists s L' -> forall v, In v L <-> In v L'.
Proof. intros (_ & _ & H) (_ & _ & H') v. rewrite <- H. apply H'. Qed.

Section Same.
Variables (over : N -> N) (D : N) (co : N -> vec) (hgt : N -> R).
Lemma dt_same S S' s : (forall v, In v S <-> In v S') -> dt (N.to_nat D) co hgt S s -> dt (N.to_nat D) co hgt S' s.
Proof. intros H (A & B & k & T & F). split; [intros v Hv; apply H, A, Hv|]. split; [exact B|]. exists k. split; [exact T|]. intros q Hq. apply F, H, Hq. Qed.
Lemma tri_same S S' d : (forall v, In v S <-> In v S') -> triangulation over D co hgt S d -> triangulation over D co hgt S' d.
Proof.
  intros H [A1 A2 A3 A4 A5 A6 A7 A8]. assert (H' : forall v, In v S' <-> In v S) by (intros v; symmetry; apply H). constructor; auto.
  - intros i s Hs. exact (dt_same S S' _ H (A3 i s Hs)).
  - intros s Hs. exact (A4 s (dt_same S' S _ H' Hs)).
Qed.
Lemma done_same n S S' d takes : (forall v, In v S <-> In v S') -> done over D co hgt n S d takes -> done over D co hgt n S' d takes.
Proof. intros H (A & B). split; [exact (tri_same S S' d H A)|exact B]. Qed.
Lemma done_le n m S d takes : n <= m -> done over D co hgt n S d takes -> done over D co hgt m S d takes.
Proof. intros H (A & B & C & E & F). split; [exact A|]. split; [exact B|]. split; [exact C|]. split; [lia|exact F]. Qed.
Lemma parted_same S S' p : (forall v, In v S <-> In v S') -> parted (N.to_nat D) co (filter (p_finite D) S) p -> parted (N.to_nat D) co (filter (p_finite D) S') p.
Proof. intros H (g & A & B & C). exists g. split; [exact A|]. split; [exact B|]. intros u Hu. apply C. rewrite filter_In in *. split; [apply H|]; apply Hu. Qed.
Lemma partitioned_same np pt pt' S : (forall i v, i < np -> In v (pt i) <-> In v (pt' i)) -> partitioned D co np pt S -> partitioned D co np pt' S.
Proof.
  intros H [A1 A2 A3 A4 A5]. constructor.
  - intros v. rewrite A1. split; intros (i & Hi & Hv); exists i; (split; [exact Hi|]); now apply H.
  - intros i j v Hi Hj Hv Hw. apply A2; auto; now apply H.
  - intros i v Hi Hv. apply H; auto.
  - destruct A4 as (i & u & Hi & Hu & Hf). exists i, u. split; [exact Hi|]. split; [now apply H|exact Hf].
  - intros i j v Hi Hj Hne Hv Hf. apply (parted_same (pt i)); [intros w; now apply H|]. apply (A5 i j); auto. now apply H.
Qed.
Lemma partitioned_all np pt S S' : (forall v, In v S <-> In v S') -> partitioned D co np pt S -> partitioned D co np pt S'.
Proof. intros H [A1 A2 A3 A4 A5]. constructor; auto. intros v. rewrite <- H. apply A1. Qed.
End Same.

Section Hits.
Variables (over : N -> N) (D : N).
Hypothesis HD : D = 2%N \/ D = 3%N.
Variable co : N -> vec.
Variable hgt : N -> R.
Variable r : vec.
Variable C : Type.
Variable meets : C -> sphere -> simplex -> bool.
Notation Dn := (N.to_nat D).

Lemma ck_hit_at k s c r2 p : covers D co C meets k p -> full Dn co (x_verts s) -> on_ball Dn co (x_verts s) c r2 -> (dist2 Dn p c <= r2)%R -> ck_hit D co C meets k s = true.
Proof.
  intros Hk Hfu Hc Hd. destruct (circum_of_ok over D HD co (x_verts s) c r2 Hfu Hc) as (sp & E & Ev & Hr & Er). unfold ck_hit. rewrite E. apply Hk; auto.
  - intros v Hv. rewrite <- (dist2_veq Dn c (sp_c sp) (co v) Ev), Er. now apply Hc.
  - rewrite <- (dist2_veq Dn c (sp_c sp) p Ev), Er. exact Hd.
Qed.
Lemma ck_finds np pt tr ks : (forall i, i < np -> triangulation over D co hgt (pt i) (tr i)) ->
  (forall i k v, i < np -> nth_error ks i = Some k -> In v (pt i) -> p_finite D v = true -> covers D co C meets k (co v)) -> np <= length ks -> finds D co np pt tr (ck_hits D co C meets ks).
Proof.
  intros Ht Hb Hl i j id x p c r2 Hi Hj _ Hx Hp Hf Hc Hd. destruct (tr_sound _ _ _ _ _ _ (Ht i Hi) id x Hx) as (_ & Hfu & _). unfold ck_hits.
  destruct (nth_error ks j) as [k|] eqn:E; [|apply nth_error_None in E; lia]. apply (ck_hit_at k x c r2 (co p)); auto. now apply (Hb j).
Qed.
(** A point on the border of the hull of the finite ones is in a simplex with an infinite point. *)
Lemma border_hit S d u g y : triangulation over D co hgt S d -> placed D co r S -> In u S -> p_finite D u = true ->
  (forall p, (forall k, k < Dn -> (Rabs (p k) <= r k)%R) -> exists i s, shown d i s /\ in_hull Dn (map co (x_verts s)) p) ->
  affine Dn g -> g (co u) = 0%R -> (forall v, In v S -> p_finite D v = true -> (0 <= g (co v))%R) -> (forall d, d < Dn -> (Rabs (y d) <= r d)%R) -> (g y < 0)%R ->
  exists id x, shown d id x /\ in_hull Dn (map co (x_verts x)) (co u) /\ exists v, In v (x_verts x) /\ p_finite D v = false.
Proof.
  intros T Pl Hu Hfu Mc Ga G0 Gu Hy Gy.
  set (A f t := (exists id x, shown d id x /\ x_verts x = f /\ exists v, In v f /\ p_finite D v = false) /\ inside_of Dn co f (line (co u) y t)).
  assert (Cl : closed (fun t => exists f, In f (all_lists (Datatypes.S Dn) S) /\ A f t)).
  { apply closed_some. intros f _. unfold A. intros s Hs. destruct (classic (exists id x, shown d id x /\ x_verts x = f /\ exists v, In v f /\ p_finite D v = false)) as [E|E]; [|exists 1%R; split; [lra|tauto]].
    assert (Hs' : ~ inside_of Dn co f (line (co u) y s)) by tauto. destruct E as (id & x & Hx & <- & _). destruct (tr_sound _ _ _ _ _ _ T id x Hx) as (_ & (Hn & _ & HL) & _).
    destruct (inside_closed Dn co (x_verts x) (co u) y Hn HL s Hs') as (e & He & Q). exists e. split; [exact He|]. intros t Ht [_ Z]. exact (Q t Ht Z). }
  apply NNPP. intros Hno. destruct (Cl 0%R) as (e & He & Q).
  { intros (f & _ & (id & x & Hx & <- & Hv) & L & HL & Hpos). apply Hno. exists id, x. split; [exact Hx|]. split; [|exact Hv]. destruct (tr_sound _ _ _ _ _ _ T id x Hx) as (_ & (Hn & _) & _).
    apply (hull_iff Dn co _ L _ Hn HL). intros v Hv'. specialize (Hpos v Hv'). destruct HL as [HLa _]. rewrite (affine_line Dn _ _ _ _ (HLa v Hv')) in Hpos. lra. }
  set (t := Rmin (e / 2) 1). assert (Ht : (0 < t <= 1)%R /\ (t < e)%R). { unfold t. pose proof (Rmin_l (e / 2) 1). pose proof (Rmin_r (e / 2) 1). split; [split; [apply Rmin_glb_lt; lra|lra]|lra]. }
  apply (Q t); [rewrite Rminus_0_r, Rabs_right; lra|].
  destruct (Mc (line (co u) y t)) as (id & x & Hx & Hh).
  { intros k Hk. unfold line. pose proof (pl_box _ _ _ _ Pl u k Hu Hfu Hk) as B1. pose proof (Hy k Hk) as B2. apply Rabs_le. unfold Rabs in B1, B2. destruct (Rcase_abs (co u k)), (Rcase_abs (y k)); nra. }
  destruct (tr_sound _ _ _ _ _ _ T id x Hx) as (Hin & (Hn & _ & L & HL) & _). pose proof (proj1 (hull_iff Dn co _ L _ Hn HL) Hh) as Hpos.
  exists (x_verts x). split; [apply (dt_listed Dn co hgt); exact (tr_sound _ _ _ _ _ _ T id x Hx)|]. split; [|exists L; auto]. exists id, x. split; [exact Hx|]. split; [reflexivity|].
  apply NNPP. intros Hf. assert (0 <= g (line (co u) y t))%R.
  { rewrite (interp Dn co (x_verts x) L HL g _ Ga). apply lsum_nonneg. intros w Hw. apply Rmult_le_pos; [auto|]. apply Gu; [auto|]. destruct (p_finite D w) eqn:E; [reflexivity|]. exfalso. eauto. }
  rewrite (affine_line Dn g _ _ _ Ga), G0 in H. nra.
Qed.
(** As DcHits.box_reaches. *)
Lemma ck_reaches np pt tr ks i j u p : (forall i, i < np -> triangulation over D co hgt (pt i) (tr i)) ->
  (forall i, i < np -> placed D co r (pt i) /\ breaks Dn co hgt (pt i)) -> i < np -> j < np -> i <> j -> In u (pt i) -> p_finite D u = true ->
  (exists k, nth_error ks j = Some k /\ covers D co C meets k p) ->
  ((forall d, d < Dn -> (Rabs (p d) <= r d)%R) /\ parted Dn co (filter (p_finite D) (pt i)) p \/
   p = co u /\ (exists g, affine Dn g /\ (exists x, g x <> 0%R) /\ forall v, In v (pt i) -> p_finite D v = true -> g (co v) = 0%R) \/
   p = co u /\ exists g y, affine Dn g /\ g (co u) = 0%R /\ (forall v, In v (pt i) -> p_finite D v = true -> (0 <= g (co v))%R) /\ (forall d, d < Dn -> (Rabs (y d) <= r d)%R) /\ (g y < 0)%R) ->
  hull_hit D np pt tr (ck_hits D co C meets ks).
Proof.
  intros Ht Hpl Hi Hj Hij Hu Hfu (k & Ek & Hk) Hp. pose proof (Ht i Hi) as T. destruct (Hpl i Hi) as [Pi Bi]. assert (HDb : (0 < D <= 30)%N) by (destruct HD as [-> | ->]; lia).
  destruct (tri_mesh over D HDb co hgt r (pt i) Pi Bi (tr i) T) as [_ _ Mp Mc _ _ _].
  assert (exists id x, shown (tr i) id x /\ in_hull Dn (map co (x_verts x)) p /\ exists v, In v (x_verts x) /\ p_finite D v = false) as (id & x & Hx & Hh & v & Hv & Hfv).
  { destruct Hp as [(Hbp & g & Ga & Gp & Gu)|[(-> & g & Ga & (y & Gy) & Gz)|(-> & g & y & Ga & G0 & Gu & Hy & Gy)]].
    - destruct (Mc p Hbp) as (id & x & Hx & Hh). exists id, x. split; [exact Hx|]. split; [exact Hh|]. apply NNPP. intros Hno.
      destruct (tr_sound _ _ _ _ _ _ T id x Hx) as (Hin & (Hn & _ & L & HL) & _). pose proof (proj1 (hull_iff Dn co _ L p Hn HL) Hh) as Hpos.
      assert (0 <= g p)%R; [|lra]. rewrite (interp Dn co (x_verts x) L HL g p Ga). apply lsum_nonneg. intros w Hw. apply Rmult_le_pos; [auto|]. apply Gu, filter_In. split; [auto|]. destruct (p_finite D w) eqn:E; [reflexivity|]. exfalso. eauto.
    - destruct (Mp u Hu) as (id & x & Hx & Hux). exists id, x. split; [exact Hx|]. destruct (tr_sound _ _ _ _ _ _ T id x Hx) as (Hin & (Hn & _ & L & HL) & _). split.
      + apply (hull_iff Dn co _ L _ Hn HL). intros w Hw. destruct HL as (_ & H1 & H2 & _). destruct (N.eq_dec w u) as [->|Hne]; [rewrite (H1 u Hux); lra|]. rewrite (H2 w u Hw Hux Hne). lra.
      + apply NNPP. intros Hno. apply Gy. apply (interp_zero Dn co (x_verts x) L HL g Ga). intros w Hw. apply Gz; [auto|]. destruct (p_finite D w) eqn:E; [reflexivity|]. exfalso. eauto.
    - apply (border_hit (pt i) (tr i) u g y T Pi Hu Hfu Mc Ga G0 Gu Hy Gy). }
  exists i, j, u, id, x, v. repeat (split; [assumption|]). destruct (tr_sound _ _ _ _ _ _ T id x Hx) as (_ & Hfull & _). pose proof Hfull as (Hn & _ & L & HL). destruct (ball_ex Dn co _ Hfull) as (c & r2 & Hb).
  unfold ck_hits. rewrite Ek. apply (ck_hit_at k x c r2 p Hk Hfull Hb). pose proof (proj1 (hull_iff Dn co _ L p Hn HL) Hh) as Hpos. destruct (ball_convex Dn co (x_verts x) L c r2 p HL Hpos Hb) as [H|(w & Hw & E)]; [lra|].
  assert (E2 : dist2 Dn p c = dist2 Dn (co w) c) by (apply sumn_ext; intros d Hd; now rewrite (E d Hd)). rewrite E2, (Hb w Hw). lra.
Qed.
End Hits.

Lemma in_concat_forall2 {A B} (R : A -> list B -> Prop) ch ls x : Forall2 R ch ls -> In x (concat ls) -> exists j c l, nth_error ch j = Some c /\ nth_error ls j = Some l /\ In x l.
Proof.
  intros H. induction H as [|c l ch ls Hc H IH]; cbn [concat]; [intros []|]. intros Hi. apply in_app_or in Hi as [Hi|Hi].
  - exists 0, c, l. auto.
  - destruct (IH Hi) as (j & c' & l' & A1 & A2 & A3). exists (Datatypes.S j), c', l'. auto.
Qed.
Lemma f2_at {A B} (R : A -> B -> Prop) l m : Forall2 R l m -> forall i a, nth_error l i = Some a -> exists b, nth_error m i = Some b /\ R a b.
Proof. induction 1 as [|x y l m H _ IH]; intros [|i] a E; try discriminate; cbn in E; [injection E as ->; eexists; split; [reflexivity|exact H]|]. apply IH, E. Qed.

Lemma f2_len {A B} (R : A -> B -> Prop) l m : Forall2 R l m -> length l = length m.
Proof. induction 1; cbn; congruence. Qed.
Lemma height_child C k (ch : list (tree C)) i c : 2 <= length ch -> nth_error ch i = Some c -> height c < height (Tnode k ch).
Proof.
  intros H2 E. assert (X : forall ch i c, nth_error ch i = Some c -> height c <= (fix go (ch : list (tree C)) := match ch with [] => 0 | c :: q => Nat.max (height c) (go q) end) ch).
  { clear. induction ch as [|a ch IH]; intros [|i] c E; try discriminate; cbn in E; [injection E as ->; lia|]. specialize (IH i c E). lia. }
  specialize (X ch i c E). destruct ch as [|a [|b ch]]; cbn [length] in H2; try lia. cbn [height] in *. lia.
Qed.
Lemma entries_nth C (ls : list (list (option C * lpset))) i l : nth_error ls i = Some l -> entries l <= entries (concat ls).
Proof. revert i. induction ls as [|a ls IH]; intros [|i] E; try discriminate; cbn in E; cbn [concat]; rewrite (entries_app C); [injection E as ->; lia|]. specialize (IH i E). lia. Qed.

Section Trees.
Variable D : N.
Variable co : N -> vec.
Variable r : vec.
Variable C : Type.
Variable cbox : C -> box.
Variable meets : C -> sphere -> simplex -> bool.
Notation ok := (tree_ok D co r C meets).

Lemma tree_sets t : forall S l, ok t S -> Leaves t l -> NoDup S /\ good_sets l /\ forall i, In i S <-> exists ck s, In (ck, s) l /\ elem s i.
Proof.
  induction t as [ck s|ck ch IH] using (tree_ind2 C); intros S l Hok HL.
  - inversion Hok as [k ids S' [Hn Hr]| |]; subst. inversion HL; subst. split; [exact Hn|]. split.
    + intros ck s' [E|[]]. injection E as _ <-. now exists S.
    + intros i. rewrite <- (proj2 Hr). split; [intros H; exists (Some k), s; split; [now left|exact H]|]. intros (ck & s' & [E|[]] & H). injection E as _ <-. exact H.
  - inversion HL as [|? ? ls HF]; subst. inversion Hok as [|k k' ids S' [Hn Hr]|k ch' pt S' H2 Hn Hch Hpd Hcov Hme]; subst.
    + inversion HF as [|? l ? ls' Hl HF' ]; subst. inversion HF'; subst. inversion Hl; subst. cbn [concat app]. split; [exact Hn|]. split.
      * intros ck s' [E|[]]. injection E as _ <-. now exists S.
      * intros i. rewrite <- (proj2 Hr). split; [intros H; exists (Some k'), ids; split; [now left|exact H]|]. intros (ck & s' & [E|[]] & H). injection E as _ <-. exact H.
    + assert (X : forall j c l, nth_error ch j = Some c -> nth_error ls j = Some l -> NoDup (pt j) /\ good_sets l /\ forall i, In i (pt j) <-> exists ck s, In (ck, s) l /\ elem s i).
      { intros j c l Ec El. rewrite Forall_forall in IH. apply (IH c (nth_error_In _ _ Ec)); [exact (Hch j c Ec)|]. destruct (f2_at _ _ _ HF j c Ec) as (l' & El' & Hl'). congruence. }
      split; [exact Hn|]. split.
      * intros ck s Hi. destruct (in_concat_forall2 _ _ _ _ HF Hi) as (j & c & l & Ec & El & Hi'). destruct (X j c l Ec El) as (_ & G & _). exact (G ck s Hi').
      * intros i. rewrite (pd_all _ _ _ _ _ Hpd). split.
        -- intros (j & Hj & Hi). destruct (nth_error ch j) as [c|] eqn:Ec; [|apply nth_error_None in Ec; lia]. destruct (f2_at _ _ _ HF j c Ec) as (l & El & _).
           destruct (X j c l Ec El) as (_ & _ & G). apply G in Hi as (ck & s & Hi & He). exists ck, s. split; [|exact He]. apply in_concat. exists l. split; [exact (nth_error_In _ _ El)|exact Hi].
        -- intros (ck & s & Hi & He). destruct (in_concat_forall2 _ _ _ _ HF Hi) as (j & c & l & Ec & El & Hi'). exists j. split; [apply nth_error_Some; congruence|]. destruct (X j c l Ec El) as (_ & _ & G). apply G. now exists ck, s.
Qed.
Lemma tree_ck t S : ok t S -> t_ck t <> None.
Proof. intros H. inversion H; discriminate. Qed.
(** What a level has. *)
Lemma old_parts m k ch pt S ls ps ks parts : ok (Tnode (Some k) ch) S -> (forall i c, nth_error ch i = Some c -> ok c (pt i)) -> Forall2 Leaves ch ls -> small 64 (4 * entries (concat ls)) ->
  returns (fun f => to_old_partitioning C cbox f m ch) (ps, ks) -> Forall2 (fun p q => lists (pa_pts p) (fst q) /\ snd q = pa_box p) ps parts ->
  length parts = length ch /\ length ks = length ch /\ (forall i, i < length ch -> NoDup (pts_at parts i)) /\ (forall i v, i < length ch -> In v (pts_at parts i) <-> In v (pt i)) /\
  forall i c, nth_error ch i = Some c -> nth_error ks i = t_ck c.
Proof.
  intros Hok Hch HF Hsm Hto H2.
  assert (X : forall j c l, nth_error ch j = Some c -> nth_error ls j = Some l -> NoDup (pt j) /\ good_sets l /\ forall i, In i (pt j) <-> exists ck s, In (ck, s) l /\ elem s i).
  { intros j c l Ec El. apply (tree_sets c); [exact (Hch j c Ec)|]. destruct (f2_at _ _ _ HF j c Ec) as (l' & El' & Hl'). congruence. }
  assert (Hg : good_sets (concat ls)).
  { intros ck s Hi. destruct (in_concat_forall2 _ _ _ _ HF Hi) as (j & c & l & Ec & El & Hi'). destruct (X j c l Ec El) as (_ & G & _). exact (G ck s Hi'). }
  destruct (to_old_ok C cbox m ch ls HF Hg Hsm) with (id := 0) as (ps' & cks & E & L1 & L2 & H).
  { intros c Hc. apply In_nth_error in Hc as [j Ej]. exact (tree_ck c (pt j) (Hch j c Ej)). }
  unfold to_old_partitioning in Hto. pose proof (returns_det _ _ _ Hto E) as Q. injection Q as -> ->.
  pose proof (f2_len _ _ _ H2) as L3. pose proof (f2_len _ _ _ HF) as L4. split; [lia|]. split; [lia|].
  assert (Y : forall i c, nth_error ch i = Some c -> exists k s, t_ck c = Some k /\ nth_error cks i = Some k /\ lists s (pts_at parts i) /\ exists l, nth_error ls i = Some l /\ union_of C l s).
  { intros i c Ec. destruct (f2_at _ _ _ HF i c Ec) as (l & El & _). destruct (H i c l Ec El) as (k' & s & K1 & K2 & K3 & K4 & _). exists k', s. split; [exact K1|]. split; [exact K2|].
    destruct (f2_at _ _ _ H2 i _ K3) as (q & Eq & Hq & _). split; [|now exists l]. unfold pts_at. rewrite (nth_error_nth parts i _ Eq). exact Hq. }
  assert (Z : forall i, i < length ch -> exists c, nth_error ch i = Some c) by (intros i Hi; destruct (nth_error ch i) as [c|] eqn:Ec; [now exists c|apply nth_error_None in Ec; lia]).
  split; [|split].
  - intros i Hi. destruct (Z i Hi) as [c Ec]. destruct (Y i c Ec) as (k' & s & _ & _ & Hl & _). apply Hl.
  - intros i v Hi. destruct (Z i Hi) as [c Ec]. destruct (Y i c Ec) as (k' & s & _ & _ & (_ & _ & Hl) & l & El & K & (_ & R) & _ & U). destruct (X i c l Ec El) as (_ & _ & G). rewrite G, <- U, <- Hl. apply R.
  - intros i c Ec. destruct (Y i c Ec) as (k' & s & -> & -> & _). reflexivity.
Qed.
Lemma two_same np pt pt' : (forall i v, i < np -> In v (pt i) <-> In v (pt' i)) -> two_filled D np pt -> two_filled D np pt'.
Proof. intros H (i & j & u & v & Hi & Hj & Hne & Hu & Fu & Hv & Fv). exists i, j, u, v. repeat (split; [try assumption; now apply H|]). exact Fv. Qed.
End Trees.

Lemma takes_split tks te : takes_ok (concat tks ++ te) -> (forall i, takes_ok (nth i tks [])) /\ ForallOrdPairs ranges_apart (concat tks) /\ takes_ok te.
Proof.
  intros (Hta & Hte & Htl). rewrite app_length in Htl. destruct (fop_app _ _ _ Hta) as (Ta & Te & Tx). destruct (fop_concat _ _ Ta) as (Ti & _). split; [|split; [exact Ta|]].
  - intros i. pose proof (nth_concat_len tks i). destruct (Nat.lt_ge_cases i (length tks)) as [Hi|Hi]; [|rewrite nth_overflow by exact Hi; split; [constructor|split; [intros t []|cbn; lia]]].
    split; [apply Ti; exact Hi|]. split; [intros t Hin; apply Hte, in_or_app; left; eapply in_concat_nth; eauto|lia].
  - split; [exact Te|]. split; [intros t Hin; apply Hte, in_or_app; now right|lia].
Qed.

Section Lev.
Variables (over : N -> N) (D : N).
Hypothesis HD : D = 2%N \/ D = 3%N.
Variable co : N -> vec.
Variable hgt : N -> R.
Variable r : vec.
Variable C : Type.
Variable meets : C -> sphere -> simplex -> bool.
Notation ok := (tree_ok D co r C meets).
Notation dn := (done over D co hgt).
Lemma level_hits k ch pt S ks parts dts n tks : placed D co r S -> breaks (N.to_nat D) co hgt S -> ok (Tnode (Some k) ch) S -> 2 <= length ch -> partitioned D co (length ch) pt S ->
  (forall i c k' v, nth_error ch i = Some c -> t_ck c = Some k' -> In v (pt i) -> p_finite D v = true -> covers D co C meets k' (co v)) ->
  two_filled D (length ch) pt \/ past D co r C meets ch pt ->
  length parts = length ch -> length ks = length ch -> (forall i v, i < length ch -> In v (pts_at parts i) <-> In v (pt i)) -> (forall i c, nth_error ch i = Some c -> nth_error ks i = t_ck c) ->
  (forall i, i < length parts -> dn n (pts_at parts i) (nth i dts no_d) (nth i tks [])) ->
  partitioned D co (length parts) (pts_at parts) S /\ finds D co (length parts) (pts_at parts) (p_at dts) (ck_hits D co C meets ks) /\
  (two_filled D (length parts) (pts_at parts) \/ hull_hit D (length parts) (pts_at parts) (p_at dts) (ck_hits D co C meets ks)).
Proof.
  intros Hpl Hbs Hok H2 Hpd Hcov Hme Lp Lk Hin Hck Hdn.
  assert (Hpd' : partitioned D co (length parts) (pts_at parts) S) by (rewrite Lp; apply (partitioned_same D co _ pt); [intros i v Hi; symmetry; now apply Hin|exact Hpd]).
  assert (Hti : forall i, i < length parts -> triangulation over D co hgt (pts_at parts i) (p_at dts i)) by (intros i Hi; apply (Hdn i Hi)).
  assert (Hpb : forall i, i < length parts -> placed D co r (pts_at parts i) /\ breaks (N.to_nat D) co hgt (pts_at parts i)).
  { intros i Hi. assert (Sub : incl (pts_at parts i) S) by (intros v Hv; apply (pd_all _ _ _ _ _ Hpd'); eauto). split; [apply (placed_sub D co r S _ Hpl); [exact Sub|intros v Hv; now apply (pd_inf _ _ _ _ _ Hpd')]|exact (breaks_sub _ _ _ _ _ Hbs Sub)]. }
  split; [exact Hpd'|]. split.
  - apply (ck_finds over D HD co hgt C meets); [exact Hti| |lia]. intros i k' v Hi Ek Hv Hf. destruct (nth_error ch i) as [c|] eqn:Ec; [|apply nth_error_None in Ec; lia].
    apply (Hcov i c k' v Ec); auto; [rewrite <- (Hck i c Ec); exact Ek|]. apply Hin; [lia|exact Hv].
  - destruct Hme as [Hme|(i & j & c & k' & u & p & Hi & Ej & Ek & Hne & Hu & Hf & Hcv & Hp)].
    + left. rewrite Lp. apply (two_same D _ pt); [intros i v Hi; symmetry; now apply Hin|exact Hme].
    + right. assert (Hj : j < length ch) by (apply nth_error_Some; congruence). apply (ck_reaches over D HD co hgt r C meets _ _ _ ks i j u p); auto; try lia.
      * apply Hin; auto.
      * exists k'. split; [rewrite (Hck j c Ej); exact Ek|exact Hcv].
      * destruct Hp as [[Hb Hp]|[[Ep (g & Ga & Gx & Gz)]|(Ep & g & y & Ga & G0 & Gu & Gy)]]; [left|right; left|right; right].
        -- split; [exact Hb|]. apply (parted_same D co (pt i)); [intros v; symmetry; now apply Hin|exact Hp].
        -- split; [exact Ep|]. exists g. split; [exact Ga|]. split; [exact Gx|]. intros v Hv. apply Gz. apply Hin; auto.
        -- split; [exact Ep|]. exists g, y. split; [exact Ga|]. split; [exact G0|]. split; [|exact Gy]. intros v Hv. apply Gu. apply Hin; auto.
Qed.
End Lev.

Section Rec.
Variable over : N -> N.
Variable D : N.
Hypothesis HD : D = 2%N \/ D = 3%N.
Variable co : N -> vec.
Variable hgt : N -> R.
Variable r : vec.
Variable P : list N.
Hypothesis HP : placed D co r P.
Hypothesis HB : breaks (N.to_nat D) co hgt P.
Variable cgal : list N -> N -> list cell -> Prop.
Hypothesis Hcgal : forall S last cells, NoDup S -> incl S P -> placed D co r S -> cgal S last cells -> cgal_ok D co hgt S last cells.
Variable split : list (option nat) -> list N -> list (list N * box) -> Prop.
Hypothesis Hsplit : forall prov S ps, NoDup S -> incl S P -> placed D co r S -> (500 < N.of_nat (length S))%N -> split prov S ps -> split_ok D co r S ps.
Variable depth : nat.
Hypothesis Hdepth : 6 * depth < 256.
Variable C : Type.
Variable cbox : C -> box.
Variable meets : C -> sphere -> simplex -> bool.
Variables par_base par_edge : bool.
Notation base := (lb_base over D co cgal split depth).
Notation run := (lb_run over D co cgal split depth C cbox meets par_base par_edge).
Notation ok := (tree_ok D co r C meets).
Notation dn := (done over D co hgt).

Lemma lb_base_done n par prov S out takes : depth - length (chars prov) <= n -> NoDup S -> incl S P -> placed D co r S -> takes_ok takes -> 6 * n < 256 -> base par prov S out takes -> dn n S out takes.
Proof.
  intros Hn Hnd Hs Hpl Htk H6 Hr0. inversion Hr0 as [start last _ Hb|takes0 _ Hr]; subst.
  - apply (base_done over D HD co hgt r P HP HB cgal Hcgal split Hsplit depth Hdepth); auto.
  - eapply (run_done over D HD co hgt r P HP HB cgal Hcgal split Hsplit depth Hdepth); eauto.
Qed.

Lemma lb_run_done : forall n t S l prov out takes, ok t S -> Leaves t l -> small 64 (4 * entries l) -> height t <= n -> depth - length (chars prov) <= n -> incl S P -> placed D co r S ->
  takes_ok takes -> 6 * n < 256 -> run prov t out takes -> dn n S out takes.
Proof.
  assert (Leaf : forall n ids S S' prov out takes, lists ids S -> lists ids S' -> depth - length (chars prov) <= n -> incl S P -> placed D co r S -> takes_ok takes -> 6 * n < 256 -> base par_base prov S' out takes -> dn n S out takes).
  { intros n ids S S' prov out takes Hl Hl' Hn Hs Hpl Htk H6 Hb. pose proof (lists_fun _ _ _ Hl' Hl) as Q. apply (done_same over D co hgt n S'); [exact Q|]. apply (lb_base_done n par_base prov); auto.
    - apply Hl'.
    - intros v Hv. now apply Hs, Q.
    - apply (placed_sub D co r S _ Hpl); [intros v Hv; now apply Q|intros v Hv; now apply Q, (pl_inf _ _ _ _ Hpl)]. }
  induction n as [|n IH]; intros t S l prov out takes Hok HL Hsm Hh Hn Hs Hpl Htk H6 Hr.
  - inversion Hr as [? k ids S' ? ? Hl' Hb|? k ck ids S' ? ? Hl' Hb|? k ch m ps ks parts dts dts' edge W edgeDT ? tks te H2]; subst.
    + inversion Hok as [? ? ? Hl| |]; subst. apply (Leaf 0 ids S S' prov); auto.
    + inversion Hok as [|? ? ? ? Hl|? ? ? ? H2]; subst; [apply (Leaf 0 ids S S' prov); auto|cbn in H2; lia].
    + destruct ch as [|a ch]; [cbn in H2; lia|]. pose proof (height_child C (Some k) (a :: ch) 0 a H2 eq_refl). lia.
  - inversion Hr as [? k ids S' ? ? Hl' Hb|? k ck ids S' ? ? Hl' Hb|? k ch m ps ks parts dts dts' edge W edgeDT ? tks te H2 Hcp Hld Hlt Hsub Hto Hps He Hed Hjr]; subst.
    + inversion Hok as [? ? ? Hl| |]; subst. apply (Leaf (Datatypes.S n) ids S S' prov); auto.
    + inversion Hok as [|? ? ? ? Hl|? ? ? ? H2]; subst; [apply (Leaf (Datatypes.S n) ids S S' prov); auto|cbn in H2; lia].
    + inversion Hok as [|? ? ? ? Hl|? ? pt ? _ Hnd Hch Hpd Hcov Hme]; subst; [cbn in H2; lia|]. inversion HL as [|? ? ls HF]; subst.
      destruct (old_parts D co r C cbox meets m k ch pt S ls ps ks parts Hok Hch HF Hsm Hto Hps) as (Lp & Lk & Hnp & Hin & Hck). destruct (takes_split tks te Htk) as (Ti & Ta & Te).
      assert (Hbs : breaks (N.to_nat D) co hgt S) by (exact (breaks_sub _ _ _ _ _ HB Hs)).
      assert (Di : forall i, i < length parts -> dn n (pts_at parts i) (nth i dts no_d) (nth i tks [])).
      { intros i Hi. rewrite Lp in Hi. destruct (nth_error ch i) as [c|] eqn:Ec; [|apply nth_error_None in Ec; lia]. destruct (f2_at _ _ _ HF i c Ec) as (l & El & Hl).
        apply (done_same over D co hgt n (pt i)); [intros v; symmetry; now apply Hin|]. assert (Sub : incl (pt i) S) by (intros v Hv; apply (pd_all _ _ _ _ _ Hpd); eauto).
        apply (IH c (pt i) l (prov ++ [Some i])); auto.
        - apply (small_le 64 ltac:(reflexivity)) with (m := 4 * entries (concat ls)); [pose proof (entries_nth C ls i l El); lia|exact Hsm].
        - pose proof (height_child C (Some k) ch i c H2 Ec). lia.
        - pose proof (chars_grow prov (Some i)). lia.
        - intros v Hv. now apply Hs, Sub.
        - apply (placed_sub D co r S _ Hpl); [exact Sub|intros v Hv; now apply (pd_inf _ _ _ _ _ Hpd)].
        - lia. }
      destruct (level_hits over D HD co hgt r C meets k ch pt S ks parts dts n tks Hpl Hbs Hok H2 Hpd Hcov Hme Lp Lk Hin Hck Di) as (Hpd' & Hfi & Hme').
      assert (Ld : length dts = length parts) by lia. assert (Lt : length tks = length parts) by lia.
      destruct (lv_edge over D HD co hgt r S Hpl Hbs parts Hpd' n ltac:(lia) dts tks Ld Lt Di Ta (ck_hits D co C meets ks) Hfi Hme' dts' edge W He) as (Nw & Wa & Pw).
      apply (lv_done over D HD co hgt r S Hpl Hbs parts Hpd' n ltac:(lia) dts tks Ld Lt Di Ta (ck_hits D co C meets ks) Hfi Hme' dts' edge W He edgeDT te); auto.
      apply (lb_base_done n par_edge (prov ++ [None])); auto; [pose proof (chars_grow prov None); lia|intros v Hv; now apply Hs, Wa|lia].
Qed.
End Rec.
