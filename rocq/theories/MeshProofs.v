(** A triangulation of placed points is a mesh; cells as CGAL is to give them exist. *)
From Coq Require Import Permutation Classical.
From Verif Require Import Outcome ListUtil WordsModel BlockModel BlockProofs BlockSpec SimplexModel MergeModel MergeSpec NbrSpec GeoModel GeoSpec GeoProofs DelSpec DelGeo PlaceSpec DelPlace TriSpec MeshSpec DcModel DcSpec.
Local Open Scope R_scope.

Section Hull.
Variable D : nat.
Variable co : N -> vec.
Lemma comb_lsum (f : N -> R) d l : comb (map (fun v => (f v, co v)) l) d = lsum (fun v => f v * co v d) l.
Proof. unfold comb. induction l as [|v l IH]; [reflexivity|]. cbn [map fold_right fst snd]. rewrite lsum_cons, <- IH. reflexivity. Qed.
Lemma sum_lsum (f : N -> R) l : fold_right (fun wv a => fst wv + a) 0 (map (fun v => (f v, co v)) l) = lsum f l.
Proof. induction l as [|v l IH]; [reflexivity|]. cbn [map fold_right fst snd]. now rewrite lsum_cons, <- IH. Qed.
Lemma hull_intro (f : N -> R) l p : (forall v, In v l -> 0 <= f v) -> lsum f l = 1 -> (forall d, (d < D)%nat -> lsum (fun v => f v * co v d) l = p d) -> in_hull D (map co l) p.
Proof.
  intros H0 H1 Hp. exists (map (fun v => (f v, co v)) l). split; [rewrite map_map; reflexivity|]. split.
  - split; [apply Forall_forall; intros wv Hw; apply in_map_iff in Hw as (v & <- & Hv); cbn [fst]; auto|]. rewrite sum_lsum. exact H1.
  - intros d Hd. rewrite comb_lsum. symmetry. auto.
Qed.
Lemma hull_elim : forall l ws, map snd ws = map co l -> NoDup l -> exists f : N -> R, ws = map (fun v => (f v, co v)) l.
Proof.
  induction l as [|v l IH]; intros [|[w x] ws] E Hn; cbn [map snd] in E; try discriminate; [now exists (fun _ => 0)|]. injection E as -> E. inversion Hn as [|? ? Hv Hn']; subst.
  destruct (IH ws E Hn') as [f ->]. exists (fun u => if N.eq_dec u v then w else f u). cbn [map]. f_equal.
  - destruct (N.eq_dec v v); [reflexivity|contradiction].
  - apply map_ext_in. intros u Hu. destruct (N.eq_dec u v) as [->|]; [contradiction|reflexivity].
Qed.
(** A point is in the hull of a simplex iff its coordinates are not negative. *)
Lemma hull_iff s L p : NoDup s -> coords D co s L -> in_hull D (map co s) p <-> forall v, In v s -> 0 <= L v p.
Proof.
  intros Hn HL. split.
  - intros (ws & E & [W0 W1] & Hp) v Hv. destruct (hull_elim s ws E Hn) as [f ->]. rewrite sum_lsum in W1.
    assert (F0 : forall u, In u s -> 0 <= f u) by (intros u Hu; rewrite Forall_forall in W0; apply (W0 (f u, co u)); apply in_map_iff; eauto).
    destruct HL as (Ha & H1 & H2 & _). destruct (Ha v Hv) as (a & b & Hab).
    assert (E2 : L v p = lsum (fun u => f u * L v (co u)) s).
    { rewrite Hab. rewrite (sumn_ext D _ (fun d => lsum (fun u => a d * (f u * co u d)) s)) by (intros d Hd; rewrite (Hp d Hd), comb_lsum, lsum_scale; reflexivity).
      rewrite <- lsum_sumn. rewrite <- (Rmult_1_r b), <- W1, <- lsum_scale, <- lsum_add. apply lsum_ext. intros u _. rewrite (Hab (co u)), Rmult_plus_distr_l, <- sumn_scale. f_equal; [|ring]. apply sumn_ext. intros; ring. }
    rewrite E2, (lsum_one _ s v Hn Hv); [rewrite (H1 v Hv); specialize (F0 v Hv); lra|]. intros w Hw Hne. rewrite (H2 v w Hv Hw) by congruence. ring.
  - intros H. destruct HL as (_ & _ & _ & HL). apply (hull_intro (fun v => L v p)); [exact H|apply HL|intros d Hd; now apply HL].
Qed.
End Hull.

Section Mesh.
Variable over : N -> N.
Variable D : N.
Hypothesis HD : (0 < D <= 30)%N.
Variable co : N -> vec.
Variable hgt : N -> R.
Variable r : vec.
Variable S : list N.
Hypothesis HS : placed D co r S.
Hypothesis HB : breaks (N.to_nat D) co hgt S.
Notation Dn := (N.to_nat D).
Lemma box_hull p : (forall k, (k < Dn)%nat -> Rabs (p k) <= r k) -> hull_of Dn co S p.
Proof.
  intros Hp g [a [b Hg]] H. destruct (pick D HD co hgt r S HS (fun d => if Rlt_dec (a d) 0 then true else false)) as (w & Hw & Hf & E). apply Rle_trans with (g (co w)); [now apply H|].
  rewrite !Hg. apply Rplus_le_compat_r, sumn_le. intros d Hd. rewrite (E d Hd). pose proof (Hp d Hd) as B. assert (B' : - r d <= p d <= r d) by (revert B; unfold Rabs; destruct (Rcase_abs (p d)); lra). clear B. destruct (Rlt_dec (a d) 0) as [Ha|Ha]; nra.
Qed.
Lemma strict_dt s : strictly_delaunay Dn co S s -> dt Dn co hgt S s.
Proof.
  intros (Hin & Hfull & c & r2 & Hb & Hout). split; [exact Hin|]. split; [exact Hfull|]. destruct (plane_ex Dn co hgt s Hfull) as [k Hk]. exists k. split; [exact Hk|].
  intros q Hq. destruct (in_dec N.eq_dec q s) as [H|H]; [rewrite (proj2 Hk q H); lra|]. destruct (proj1 HB s k c r2 q Hin Hfull Hk Hb Hq) as [G _]. specialize (G (Hout q Hq H)). lra.
Qed.
Lemma tri_mesh d : triangulation over D co hgt S d -> mesh D co r S d.
Proof.
  intros T. pose proof (proj1 HB) as Ht. pose proof (generic_general Dn co hgt S S (proj2 HB) (fun v H => H)) as Hg. destruct (placed_dt D HD co hgt r S HS (proj2 HB)) as [s0 Hs0].
  constructor.
  - intros i s Hs. apply (dt_delaunay Dn co hgt S); [exact Ht|]. exact (tr_sound _ _ _ _ _ _ T i s Hs).
  - intros s Hs. apply (tr_complete _ _ _ _ _ _ T). now apply strict_dt.
  - intros v Hv. destruct (all_used Dn co hgt S v s0 (pl_distinct _ _ _ _ HS) Ht Hg Hv Hs0) as (f & Hf & Hvf). destruct (tr_complete _ _ _ _ _ _ T f Hf) as (i & x & Hx & Hsm). exists i, x. split; [exact Hx|]. now apply Hsm.
  - intros p Hp. destruct (located Dn co hgt S (fun _ => False) p Hg (box_hull p Hp) s0 Hs0) as (f & Lf & F1 & F2 & _ & F4). destruct (tr_complete _ _ _ _ _ _ T f F1) as (i & x & Hx & Hsm). exists i, x. split; [exact Hx|].
    pose proof (tr_sound _ _ _ _ _ _ T i x Hx) as Hdx. assert (Pm : Permutation f (x_verts x)) by (apply NoDup_Permutation; [eapply dt_NoDup; eauto|eapply dt_NoDup; eauto|exact Hsm]).
    apply (hull_iff Dn co (x_verts x) Lf p); [eapply dt_NoDup; eauto|exact (coords_perm Dn co f (x_verts x) Lf Pm F2)|]. intros v Hv. apply F4; [now apply Hsm|tauto].
  - intros i j s t p Hs Ht' Hps Hpt. pose proof (tr_sound _ _ _ _ _ _ T i s Hs) as Ds. pose proof (tr_sound _ _ _ _ _ _ T j t Ht') as Dt_.
    pose proof Ds as (_ & (Ns & _ & Ls & HLs) & _). pose proof Dt_ as (_ & (Nt & _ & Lt & HLt) & _).
    pose proof (proj1 (hull_iff Dn co _ Ls p Ns HLs) Hps) as P1. pose proof (proj1 (hull_iff Dn co _ Lt p Nt HLt) Hpt) as P2.
    assert (Z : forall v, In v (x_verts s) -> ~ In v (x_verts t) -> Ls v p = 0).
    { intros v Hv Hno. pose proof (P1 v Hv). destruct (Rle_lt_or_eq_dec 0 (Ls v p) H) as [Hlt|E]; [|now symmetry]. exfalso. apply Hno. exact (meet_face Dn co hgt S (x_verts s) (x_verts t) Ls Lt p Hg Ds Dt_ HLs HLt P1 P2 v Hv Hlt). }
    assert (F : forall f l, (forall v, In v l -> ~ In v (x_verts t) -> f v = 0) -> lsum f (shared l (x_verts t)) = lsum f l).
    { intros f. induction l as [|v l IH]; intros H; [reflexivity|]. unfold shared. cbn [filter]. fold (shared l (x_verts t)). rewrite lsum_cons. destruct (in_dec N.eq_dec v (x_verts t)) as [Hi|Hi].
      - rewrite lsum_cons, IH; [reflexivity|]. intros u Hu. apply H. now right.
      - rewrite IH by (intros u Hu; apply H; now right). rewrite (H v ltac:(now left) Hi). ring. }
    destruct HLs as (_ & _ & _ & HL). destruct (HL p) as [L1 L2]. apply (hull_intro Dn co (fun v => Ls v p)).
    + intros v Hv. apply filter_In in Hv as [Hv _]. auto.
    + rewrite F; [exact L1|exact Z].
    + intros k Hk. rewrite F; [now apply L2|]. intros v Hv Hno. rewrite (Z v Hv Hno). ring.
  - exact (tr_once _ _ _ _ _ _ T).
  - exact (tr_nbrs _ _ _ _ _ _ T).
Qed.
End Mesh.

(** ** Cells exist *)
Section Cells.
Variable D : N.
Variable co : N -> vec.
Variable hgt : N -> R.
Variable S : list N.
Notation Dn := (N.to_nat D).
Lemma reps (Q : list N -> Prop) : forall L, exists l, (length l <= length L)%nat /\ NoDup l /\ (forall s, In s l -> Q s) /\ (forall s, In s L -> Q s -> exists t, In t l /\ same s t) /\
  forall s t, In s l -> In t l -> same s t -> s = t.
Proof.
  induction L as [|a L (l & H1 & Hn & H2 & H3 & H4)]; [exists []; repeat split; try constructor; intros; contradiction|].
  destruct (classic (Q a /\ ~ exists t, In t l /\ same a t)) as [[Ha Hno]|Hno].
  - exists (a :: l). split; [cbn [length]; lia|]. split; [constructor; [intros Hi; apply Hno; exists a; split; [exact Hi|unfold same; tauto]|exact Hn]|]. split; [intros s [<-|H]; auto|]. split.
    + intros s [<-|H] Hs; [exists a; split; [now left|unfold same; tauto]|]. destruct (H3 s H Hs) as (t & Ht & E). exists t. split; [now right|exact E].
    + intros s t [<-|Hs] [<-|Ht] E; auto; exfalso; apply Hno.
      * exists t; auto.
      * exists s. split; [exact Hs|]. unfold same in *. firstorder.
  - exists l. split; [cbn [length]; lia|]. split; [exact Hn|]. split; [exact H2|]. split; [|exact H4]. intros s [<-|H] Hs; [|auto]. apply NNPP. intros G. apply Hno. auto.
Qed.
Lemma nth_pick {A B} (Q : nat -> A -> B -> Prop) : forall l, (forall k a, nth_error l k = Some a -> exists b, Q k a b) -> exists m, length m = length l /\ forall k a b, nth_error l k = Some a -> nth_error m k = Some b -> Q k a b.
Proof.
  intros l. revert Q. induction l as [|x l IH]; intros Q H; [exists []; split; [reflexivity|intros [|k] a b E; discriminate]|].
  destruct (H 0%nat x eq_refl) as [y Hy]. destruct (IH (fun k => Q (Datatypes.S k))) as (m & Hl & Hm); [intros k a E; apply (H (Datatypes.S k) a E)|].
  exists (y :: m). split; [cbn [length]; now rewrite Hl|]. intros [|k] a b Ea Eb; cbn [nth_error] in *; [congruence|eauto].
Qed.
Lemma all_lists_len n : length (all_lists n S) = (length S ^ n)%nat.
Proof.
  assert (X : forall (L : list (list N)) l, length (flat_map (fun a : N => map (cons a) L) l) = (length l * length L)%nat).
  { intros L. induction l as [|a l IHl]; [reflexivity|]. cbn [flat_map length]. rewrite app_length, map_length, IHl. lia. }
  induction n as [|n IH]; [reflexivity|]. cbn [all_lists Nat.pow]. now rewrite X, IH.
Qed.
Lemma cgal_ex : exists cells, cgal_ok D co hgt S (N.of_nat (length cells)) cells /\ (length cells <= length S ^ (Dn + 1))%nat.
Proof.
  destruct (reps (dt Dn co hgt S) (all_lists (Datatypes.S Dn) S)) as (l & Hlen & Hn & H2 & H3 & H4). rewrite all_lists_len in Hlen.
  assert (Hfull : forall s, In s l -> length s = (Dn + 1)%nat /\ NoDup s) by (intros s Hs; destruct (H2 s Hs) as (_ & (Hd & Hl & _) & _); split; [lia|exact Hd]).
  set (next := fun (s : list N) v (t : list N) => forall w, In w s -> (In w t <-> w <> v)).
  set (good := fun (s : list N) (ns : list (option N)) => length ns = length s /\ forall k v o, nth_error s k = Some v -> nth_error ns k = Some o ->
     match o with None => forall t, In t l -> ~ next s v t | Some n => exists t, nth_error l (N.to_nat n) = Some t /\ next s v t end).
  assert (exists m, length m = length l /\ forall k s ns, nth_error l k = Some s -> nth_error m k = Some ns -> good s ns) as (m & Hm & Hgood).
  { apply (nth_pick (fun _ => good)). intros j s _. destruct (nth_pick (fun _ v o => match o with None => forall t, In t l -> ~ next s v t | Some n => exists t, nth_error l (N.to_nat n) = Some t /\ next s v t end) s) as (ns & Hl & Hns).
    - intros k v _. destruct (classic (exists t, In t l /\ next s v t)) as [(t & Ht & Hnx)|Hno]; [|exists None; intros t Ht Hnx; apply Hno; eauto].
      apply In_nth_error in Ht as [n En]. exists (Some (N.of_nat n)). exists t. rewrite Nat2N.id. auto.
    - exists ns. split; auto. }
  set (mk := fun k => mkcell (N.of_nat k) (nth k l []) (nth k m [])). exists (map mk (seq 0 (length l))).
  assert (At : forall c, In c (map mk (seq 0 (length l))) <-> exists k, (k < length l)%nat /\ c = mk k).
  { intros c. rewrite in_map_iff. split; [intros (k & <- & Hk); apply in_seq in Hk; exists k; split; [lia|reflexivity]|intros (k & Hk & ->); exists k; split; [reflexivity|apply in_seq; lia]]. }
  assert (Nl : forall k, (k < length l)%nat -> nth_error l k = Some (nth k l [])) by (intros k Hk; now apply nth_error_nth').
  assert (Gd : forall k, (k < length l)%nat -> good (nth k l []) (nth k m [])) by (intros k Hk; apply (Hgood k); [now apply Nl|apply nth_error_nth'; lia]).
  split; [|rewrite map_length, seq_length; replace (Dn + 1)%nat with (Datatypes.S Dn) by lia; exact Hlen]. constructor.
  - rewrite map_map. cbn [c_id mk]. apply FinFun.Injective_map_NoDup; [intros a b E; now apply Nat2N.inj|apply seq_NoDup].
  - intros c Hc. apply At in Hc as (k & Hk & ->). cbn [c_id mk]. rewrite map_length, seq_length. lia.
  - intros c Hc. apply At in Hc as (k & Hk & ->). cbn [c_verts mk]. apply H2, nth_In, Hk.
  - intros s Hs. destruct (H3 s) as (t & Ht & E); [now apply (dt_listed Dn co hgt)|exact Hs|]. apply (In_nth _ _ []) in Ht as (k & Hk & <-). exists (mk k). split; [apply At; eauto|exact E].
  - intros c c' Hc Hc' E. apply At in Hc as (k & Hk & ->). apply At in Hc' as (k' & Hk' & ->). cbn [c_verts mk] in E. f_equal. apply (proj1 (NoDup_nth l []) Hn k k' Hk Hk'). apply H4; auto using nth_In.
  - intros c Hc. apply At in Hc as (k & Hk & ->). cbn [c_nbrs mk]. destruct (Gd k Hk) as [-> _]. apply Hfull, nth_In, Hk.
  - intros c i v o Hc Ev Eo. apply At in Hc as (k & Hk & ->). cbn [c_verts c_nbrs mk] in *. destruct (Gd k Hk) as [_ G]. specialize (G i v o Ev Eo). destruct o as [n|].
    + destruct G as (t & Et & Hnx). exists (mk (N.to_nat n)). assert (Hl : (N.to_nat n < length l)%nat) by (apply nth_error_Some; congruence). split; [apply At; eauto|]. split; [cbn [c_id mk]; now rewrite N2Nat.id|].
      unfold beside. cbn [c_verts mk]. rewrite (nth_error_nth l _ [] Et). exact Hnx.
    + intros c' Hc' Hbs. apply At in Hc' as (k' & Hk' & ->). unfold beside in Hbs. cbn [c_verts mk] in Hbs. exact (G _ (nth_In l [] Hk') Hbs).
Qed.
End Cells.
