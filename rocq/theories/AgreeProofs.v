(** All results for the same points agree; and what is reported as their number of simplices. *)
From Coq Require Import Permutation Reals Lra Classical.
From Verif Require Import Outcome ListUtil WordsModel WordsProofs BlockModel BlockProofs BlockSpec LPSetModel LPSetProofs LPSetHistory SimplexModel SimplexProofs NbrModel NbrSpec PointModel PointProofs InfModel InfProofs PartModel GeoModel GeoSpec DelSpec DelGeo PlaceSpec DelPlace MergeModel MergeSpec TriSpec
  StepModel StepBase StepProofs MeshSpec MeshProofs DcModel DcSpec DcBase DcProofs DcEx TreeModel TreeSpec SplitModel SplitProofs TopSpec TopProofs TopRuns DcProps LbModel LbSpec LbProofs LbTop LbProps SelfSpec SelfProofs AgreeModel AgreeSpec.
Local Open Scope nat_scope.

(** ** Counting *)
Lemma inj_length (R : N -> N -> Prop) : (forall i i' j, R i j -> R i' j -> i = i') -> forall a b, NoDup a -> (forall i, In i a -> exists j, In j b /\ R i j) -> length a <= length b.
Proof.
  intros Hr. induction a as [|x a IH]; intros b Ha H; [cbn [length]; lia|]. inversion Ha as [|? ? Hx Ha']; subst. destruct (H x ltac:(now left)) as (y & Hy & Rx).
  apply in_split in Hy as (b1 & b2 & ->). rewrite app_length. cbn [length]. assert (length a <= length (b1 ++ b2)); [|rewrite app_length in *; lia]. apply IH; [exact Ha'|].
  intros i Hi. destruct (H i ltac:(now right)) as (j & Hj & Ri). exists j. split; [|exact Ri]. apply in_app_or in Hj as [Hj|[<-|Hj]]; [apply in_or_app; now left| |apply in_or_app; now right].
  exfalso. apply Hx. rewrite (Hr x i y Rx Ri). exact Hi.
Qed.
Lemma held_ids d : wf (d_arr d) -> exists ids, NoDup ids /\ (forall i, In i ids <-> held d i) /\ n_simplices d = N.of_nat (length ids).
Proof.
  intros H. destruct (exact_size_spec (d_arr d) H) as (ids & H1 & H2 & H3). exists ids. split; [exact H1|]. split; [|exact H3]. intros i. rewrite H2. unfold held.
  split; intros [a Ha]; exists a; now apply holds_cell.
Qed.
Lemma number_ex d : wf (d_arr d) -> exists n, number d n /\ (n <= n_simplices d)%N /\ ((exists i, held d i /\ forall s, ~ shown d i s) -> (n < n_simplices d)%N).
Proof.
  intros H. destruct (held_ids d H) as (ids & H1 & H2 & H3).
  assert (Hx : forall l, NoDup l -> exists l', NoDup l' /\ forall i, In i l' <-> In i l /\ exists s, shown d i s).
  { induction l as [|i l IH]; intros Hl; [exists []; split; [constructor|intros i; cbn; tauto]|]. inversion Hl as [|? ? Hi Hl']; subst. destruct (IH Hl') as (l' & A & B).
    destruct (classic (exists s, shown d i s)) as [Hs|Hs].
    - exists (i :: l'). split; [constructor; [rewrite B; tauto|exact A]|]. intros j. cbn [In]. rewrite B. split; [intros [<-|?]; tauto|intros [[<-|?] ?]; tauto].
    - exists l'. split; [exact A|]. intros j. cbn [In]. rewrite B. split; [tauto|intros [[<-|?] ?]; tauto]. }
  destruct (Hx ids H1) as (l & Hn & Hl). exists (N.of_nat (length l)).
  assert (Hsub : incl l ids) by (intros i Hi; now apply Hl). pose proof (NoDup_incl_length Hn Hsub) as Hle. split; [|split].
  - exists l. split; [exact Hn|]. split; [|reflexivity]. intros i. rewrite Hl, H2. split; [tauto|]. intros [s Hs]. split; [exists s; apply Hs|eauto].
  - rewrite H3. lia.
  - intros (i & Hi & Hno). rewrite H3. apply H2 in Hi. assert (Hni : ~ In i l) by (rewrite Hl; intros [_ [s Hs]]; exact (Hno s Hs)).
    assert (H4 : incl (i :: l) ids) by (intros j [<-|Hj]; auto). pose proof (NoDup_incl_length (NoDup_cons i Hni Hn) H4) as H5. cbn [length] in H5. lia.
Qed.
Lemma number_fun d n m : number d n -> number d m -> n = m.
Proof.
  intros (a & A1 & A2 & ->) (b & B1 & B2 & ->). f_equal. apply Nat.le_antisymm; apply NoDup_incl_length; auto; intros i Hi; [apply B2, A2|apply A2, B2]; exact Hi.
Qed.

(** ** Two triangulations of the same points *)
Section Two.
Variables over over' : N -> N.
Variable D : N.
Variables (co : N -> vec) (hgt hgt' : N -> R) (P : list N).
Hypothesis Hdt : forall s, dt (N.to_nat D) co hgt P s <-> dt (N.to_nat D) co hgt' P s.
Variables d d' : dsims.
Hypothesis T : triangulation over D co hgt P d.
Hypothesis T' : triangulation over' D co hgt' P d'.

Lemma twin_right i s : shown d i s -> exists j t, twins d d' i j s t.
Proof.
  intros Hs. pose proof (tr_sound _ _ _ _ _ _ T i s Hs) as H. apply Hdt in H. destruct (tr_complete _ _ _ _ _ _ T' _ H) as (j & t & Ht & Hst). exists j, t. split; [exact Hs|]. split; [exact Ht|].
  apply sorted_same; [apply (shown_sorted _ _ _ _ _ _ T i s Hs)|apply (shown_sorted _ _ _ _ _ _ T' j t Ht)|exact Hst].
Qed.
Lemma opp_verts s s' t t' k : x_verts s = x_verts s' -> x_verts t = x_verts t' -> opposite s k t -> opposite s' k t'.
Proof. unfold opposite. intros -> ->. tauto. Qed.
Lemma twin_number n n' : number d n -> number d' n' -> (n <= n')%N.
Proof.
  intros (a & A1 & A2 & ->) (b & B1 & B2 & ->). assert (length a <= length b); [|lia].
  apply (inj_length (fun i j => exists s t, twins d d' i j s t)); [|exact A1|].
  - intros i i' j (s & t & S1 & S2 & S3) (s' & t' & S1' & S2' & S3'). assert (t = t') as <- by exact (shown_fun _ _ _ _ _ _ T' j t t' S2 S2').
    apply (tr_once _ _ _ _ _ _ T i i' s s' S1 S1'). rewrite S3, S3'. intros v. reflexivity.
  - intros i Hi. apply A2 in Hi as [s Hs]. destruct (twin_right i s Hs) as (j & t & Ht). exists j. split; [apply B2; exists t; apply Ht|]. exists s, t. exact Ht.
Qed.
End Two.

Lemma tri_agree over over' D co hgt hgt' P d d' : (forall s, dt (N.to_nat D) co hgt P s <-> dt (N.to_nat D) co hgt' P s) -> general (N.to_nat D) co hgt' P ->
  triangulation over D co hgt P d -> triangulation over' D co hgt' P d' -> agree d d'.
Proof.
  intros Hdt G T T'. assert (Hdt' : forall s, dt (N.to_nat D) co hgt' P s <-> dt (N.to_nat D) co hgt P s) by (intros s; symmetry; apply Hdt).
  assert (Hr : forall j t, shown d' j t -> exists i s, twins d d' i j s t).
  { intros j t Ht. destruct (twin_right over' over D co hgt' hgt P Hdt' d' d T' T j t Ht) as (i & s & H1 & H2 & H3). exists i, s. split; [exact H2|]. split; [exact H1|now symmetry]. }
  constructor.
  - exact (twin_right over over' D co hgt hgt' P Hdt d d' T T').
  - exact Hr.
  - intros i j s t (H1 & H2 & H3). rewrite (tr_hull _ _ _ _ _ _ T), (tr_hull _ _ _ _ _ _ T'). split.
    + intros (s' & v & A & B & C). exists t, v. split; [exact H2|]. split; [|exact C]. rewrite <- H3. now rewrite (shown_fun _ _ _ _ _ _ T i s s' H1 A).
    + intros (t' & v & A & B & C). exists s, v. split; [exact H1|]. split; [|exact C]. rewrite H3. now rewrite (shown_fun _ _ _ _ _ _ T' j t t' H2 A).
  - intros i j s t (H1 & H2 & H3). now rewrite (tr_slots _ _ _ _ _ _ T i s H1), (tr_slots _ _ _ _ _ _ T' j t H2).
  - intros i j s t k n m (H1 & H2 & H3) En Em. destruct (tr_nbrs _ _ _ _ _ _ T i s k n H1 En) as [[-> Hno]|(u & Hu & Ho)].
    + left. split; [reflexivity|]. destruct (tr_nbrs _ _ _ _ _ _ T' j t k m H2 Em) as [[-> _]|(v & Hv & Ho)]; [reflexivity|]. exfalso.
      destruct (Hr m v Hv) as (i' & u & Hu & _ & E). apply (Hno i' u Hu). exact (opp_verts t s v u k (eq_sym H3) (eq_sym E) Ho).
    + right. destruct (twin_right over over' D co hgt hgt' P Hdt d d' T T' n u Hu) as (m' & v & Hw). pose proof Hw as (_ & Hv & E).
      pose proof (slot_is _ _ _ _ _ _ T' G j t k m' v H2 Hv (opp_verts s t u v k H3 E Ho)) as Es. rewrite Em in Es. injection Es as ->. eauto.
  - destruct (number_ex d (tr_wf _ _ _ _ _ _ T)) as (n & Hn & _). destruct (number_ex d' (tr_wf _ _ _ _ _ _ T')) as (n' & Hn' & _). exists n. split; [exact Hn|].
    assert (n = n') as ->; [|exact Hn']. apply N.le_antisymm; [exact (twin_number over over' D co hgt hgt' P Hdt d d' T T' n n' Hn Hn')|exact (twin_number over' over D co hgt' hgt P Hdt' d' d T' T n' n Hn' Hn)].
Qed.

(** ** No cospherical points: the heights do not matter *)
Lemma dt_any D co hgt hgt' r P : (0 < D <= 30)%N -> placed D co r P -> breaks (N.to_nat D) co hgt P -> breaks (N.to_nat D) co hgt' P -> no_cosphere (N.to_nat D) co P ->
  forall s, dt (N.to_nat D) co hgt P s -> dt (N.to_nat D) co hgt' P s.
Proof.
  intros HD Hpl HB HB' Hno s Hs. destruct (dt_delaunay (N.to_nat D) co hgt P s (proj1 HB) Hs) as (S1 & S2 & c & r2 & S3 & S4).
  destruct (tie_some D HD co hgt' P HB' s c r2 S1 S2 S3 S4) as (s' & Hs' & Hb'). apply (dt_perm _ _ _ P s'); [|exact Hs'].
  pose proof Hs' as (A1 & (A2 & A3 & _) & _). pose proof S2 as (B2 & B3 & _). apply NoDup_Permutation_bis; [exact A2|lia|]. intros v Hv. apply (Hno s c r2 v); auto.
Qed.

(** ** The results *)
Lemma result_tri D tiny huge p c work q hgt d : D = 2 \/ D = 3 -> input D tiny huge p c -> (forall i, In i (concat work) <-> is_fin_id p i) -> ctor_points D tiny huge p work = Val q ->
  breaks D (co_of D q) hgt (id_keys (N.of_nat D) q) -> result D tiny huge q hgt d -> exists over, triangulation over (N.of_nat D) (co_of D q) hgt (id_keys (N.of_nat D) q) d.
Proof.
  intros HD HI Hw Hq HB Hr. destruct Hr as [over cgal start last out Hc Hr Hl|over cgal sp depth par_edge c0 takes out Hc Hsp Hd Hr Ht H1 H2|over cgal depth C cbox meets pb pe t l c0 takes out Hc Hok HL Hsm Hh Hd Hr Ht H1 H2];
    exists over.
  - assert (Hd0 : dc_run over (N.of_nat D) (co_of D q) cgal (splits D q tiny huge Cycle) 0 true [] (id_keys (N.of_nat D) q) out [(start, last)]) by (apply dc_base; [reflexivity|exact Hr]).
    apply (C67_triangulate over D tiny huge p c work q hgt cgal Cycle 0 true start out [(start, last)] HD HI Hw Hq HB Hc); auto; try discriminate; try lia.
    + exists [(start, last)]. split; [apply Permutation_refl|]. cbn [fetched]. auto.
    + cbn [total fold_right snd]. lia.
    + reflexivity.
  - eapply C67_triangulate; eauto.
  - eapply C72_load_balanced; eauto.
Qed.

(** ** Ids *)
Definition ids_of (takes : list (N * N)) : list N := flat_map (fun t => map (fun j => (fst t + N.of_nat j)%N) (seq 0 (N.to_nat (snd t)))) takes.
Lemma ids_of_In takes i : In i (ids_of takes) <-> in_takes takes i.
Proof.
  unfold ids_of, in_takes. rewrite in_flat_map. split; intros (t & Ht & H); exists t; (split; [exact Ht|]).
  - apply in_map_iff in H as (j & <- & Hj). apply in_seq in Hj. lia.
  - apply in_map_iff. exists (N.to_nat (i - fst t)). split; [lia|]. apply in_seq. lia.
Qed.
Lemma ids_of_nodup takes : ForallOrdPairs ranges_apart takes -> NoDup (ids_of takes).
Proof.
  induction takes as [|t takes IH]; intros H; [constructor|]. inversion H as [|? ? Ht H']; subst. rewrite Forall_forall in Ht. unfold ids_of. cbn [flat_map]. apply NoDup_app_intro.
  - apply FinFun.Injective_map_NoDup; [intros x y Hxy; lia|apply seq_NoDup].
  - exact (IH H').
  - intros i Hi Hj. apply ids_of_In in Hj as (u & Hu & Hj). apply in_map_iff in Hi as (k & <- & Hk). apply in_seq in Hk. apply (Ht u Hu (fst t + N.of_nat k)%N). lia.
Qed.
Lemma ids_of_len takes : N.of_nat (length (ids_of takes)) = total takes.
Proof. induction takes as [|t takes IH]; [reflexivity|]. unfold ids_of in *. cbn [flat_map total fold_right]. rewrite app_length, map_length, seq_length. unfold total in IH. lia. Qed.
Lemma done_number over D co hgt n S out takes : done over D co hgt n S out takes -> takes_ok takes -> n_simplices out = total takes /\
  exists k, number out k /\ (k <= total takes)%N /\ (1 < length takes -> (k < total takes)%N).
Proof.
  intros (T & _ & Hh & _ & Hx) (Ha & _). destruct (held_ids out (tr_wf _ _ _ _ _ _ T)) as (ids & H1 & H2 & H3).
  assert (E : n_simplices out = total takes).
  { rewrite H3, <- ids_of_len. f_equal. apply Nat.le_antisymm; apply NoDup_incl_length; auto using ids_of_nodup; intros i Hi; [apply ids_of_In, Hh, H2|apply H2, Hh, ids_of_In]; exact Hi. }
  split; [exact E|]. destruct (number_ex out (tr_wf _ _ _ _ _ _ T)) as (k & K1 & K2 & K3). rewrite E in *. exists k. split; [exact K1|]. split; [exact K2|]. intros Hl. apply K3, Hx, Hl.
Qed.

(** ** When there is more than one range *)
Section Takes.
Variable over : N -> N.
Variable D : N.
Variable co : N -> vec.
Variable cgal : list N -> N -> list cell -> Prop.
Variable split : list (option nat) -> list N -> list (list N * box) -> Prop.
Variable depth : nat.
Scheme run_mut := Minimality for dc_run Sort Prop with edge_mut := Minimality for dc_edge Sort Prop.
Lemma run_takes par prov S out takes : dc_run over D co cgal split depth par prov S out takes -> takes <> [].
Proof.
  apply (run_mut over D co cgal split depth par (fun _ _ _ t => t <> []) (fun _ _ _ t => t <> [])); intros; try discriminate; auto.
  intros E. apply app_eq_nil in E as [_ E]. auto.
Qed.
Lemma edge_takes par prov S out takes : dc_edge over D co cgal split depth par prov S out takes -> takes <> [].
Proof. intros [? ? ? ? _ H|]; [eapply run_takes; eauto|discriminate]. Qed.
Lemma base_takes par prov S out takes : lb_base over D co cgal split depth par prov S out takes -> takes <> [].
Proof. intros [? ? _ _|? _ H]; [discriminate|eapply run_takes; eauto]. Qed.
Lemma lb_takes C cbox meets pb pe prov t out takes : lb_run over D co cgal split depth C cbox meets pb pe prov t out takes -> takes <> [].
Proof.
  intros H. inversion H; subst; try (eapply base_takes; eassumption). intros E. apply app_eq_nil in E as [_ E]. match goal with Hb : lb_base _ _ _ _ _ _ _ _ _ _ _ |- _ => exact (base_takes _ _ _ _ _ Hb E) end.
Qed.
Lemma two_takes (tks : list (list (N * N))) te : 0 < length tks -> nth 0 tks [] <> [] -> te <> [] -> 1 < length (concat tks ++ te).
Proof. destruct tks as [|[|x a] tks]; cbn [length nth]; try lia; try congruence. destruct te as [|y te]; [congruence|]. intros _ _ _. cbn [concat app length]. rewrite !app_length. cbn [length]. lia. Qed.
Lemma run_split par S out takes : (forall ps, split [] S ps -> 0 < length ps) ->
  0 < depth -> (500 < N.of_nat (length S))%N -> dc_run over D co cgal split depth par [] S out takes -> 1 < length takes.
Proof.
  intros Hs Hd Hl H. inversion H as [? ? ? start last Hc|? ? parts ps ps' edge W edgeDT ? tks te Hc Hsp L1 L2 Hsub He Hed Hj]; subst.
  - apply andb_false_iff in Hc as [Hc|Hc]; [apply Nat.ltb_ge in Hc; cbn in Hc; lia|apply N.ltb_ge in Hc; lia].
  - pose proof (Hs _ Hsp) as Hp. apply two_takes; [lia|eapply run_takes; apply (Hsub 0 Hp)|eapply edge_takes; eauto].
Qed.
Lemma lb_split_takes C cbox meets pb pe prov k ch out takes : 2 <= length ch -> lb_run over D co cgal split depth C cbox meets pb pe prov (Tnode (Some k) ch) out takes -> 1 < length takes.
Proof.
  intros H2 H. inversion H as [|? ? ? ? ? ? ? Hl Hb|? ? ? m ps ks parts dts dts' edge W edgeDT ? tks te _ Hcp L1 L2 Hsub Hto Hf He Hed Hj]; subst; [cbn in H2; lia|].
  apply two_takes; [lia| |eapply base_takes; eauto]. destruct ch as [|c ch]; [cbn in H2; lia|]. eapply lb_takes. apply (Hsub 0 c). reflexivity.
Qed.
End Takes.
