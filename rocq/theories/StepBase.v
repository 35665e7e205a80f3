(** Triangulations as arrays: rewriting cells, unique and mutual neighbors. *)
From Coq Require Import Permutation Classical.
From Verif Require Import Outcome ListUtil WordsModel BlockModel BlockProofs BlockSpec SimplexModel SimplexProofs PointProofs Pool MergeModel MergeSpec MergeProofs NbrModel NbrSpec NbrProofs GeoModel GeoSpec DelSpec DelGeo DelMerge StepModel TriSpec.
Local Open Scope nat_scope.

(** ** Rewriting cells *)
Lemma set_cell_spec f l i x : wf l -> holds l i x -> exists l', set_cell f l i = Val (Some l') /\ wf l' /\ length l' = length l /\
  forall j y, holds l' j y <-> (j = i /\ y = f i x) \/ (j <> i /\ holds l j y).
Proof.
  intros W Hx. apply holds_cell in Hx. destruct (at_spec l i x 0 W Hx (wf_pos l W)) as [h [Ea Hh]].
  destruct (set_spec l i x (f i x) h W Hx Hh) as [l' [h' [E [_ [W' [L S]]]]]]. exists l'. unfold set_cell. rewrite Ea. cbn [rbind]. rewrite E. split; [reflexivity|].
  split; [exact W'|]. split; [exact L|]. intros j y. rewrite !holds_cell. apply S.
Qed.
Lemma set_cells_spec f : forall ids l, wf l -> NoDup ids -> (forall i, In i ids -> exists x, holds l i x) ->
  exists l', set_cells f l ids = Val (Some l') /\ wf l' /\ length l' = length l /\
  forall j y, holds l' j y <-> (In j ids /\ exists x, holds l j x /\ y = f j x) \/ (~ In j ids /\ holds l j y).
Proof.
  induction ids as [|i ids IH]; intros l W Hn Hh.
  - exists l. split; [reflexivity|]. split; [exact W|]. split; [reflexivity|]. intros j y. cbn [In]. tauto.
  - inversion Hn as [|? ? Hi Hn']; subst. destruct (Hh i ltac:(now left)) as [x Hx]. destruct (set_cell_spec f l i x W Hx) as [l1 [E1 [W1 [L1 S1]]]].
    destruct (IH l1 W1 Hn') as [l' [E [W' [L' S]]]].
    { intros j Hj. destruct (Hh j ltac:(now right)) as [y Hy]. exists y. apply S1. right. split; [intros ->; contradiction|exact Hy]. }
    exists l'. cbn [set_cells]. rewrite E1. cbn [rbind]. split; [exact E|]. split; [exact W'|]. split; [lia|]. intros j y. rewrite S. cbn [In]. destruct (N.eq_dec j i) as [->|Hne].
    + split.
      * intros [[H _]|[_ H]]; [contradiction|]. apply S1 in H as [[_ ->]|[H _]]; [|contradiction]. left. eauto.
      * intros [[_ [x' [Hx' ->]]]|[H _]]; [|exfalso; apply H; now left]. right. split; [exact Hi|]. apply S1. left. split; [reflexivity|]. now rewrite (holds_fun l i x' x W Hx' Hx).
    + split.
      * intros [[H [z [Hz ->]]]|[H H']]; [left; split; [now right|]|right; split; [intros [C|C]; [congruence|contradiction]|]].
        -- apply S1 in Hz as [[C _]|[_ Hz]]; [contradiction|eauto].
        -- apply S1 in H' as [[C _]|[_ Hz]]; [contradiction|exact Hz].
      * intros [[[C|H] [z [Hz ->]]]|[H H']]; [congruence| |].
        -- left. split; [exact H|]. exists z. split; [apply S1; now right|reflexivity].
        -- right. split; [intros C; apply H; now right|]. apply S1. now right.
Qed.
Lemma rewritten_spec f l l' : wf l -> rewritten f l l' -> wf l' /\ length l' = length l /\ forall i y, holds l' i y <-> exists x, holds l i x /\ y = f i x.
Proof.
  intros W [ids [Hn [Hi E]]]. destruct (set_cells_spec f ids l W Hn) as [l2 [E2 [W2 [L2 S]]]]; [intros i; apply Hi|]. rewrite E2 in E. injection E as <-.
  split; [exact W2|]. split; [exact L2|]. intros i y. rewrite S. split.
  - intros [[_ H]|[H Hy]]; [exact H|]. exfalso. apply H, Hi. eauto.
  - intros [x [Hx ->]]. left. split; [apply Hi; eauto|eauto].
Qed.
Lemma rewritten_ex f l d : made d l -> exists l', rewritten f l l'.
Proof.
  intros M. pose proof (made_wf d l M) as W. destruct (made_exact_size d l M) as [ids [Hn [Hi _]]].
  destruct (set_cells_spec f ids l W Hn) as [l' [E _]]; [intros i; apply Hi|]. exists l', ids. auto.
Qed.

Lemma opp_sym s k t : sorted (x_verts s) -> sorted (x_verts t) -> x_verts t <> [] -> length (x_verts s) = length (x_verts t) -> opposite s k t -> exists k', opposite t k' s.
Proof.
  intros H1 H2 H3 H4 H5. apply (opposite_sym (fun _ => 0%N) (fun _ => None) (fun _ => []) 0%N (fun _ _ => 0%N) (fun _ => 0%N) []) with (d := k); auto; try discriminate; try lia; intros id; try intros []; cbn beta; lia.
Qed.

Section Tri.
Variable over : N -> N.
Variable D : N.
Variable co : N -> vec.
Variable hgt : N -> R.
Notation Dn := (N.to_nat D).
Notation dt := (dt Dn co hgt).
Notation general := (general Dn co hgt).
Notation tri := (triangulation over D co hgt).

Section One.
Variable S : list N.
Variable d : dsims.
Hypothesis T : tri S d.

Lemma shown_id i s : shown d i s -> x_id s = i /\ i <> s_inf /\ well over s /\ (x_mark s <= d_mark d)%N.
Proof. intros [H1 H2]. destruct (tr_proper _ _ _ _ _ _ T i s H1) as [H3 [H4 [H5|[H5 H6]]]]; [contradiction|auto]. Qed.
Lemma shown_sorted i s : shown d i s -> sorted (x_verts s) /\ x_verts s <> [].
Proof. intros H. destruct (shown_id i s H) as [_ [_ [[_ [H1 [H2 _]]] _]]]. auto. Qed.
Lemma shown_fun i s t : shown d i s -> shown d i t -> s = t.
Proof. intros [H1 _] [H2 _]. exact (holds_fun _ _ _ _ (tr_wf _ _ _ _ _ _ T) H1 H2). Qed.
Lemma shown_len i s : shown d i s -> length (x_verts s) = Datatypes.S Dn.
Proof. intros H. destruct (tr_sound _ _ _ _ _ _ T i s H) as (_ & (_ & H' & _) & _). exact H'. Qed.
Lemma shown_same i j s t : shown d i s -> shown d j t -> same (x_verts s) (x_verts t) -> i = j /\ s = t.
Proof. intros Hs Ht H. pose proof (tr_once _ _ _ _ _ _ T i j s t Hs Ht H). subst j. split; [reflexivity|]. eapply shown_fun; eauto. Qed.
(** The simplex with given vertices. *)
Lemma shown_ex s : dt S s -> exists i x, shown d i x /\ same s (x_verts x).
Proof. exact (tr_complete _ _ _ _ _ _ T s). Qed.
Lemma shown_slot i s k : shown d i s -> k < Datatypes.S Dn -> exists n, nth_error (x_nbrs s) k = Some n.
Proof. intros H Hk. pose proof (tr_slots _ _ _ _ _ _ T i s H) as L. apply nth_error_ex. lia. Qed.
End One.

(** Two Delaunay simplices behind one face are the same. *)
Lemma opp_same S (s t t' : simplex) k : general S -> dt S (x_verts s) -> dt S (x_verts t) -> dt S (x_verts t') -> opposite s k t -> opposite s k t' -> same (x_verts t) (x_verts t').
Proof.
  intros Hg Hs Ht Ht' [v [Ev H]] [v' [Ev' H']]. assert (v' = v) by congruence. subst v'. apply nth_error_In in Ev. pose proof Hs as (_ & (_ & _ & L & HL) & _).
  intros w. split; [apply (same_side Dn co hgt S (x_verts s) (x_verts t) (x_verts t') v L)|apply (same_side Dn co hgt S (x_verts s) (x_verts t') (x_verts t) v L)]; auto.
Qed.
Section Two.
Variable S : list N.
Variable d : dsims.
Hypothesis T : tri S d.
Hypothesis G : general S.
Lemma opp_uniq i s k j j' t t' : shown d i s -> shown d j t -> shown d j' t' -> opposite s k t -> opposite s k t' -> j = j' /\ t = t'.
Proof.
  intros Hs Ht Ht' H H'. apply (shown_same S d T j j' t t' Ht Ht'). eapply opp_same; eauto; eapply tr_sound; eauto.
Qed.
(** The entry in a slot behind which there is a simplex. *)
Lemma slot_is i s k j t : shown d i s -> shown d j t -> opposite s k t -> nth_error (x_nbrs s) k = Some j.
Proof.
  intros Hs Ht Ho. pose proof (opposite_lt _ _ _ Ho) as Hk. rewrite (shown_len S d T i s Hs) in Hk. destruct (shown_slot S d T i s k Hs Hk) as [n En].
  destruct (tr_nbrs _ _ _ _ _ _ T i s k n Hs En) as [[-> Hno]|[t' [Ht' Ho']]]; [exfalso; exact (Hno j t Ht Ho)|]. destruct (opp_uniq i s k j n t t' Hs Ht Ht' Ho Ho') as [-> _]. exact En.
Qed.
Lemma mutual i s k j t : shown d i s -> shown d j t -> opposite s k t -> exists k', opposite t k' s /\ nth_error (x_nbrs t) k' = Some i.
Proof.
  intros Hs Ht Ho. destruct (shown_sorted S d T i s Hs) as [S1 _]. destruct (shown_sorted S d T j t Ht) as [S2 N2].
  destruct (opp_sym s k t S1 S2 N2) as [k' Ho']; [now rewrite (shown_len S d T i s Hs), (shown_len S d T j t Ht)|exact Ho|]. exists k'. split; [exact Ho'|].
  exact (slot_is j t k' i s Ht Hs Ho').
Qed.
End Two.

(** Other marks. *)
Lemma tri_marks S d d' (m : N -> N) : tri S d -> rewritten (fun i => with_mark (m i)) (d_arr d) (d_arr d') -> d_hull d' = d_hull d ->
  (forall i, (m i <= d_mark d')%N) -> tri S d' /\ (forall i y, shown d' i y <-> exists x, shown d i x /\ y = with_mark (m i) x).
Proof.
  intros T R Hh Hm. destruct (rewritten_spec _ _ _ (tr_wf _ _ _ _ _ _ T) R) as [W [_ Hc]].
  assert (V : forall i y, shown d' i y <-> exists x, shown d i x /\ y = with_mark (m i) x).
  { intros i y. unfold shown. rewrite Hc. split; [intros [[x [Hx ->]] Hi]; exists x; auto|intros [x [[Hx Hi] ->]]; split; [eauto|exact Hi]]. }
  split; [|exact V]. constructor.
  - exact W.
  - intros i y Hy. apply Hc in Hy as [x [Hx ->]]. destruct (tr_proper _ _ _ _ _ _ T i x Hx) as [H1 [_ H3]]. split; [exact H1|]. split; [apply Hm|]. exact H3.
  - intros i y Hy. apply V in Hy as [x [Hx ->]]. exact (tr_sound _ _ _ _ _ _ T i x Hx).
  - intros s Hs. destruct (tr_complete _ _ _ _ _ _ T s Hs) as [i [x [Hx Hsm]]]. exists i, (with_mark (m i) x). split; [apply V; eauto|exact Hsm].
  - intros i j s t Hs Ht H. apply V in Hs as [x [Hx ->]]. apply V in Ht as [y [Hy ->]]. exact (tr_once _ _ _ _ _ _ T i j x y Hx Hy H).
  - intros i. rewrite Hh, (tr_hull _ _ _ _ _ _ T i). split.
    + intros [s [v [Hs H]]]. exists (with_mark (m i) s), v. split; [apply V; eauto|exact H].
    + intros [y [v [Hy H]]]. apply V in Hy as [x [Hx ->]]. exists x, v. auto.
  - intros i y Hy. apply V in Hy as [x [Hx ->]]. exact (tr_slots _ _ _ _ _ _ T i x Hx).
  - intros i y k n Hy En. apply V in Hy as [x [Hx ->]]. destruct (tr_nbrs _ _ _ _ _ _ T i x k n Hx En) as [[-> Hno]|[t [Ht Ho]]].
    + left. split; [reflexivity|]. intros j t Ht Ho. apply V in Ht as [z [Hz ->]]. exact (Hno j z Hz Ho).
    + right. exists (with_mark (m n) t). split; [apply V; eauto|exact Ho].
Qed.
End Tri.
