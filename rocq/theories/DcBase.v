(** The base case gives the triangulation. *)
From Coq Require Import Permutation.
From Verif Require Import Outcome ListUtil WordsModel BlockModel BlockProofs BlockSpec SimplexModel SimplexProofs GeoModel GeoSpec DelSpec PlaceSpec MergeModel MergeSpec NbrSpec MergeProofs DelGeo TriSpec StepBase StepProofs DcModel DcSpec.
Local Open Scope nat_scope.

Lemma combine_nth_error {A B} : forall (l : list A) (m : list B) k a b, nth_error l k = Some a -> nth_error m k = Some b -> nth_error (combine l m) k = Some (a, b).
Proof. induction l as [|x l IH]; intros [|y m] [|k] a b Ha Hb; cbn in *; try discriminate; [congruence|]. now apply IH. Qed.
Lemma combine_nth_inv {A B} : forall (l : list A) (m : list B) k a b, nth_error (combine l m) k = Some (a, b) -> nth_error l k = Some a /\ nth_error m k = Some b.
Proof. induction l as [|x l IH]; intros [|y m] [|k] a b H; cbn in *; try discriminate; [split; congruence|]. now apply IH. Qed.
Lemma combine_fst {A B} : forall (l : list A) (m : list B), length m = length l -> map fst (combine l m) = l.
Proof. induction l as [|x l IH]; intros [|y m] H; cbn in *; try discriminate; [reflexivity|]. f_equal. apply IH. congruence. Qed.

Section Base.
Variable over : N -> N.
Variable D : N.
Hypothesis HD : (0 < D <= 30)%N.
Variable co : N -> vec.
Variable hgt : N -> R.
Notation Dn := (N.to_nat D).
Variable pts : list N.
Hypothesis Hsmall : forall v, In v pts -> (v < 2 ^ 64)%N.
Hypothesis Hsome : exists s, dt Dn co hgt pts s.
Variable start last : N.
Hypothesis Hlast : (start + last < 2 ^ 64)%N.
Variable cells : list cell.
Hypothesis HC : cgal_ok D co hgt pts last cells.
Variable dflt : simplex.
Hypothesis Hd : x_id dflt = s_inf.
Hypothesis Hdm : x_mark dflt = 0%N.

Definition nb (o : option N) : N := match o with None => s_inf | Some n => (start + n)%N end.
Lemma len_verts c : In c cells -> length (c_verts c) = Dn + 1 /\ NoDup (c_verts c).
Proof. intros H. destruct (cg_sound _ _ _ _ _ _ HC c H) as (_ & (Hn & Hl & _) & _). split; [lia|exact Hn]. Qed.

(** The simplex of a cell. *)
Definition simp (c : cell) : simplex := match cell_simplex over start c with Val s => s | _ => dflt end.
Record is_simp (c : cell) (s : simplex) : Prop := mksi {
  si_id : x_id s = (start + c_id c)%N;
  si_mark : x_mark s = 0%N;
  si_well : well over s;
  si_same : same (x_verts s) (c_verts c);
  si_slots : length (x_nbrs s) = Dn + 1;
  si_nb : forall k n, nth_error (x_nbrs s) k = Some n -> exists k' v o, nth_error (x_verts s) k = Some v /\ nth_error (c_verts c) k' = Some v /\ nth_error (c_nbrs c) k' = Some o /\ n = nb o }.
Lemma simp_ok c : In c cells -> cell_simplex over start c = Val (simp c) /\ is_simp c (simp c).
Proof.
  intros Hc. destruct (len_verts c Hc) as [Hl Hn]. pose proof (cg_slots _ _ _ _ _ _ HC c Hc) as Hs. pose proof (cg_last _ _ _ _ _ _ HC c Hc) as Hi.
  set (ns := map (fun o => match o with None => s_inf | Some n => wrap 64 (start + n) end) (c_nbrs c)).
  assert (En : ns = map nb (c_nbrs c)).
  { apply map_ext_in. intros [n|] Ho; [|reflexivity]. cbn [nb]. apply In_nth_error in Ho. destruct Ho as [k Ek].
    assert (Hk : k < Dn + 1) by (rewrite <- Hs; apply nth_error_Some; congruence). destruct (nth_error_ex (c_verts c) k) as [v Ev]; [lia|].
    destruct (cg_nbrs _ _ _ _ _ _ HC c k v _ Hc Ev Ek) as (c' & Hc' & <- & _). pose proof (cg_last _ _ _ _ _ _ HC c' Hc'). apply wrap_small. lia. }
  destruct (sort_vertices_spec (mks (wrap 64 (start + c_id c)) (c_verts c) ns 0 0)) as (t & E & S & L & P & I & _ & M); cbn [x_verts x_nbrs x_id x_mark] in *; auto.
  { rewrite En, map_length. lia. }
  { lia. }
  assert (Ec : cell_simplex over start c = Val (with_fp over t)).
  { unfold cell_simplex. fold ns. rewrite E. reflexivity. }
  unfold simp. rewrite Ec. split; [reflexivity|].
  assert (Lc : length ns = length (c_verts c)) by (rewrite En, map_length; lia).
  assert (Pv : Permutation (x_verts t) (c_verts c)).
  { rewrite <- (combine_fst (x_verts t) (x_nbrs t) L), <- (combine_fst (c_verts c) ns Lc). apply Permutation_map, P. }
  assert (Lt : length (x_verts t) = Dn + 1) by (rewrite (Permutation_length Pv); exact Hl).
  constructor; cbn [with_fp x_id x_mark x_verts x_nbrs].
  - rewrite I. apply wrap_small. lia.
  - exact M.
  - split; [reflexivity|]. split; [exact S|]. split; [intros C; cbn [x_verts with_fp] in C; rewrite C in Lt; cbn in Lt; lia|]. intros v Hv. apply Hsmall. apply (proj1 (cg_sound _ _ _ _ _ _ HC c Hc)). now apply (Permutation_in v Pv).
  - intros v. split; apply Permutation_in; [exact Pv|symmetry; exact Pv].
  - lia.
  - intros k n Hk. assert (k < length (x_nbrs t)) by (apply nth_error_Some; congruence). destruct (nth_error_ex (x_verts t) k) as [v Ev]; [lia|].
    pose proof (nth_error_In _ _ (combine_nth_error _ _ _ _ _ Ev Hk)) as Hin. apply (Permutation_in _ P) in Hin. apply In_nth_error in Hin. destruct Hin as [k' Ek'].
    apply combine_nth_inv in Ek'. destruct Ek' as [E1 E2]. rewrite En in E2. rewrite nth_error_map in E2. destruct (nth_error (c_nbrs c) k') as [o|] eqn:Eo; [|discriminate]. injection E2 as <-. eauto 10.
Qed.

Definition infs (l : list cell) : list N := map (fun c => x_id (simp c)) (filter (fun c => negb (s_isfinite D (simp c))) l).
Lemma collect_ok : forall l DT, (forall c, In c l -> In c cells) -> wf (d_arr DT) -> (forall c, In c l -> exists a, holds (d_arr DT) (start + c_id c) a) -> NoDup (map c_id l) ->
  exists out, collect_cells over D start l DT = Val (Some out) /\ wf (d_arr out) /\ length (d_arr out) = length (d_arr DT) /\ d_mark out = d_mark DT /\ d_hull out = d_hull DT ++ infs l /\
  forall i x, holds (d_arr out) i x <-> (exists c, In c l /\ i = (start + c_id c)%N /\ x = simp c) \/ ((forall c, In c l -> i <> (start + c_id c)%N) /\ holds (d_arr DT) i x).
Proof.
  induction l as [|c l IH]; intros DT Hin W Hh Hn.
  - exists DT. cbn [collect_cells infs]. rewrite app_nil_r. split; [reflexivity|]. split; [exact W|]. do 3 (split; [reflexivity|]). intros i x. split; [intros H; right; split; [intros c []|exact H]|intros [(c & [] & _)|[_ H]]; exact H].
  - destruct (simp_ok c (Hin c ltac:(now left))) as [E I]. cbn [collect_cells]. rewrite E. cbn [rbind]. cbn zeta.
    destruct (Hh c ltac:(now left)) as [a Ha]. rewrite <- (si_id _ _ I) in Ha. apply holds_cell in Ha. destruct (set_spec (d_arr DT) _ a (simp c) 0 W Ha (wf_pos _ W)) as (l1 & h & E1 & _ & W1 & L1 & S1).
    rewrite E1. cbn [rbind]. inversion Hn as [|? ? Hni Hn']; subst.
    set (DT1 := mkd l1 (if negb (s_isfinite D (simp c)) then d_hull DT ++ [x_id (simp c)] else d_hull DT) (d_mark DT)).
    destruct (IH DT1) as (out & Eo & Wo & Lo & Mo & Ho & So); auto.
    { intros c' Hc'. apply Hin. now right. }
    { intros c' Hc'. destruct (Hh c' ltac:(now right)) as [a' Ha']. destruct (N.eq_dec (start + c_id c') (x_id (simp c))) as [C|C].
      - exists (simp c). apply holds_cell. apply S1. now left.
      - exists a'. apply holds_cell. apply S1. right. split; [exact C|]. now apply holds_cell. }
    exists out. split; [exact Eo|]. split; [exact Wo|]. split; [cbn [DT1 d_arr] in Lo; lia|]. split; [exact Mo|]. split.
    + rewrite Ho. unfold infs. cbn [filter DT1 d_hull]. destruct (negb (s_isfinite D (simp c))); [|reflexivity]. cbn [map]. now rewrite <- app_assoc.
    + intros i x. rewrite So. cbn [DT1 d_arr]. split.
      * intros [(c' & Hc' & -> & ->)|[Hni' Hx]].
        -- left. exists c'. split; [now right|auto].
        -- apply holds_cell in Hx. apply S1 in Hx as [[-> ->]|[Hne Hx]].
           ++ left. exists c. split; [now left|]. split; [exact (si_id _ _ I)|reflexivity].
           ++ right. split; [|now apply holds_cell]. intros c' [<-|Hc']; [rewrite <- (si_id _ _ I); exact Hne|now apply Hni'].
      * intros [(c' & [<-|Hc'] & -> & ->)|[Hni' Hx]].
        -- right. split.
           ++ intros c' Hc' C. apply Hni. replace (c_id c) with (c_id c') by lia. now apply in_map.
           ++ apply holds_cell. apply S1. left. split; [symmetry; exact (si_id _ _ I)|reflexivity].
        -- left. eauto.
        -- right. split; [intros c' Hc'; apply Hni'; now right|]. apply holds_cell. apply S1. right. split; [|now apply holds_cell]. rewrite (si_id _ _ I). apply Hni'. now left.
Qed.

Lemma base_ok : exists out, base_dt over dflt D start last cells = Val (Some out) /\ triangulation over D co hgt pts out /\ d_mark out = 0%N /\ length (d_arr out) = 1 /\
  forall i, held out i <-> (start <= i < start + last)%N.
Proof.
  assert (Hpos : (0 < last)%N).
  { destruct Hsome as [s Hs]. destruct (cg_complete _ _ _ _ _ _ HC s Hs) as (c & Hc & _). pose proof (cg_last _ _ _ _ _ _ HC c Hc). lia. }
  unfold base_dt. rewrite wrap_small by exact Hlast. destruct (block_new_ok dflt start (start + last) ltac:(lia) Hlast) as [W0 S0].
  destruct (collect_ok cells (mkd (ba_new dflt start (start + last)) [] 0)) as (out & E & W & L & M & H & Sp); auto; cbn [d_arr d_hull d_mark] in *.
  { intros c Hc. pose proof (cg_last _ _ _ _ _ _ HC c Hc). exists dflt. apply holds_cell. apply S0. split; [lia|reflexivity]. }
  { exact (cg_ids _ _ _ _ _ _ HC). }
  exists out. split; [exact E|].
  assert (Sh : forall i x, shown out i x <-> exists c, In c cells /\ i = (start + c_id c)%N /\ x = simp c).
  { intros i x. unfold shown. rewrite Sp. split.
    - intros [[Hc|[_ Hx]] Hne]; [exact Hc|]. apply holds_cell in Hx. apply S0 in Hx. destruct Hx as [_ ->]. congruence.
    - intros (c & Hc & -> & ->). split; [left; eauto|]. destruct (simp_ok c Hc) as [_ I]. rewrite (si_id _ _ I). pose proof (cg_last _ _ _ _ _ _ HC c Hc). unfold s_inf. lia. }
  assert (Op : forall c c' k v, In c cells -> In c' cells -> nth_error (x_verts (simp c)) k = Some v -> opposite (simp c) k (simp c') <-> beside c v c').
  { intros c c' k v Hc Hc' Hv. destruct (simp_ok c Hc) as [_ I]. destruct (simp_ok c' Hc') as [_ I']. pose proof (si_same _ _ I) as A. pose proof (si_same _ _ I') as B. unfold same in A, B. split.
    - intros (v' & Ev' & Hw) w Hin. rewrite Hv in Ev'. injection Ev' as <-. rewrite <- B. apply Hw, A, Hin.
    - intros Hb. exists v. split; [exact Hv|]. intros w Hin. rewrite B. apply Hb, A, Hin. }
  assert (Hdt : forall (s t : list N), dt Dn co hgt pts s -> Permutation s t -> dt Dn co hgt pts t) by (intros s t H1 H2; eapply dt_perm; eauto).
  split; [|split; [exact M|split; [exact L|]]].
  - constructor.
    + exact W.
    + intros i s Hs. apply Sp in Hs as [(c & Hc & -> & ->)|[_ Hs]].
      * destruct (simp_ok c Hc) as [_ I]. pose proof (cg_last _ _ _ _ _ _ HC c Hc). split; [unfold s_inf; lia|]. split; [rewrite (si_mark _ _ I); lia|]. right. split; [exact (si_id _ _ I)|exact (si_well _ _ I)].
      * apply holds_cell in Hs. apply S0 in Hs as [Hi ->]. split; [unfold s_inf; lia|]. split; [lia|]. now left.
    + intros i s Hs. apply Sh in Hs as (c & Hc & _ & ->). destruct (simp_ok c Hc) as [_ I]. destruct (len_verts c Hc) as [_ Hn].
      apply Hdt with (s := c_verts c); [exact (cg_sound _ _ _ _ _ _ HC c Hc)|]. apply NoDup_Permutation; [exact Hn|apply sorted_NoDup; exact (proj1 (proj2 (si_well _ _ I)))|]. intros v. symmetry. apply (si_same _ _ I).
    + intros s Hs. destruct (cg_complete _ _ _ _ _ _ HC s Hs) as (c & Hc & Hsame). destruct (simp_ok c Hc) as [_ I]. exists (start + c_id c)%N, (simp c). split; [apply Sh; eauto|].
      intros v. rewrite (Hsame v). symmetry. apply (si_same _ _ I).
    + intros i j s t Hs Ht Hst. apply Sh in Hs as (c & Hc & -> & ->). apply Sh in Ht as (c' & Hc' & -> & ->). destruct (simp_ok c Hc) as [_ I]. destruct (simp_ok c' Hc') as [_ I'].
      rewrite (cg_once _ _ _ _ _ _ HC c c' Hc Hc'); [reflexivity|]. intros v. rewrite <- (si_same _ _ I v), <- (si_same _ _ I' v). apply Hst.
    + intros i. rewrite H. cbn [app]. unfold infs. rewrite in_map_iff. split.
      * intros (c & <- & Hc). apply filter_In in Hc as [Hc Hf]. destruct (simp_ok c Hc) as [_ I]. rewrite (si_id _ _ I).
        assert (exists v, In v (x_verts (simp c)) /\ p_finite D v = false) as (v & Hv & Hvf).
        { unfold s_isfinite in Hf. destruct (existsb (fun v => negb (p_finite D v)) (x_verts (simp c))) eqn:Ex.
          - apply existsb_exists in Ex. destruct Ex as (v & Hv & Hvf). exists v. split; [exact Hv|]. now destruct (p_finite D v).
          - exfalso. apply Bool.negb_true_iff in Hf. apply Bool.not_true_iff_false in Hf. apply Hf. apply forallb_forall. intros v Hv. apply in_rev in Hv.
            apply Bool.not_true_iff_false in Ex. destruct (p_finite D v) eqn:Ev; [reflexivity|]. exfalso. apply Ex. apply existsb_exists. exists v. now rewrite Ev. }
        exists (simp c), v. split; [apply Sh; eauto|auto].
      * intros (s & v & Hs & Hv & Hf). apply Sh in Hs as (c & Hc & -> & ->). exists c. destruct (simp_ok c Hc) as [_ I]. split; [exact (si_id _ _ I)|]. apply filter_In. split; [exact Hc|].
        destruct (s_isfinite D (simp c)) eqn:Ef; [|reflexivity]. exfalso. rewrite (proj1 (isfinite_spec D (simp c)) Ef v Hv) in Hf. discriminate.
    + intros i s Hs. apply Sh in Hs as (c & Hc & _ & ->). destruct (simp_ok c Hc) as [_ I]. exact (si_slots _ _ I).
    + intros i s k n Hs Hk. apply Sh in Hs as (c & Hc & _ & ->). destruct (simp_ok c Hc) as [_ I]. destruct (si_nb _ _ I k n Hk) as (k' & v & o & Ev & Ev' & Eo & ->).
      pose proof (cg_nbrs _ _ _ _ _ _ HC c k' v o Hc Ev' Eo) as Hn. destruct o as [n|]; cbn [nb].
      * right. destruct Hn as (c' & Hc' & <- & Hb). exists (simp c'). split; [apply Sh; eauto|]. now apply (Op c c' k v Hc Hc' Ev).
      * left. split; [reflexivity|]. intros j t Ht Ho. apply Sh in Ht as (c' & Hc' & _ & ->). apply (Hn c' Hc'). now apply (Op c c' k v Hc Hc' Ev).
  - intros i. split.
    + intros [x Hx]. apply Sp in Hx as [(c & Hc & -> & _)|[_ Hx]]; [pose proof (cg_last _ _ _ _ _ _ HC c Hc); lia|]. apply holds_cell in Hx. apply S0 in Hx. apply Hx.
    + intros Hi. destruct (existsb (fun c => (i =? start + c_id c)%N) cells) eqn:Ex.
      * apply existsb_exists in Ex. destruct Ex as (c & Hc & Ei). apply N.eqb_eq in Ei. exists (simp c). apply Sp. left. eauto.
      * exists dflt. apply Sp. right. split; [|apply holds_cell, S0; split; [exact Hi|reflexivity]]. intros c Hc C. apply Bool.not_true_iff_false in Ex. apply Ex. apply existsb_exists. exists c. split; [exact Hc|now apply N.eqb_eq].
Qed.
End Base.
