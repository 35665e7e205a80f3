(** Point statistics (C35). *)
From Verif Require Import Outcome ListUtil WordsModel LPSetModel SimplexModel PointModel PointProofs GeoModel GeoSpec GeoProofs PartModel.
From Coq Require Import Permutation.
Local Open Scope R_scope.

(** The least and the greatest value of coordinate [d]. *)
Definition least (cs : list vec) (d : nat) (m : R) : Prop := (exists c, In c cs /\ c d = m) /\ forall c, In c cs -> m <= c d.
Definition greatest (cs : list vec) (d : nat) (m : R) : Prop := (exists c, In c cs /\ c d = m) /\ forall c, In c cs -> c d <= m.

Section D.
Variable D : nat.
Variable pts : points vec.
Variables tiny huge : R.
Notation Dn := (N.of_nat D).

(** The ids that count. *)
Definition counted (ignore : bool) (i : N) : bool := p_finite Dn i || negb ignore.
Variable ignore : bool.
Variable c : N -> vec.
(** The coordinates the points container gives for the counted ids. *)
Definition coords (ids : list N) : Prop := forall i, In i ids -> counted ignore i = true -> p_get Dn pts i = Val (c i).

(** [s] bounds the start values and the coordinates of the ids, tightly. *)
Definition tight (ids : list N) (s : stats) : Prop :=
  (forall d x, x <= st_min s d <-> x <= huge /\ forall i, In i ids -> counted ignore i = true -> x <= c i d) /\
  (forall d x, st_max s d <= x <-> tiny <= x /\ forall i, In i ids -> counted ignore i = true -> c i d <= x).

Lemma tight_empty : tight [] (st_empty tiny huge).
Proof. split; intros d x; cbn [st_empty st_min st_max]; split; try (intros H; split; [exact H|intros i []]); intros [H _]; exact H. Qed.

Lemma rmin_le x a b : x <= Rmin a b <-> x <= a /\ x <= b.
Proof.
  split; [|intros [H1 H2]; now apply Rmin_glb]. intros H. split; (eapply Rle_trans; [exact H|]); [apply Rmin_l|apply Rmin_r].
Qed.
Lemma rmax_le x a b : Rmax a b <= x <-> a <= x /\ b <= x.
Proof.
  split; [|intros [H1 H2]; now apply Rmax_lub]. intros H. split; (eapply Rle_trans; [|exact H]); [apply Rmax_l|apply Rmax_r].
Qed.

Lemma loop_tight ids : forall s pre, coords ids -> tight pre s -> exists s', st_loop D pts ignore ids s = Val s' /\ tight (pre ++ ids) s'.
Proof.
  induction ids as [|i t IH]; intros s pre Hc Hs; cbn [st_loop].
  - exists s. rewrite app_nil_r. auto.
  - replace (pre ++ i :: t) with ((pre ++ [i]) ++ t) by (rewrite <- app_assoc; reflexivity).
    fold (counted ignore i). destruct (counted ignore i) eqn:Ei.
    + rewrite (Hc i) by (auto; now left). cbn [rbind]. apply IH; [intros j Hj; apply Hc; now right|]. destruct Hs as [H1 H2]. split; intros d x; cbn [st_add st_min st_max].
      * rewrite rmin_le, H1. split.
        -- intros [[Ha Hb] Hx]. split; [exact Ha|]. intros j Hj Ej. apply in_app_or in Hj. destruct Hj as [Hj|[<-|[]]]; [now apply Hb|exact Hx].
        -- intros [Ha Hb]. split; [split; [exact Ha|]|]; [intros j Hj; apply Hb, in_or_app; now left|apply Hb; [apply in_or_app; right; now left|exact Ei]].
      * rewrite rmax_le, H2. split.
        -- intros [[Ha Hb] Hx]. split; [exact Ha|]. intros j Hj Ej. apply in_app_or in Hj. destruct Hj as [Hj|[<-|[]]]; [now apply Hb|exact Hx].
        -- intros [Ha Hb]. split; [split; [exact Ha|]|]; [intros j Hj; apply Hb, in_or_app; now left|apply Hb; [apply in_or_app; right; now left|exact Ei]].
    + apply IH; [intros j Hj; apply Hc; now right|]. destruct Hs as [H1 H2]. split; intros d x.
      * rewrite H1. split; intros [Ha Hb]; (split; [exact Ha|]); intros j Hj Ej; apply Hb; auto; [|apply in_or_app; now left].
        apply in_app_or in Hj. destruct Hj as [Hj|[<-|[]]]; [exact Hj|congruence].
      * rewrite H2. split; intros [Ha Hb]; (split; [exact Ha|]); intros j Hj Ej; apply Hb; auto; [|apply in_or_app; now left].
        apply in_app_or in Hj. destruct Hj as [Hj|[<-|[]]]; [exact Hj|congruence].
Qed.

Lemma combine_tight l1 l2 s1 s2 : tight l1 s1 -> tight l2 s2 -> tight (l1 ++ l2) (st_combine s1 s2).
Proof.
  intros [A1 A2] [B1 B2]. split; intros d x; cbn [st_combine st_min st_max].
  - rewrite rmin_le, A1, B1. split.
    + intros [[Ha Hb] [_ Hd]]. split; [exact Ha|]. intros j Hj. apply in_app_or in Hj. destruct Hj; auto.
    + intros [Ha Hb]. split; (split; [exact Ha|]); intros j Hj; apply Hb, in_or_app; auto.
  - rewrite rmax_le, A2, B2. split.
    + intros [[Ha Hb] [_ Hd]]. split; [exact Ha|]. intros j Hj. apply in_app_or in Hj. destruct Hj; auto.
    + intros [Ha Hb]. split; (split; [exact Ha|]); intros j Hj; apply Hb, in_or_app; auto.
Qed.

Lemma local_tight work : coords (concat work) -> exists l, st_local D pts tiny huge ignore work = Val l /\ Forall2 tight work l.
Proof.
  induction work as [|ids t IH]; intros Hc; cbn [st_local]; [exists []; auto|]. cbn [concat] in Hc.
  destruct (loop_tight ids (st_empty tiny huge) []) as [s [Es Hs]]; [intros i Hi; apply Hc, in_or_app; now left|apply tight_empty|].
  rewrite Es. cbn [rbind]. destruct IH as [l [El Hl]]; [intros i Hi; apply Hc, in_or_app; now right|]. rewrite El. cbn [rmap]. exists (s :: l). auto.
Qed.

Lemma fold_tight : forall t l, Forall2 tight t l -> forall ids s, tight ids s -> tight (ids ++ concat t) (fold_left st_combine l s).
Proof.
  induction 1 as [|x y t l Hxy H IH]; intros ids s Hs; cbn [fold_left concat]; [now rewrite app_nil_r|].
  rewrite app_assoc. apply IH. now apply combine_tight.
Qed.

Lemma par_tight work : coords (concat work) -> exists s, stats_par D pts tiny huge ignore work = Val (st_finish s) /\ tight (concat work) s.
Proof.
  intros Hc. destruct (local_tight work Hc) as [l [El Hl]]. unfold stats_par. rewrite El. cbn [rmap]. eexists. split; [reflexivity|].
  unfold ets_combine. destruct Hl as [|x y t l Hxy H]; [apply tight_empty|]. cbn [concat]. now apply fold_tight.
Qed.
Lemma seq_tight ids : coords ids -> exists s, stats_seq D pts tiny huge ignore ids = Val (st_finish s) /\ tight ids s.
Proof.
  intros Hc. unfold stats_seq. destruct (loop_tight ids (st_empty tiny huge) [] Hc tight_empty) as [s [Es Hs]]. exists s. rewrite Es. split; [reflexivity|exact Hs].
Qed.

Lemma tight_perm l1 l2 s : (forall i, In i l1 <-> In i l2) -> tight l1 s -> tight l2 s.
Proof.
  intros Hp [H1 H2]. split; intros d x; [rewrite H1|rewrite H2]; split; intros [Ha Hb]; (split; [exact Ha|]); intros i Hi; apply Hb; apply Hp; exact Hi.
Qed.
Lemma tight_unique l s1 s2 d : tight l s1 -> tight l s2 -> st_min s1 d = st_min s2 d /\ st_max s1 d = st_max s2 d.
Proof.
  intros [A1 A2] [B1 B2]. split; apply Rle_antisym.
  - apply (B1 d). apply (A1 d). apply Rle_refl.
  - apply (A1 d). apply (B1 d). apply Rle_refl.
  - apply (A2 d). apply (B2 d). apply Rle_refl.
  - apply (B2 d). apply (A2 d). apply Rle_refl.
Qed.

(** The coordinate lists of the counted ids. *)
Definition counted_coords (ids : list N) : list vec := map c (filter (counted ignore) ids).
Lemma in_counted ids x : In x (counted_coords ids) <-> exists i, In i ids /\ counted ignore i = true /\ x = c i.
Proof.
  unfold counted_coords. rewrite in_map_iff. split.
  - intros [i [<- Hi]]. apply filter_In in Hi. exists i. tauto.
  - intros [i [H1 [H2 ->]]]. exists i. split; [reflexivity|]. now apply filter_In.
Qed.

Lemma tight_bounds ids s i d : tight ids s -> In i ids -> counted ignore i = true -> st_min s d <= c i d <= st_max s d.
Proof.
  intros [H1 H2] Hi Ei. split.
  - destruct (proj1 (H1 d (st_min s d)) (Rle_refl _)) as [_ H]. now apply H.
  - destruct (proj1 (H2 d (st_max s d)) (Rle_refl _)) as [_ H]. now apply H.
Qed.

(** The extrema of a non-empty list exist. *)
Lemma least_ex cs d : cs <> [] -> exists m, least cs d m.
Proof.
  induction cs as [|a t IH]; [congruence|]. intros _. destruct t as [|b t].
  - exists (a d). split; [exists a; split; [now left|reflexivity]|]. intros x [<-|[]]. apply Rle_refl.
  - destruct IH as [m [[x [Hx Ex]] Hm]]; [discriminate|]. exists (Rmin (a d) m). split.
    + unfold Rmin. destruct (Rle_dec (a d) m); [exists a; split; [now left|reflexivity]|exists x; split; [now right|exact Ex]].
    + intros y [<-|Hy]; [apply Rmin_l|]. eapply Rle_trans; [apply Rmin_r|now apply Hm].
Qed.
Lemma greatest_ex cs d : cs <> [] -> exists m, greatest cs d m.
Proof.
  induction cs as [|a t IH]; [congruence|]. intros _. destruct t as [|b t].
  - exists (a d). split; [exists a; split; [now left|reflexivity]|]. intros x [<-|[]]. apply Rle_refl.
  - destruct IH as [m [[x [Hx Ex]] Hm]]; [discriminate|]. exists (Rmax (a d) m). split.
    + unfold Rmax. destruct (Rle_dec (a d) m); [exists x; split; [now right|exact Ex]|exists a; split; [now left|reflexivity]].
    + intros y [<-|Hy]; [apply Rmax_l|]. eapply Rle_trans; [now apply Hm|apply Rmax_r].
Qed.

Lemma tight_min ids s d m : tight ids s -> least (counted_coords ids) d m -> st_min s d = Rmin huge m.
Proof.
  intros [H1 _] [[x [Hx Ex]] Hm]. apply Rle_antisym.
  - destruct (proj1 (H1 d (st_min s d)) (Rle_refl _)) as [Ha Hb]. apply Rmin_glb; [exact Ha|]. apply in_counted in Hx. destruct Hx as [i [Hi [Ei ->]]]. rewrite <- Ex. now apply Hb.
  - apply (H1 d). split; [apply Rmin_l|]. intros i Hi Ei. eapply Rle_trans; [apply Rmin_r|]. apply Hm, in_counted. eauto.
Qed.
Lemma tight_max ids s d m : tight ids s -> greatest (counted_coords ids) d m -> st_max s d = Rmax tiny m.
Proof.
  intros [_ H2] [[x [Hx Ex]] Hm]. apply Rle_antisym.
  - apply (H2 d). split; [apply Rmax_l|]. intros i Hi Ei. eapply Rle_trans; [|apply Rmax_r]. apply Hm, in_counted. eauto.
  - destruct (proj1 (H2 d (st_max s d)) (Rle_refl _)) as [Ha Hb]. apply Rmax_lub; [exact Ha|]. apply in_counted in Hx. destruct Hx as [i [Hi [Ei ->]]]. rewrite <- Ex. now apply Hb.
Qed.
End D.
