(** C96: the log. *)
From Coq Require Import Ascii String.
From Verif Require Import Outcome WordsModel WordsProofs ExpModel LogModel.
Local Open Scope Z_scope.

(** The text of the messages up to a level, [d]: how deep each thread is indented. *)
Fixpoint text (level : Z) (d : nat -> N) (es : list (nat * event)) : str :=
  match es with
  | [] => []
  | (t, Log l m) :: es => (if l <=? level then repeat tab (N.to_nat (d t)) ++ m else []) ++ text level d es
  | (t, Indent) :: es => text level (put d t (d t + 1)%N) es
  | (t, Dedent) :: es => text level (put d t (d t - 1)%N) es
  | (t, SetIndent i) :: es => text level (put d t i) es
  | (_, SetLevel _) :: es => text level d es
  end.
(** No thread goes back further than it is indented, none is indented 2^32 times, the level stays. *)
Fixpoint orderly (d : nat -> N) (es : list (nat * event)) : Prop :=
  match es with
  | [] => True
  | (t, Log l m) :: es => orderly d es
  | (t, Indent) :: es => (d t + 1 < 2 ^ 32)%N /\ orderly (put d t (d t + 1)%N) es
  | (t, Dedent) :: es => (0 < d t)%N /\ orderly (put d t (d t - 1)%N) es
  | (t, SetIndent i) :: es => (i < 2 ^ 32)%N /\ orderly (put d t i) es
  | (_, SetLevel _) :: es => False
  end.

Definition shown (level : Z) (en : list (Z * str)) : str := concat (map (fun e => if fst e <=? level then snd e else []) en).
Lemma shown_app level a b : shown level (a ++ b) = shown level a ++ shown level b.
Proof. unfold shown. now rewrite map_app, concat_app. Qed.

Lemma run_stored level k es : 0 < level -> k <= level -> forall s, g_level s = level -> (forall t, g_indent s t < 2 ^ 32)%N -> orderly (g_indent s) es ->
  g_level (log_run s es) = level /\ g_out (log_run s es) = g_out s /\ shown k (g_entries (log_run s es)) = shown k (g_entries s) ++ text k (g_indent s) es.
Proof.
  intros Hl Hk. assert (A : Z.abs level = level) by lia. assert (A1 : (1 <=? level) = true) by lia. assert (A2 : (level <=? -1) = false) by lia.
  assert (PB : forall (d : nat -> N) t a, (forall t, d t < 2 ^ 32)%N -> (a < 2 ^ 32)%N -> forall u, (put d t a u < 2 ^ 32)%N) by (intros d t a H Ha u; unfold put; destruct (Nat.eqb u t); auto).
  induction es as [|[t [l m| | |i|v]] es IH]; intros s Hs HB O; cbn [log_run fold_left text orderly] in *; fold (log_run) in *.
  - rewrite app_nil_r. auto.
  - change (fold_left log_step es ?x) with (log_run x es). cbn [log_step]. rewrite Hs, A, A2. destruct (Z.leb_spec l level) as [H|H].
    + destruct (IH {| g_level := level; g_entries := g_entries s ++ [(l, tabs (g_indent s t) ++ m)]; g_indent := g_indent s; g_out := g_out s |} eq_refl HB O) as (I1 & I2 & I3).
      cbn [g_out g_indent g_entries] in *. split; [exact I1|]. split; [exact I2|]. rewrite I3, shown_app. rewrite <- app_assoc. f_equal. f_equal. unfold shown. cbn [map concat fst snd]. rewrite app_nil_r. reflexivity.
    + destruct (IH s Hs HB O) as (I1 & I2 & I3). split; [exact I1|]. split; [exact I2|]. rewrite I3. replace (l <=? k) with false by lia. reflexivity.
  - change (fold_left log_step es ?x) with (log_run x es). cbn [log_step]. rewrite Hs, A, A1. destruct O as [O1 O2]. rewrite wrap_id by exact O1.
    destruct (IH {| g_level := level; g_entries := g_entries s; g_indent := put (g_indent s) t (g_indent s t + 1)%N; g_out := g_out s |} eq_refl) as (I1 & I2 & I3); cbn [g_out g_indent g_entries] in *; [now apply PB|exact O2|]. now rewrite I2, I3.
  - change (fold_left log_step es ?x) with (log_run x es). cbn [log_step]. rewrite Hs, A, A1. destruct O as [O1 O2]. rewrite wrap_pred by (specialize (HB t); lia).
    destruct (IH {| g_level := level; g_entries := g_entries s; g_indent := put (g_indent s) t (g_indent s t - 1)%N; g_out := g_out s |} eq_refl) as (I1 & I2 & I3); cbn [g_out g_indent g_entries] in *; [apply PB; [exact HB|specialize (HB t); lia]|exact O2|]. now rewrite I2, I3.
  - change (fold_left log_step es ?x) with (log_run x es). cbn [log_step]. rewrite Hs. destruct O as [O1 O2]. rewrite wrap_id by exact O1.
    destruct (IH {| g_level := level; g_entries := g_entries s; g_indent := put (g_indent s) t i; g_out := g_out s |} eq_refl) as (I1 & I2 & I3); cbn [g_out g_indent g_entries] in *; [now apply PB|exact O2|]. now rewrite I2, I3.
  - contradiction.
Qed.
Lemma run_live level es : level < 0 -> forall s, g_level s = level -> (forall t, g_indent s t < 2 ^ 32)%N -> orderly (g_indent s) es ->
  g_level (log_run s es) = level /\ g_entries (log_run s es) = g_entries s /\ g_out (log_run s es) = g_out s ++ text (Z.abs level) (g_indent s) es.
Proof.
  intros Hl. assert (A1 : (1 <=? Z.abs level) = true) by lia. assert (A2 : (level <=? -1) = true) by lia.
  assert (PB : forall (d : nat -> N) t a, (forall t, d t < 2 ^ 32)%N -> (a < 2 ^ 32)%N -> forall u, (put d t a u < 2 ^ 32)%N) by (intros d t a H Ha u; unfold put; destruct (Nat.eqb u t); auto).
  induction es as [|[t [l m| | |i|v]] es IH]; intros s Hs HB O; cbn [log_run fold_left text orderly] in *.
  - rewrite app_nil_r. auto.
  - change (fold_left log_step es ?x) with (log_run x es). cbn [log_step]. rewrite Hs, A2. destruct (l <=? Z.abs level) eqn:H.
    + destruct (IH {| g_level := level; g_entries := g_entries s; g_indent := g_indent s; g_out := g_out s ++ tabs (g_indent s t) ++ m |} eq_refl HB O) as (I1 & I2 & I3).
      cbn [g_out g_indent g_entries] in *. split; [exact I1|]. split; [exact I2|]. rewrite I3. rewrite <- !app_assoc. reflexivity.
    + apply (IH s Hs HB O).
  - change (fold_left log_step es ?x) with (log_run x es). cbn [log_step]. rewrite Hs, A1. destruct O as [O1 O2]. rewrite wrap_id by exact O1.
    destruct (IH {| g_level := level; g_entries := g_entries s; g_indent := put (g_indent s) t (g_indent s t + 1)%N; g_out := g_out s |} eq_refl) as (I1 & I2 & I3); cbn [g_out g_indent g_entries] in *; [now apply PB|exact O2|]. now rewrite I2, I3.
  - change (fold_left log_step es ?x) with (log_run x es). cbn [log_step]. rewrite Hs, A1. destruct O as [O1 O2]. rewrite wrap_pred by (specialize (HB t); lia).
    destruct (IH {| g_level := level; g_entries := g_entries s; g_indent := put (g_indent s) t (g_indent s t - 1)%N; g_out := g_out s |} eq_refl) as (I1 & I2 & I3); cbn [g_out g_indent g_entries] in *; [apply PB; [exact HB|specialize (HB t); lia]|exact O2|]. now rewrite I2, I3.
  - change (fold_left log_step es ?x) with (log_run x es). cbn [log_step]. rewrite Hs. destruct O as [O1 O2]. rewrite wrap_id by exact O1.
    destruct (IH {| g_level := level; g_entries := g_entries s; g_indent := put (g_indent s) t i; g_out := g_out s |} eq_refl) as (I1 & I2 & I3); cbn [g_out g_indent g_entries] in *; [now apply PB|exact O2|]. now rewrite I2, I3.
  - contradiction.
Qed.

(** With a stored level: nothing is written before printLog, which writes the messages up to the level, in order; a lower level prints what a run with that level would. *)
Theorem C96_stored es level : 0 < level -> orderly (fun _ => 0%N) es ->
  g_out (log_run (log_new level) es) = [] /\ print_log (log_run (log_new level) es) = text level (fun _ => 0%N) es /\
  forall k, 0 < k <= level -> print_at (log_run (log_new level) es) k = text k (fun _ => 0%N) es.
Proof.
  intros Hl O. assert (P : forall k, 0 < k <= level -> print_at (log_run (log_new level) es) k = text k (fun _ => 0%N) es).
  { intros k Hk. destruct (run_stored level k es Hl (proj2 Hk) (log_new level) eq_refl (fun _ => eq_refl) O) as (_ & _ & E). unfold print_at. replace (k =? 0) with false by lia. exact E. }
  destruct (run_stored level level es Hl ltac:(lia) (log_new level) eq_refl (fun _ => eq_refl) O) as (E1 & E2 & _). split; [exact E2|]. split; [|exact P]. unfold print_log. rewrite E1. apply P. lia.
Qed.
(** With a live level the same text is written at once, and printLog writes nothing. *)
Theorem C96_live es level : level < 0 -> orderly (fun _ => 0%N) es ->
  g_out (log_run (log_new level) es) = text (- level) (fun _ => 0%N) es /\ print_log (log_run (log_new level) es) = [].
Proof.
  intros Hl O. destruct (run_live level es Hl (log_new level) eq_refl (fun _ => eq_refl) O) as (E1 & E2 & E3). split.
  - rewrite E3. cbn [log_new g_out g_indent app]. f_equal. lia.
  - unfold print_log, print_at. rewrite E2. cbn [log_new g_entries map concat]. now destruct (g_level _ =? 0).
Qed.
(** SILENT: nothing is written, by any events that do not change the level. *)
Theorem C96_silent es : (forall t l m, In (t, Log l m) es -> 0 < l) -> (forall t v, ~ In (t, SetLevel v) es) -> g_out (log_run (log_new 0) es) = [] /\ print_log (log_run (log_new 0) es) = [].
Proof.
  assert (G : forall es s, g_level s = 0 -> (forall t l m, In (t, Log l m) es -> 0 < l) -> (forall t v, ~ In (t, SetLevel v) es) -> g_level (log_run s es) = 0 /\ g_out (log_run s es) = g_out s).
  { clear. induction es as [|[t e] es IH]; intros s Hs H1 H2; [now split|]. unfold log_run. cbn [fold_left]. change (fold_left log_step es ?x) with (log_run x es).
    assert (L : g_level (log_step s (t, e)) = 0 /\ g_out (log_step s (t, e)) = g_out s).
    { cbn [log_step]. rewrite Hs. destruct e as [l m| | |i|v]; cbn [Z.abs]; [|now split..|].
      - replace (l <=? 0) with false; [now split|]. specialize (H1 t l m (or_introl eq_refl)). lia.
      - now destruct (H2 t v (or_introl eq_refl)). }
    destruct L as [L1 L2]. destruct (IH (log_step s (t, e)) L1) as [I1 I2]; [intros; eapply H1; right; eassumption|intros u v I; apply (H2 u v); now right|]. now rewrite I2. }
  intros H1 H2. destruct (G es (log_new 0) eq_refl H1 H2) as [E1 E2]. split; [exact E2|]. unfold print_log, print_at. now rewrite E1.
Qed.
(** If the level is raised from SILENT between INDENT and DEDENT, the next message is indented 2^32 - 1 times instead of not at all. *)
Theorem C96_level_refuted t l m : 0 < l <= 1 -> let s := log_run (log_new 0) [(t, Indent); (t, SetLevel 1); (t, Dedent); (t, Log l m)] in
  print_log s = repeat tab (N.to_nat (2 ^ 32 - 1)) ++ m /\ text 1 (fun _ => 0%N) [(t, Indent); (t, SetLevel 1); (t, Dedent); (t, Log l m)] = m.
Proof.
  intros H. cbn zeta. assert (El : (l <=? 1) = true) by lia. split.
  - unfold log_run. cbn [fold_left]. cbn [log_new log_step g_level g_indent g_entries g_out Z.abs Z.leb Z.compare Pos.compare Pos.compare_cont].
    rewrite El. cbn [g_level g_indent g_entries g_out app]. unfold print_log, print_at. cbn [g_level g_entries Z.eqb map concat fst snd]. rewrite El, app_nil_r.
    unfold put. rewrite Nat.eqb_refl. reflexivity.
  - cbn [text]. rewrite El. unfold put. rewrite !Nat.eqb_refl. cbn. now rewrite app_nil_r.
Qed.
Print Assumptions C96_stored.
Print Assumptions C96_live.
Print Assumptions C96_silent.
Print Assumptions C96_level_refuted.

(** Two threads, one of them indented: the verbose message is only in the verbose log. *)
Example C96_ex : let es := [(0%nat, Log 1 (txt "a")); (0%nat, Indent); (1%nat, Log 2 (txt "b")); (0%nat, Log 1 (txt "c")); (0%nat, Dedent)] in
  orderly (fun _ => 0%N) es /\ print_log (log_run (log_new 2) es) = txt "ab" ++ [tab] ++ txt "c" /\ print_log (log_run (log_new 1) es) = txt "a" ++ [tab] ++ txt "c".
Proof. repeat split; reflexivity. Qed.
