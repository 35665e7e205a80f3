(** C92: points from a file. *)
From Coq Require Import Ascii String Reals Lra.
From Verif Require Import Outcome ExpModel GeoModel LoadModel.
Local Open Scope R_scope.

Lemma fields_one sep a : ~ In sep a -> fields sep a = [a].
Proof.
  induction a as [|c a IH]; intros H; [reflexivity|]. cbn [fields]. rewrite IH by (intros I; apply H; now right).
  assert (E : Ascii.eqb c sep = false) by (apply Ascii.eqb_neq; intros ->; apply H; now left). now rewrite E.
Qed.
Lemma fields_ne sep s : fields sep s <> [].
Proof. destruct s as [|c s]; cbn [fields]; [discriminate|]. induction s as [|d s IH] in c |- *; cbn [fields]; [destruct (Ascii.eqb c sep); discriminate|]. specialize (IH d). destruct (fields sep s); [now destruct IH|]. destruct (Ascii.eqb d sep), (Ascii.eqb c sep); discriminate. Qed.
Lemma fields_app sep a b : ~ In sep a -> fields sep (a ++ sep :: b) = a :: fields sep b.
Proof.
  induction a as [|c a IH]; intros H; cbn [app fields].
  - pose proof (fields_ne sep b). destruct (fields sep b); [congruence|]. now rewrite Ascii.eqb_refl.
  - rewrite IH by (intros I; apply H; now right). assert (E : Ascii.eqb c sep = false) by (apply Ascii.eqb_neq; intros ->; apply H; now left). now rewrite E.
Qed.

(** The line of a point. *)
Fixpoint pline (fmt : R -> str) (p : list R) : str := match p with [] => [] | [x] => fmt x | x :: p => fmt x ++ " "%char :: pline fmt p end.
Lemma dump_line fmt p : dump_point fmt p = pline fmt p ++ [newline].
Proof. induction p as [|x p IH]; [reflexivity|]. destruct p as [|y p]; [reflexivity|]. cbn [dump_point pline] in *. rewrite IH. now rewrite <- app_assoc. Qed.
Lemma pline_clean fmt p : (forall x, In x p -> ~ In newline (fmt x)) -> ~ In newline (pline fmt p).
Proof.
  induction p as [|x p IH]; intros H; [easy|]. destruct p as [|y p]; [apply H; now left|]. cbn [pline] in *. intros I. apply in_app_iff in I as [I|[I|I]]; [now apply (H x); [left|]|discriminate I|].
  revert I. apply IH. intros z Hz. apply H. now right.
Qed.
Lemma pline_fields fmt p : p <> [] -> (forall x, In x p -> ~ In " "%char (fmt x)) -> fields " " (pline fmt p) = map fmt p.
Proof.
  induction p as [|x p IH]; intros Hne H; [congruence|]. destruct p as [|y p]; [cbn [pline map]; apply fields_one, H; now left|]. cbn [pline]. rewrite fields_app by (apply H; now left). cbn [map]. f_equal. apply IH; [discriminate|].
  intros z Hz. apply H. now right.
Qed.
Lemma drop_cons f l : l <> [] -> drop_empty_last (f :: l) = f :: drop_empty_last l.
Proof. destruct l; [congruence|]. destruct f; reflexivity. Qed.
Lemma dump_lines fmt pts : (forall p x, In p pts -> In x p -> ~ In newline (fmt x)) -> file_lines (dump fmt pts) = map (pline fmt) pts.
Proof.
  intros H. unfold file_lines, dump. induction pts as [|p pts IH]; [reflexivity|]. cbn [map concat]. rewrite dump_line, <- app_assoc. cbn [app].
  rewrite fields_app by (apply pline_clean; intros x Hx; apply (H p); [now left|exact Hx]). rewrite drop_cons by apply fields_ne. f_equal. apply IH. intros q x Hq. apply H. now right.
Qed.

(** The box after one more point. *)
Fixpoint upd (box : list (R * R)) (p : list R) : list (R * R) :=
  match box, p with (l, h) :: box, x :: p => (if rltb x l then x else l, if rltb h x then x else h) :: upd box p | _, _ => [] end.
Lemma upd_len box : forall p, length p = length box -> length (upd box p) = length box.
Proof. induction box as [|[l h] box IH]; intros [|x p] H; try discriminate; [reflexivity|]. cbn [upd length]. f_equal. apply IH. now injection H. Qed.
Lemma read_point_val stod (fmt : R -> str) (val : R -> R) p : (forall x, In x p -> stod (fmt x) = Some (val x)) -> forall box, length box = length p -> read_point stod (map fmt p) box = Val (Some (map val p, upd box (map val p))).
Proof.
  induction p as [|x p IH]; intros H [|[l h] box] L; try discriminate; [reflexivity|]. cbn [map read_point upd]. rewrite H by (now left). rewrite IH; [reflexivity| |now injection L]. intros y Hy. apply H. now right.
Qed.
Lemma load_lines_val stod (fmt : R -> str) (val : R -> R) D pts : (0 < D)%nat -> (forall p, In p pts -> length p = D) ->
  (forall p x, In p pts -> In x p -> stod (fmt x) = Some (val x) /\ ~ In " "%char (fmt x)) -> forall vec box, length box = D ->
  load_lines stod " " (map (pline fmt) pts) vec box = Val (Some (vec ++ map (map val) pts, fold_left upd (map (map val) pts) box)).
Proof.
  intros HD. induction pts as [|p pts IH]; intros HL HF vec box HB; cbn [map load_lines fold_left]; [now rewrite app_nil_r|].
  assert (Lp : length p = D) by (apply HL; now left).
  rewrite pline_fields; [|destruct p; [cbn in Lp; lia|discriminate]|intros x Hx; now apply (HF p x); [left|]].
  rewrite (read_point_val stod fmt val) by (try lia; intros x Hx; now apply (HF p x); [left|]). cbn [rbind]. rewrite IH.
  - now rewrite <- app_assoc.
  - intros q Hq. apply HL. now right.
  - intros q x Hq. apply HF. now right.
  - rewrite upd_len; [exact HB|]. rewrite map_length. lia.
Qed.

Lemma upd_nth box : forall p d, length p = length box -> (d < length box)%nat ->
  nth d (upd box p) (0, 0) = (if rltb (nth d p 0) (fst (nth d box (0, 0))) then nth d p 0 else fst (nth d box (0, 0)), if rltb (snd (nth d box (0, 0))) (nth d p 0) then nth d p 0 else snd (nth d box (0, 0))).
Proof. induction box as [|[l h] box IH]; intros [|x p] d L Hd; try discriminate; cbn [length] in Hd; [lia|]. destruct d as [|d]; [reflexivity|]. cbn [upd nth]. apply IH; [now injection L|lia]. Qed.
Lemma fold_box D d pts : (d < D)%nat -> (forall p, In p pts -> length p = D) -> forall box, length box = D ->
  let b0 := nth d box (0, 0) in let b := nth d (fold_left upd pts box) (0, 0) in
  length (fold_left upd pts box) = D /\ fst b <= fst b0 /\ snd b0 <= snd b /\ (forall p, In p pts -> fst b <= nth d p 0 <= snd b) /\
  (fst b = fst b0 \/ exists p, In p pts /\ nth d p 0 = fst b) /\ (snd b = snd b0 \/ exists p, In p pts /\ nth d p 0 = snd b).
Proof.
  intros Hd. induction pts as [|p pts IH]; intros HL box HB; cbn zeta; cbn [fold_left].
  - split; [exact HB|]. split; [lra|]. split; [lra|]. split; [intros p []|]. split; now left.
  - assert (Lp : length p = D) by (apply HL; now left).
    destruct (IH (fun q Hq => HL q (or_intror Hq)) (upd box p)) as (L & B1 & B2 & B3 & B4 & B5); [rewrite upd_len; lia|]. cbn zeta in *.
    rewrite (upd_nth box p d) in * by lia. cbn [fst snd] in *. set (b := nth d (fold_left upd pts (upd box p)) (0, 0)) in *. set (x := nth d p 0) in *.
    destruct (nth d box (0, 0)) as [l h]. cbn [fst snd] in *. unfold rltb in *.
    split; [exact L|]. destruct (Rlt_dec x l), (Rlt_dec h x).
    all: split; [lra|]; split; [lra|]; split; [intros q [<-|Hq]; [fold x; lra|now apply B3]|].
    all: split; [destruct B4 as [B4|(q & Hq & B4)]; [|right; exists q; split; [now right|exact B4]]|destruct B5 as [B5|(q & Hq & B5)]; [|right; exists q; split; [now right|exact B5]]].
    all: first [left; lra|right; exists p; split; [now left|fold x; lra]].
Qed.

Section Load.
  Variables (stod : str -> option R) (fmt : R -> str) (val : R -> R) (tiny huge : R) (D : nat) (pts : list (list R)) (vec : list (list R)).
  Hypothesis HD : (0 < D)%nat.
  Hypothesis HL : forall p, In p pts -> length p = D.
  (** [fmt] writes numbers without blanks and newlines, [stod] reads what it wrote as [val]. *)
  Hypothesis HF : forall p x, In p pts -> In x p -> stod (fmt x) = Some (val x) /\ ~ In " "%char (fmt x) /\ ~ In newline (fmt x).

  Lemma load_val : load_file stod tiny huge D " " (Some (dump fmt pts)) vec = Val (Some (vec ++ map (map val) pts, fold_left upd (map (map val) pts) (repeat (huge, tiny) D))).
  Proof.
    unfold load_file. rewrite dump_lines by (intros p x Hp Hx; apply (HF p x Hp Hx)). apply (load_lines_val stod fmt val D); trivial; [|apply repeat_length].
    intros p x Hp Hx. destruct (HF p x Hp Hx) as (A & B & _). now split.
  Qed.
  Lemma val_nth p d : In p pts -> (d < D)%nat -> nth d (map val p) 0 = val (nth d p 0).
  Proof. intros Hp Hd. rewrite (nth_indep _ 0 (val 0)) by (rewrite map_length, HL; trivial). apply map_nth. Qed.

  (** All points of the file are appended in order; the box contains them; its low end is attained, and its high end if a coordinate is not below numeric_limits::min(). *)
  Theorem C92_load_partial : exists box, load_file stod tiny huge D " " (Some (dump fmt pts)) vec = Val (Some (vec ++ map (map val) pts, box)) /\ length box = D /\
    forall d, (d < D)%nat -> let lo := fst (nth d box (0, 0)) in let hi := snd (nth d box (0, 0)) in
      (forall p, In p pts -> lo <= val (nth d p 0) <= hi) /\
      (pts <> [] -> (forall p, In p pts -> val (nth d p 0) <= huge) -> exists p, In p pts /\ val (nth d p 0) = lo) /\
      ((exists p, In p pts /\ tiny <= val (nth d p 0)) -> exists p, In p pts /\ val (nth d p 0) = hi).
  Proof.
    exists (fold_left upd (map (map val) pts) (repeat (huge, tiny) D)). split; [exact load_val|].
    assert (HL' : forall p, In p (map (map val) pts) -> length p = D). { intros p I. apply in_map_iff in I as (q & <- & I). rewrite map_length. now apply HL. }
    split. { destruct (fold_box D 0 (map (map val) pts) HD HL' (repeat (huge, tiny) D) (repeat_length _ _)) as [L _]. exact L. }
    intros d Hd. cbn zeta. destruct (fold_box D d (map (map val) pts) Hd HL' (repeat (huge, tiny) D) (repeat_length _ _)) as (_ & B1 & B2 & B3 & B4 & B5). cbn zeta in *.
    assert (E : nth d (repeat (huge, tiny) D) (0, 0) = (huge, tiny)) by (rewrite (nth_indep _ _ (huge, tiny)) by (rewrite repeat_length; exact Hd); apply nth_repeat).
    rewrite E in *. cbn [fst snd] in *. set (b := nth d _ (0, 0)) in *.
    assert (X : forall p, In p pts -> fst b <= val (nth d p 0) <= snd b). { intros p Hp. rewrite <- val_nth by assumption. apply B3. now apply in_map. }
    split; [exact X|]. split.
    - intros Hne Hh. destruct B4 as [B4|(q & Hq & B4)].
      + destruct pts as [|p ps]; [congruence|]. exists p. split; [now left|]. specialize (X p (or_introl eq_refl)). specialize (Hh p (or_introl eq_refl)). lra.
      + apply in_map_iff in Hq as (p & <- & Hp). exists p. split; [exact Hp|]. now rewrite <- val_nth.
    - intros (p & Hp & Ht). destruct B5 as [B5|(q & Hq & B5)].
      + exists p. split; [exact Hp|]. specialize (X p Hp). lra.
      + apply in_map_iff in Hq as (p' & <- & Hp'). exists p'. split; [exact Hp'|]. now rewrite <- val_nth.
  Qed.
  (** Otherwise the high end is that number, above all points. *)
  Theorem C92_tight_refuted d : (d < D)%nat -> (forall p, In p pts -> val (nth d p 0) < tiny) ->
    exists v box, load_file stod tiny huge D " " (Some (dump fmt pts)) vec = Val (Some (v, box)) /\ snd (nth d box (0, 0)) = tiny /\ forall p, In p pts -> val (nth d p 0) < snd (nth d box (0, 0)).
  Proof.
    intros Hd Hp. eexists _, _. split; [exact load_val|].
    assert (HL' : forall p, In p (map (map val) pts) -> length p = D). { intros p I. apply in_map_iff in I as (q & <- & I). rewrite map_length. now apply HL. }
    destruct (fold_box D d (map (map val) pts) Hd HL' (repeat (huge, tiny) D) (repeat_length _ _)) as (_ & B1 & B2 & B3 & B4 & B5). cbn zeta in *.
    assert (E : nth d (repeat (huge, tiny) D) (0, 0) = (huge, tiny)) by (rewrite (nth_indep _ _ (huge, tiny)) by (rewrite repeat_length; exact Hd); apply nth_repeat).
    rewrite E in *. cbn [fst snd] in *. set (b := nth d _ (0, 0)) in *.
    assert (Eb : snd b = tiny). { destruct B5 as [B5|(q & Hq & B5)]; [exact B5|]. apply in_map_iff in Hq as (p & <- & I). rewrite val_nth in B5 by assumption. specialize (Hp p I). lra. }
    split; [exact Eb|]. intros p I. rewrite Eb. now apply Hp.
  Qed.
End Load.
Print Assumptions C92_load_partial.
Print Assumptions C92_tight_refuted.

(** A line with fewer fields than dimensions is undefined behaviour. *)
Theorem C92_short_refuted stod tiny huge D s x vec : (1 < D)%nat -> s <> [] -> ~ In " "%char s -> ~ In newline s -> stod s = Some x -> load_file stod tiny huge D " " (Some s) vec = Undef.
Proof.
  intros HD Hne H1 H2 Hs. unfold load_file, file_lines. rewrite fields_one by exact H2. cbn [drop_empty_last]. destruct s as [|c s]; [congruence|]. cbn [load_lines]. rewrite fields_one by exact H1.
  destruct D as [|[|D]]; try lia. cbn [repeat read_point]. rewrite Hs. reflexivity.
Qed.
Print Assumptions C92_short_refuted.

(** What LB_PointDump writes has one point more than there are: the reserved entry 0 comes first.  Read again, point 1 is the origin and point i + 1 was point i. *)
Theorem C92_dump_refuted stod (fmt : R -> str) (val : R -> R) tiny huge D pts : (0 < D)%nat -> (forall p, In p pts -> length p = D) -> let zero := repeat 0 D in
  (forall p x, In p (zero :: pts) -> In x p -> stod (fmt x) = Some (val x) /\ ~ In " "%char (fmt x) /\ ~ In newline (fmt x)) ->
  exists box, load_file stod tiny huge D " " (Some (dump fmt (zero :: pts))) [zero] = Val (Some (zero :: map val zero :: map (map val) pts, box)).
Proof.
  intros HD HL zero HF. destruct (C92_load_partial stod fmt val tiny huge D (zero :: pts) [zero] HD) as (box & E & _); [|exact HF|exists box; exact E].
  intros p [<-|Hp]; [apply repeat_length|now apply HL].
Qed.
Print Assumptions C92_dump_refuted.

(** Two points in the plane with the coordinates 1, 2 and 3, 5, written with one digit. *)
Example C92_ex : let fmt (x : R) := if Req_EM_T x 1 then txt "1" else if Req_EM_T x 2 then txt "2" else if Req_EM_T x 3 then txt "3" else txt "5" in
  let stod s := if str_eq s (txt "1") then Some 1 else if str_eq s (txt "2") then Some 2 else if str_eq s (txt "3") then Some 3 else if str_eq s (txt "5") then Some 5 else None in
  let pts := [[1; 2]; [3; 5]] in dump fmt pts = txt "1 2" ++ newline :: txt "3 5" ++ [newline] /\
  (forall p x, In p pts -> In x p -> stod (fmt x) = Some x /\ ~ In " "%char (fmt x) /\ ~ In newline (fmt x)) /\ (forall p, In p pts -> length p = 2%nat) /\
  exists v box, load_file stod (1 / 100) 100 2 " " (Some (dump fmt pts)) [[0; 0]] = Val (Some (v, box)) /\ snd (nth 1 box (0, 0)) = 5.
Proof.
  intros fmt stod pts.
  assert (F1 : fmt 1 = txt "1") by (unfold fmt; destruct (Req_EM_T 1 1); [reflexivity|lra]).
  assert (F2 : fmt 2 = txt "2") by (unfold fmt; destruct (Req_EM_T 2 1); [lra|]; destruct (Req_EM_T 2 2); [reflexivity|lra]).
  assert (F3 : fmt 3 = txt "3") by (unfold fmt; destruct (Req_EM_T 3 1); [lra|]; destruct (Req_EM_T 3 2); [lra|]; destruct (Req_EM_T 3 3); [reflexivity|lra]).
  assert (F5 : fmt 5 = txt "5") by (unfold fmt; destruct (Req_EM_T 5 1); [lra|]; destruct (Req_EM_T 5 2); [lra|]; destruct (Req_EM_T 5 3); [lra|reflexivity]).
  assert (HF : forall p x, In p pts -> In x p -> stod (fmt x) = Some x /\ ~ In " "%char (fmt x) /\ ~ In newline (fmt x)).
  { intros p x [<-|[<-|[]]] [<-|[<-|[]]]; rewrite ?F1, ?F2, ?F3, ?F5; (split; [reflexivity|]); split; intros [I|[]]; discriminate I. }
  assert (HL : forall p, In p pts -> length p = 2%nat) by (intros p [<-|[<-|[]]]; reflexivity).
  split. { unfold dump, pts. cbn [map dump_point concat]. rewrite F1, F2, F3, F5. reflexivity. }
  split; [exact HF|]. split; [exact HL|].
  destruct (C92_load_partial stod fmt (fun x => x) (1 / 100) 100 2 pts [[0; 0]] ltac:(lia) HL HF) as (box & E & Lb & B). eexists _, box. split; [exact E|].
  destruct (B 1%nat ltac:(lia)) as (B1 & _ & B3). cbn zeta in *. destruct B3 as (p & Hp & E3). { exists [3; 5]. split; [right; now left|]. cbn. lra. }
  rewrite <- E3. destruct Hp as [<-|[<-|[]]]; [|reflexivity]. exfalso. specialize (B1 [3; 5] (or_intror (or_introl eq_refl))). cbn [nth] in *. rewrite <- E3 in B1. lra.
Qed.
