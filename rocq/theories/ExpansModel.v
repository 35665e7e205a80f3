(** Sums of expansions: PredicatesBase::fast_expansion_sum_zeroelim (src/utils/Predicates.cpp:779-845), with the macros Fast_Two_Sum and Two_Sum. *)
From Verif Require Import Outcome GeoModel PredModel.
Local Open Scope R_scope.

Section Expans.
  (** The rounding after every operation, as in PredModel. *)
  Variable rnd : R -> R.
  (** Two_Sum, Predicates.cpp:182-191: x, y. *)
  Definition two_sum (a b : R) : R * R :=
    let x := fadd rnd a b in
    let bvirt := fsub rnd x a in
    let avirt := fsub rnd x bvirt in
    let bround := fsub rnd b bvirt in
    let around := fsub rnd a avirt in
    (x, fadd rnd around bround).
  (** Fast_Two_Sum, Predicates.cpp:166-172: x, y. *)
  Definition fast_two_sum (a b : R) : R * R :=
    let x := fadd rnd a b in
    let bvirt := fsub rnd x a in
    (x, fsub rnd b bvirt).
  (** Reading a[i]: outside of the array it is undefined behaviour. *)
  Definition rd (a : list R) (i : nat) : res R := match nth_error a i with Some x => Val x | None => Undef end.
  (** (fnow > enow) == (fnow > -enow), lines 793, 802, 814. *)
  Definition pick_e (enow fnow : R) : bool := Bool.eqb (rltb enow fnow) (rltb (- enow) fnow).
  (** if (hh != 0.0) h[hindex++] = hh, lines 810-812 and others.  The size of the array h is not modelled: it is the list of what was written. *)
  Definition out (h : list R) (hh : R) : list R := if Req_EM_T hh 0 then h else h ++ [hh].

  Section Arrays.
  (** elen, e, flen, f; the lists are the whole arrays, which may be longer than the expansions in them. *)
  Variables (elen : nat) (e : list R) (flen : nat) (f : list R).
  (** eindex, findex, enow, fnow, Q, h. *)
  Record est := { x_ei : nat; x_fi : nat; x_e : R; x_f : R; x_q : R; x_h : list R }.
  (** while ((eindex < elen) && (findex < flen)), lines 813-826. *)
  Fixpoint both (n : nat) (s : est) : res est :=
    if (x_ei s <? elen)%nat && (x_fi s <? flen)%nat then
      match n with
      | O => NoFuel
      | S n =>
          if pick_e (x_e s) (x_f s) then
            let '(q, hh) := two_sum (x_q s) (x_e s) in
            rbind (rd e (x_ei s + 1)) (fun en => both n {| x_ei := x_ei s + 1; x_fi := x_fi s; x_e := en; x_f := x_f s; x_q := q; x_h := out (x_h s) hh |})
          else
            let '(q, hh) := two_sum (x_q s) (x_f s) in
            rbind (rd f (x_fi s + 1)) (fun fn => both n {| x_ei := x_ei s; x_fi := x_fi s + 1; x_e := x_e s; x_f := fn; x_q := q; x_h := out (x_h s) hh |})
      end
    else Val s.
  (** while (eindex < elen) and while (findex < flen), lines 828-835 and 836-843: the rest of one array. *)
  Fixpoint rest (n : nat) (len : nat) (a : list R) (i : nat) (now q : R) (h : list R) : res (R * list R) :=
    if (i <? len)%nat then
      match n with
      | O => NoFuel
      | S n => let '(q, hh) := two_sum q now in rbind (rd a (i + 1)) (fun now => rest n len a (i + 1) now q (out h hh))
      end
    else Val (q, h).
  (** The beginning, lines 789-801: the first component. *)
  Definition first : res est :=
    rbind (rd e 0) (fun en => rbind (rd f 0) (fun fn =>
      if pick_e en fn then rbind (rd e 1) (fun en' => Val {| x_ei := 1; x_fi := 0; x_e := en'; x_f := fn; x_q := en; x_h := [] |})
      else rbind (rd f 1) (fun fn' => Val {| x_ei := 0; x_fi := 1; x_e := en; x_f := fn'; x_q := fn; x_h := [] |}))).
  (** The second component, lines 803-812. *)
  Definition second (s : est) : res est :=
    if (x_ei s <? elen)%nat && (x_fi s <? flen)%nat then
      if pick_e (x_e s) (x_f s) then
        let '(q, hh) := fast_two_sum (x_e s) (x_q s) in
        rbind (rd e (x_ei s + 1)) (fun en => Val {| x_ei := x_ei s + 1; x_fi := x_fi s; x_e := en; x_f := x_f s; x_q := q; x_h := out (x_h s) hh |})
      else
        let '(q, hh) := fast_two_sum (x_f s) (x_q s) in
        rbind (rd f (x_fi s + 1)) (fun fn => Val {| x_ei := x_ei s; x_fi := x_fi s + 1; x_e := x_e s; x_f := fn; x_q := q; x_h := out (x_h s) hh |})
    else Val s.
  (** fast_expansion_sum_zeroelim: the components of h; the return value is their number.  [n]: steps of each loop. *)
  Definition expansion_sum (n : nat) : res (list R) :=
    rbind first (fun s => rbind (second s) (fun s => rbind (both n s) (fun s =>
      rbind (rest n elen e (x_ei s) (x_e s) (x_q s) (x_h s)) (fun '(q, h) =>
        rbind (rest n flen f (x_fi s) (x_f s) q h) (fun '(q, h) =>
          Val (if Req_EM_T q 0 then match h with [] => [q] | _ => h end else h ++ [q])))))).
  End Arrays.
End Expans.
