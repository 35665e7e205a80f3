(** Machine-word utilities, include/utils/Misc.h.
    [w] is the number of bits of the unsigned type [T]. *)
From Verif Require Import Outcome.
Local Open Scope N_scope.

(** Arithmetic conversion to an unsigned type of [w] bits. *)
Definition wrap (w x : N) : N := x mod 2 ^ w.

(** include/utils/Misc.h:10-13.  [x - 1] wraps at 0, but then [x != 0] is false. *)
Definition isPow2 (w x : N) : bool :=
  negb (x =? 0) && (N.land x (wrap w (x + 2 ^ w - 1)) =? 0).

(** include/utils/Misc.h:15-18.  [n = 0] divides by zero: [None]. *)
Definition isPowN (x n : N) : option bool :=
  if x =? 0 then Some false else if n =? 0 then None else Some (x mod n =? 0).

(** include/utils/Misc.h:20-29.  The loop variable [s] runs through 1,2,4,...
    while [s < w]; these are the [2^k] for [k < log2_up w].  [x - 1] and [++v]
    wrap. *)
Definition nextPow2 (w x : N) : N :=
  let v := fold_left (fun v k => N.lor v (N.shiftr v (2 ^ N.of_nat k)))
                     (seq 0 (N.to_nat (N.log2_up w))) (wrap w (x + 2 ^ w - 1)) in
  wrap w (v + 1).

(** include/utils/Misc.h:31-38; the [while (x >>= 1) ++y] loop by fuel. *)
Fixpoint log2_loop (fuel : nat) (x y : N) : res N :=
  match fuel with
  | O => NoFuel
  | S f => let x' := N.shiftr x 1 in
           if x' =? 0 then Val y else log2_loop f x' (y + 1)
  end.
Definition log2m (fuel : nat) (x : N) : res N := log2_loop fuel x 0.

(** include/utils/Misc.h:40-47; shifting by [w] or more bits is undefined, which
    cannot happen because [log2(n) < w]. *)
Fixpoint logN_loop (fuel : nat) (s x y : N) : res N :=
  match fuel with
  | O => NoFuel
  | S f => let x' := N.shiftr x s in
           if x' =? 0 then Val y else logN_loop f s x' (y + 1)
  end.
Definition logNm (fuel : nat) (x n : N) : res N :=
  rbind (log2m fuel n) (fun s => logN_loop fuel s x 0).

(** include/utils/Misc.h:49-61.  [ones/k] are the masks 0x5555.., 0x3333.., 0x0f0f..,
    0x0101..; every intermediate result is converted to [T]. *)
Definition popcount (w x : N) : N :=
  let ones := 2 ^ w - 1 in
  let v := wrap w (x + 2 ^ w - N.land (N.shiftr x 1) (ones / 3)) in
  let v := wrap w (N.land v (ones / 15 * 3) + N.land (N.shiftr v 2) (ones / 15 * 3)) in
  let v := N.land (wrap w (v + N.shiftr v 4)) (ones / 255 * 15) in
  N.shiftr (wrap w (v * (ones / 255))) ((w / 8 - 1) * 8).
