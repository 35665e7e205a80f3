(** The k-way splitter, include/load_balancing/kWaySplitter.h.

    Coordinates are real numbers; [rp] and [rf] round a number to Precision and to float, so that every operation of the
    code is exact arithmetic followed by a rounding.  Numbers too large for a float and the zero with a sign are not represented.
    The growing tables are sets with a capacity, of which only matters whether it is 0: a table without cells cannot be
    inserted into (C18_size_zero_never_returns).  Inserts lost while a table grows (C18_insert_kept_refuted) are left out. *)
From Coq Require Import Reals.
From Verif Require Import Outcome ListUtil WordsModel LPSetModel SimplexModel PointModel GeoModel PartModel.
Open Scope list_scope.
Import ListNotations.

(** A set of ids with the capacity given to its constructor, kWaySplitter.h:60-64. *)
Record kset := mkk { k_cap : N; k_ids : list N }.
(** Membership and insertion of an id, as used at kWaySplitter.h:80 and 98. *)
Definition k_mem (i : N) (l : list N) : bool := existsb (N.eqb i) l.
Definition k_add (i : N) (l : list N) : list N := if k_mem i l then l else l ++ [i].
(** insert on a handle of a growing table, Growing_LP.hxx:217-231. *)
Definition k_insert (s : kset) (i : N) : res kset := if (k_cap s =? 0)%N then NoFuel else Val (mkk (k_cap s) (k_add i (k_ids s))).

(** generateSplits, kWaySplitter.h:36-45: log2 of 0 is not a size_t.  The logarithm is computed in floating point; here exactly. *)
Definition gen_splits (D : nat) (p : N) : res (list nat) :=
  if (p =? 0)%N then Undef
  else Val (fold_left (fun r i => upd r (i mod D) (2 * nth (i mod D) r 0)%nat) (seq 0 (N.to_nat (N.log2 p))) (repeat 1%nat D)).

Section K.
Variables rf rp : R -> R.
Variable D : nat.
Variable pts : points vec.
Variables tiny huge : R.
Notation Dn := (N.of_nat D).

(** The low 32 bits as an int, kWaySplitter.h:74. *)
Definition to_int (z : Z) : Z := let u := (z mod 2 ^ 32)%Z in if (u <? 2 ^ 31)%Z then u else (u - 2 ^ 32)%Z.
(** kWaySplitter.h:72-76.  max - min = 0 gives a NaN or an infinity; converting these or a number outside size_t is undefined. *)
Definition k_index (mn mx c : R) (p : nat) : res nat :=
  let lo := rf mn in
  let d := rf (rf mx - lo) in
  if reqb d 0 then Undef
  else
    let pos := rf (rp (rp (c - lo) / d)) in
    let z := Int_part (rf (pos * rf (INR p))) in
    if ((0 <=? z) && (z <? 2 ^ 64))%Z then Val (Z.to_nat (Z.min (Z.max (to_int z) 0) (to_int (Z.of_nat p) - 1))) else Undef.

(** The parallel loop kWaySplitter.h:69-82, the ids in any order. *)
Definition k_put (ss : list kset) (j : nat) (i : N) : res (list kset) :=
  match nth_error ss j with None => Undef | Some s => rmap (upd ss j) (k_insert s i) end.
Fixpoint k_split (index : vec -> res nat) (ids : list N) (ss : list kset) : res (list kset) :=
  match ids with
  | [] => Val ss
  | i :: r =>
      if p_finite Dn i then
        rbind (p_get Dn pts i) (fun c => rbind (index c) (fun j => rbind (k_put ss j i) (fun ss' => k_split index r ss')))
      else k_split index r ss
  end.

(** A leaf, kWaySplitter.h:96-104: the box of its checker and its ids. *)
Definition kleaf := (box * list N)%type.
(** Leaves of all children one after the other, kWaySplitter.h:89-94. *)
Fixpoint k_all (f : kset -> res (list kleaf)) (ss : list kset) : res (list kleaf) :=
  match ss with
  | [] => Val []
  | s :: r => rbind (f s) (fun l => rmap (app l) (k_all f r))
  end.
(** partitionRecursively, kWaySplitter.h:49-109; [dim] is depth.  size() counts all ids. *)
Fixpoint k_rec (splits : list nat) (dim : nat) (s : kset) : res (list kleaf) :=
  rbind (stats_seq D pts tiny huge true (k_ids s)) (fun st =>
  match splits with
  | p :: rest =>
      let ss := repeat (mkk (N.of_nat (length (k_ids s)) / N.of_nat p) []) p in
      rbind (k_split (fun c => k_index (st_min st (dim mod D)) (st_max st (dim mod D)) (c (dim mod D)%nat) p) (k_ids s) ss)
            (k_all (k_rec rest (S dim)))
  | [] =>
      (* 97-100: a set without cells cannot be inserted into *)
      if (k_cap s =? 0)%N then Undef
      else Val [(mkbox (st_min st) (st_max st), fold_left (fun l i => k_add i l) (inf_ids D) (k_ids s))]
  end).
(** The constructor kWaySplitter.h:11-14 and partition 16-26. *)
Definition k_way (p : N) (s : kset) : res (list kleaf) := rbind (gen_splits D p) (fun splits => k_rec splits 0 s).
End K.
