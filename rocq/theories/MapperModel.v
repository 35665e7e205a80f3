(** The weights of the edges, include/load_balancing/sample_partitioner/Sampler.h:22-40, 258-263, 299-304 and
    include/load_balancing/CommandLineInterface.h:130-141.  Exact real arithmetic in place of Precision. *)
From Coq Require Import Reals.
From Verif Require Import Outcome GeoModel.
Local Open Scope R_scope.

(** Conversion to int: towards zero, undefined outside the range of int. *)
Definition trunc (x : R) : Z := if rleb 0 x then Int_part x else (- Int_part (- x))%Z.
Definition to_int (x : R) : res Z := if (Z.leb (- 2 ^ 31) (trunc x) && Z.ltb (trunc x) (2 ^ 31))%bool then Val (trunc x) else Undef.

(** Mapper<Precision, int>, Sampler.h:22-40: minIn, maxIn, minOut, maxOut and scale, which is an int. *)
Record mapper := mkm { m_lo : R; m_hi : R; m_out : Z; m_scale : Z }.
(** The constructor, Sampler.h:25-29.  A division by zero gives an infinity or no number, whose conversion is undefined. *)
Definition new_mapper (lo hi : R) (olo ohi : Z) : res mapper :=
  if reqb lo hi then Undef else rmap (fun s => mkm lo hi olo s) (to_int (IZR (ohi - olo) / (hi - lo))).
(** operator(), Sampler.h:31-34.  std::clamp is undefined for reversed bounds. *)
Definition map_value (m : mapper) (x : R) : res Z :=
  if rltb (m_hi m) (m_lo m) then Undef
  else let c := if rltb x (m_lo m) then m_lo m else if rltb (m_hi m) x then m_hi m else x in
       to_int ((c - m_lo m) * IZR (m_scale m) + IZR (m_out m)).

(** The mapper of makeGraph and of makeGraph_sequential for a weight function, Sampler.h:260-263, 301-304; std::minmax. *)
Definition graph_mapper (f : R -> R) : res mapper :=
  let a := f 0 in let b := f 1 in
  if rltb b a then new_mapper b a 1 99 else new_mapper a b 1 99.
(** The weight of an edge, Sampler.h:277-282, 335-341; [d]: the squared length over that of the diagonal of the bounds. *)
Definition edge_weight (f : R -> R) (d : R) : res Z := rbind (graph_mapper f) (fun m => map_value m (f d)).

(** The functions offered on the command line, CommandLineInterface.h:132-140. *)
Definition eps : R := / 10000000.
Definition squared_inverted (d : R) : R := 1 / (d + eps).
Definition inverted (d : R) : R := 1 / sqrt (d + eps).
Definition linear (d : R) : R := 1 - d.
Definition logarithmic (d : R) : R := - ln (d + eps).
