(** dSimplex, include/Geometry.h:415-689, and dPoint's id functions, 207-228.

    A simplex of dimension D has D+1 vertices and neighbors; the lists carry the dimension. *)
From Verif Require Import Outcome ListUtil WordsModel SortModel.
Local Open Scope N_scope.

(** Geometry.h:665-669. *)
Record simplex := mks { x_id : N; x_verts : list N; x_nbrs : list N; x_fp : N; x_mark : N }.

(** dSimplex::cINF, Geometry.h:677, and dSimplex::isFinite(id), 671-675. *)
Definition s_inf : N := 2 ^ 64 - 1.
Definition s_finite (i : N) : bool := negb (i =? s_inf).

(** dPoint::cINF, nINF, Geometry.h:227-228; [D] is the dimension (at most 30: [1 << D] is an int). *)
Definition p_inf (D : N) : N := N.lxor (2 ^ 64 - 1) (2 ^ D - 1).
Definition p_ninf (D : N) : N := wrap 64 (2 ^ 64 - 1 - p_inf D + 1).
(** dPoint::isFinite, Geometry.h:207-210. *)
Definition p_finite (D i : N) : bool := negb (N.land i (p_inf D) =? p_inf D).
(** dPoint::infIndex, Geometry.h:212-215: [~cINF & i]. *)
Definition p_infidx (D i : N) : N := N.land (N.lxor (2 ^ 64 - 1) (p_inf D)) i.

(** _rol, Geometry.h:657-663, on 32-bit words: for a rotation by 0 the second shift is by 32, which is
    undefined. *)
Definition rol_checked (x : N) : res N :=
  let r := N.land x 31 in
  if r =? 0 then Undef else Val (N.lor (wrap 32 (N.shiftl x r)) (N.shiftr x (32 - r))).
(** The same with the value a machine gives for a shift of [x] by 32; [over] is arbitrary. *)
Section Over.
Variable over : N -> N.
Definition rol (x : N) : N :=
  let r := N.land x 31 in
  N.lor (wrap 32 (N.shiftl x r)) (if r =? 0 then wrap 32 (over x) else N.shiftr x (32 - r)).

(** The argument of _rol is a vertex id converted to 32 bits, Geometry.h:639, 652. *)
Definition vrol (v : N) : N := rol (wrap 32 v).

(** genFingerprint, Geometry.h:634-643. *)
Definition gen_fp (vs : list N) : N := fold_left (fun f v => N.lxor f (vrol v)) vs 0.
(** faceFingerprint(i), Geometry.h:650-653. *)
Definition face_fp (s : simplex) (i : nat) : res N :=
  match nth_error (x_verts s) i with
  | None => Undef
  | Some v => Val (N.lor (N.lxor (x_fp s) (vrol v)) 1)
  end.
(** genFingerprint() stores the value. *)
Definition with_fp (s : simplex) : simplex := mks (x_id s) (x_verts s) (x_nbrs s) (gen_fp (x_verts s)) (x_mark s).
End Over.
(** genFingerprint with the undefined shift. *)
Definition gen_fp_checked (vs : list N) : res N :=
  fold_left (fun f v => rbind f (fun f => rmap (N.lxor f) (rol_checked (wrap 32 v)))) vs (Val 0).

(** equalVertices, Geometry.h:455-476. *)
Fixpoint equal_arrays (a b : list N) : bool :=
  match a, b with
  | [], [] => true
  | x :: a', y :: b' => if x =? y then equal_arrays a' b' else false
  | _, _ => false
  end.
Definition equal_vertices (s t : simplex) : bool :=
  if negb (x_fp s =? x_fp t) then false else equal_arrays (x_verts s) (x_verts t).

(** operator==, Geometry.h:433-450. *)
Definition s_eq (s t : simplex) : bool :=
  if negb (xorb (x_id s =? s_inf) (x_id t =? s_inf)) then x_id s =? x_id t else equal_vertices s t.

(** equalNeighbors, Geometry.h:499-503. *)
Definition equal_neighbors (s t : simplex) : bool := negb (equal_arrays (x_nbrs s) (x_nbrs t)).

(** countSharedVertices, Geometry.h:478-497. *)
Fixpoint shared_loop (fuel : nat) (vs ws : list N) (i j acc : nat) : res nat :=
  match fuel with
  | O => NoFuel
  | S f =>
      if Nat.ltb i (length vs) && Nat.ltb j (length ws) then
        match nth_error vs i, nth_error ws j with
        | Some v, Some w =>
            shared_loop f vs ws (if v <=? w then S i else i) (if w <=? v then S j else j) (if v =? w then S acc else acc)
        | _, _ => Undef
        end
      else Val acc
  end.
Definition count_shared (fuel : nat) (s t : simplex) : res nat := shared_loop fuel (x_verts s) (x_verts t) 0 0 0.
(** isNeighbor, Geometry.h:604-612; D is the number of vertices minus one. *)
Definition is_neighbor (fuel : nat) (s t : simplex) : res bool :=
  rmap (fun n => Nat.eqb n (length (x_verts s) - 1)) (count_shared fuel s t).

(** contains(p), Geometry.h:507-517. *)
Fixpoint contains_loop (vs : list N) (p : N) : bool :=
  match vs with
  | [] => false
  | v :: t => if v <=? p then if p =? v then true else contains_loop t p else false
  end.
Definition s_contains (s : simplex) (p : N) : bool := contains_loop (x_verts s) p.
(** containsAll, containsAny, Geometry.h:530-552. *)
Definition contains_all (s : simplex) (ps : list N) : bool := forallb (s_contains s) ps.
Definition contains_any (s : simplex) (ps : list N) : bool := existsb (s_contains s) ps.

(** isFinite(), Geometry.h:554-564 (from the last vertex to the first). *)
Definition s_isfinite (D : N) (s : simplex) : bool := forallb (p_finite D) (rev (x_verts s)).

(** sortVertices, Geometry.h:630-632. *)
Definition sort_vertices (s : simplex) : res simplex :=
  rmap (fun '(v, n) => mks (x_id s) v n (x_fp s) (x_mark s)) (sort_with_data N.ltb (x_verts s) (x_nbrs s)).
