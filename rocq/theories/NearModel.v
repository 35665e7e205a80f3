(** findNearestSimplex of dSimplices, include/Geometry.h:838-898, and findNearestVertex of dSimplex, 614-628.

    The coordinates, the containment test and the distances are parameters: [A] are the points, [W] the numbers
    (Precision) with their [<].  NearProps instantiates them with the functions of GeoModel. *)
From Verif Require Import Outcome ListUtil WordsModel BlockModel SimplexModel PointModel CheckModel.
Local Open Scope N_scope.

Section Near.
Context {A W : Type}.
Variable D : N.
(** The comparison a.first > b.first of Geometry.h:842, and [<] of 875, 621: [ltb x y] is x < y. *)
Variable ltb : W -> W -> bool.
(** std::numeric_limits<Precision>::max(). *)
Variable huge : W.
(** GeometryCore::inSimplex and sqDistanceToFace: the point and the corners. *)
Variable insim : A -> list A -> res bool.
Variable dface : A -> list A -> res W.
(** dPoint::sqDistance, Geometry.h:217-225. *)
Variable sqd : A -> A -> W.
(** std::priority_queue: what top() and pop() make of the queue, Geometry.h:849, 860-862.  The list also records the
    order of the pushes, so the choice among equal distances is a function of it. *)
Variable take : list (W * N) -> (W * N) * list (W * N).
Variable pts : points A.

(** points[simplex.vertices[i]] for the vertices listed, e.g. Geometry.h:1004-1005. *)
Definition corners (vs : list N) : res (list A) := collect (fun v => rmap (fun c => [c]) (p_get D pts v)) vs.
(** dSimplex::inSimplex, Geometry.h:574-579, 1000-1006, 1054-1061. *)
Definition s_insim (s : simplex) (p : A) : res bool := rbind (corners (x_verts s)) (insim p).
(** dSimplex::sqDistanceToFace, Geometry.h:588-595, 1008-1023, 1063-1079: all vertices but the [d]-th. *)
Definition s_dface (s : simplex) (d : nat) (p : A) : res W :=
  rbind (corners (firstn d (x_verts s) ++ skipn (S d) (x_verts s))) (dface p).

(** n - this->lowerBound() as index of the marks, Geometry.h:852, 883, 885. *)
Definition mark_idx (lo n : N) : nat := N.to_nat (wrap 64 (n + 2 ^ 64 - lo)).

(** The loop over the neighbors, Geometry.h:881-888; access to the bitset beyond its size is undefined. *)
Fixpoint enqueue (lo : N) (p : A) (s : simplex) (ds : list nat) (marks : list bool) (q : list (W * N))
    : res (list bool * list (W * N)) :=
  match ds with
  | [] => Val (marks, q)
  | d :: r =>
      match nth_error (x_nbrs s) d with
      | None => Undef
      | Some n =>
          if s_finite n then
            match nth_error marks (mark_idx lo n) with
            | None => Undef
            | Some true => enqueue lo p s r marks q
            | Some false => rbind (s_dface s d p) (fun x => enqueue lo p s r (upd marks (mark_idx lo n) true) ((x, n) :: q))
            end
          else enqueue lo p s r marks q
      end
  end.

(** The loop, Geometry.h:859-892.  [None]: at() throws.  [log] (not in the source): the entries taken from the queue, in
    order; returned with the result. *)
Fixpoint near_loop (fuel : nat) (l : list (block simplex)) (lo : N) (p : A) (marks : list bool) (q : list (W * N))
    (hint : nat) (minD : W) (minId : N) (log : list (W * N)) : res (option (N * list (W * N))) :=
  match fuel with
  | O => NoFuel
  | S f =>
      match q with
      | [] => Val (Some (minId, log))
      | _ =>
          let '((currD, id), q') := take q in
          rbind (ba_at l id hint) (fun o =>
            match o with
            | None => Val None
            | Some (s, h) =>
                rbind (s_insim s p) (fun b : bool =>
                  if b then Val (Some (x_id s, log ++ [(currD, id)]))
                  else
                    let '(minD', minId') := if ltb currD minD then (currD, x_id s) else (minD, minId) in
                    rbind (enqueue lo p s (seq 0 (N.to_nat D + 1)) marks q') (fun '(marks', q'') =>
                      near_loop f l lo p marks' q'' h minD' minId' (log ++ [(currD, id)])))
            end)
      end
  end.

(** Geometry.h:838-857, 897. *)
Definition find_nearest (l : list (block simplex)) (p : A) (hintS : N) (fuel : nat) : res (option (N * list (W * N))) :=
  rbind (ba_lower l) (fun lo => rbind (ba_upper l) (fun up =>
    let start := if hintS =? s_inf then lo else hintS in
    let marks := repeat false (N.to_nat (wrap 64 (up + 2 ^ 64 - lo + 1))) in
    match nth_error marks (mark_idx lo start) with
    | None => Undef
    | Some _ => near_loop fuel l lo p (upd marks (mark_idx lo start) true) [(huge, start)] 0 huge (p_inf D) []
    end)).

(** findNearestVertex, Geometry.h:614-628. *)
Definition near_vertex (s : simplex) (p : A) : res N :=
  rmap snd (fold_left (fun acc v => rbind acc (fun '(minD, id) => rmap (fun c =>
    if ltb (sqd p c) minD then (sqd p c, v) else (minD, id)) (p_get D pts v))) (x_verts s) (Val (huge, p_inf D))).
End Near.
