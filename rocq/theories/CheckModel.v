(** crossCheck, verify and genFingerprint of dSimplices, src/lib/Geometry.cpp:758-1155.

    Every parallel loop over [range()] visits each live simplex once, in chunks of arbitrary extent and order
    (C25, C26); the flags and lists of the report are written under a mutex, so only the order of the entries
    depends on the schedule.  A loop is therefore a pass over a list [ls] of the live simplices in some order.
    The multimap of TBB is taken as ideal: the bag of the pairs inserted, listed in some order.  Log output is
    left out. *)
From Coq Require Import Permutation.
From Verif Require Import Outcome ListUtil WordsModel SimplexModel SimplexProofs NbrModel PointModel.
Local Open Scope N_scope.

(** One pass over a list, collecting entries; nothing stops it but an access that throws or is undefined. *)
Fixpoint collect {A B} (f : A -> res (list B)) (l : list A) : res (list B) :=
  match l with
  | [] => Val []
  | a :: r => rbind (f a) (fun x => rmap (app x) (collect f r))
  end.

(** concurrent_unordered_multimap::equal_range, e.g. Geometry.cpp:814: the ids entered under [h]. *)
Definition bucket (tab : list (N * N)) (h : N) : list N := map snd (filter (fun e => fst e =? h) tab).
(** The entries inserted at Geometry.cpp:773-779, 970-976. *)
Definition entry (a : simplex) : N * N := (x_fp a, x_id a).

(** dSimplicesConstHandle::at, as at Geometry.cpp:820, 961, 991: throws (or is undefined in a gap, see C22) for an id
    that is not stored; a cell whose simplex was deleted is returned like any other. *)
Definition at_ (get : N -> option simplex) (id : N) : res simplex :=
  match get id with Some s => Val s | None => Undef end.

(** ** crossCheck *)
Section Cross.
(** [mget], [rget]: the cells of *this and of realSimplices, include/Geometry.h:732-739. *)
Variables mget rget : N -> option simplex.

(** find_if over the bucket, Geometry.cpp:815-821 (and 869-875 with the roles exchanged). *)
Definition find_equal (get : N -> option simplex) (tab : list (N * N)) (s : simplex) : option N :=
  find (fun id => s_finite id && has get id &&
                  match get id with Some t => equal_vertices t s | None => false end)
       (bucket tab (x_fp s)).

(** The search among the neighbors of the own simplex, Geometry.cpp:837-843; [n] is a neighbor of the real one. *)
Fixpoint find_nbr (n : N) (nbrs : list N) : res bool :=
  match nbrs with
  | [] => Val false
  | nn :: r =>
      if s_finite nn then
        rbind (at_ mget nn) (fun t => rbind (at_ rget n) (fun u =>
          if equal_vertices t u then Val true else find_nbr n r))
      else find_nbr n r
  end.
(** The loop over the neighbors of the real simplex, Geometry.cpp:832-851. *)
Fixpoint check_nbrs (my : simplex) (nbrs : list N) : res bool :=
  match nbrs with
  | [] => Val true
  | n :: r =>
      if s_finite n then rbind (find_nbr n (x_nbrs my)) (fun b => rmap (andb b) (check_nbrs my r))
      else check_nbrs my r
  end.
(** One chunk of the first check, Geometry.cpp:804-853: the flag and what is added to [missing].  A missing simplex
    ends the chunk (return, 828). *)
Fixpoint check_chunk (tab : list (N * N)) (chunk : list simplex) : res (bool * list simplex) :=
  match chunk with
  | [] => Val (true, [])
  | s :: r =>
      match find_equal mget tab s with
      | None => Val (false, [s])
      | Some id => rbind (at_ mget id) (fun my => rbind (check_nbrs my (x_nbrs s)) (fun b =>
                     rmap (fun '(b', ms) => (b && b', ms)) (check_chunk tab r)))
      end
  end.
Fixpoint check_chunks (tab : list (N * N)) (chunks : list (list simplex)) : res (bool * list simplex) :=
  match chunks with
  | [] => Val (true, [])
  | c :: r => rbind (check_chunk tab c) (fun '(b, ms) => rmap (fun '(b', ms') => (b && b', ms ++ ms')) (check_chunks tab r))
  end.
(** The second check, Geometry.cpp:857-885: what is added to [invalid]. *)
Definition surplus (tab : list (N * N)) (ms : list simplex) : list simplex :=
  filter (fun s => match find_equal rget tab s with Some _ => false | None => true end) ms.

(** CrossCheckReport, include/Geometry.h:967-975. *)
Record creport := mkcr { c_valid : bool; c_missing : list simplex; c_invalid : list simplex }.
(** Geometry.cpp:758-896; [ms], [rs]: the live simplices of the two, [chunks]: the division of [rs] of the first check. *)
Definition cross_check (tab : list (N * N)) (ms rs : list simplex) (chunks : list (list simplex)) : res creport :=
  rmap (fun '(b, miss) => let inv := surplus tab ms in
          mkcr (Nat.eqb (length ms) (length rs) && b && match inv with [] => true | _ => false end) miss inv)
       (check_chunks tab chunks).
End Cross.

(** ** verify *)
Section Verify.
Context {A : Type}.
Variable over : N -> N.
Variable D : N.
(** GeometryCore::inSphere (C32): the corners of the simplex and the point. *)
Variable insph : list A -> A -> bool.
Variable get : N -> option simplex.
Variable pts : points A.

(** The points of the input, Geometry.cpp:910-957.  [used]: usedPoints in the order its iteration gives; [pointIds]:
    the optional set, likewise.  A reference to points[i] is formed first (923, 931), undefined if there is no such point. *)
Definition unused_among (used ids : list N) : res bool :=
  rmap (fun l => match l with [] => true | _ => false end)
       (collect (fun i => rmap (fun _ => if negb (isin used i) && p_finite D i then [i] else []) (p_get D pts i)) ids).
Definition check_points (used : list N) (pointIds : option (list N)) : res bool :=
  if p_eq D pts used then Val true else
  match pointIds with
  | Some ids => rmap (fun b => b && forallb (fun p => negb (p_finite D p) || isin ids p) used) (unused_among used ids)
  | None => rmap (fun b => b && forallb (fun p => negb (p_finite D p) || p_contains D pts p) used)
                 (unused_among used (map N.of_nat (seq 0 (N.to_nat (finite_size pts)))))
  end.

(** The convex hull, Geometry.cpp:960-989. *)
Definition check_hull (hull : list N) (ls : list simplex) : res bool :=
  rmap (fun l => forallb (fun s => s_isfinite D s || isin hull (x_id s)) ls && match l with [] => true | _ => false end)
       (collect (fun id => rmap (fun s => if s_isfinite D s then [id] else []) (at_ get id)) hull).

(** Duplicates, Geometry.cpp:1003-1030. *)
Definition check_dups (tab : list (N * N)) (ls : list simplex) : res (list (simplex * simplex)) :=
  collect (fun a => collect (fun id => rmap (fun b => if Bool.eqb (equal_vertices a b) (x_id a =? x_id b) then [] else [(a, b)])
                                            (at_ get id)) (bucket tab (x_fp a))) ls.

(** The face table, Geometry.cpp:1040-1049. *)
Definition face_entries (ls : list simplex) : res (list (N * N)) :=
  collect (fun a => collect (fun i => rmap (fun h => [(h, x_id a)]) (face_fp over a i)) (seq 0 (length (x_verts a)))) ls.
(** The condition of Geometry.cpp:1072-1082. *)
Definition wrong_pair (a b : simplex) : res bool :=
  rbind (adj a b) (fun ab => rmap (fun ba =>
    (ab && (negb ba || negb (isin (x_nbrs a) (x_id b)) || negb (isin (x_nbrs b) (x_id a)))) ||
    (negb ab && (ba || isin (x_nbrs a) (x_id b) || isin (x_nbrs b) (x_id a)))) (adj b a)).
(** Neighbors, Geometry.cpp:1052-1093. *)
Definition check_adj (ftab : list (N * N)) (ls : list simplex) : res (list (simplex * simplex)) :=
  collect (fun a => collect (fun i => rbind (face_fp over a i) (fun h =>
    collect (fun id => rbind (at_ get id) (fun b => rmap (fun w : bool => if w then [(a, b)] else []) (wrong_pair a b))) (bucket ftab h)))
    (seq 0 (length (x_verts a)))) ls.

(** dSimplex::inSphere, include/Geometry.h:581-585, 1025-1031, 1081-1087: the corners are looked up in the points. *)
Definition s_insphere (s : simplex) (p : A) : res bool :=
  rmap (fun cs => insph cs p) (collect (fun v => rmap (fun c => [c]) (p_get D pts v)) (x_verts s)).
(** The circle criterion, Geometry.cpp:1096-1128: what is added to inCircle. *)
Definition check_circle (ls : list simplex) : res (list (simplex * N)) :=
  collect (fun s => collect (fun n =>
    if s_finite n then rbind (at_ get n) (fun nn =>
      collect (fun v => if p_finite D v && negb (s_contains s v)
                        then rbind (p_get D pts v) (fun p => rmap (fun b : bool => if b then [(s, v)] else []) (s_insphere s p))
                        else Val []) (x_verts nn))
    else Val []) (x_nbrs s)) ls.

(** VerificationReport, include/Geometry.h:977-984. *)
Record vreport := mkvr { v_valid : bool; v_circle : list (simplex * N);
                         v_wrong : list (simplex * simplex); v_dups : list (simplex * simplex) }.
Definition none {B} (l : list B) : bool := match l with [] => true | _ => false end.
(** Geometry.cpp:898-1137: each entry added comes with [valid = false]. *)
Definition verify (hull : list N) (ls : list simplex) (used : list N) (pointIds : option (list N))
    (tab ftab : list (N * N)) : res vreport :=
  rbind (check_points used pointIds) (fun b1 => rbind (check_hull hull ls) (fun b2 =>
  rbind (check_dups tab ls) (fun ds => rbind (check_adj ftab ls) (fun ws =>
  rmap (fun cs => mkvr (b1 && b2 && none ds && none ws && none cs) cs ws ds) (check_circle ls))))).
End Verify.

(** genFingerprint of a triangulation, Geometry.cpp:1139-1155: 256 words, initially 0; each simplex is xored into the
    word its last byte names. *)
Definition tri_fp (ls : list simplex) : list N :=
  fold_left (fun h s => let i := N.to_nat (N.land (x_fp s) 255) in
    match nth_error h i with Some w => upd h i (N.lxor w (x_fp s)) | None => h end) ls (repeat 0 256).
