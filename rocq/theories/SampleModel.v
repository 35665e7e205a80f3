(** The adjacency graph of a sample, include/load_balancing/sample_partitioner/Sampler.h:22-61, 186-409.

    A std::vector<int> of offsets or node numbers is a list of natural numbers; where a number would leave the range
    of int the outcome is [Undef] (signed overflow is undefined, the conversion of a size_t implementation-defined; the
    latter is not modelled).  The distances and weights are parameters of the graph functions; see [mapper] for the weights. *)
From Coq Require Import Permutation.
From Verif Require Import Outcome ListUtil WordsModel SimplexModel.
Local Open Scope N_scope.

(** Graph, Sampler.h:42-61: nodeRecords, adjacency, edgeWeights. *)
Record graph := mkg { g_rec : list nat; g_adj : list nat; g_wt : list Z }.
(** The range of int. *)
Definition is_int (k : nat) : bool := N.of_nat k <? 2 ^ 31.

(** generateIdTranslation, Sampler.h:186-195: [ids] in the order of iteration.  operator[] of the map: a later entry
    replaces an earlier one with the same key. *)
Definition id_trans (ids : list N) : list (N * nat) := combine ids (seq 0 (length ids)).
Definition tr_find (tr : list (N * nat)) (id : N) : option nat :=
  option_map snd (find (fun e => fst e =? id) (rev tr)).

Section G.
Variable D : N.
Variable tr : list (N * nat).
(** The weight computed for a pair of points, Sampler.h:276-282, 335-342. *)
Variable wt : N -> N -> Z.

(** One simplex, Sampler.h:268-286 and 325-352: the edges (i, j, weight) in the order they are formed.  [look] is
    idTranslation[id]. *)
Definition simplex_edges (look : N -> res nat) (s : simplex) : res (list (nat * nat * Z)) :=
  fold_left (fun acc a => rbind acc (fun es => rbind (look a) (fun i =>
    if p_finite D a then
      fold_left (fun acc b => rbind acc (fun es => rmap (fun j =>
        if p_finite D b && negb (Nat.eqb i j) then es ++ [(i, j, wt a b)] else es) (look b))) (x_verts s) (Val es)
    else Val es))) (x_verts s) (Val []).

(** ** makeGraph_sequential, Sampler.h:253-292 *)
(** operator[] on a missing key adds it with the value 0; only the size of the map changes after that, which is not read. *)
Definition look_seq (id : N) : res nat := Val (match tr_find tr id with Some i => i | None => O end).
(** adjacencyList[i].push_back(edge), Sampler.h:283. *)
Definition push_edge (adj : res (list (list (nat * Z)))) (e : nat * nat * Z) : res (list (list (nat * Z))) :=
  rbind adj (fun adj => match nth_error adj (fst (fst e)) with
                        | None => Undef
                        | Some l => Val (upd adj (fst (fst e)) (l ++ [(snd (fst e), snd e)]))
                        end).
Definition adjacency_list (ls : list simplex) : res (list (list (nat * Z))) :=
  fold_left (fun adj s => rbind adj (fun adj => rbind (simplex_edges look_seq s) (fun es => fold_left push_edge es (Val adj))))
            ls (Val (repeat [] (length tr))).
(** std::unique with == of pairs, Sampler.h:216-218. *)
Fixpoint unique (l : list (nat * Z)) : list (nat * Z) :=
  match l with
  | a :: ((b :: _) as r) => if Nat.eqb (fst a) (fst b) && Z.eqb (snd a) (snd b) then
                              match unique r with [] => [] | _ :: u => a :: u end
                            else a :: unique r
  | _ => l
  end.
(** std::sort with the comparison of Sampler.h:209-212: any result it may give. *)
Definition sorted_as (l l' : list (nat * Z)) : Prop :=
  Permutation l l' /\ forall i j a b, (i < j)%nat -> nth_error l' i = Some a -> nth_error l' j = Some b -> (fst a <= fst b)%nat.
(** adjacencyListToGraph, Sampler.h:231-251. *)
Fixpoint records (start : nat) (adj : list (list (nat * Z))) : list nat :=
  match adj with
  | [] => [start]
  | l :: r => start :: records (start + length l) r
  end.
Definition to_graph (adj : list (list (nat * Z))) : res graph :=
  if is_int (length (concat adj)) && is_int (length adj)
  then Val (mkg (records 0 adj) (map fst (concat adj)) (map snd (concat adj))) else Undef.
(** Sampler.h:253-292; [srt] sorts the list of each node (sanitizeAdjacencyList, 197-229). *)
Definition graph_seq (srt : list (nat * Z) -> list (nat * Z)) (ls : list simplex) : res graph :=
  rbind (adjacency_list ls) (fun adj => to_graph (map (fun l => unique (srt l)) adj)).

(** ** makeGraph, Sampler.h:294-384 *)
(** The map is shared by the tasks: adding a missing key while others use it is a data race. *)
Definition look_par (id : N) : res nat := match tr_find tr id with Some i => Val i | None => Undef end.
(** Sampler.h:338: (i << 32) + j, and 368-369. *)
Definition edge_key (i j : nat) : N := wrap 64 (wrap 64 (N.shiftl (N.of_nat i) 32) + N.of_nat j).
Definition key_src (k : N) : nat := N.to_nat (N.shiftr k 32).
Definition key_dst (k : N) : nat := N.to_nat (wrap 64 (k + 2 ^ 64 - wrap 64 (N.shiftl (N.shiftr k 32) 32))).
(** The edge map and the counters, Sampler.h:304-316. *)
Record collected := mkcol { c_map : list (N * Z); c_cnt : list nat }.
(** One insertion and the count if it was new, Sampler.h:342-345.  The growing map is taken as ideal: an insertion returns
    true exactly if the key was absent and the first value stays (see C27 for what the tables do).  The count is
    a separate atomic step, which commutes with everything else here. *)
Definition insert_edge (c : res collected) (e : nat * nat * Z) : res collected :=
  rbind c (fun c =>
    let k := edge_key (fst (fst e)) (snd (fst e)) in
    if existsb (fun m => fst m =? k) (c_map c) then Val c
    else match nth_error (c_cnt c) (fst (fst e) + 1)%nat with
         | None => Undef
         | Some x => Val (mkcol (c_map c ++ [(k, snd e)]) (upd (c_cnt c) (fst (fst e) + 1)%nat (x + 1)%nat))
         end).
(** std::partial_sum, Sampler.h:357. *)
Fixpoint partial_sum (acc : nat) (l : list nat) : list nat :=
  match l with [] => [] | x :: r => (acc + x)%nat :: partial_sum (acc + x) r end.
(** One entry of the map assigned, Sampler.h:366-380; [index] counts the edges assigned of each node. *)
Definition assign_edge (rec : list nat) (st : res (list nat * list nat * list Z)) (m : N * Z) : res (list nat * list nat * list Z) :=
  rbind st (fun '(index, adj, w) =>
    let i := key_src (fst m) in
    match nth_error rec i, nth_error index i with
    | Some base, Some off =>
        if Nat.ltb (base + off) (length adj) && Nat.ltb (base + off) (length w)
        then Val (upd index i (off + 1)%nat, upd adj (base + off)%nat (key_dst (fst m)), upd w (base + off)%nat (snd m))
        else Undef
    | _, _ => Undef
    end).
(** The graph without REPRODUCIBLE.  [es]: the edges formed by all tasks in the order of their insertions, [order]: the
    entries of the map in the order they are assigned. *)
Definition graph_par (es : list (nat * nat * Z)) (order : list (N * Z) -> list (N * Z)) : res graph :=
  let n := length tr in
  rbind (fold_left insert_edge es (Val (mkcol [] (repeat O (n + 1)%nat)))) (fun c =>
    let rec := partial_sum 0 (c_cnt c) in
    let m := last rec O in
    if is_int m && is_int n then
      rmap (fun '(_, adj, w) => mkg rec adj w)
           (fold_left (assign_edge rec) (order (c_map c)) (Val (repeat O n, repeat O m, repeat 0%Z m)))
    else Undef).
(** The edges of all simplices, one after the other. *)
Definition all_edges (look : N -> res nat) (ls : list simplex) : res (list (nat * nat * Z)) :=
  fold_left (fun acc s => rbind acc (fun es => rmap (app es) (simplex_edges look s))) ls (Val []).

(** REPRODUCIBLE, Sampler.h:386-406: insertion sort of the entries of one node. *)
Fixpoint shift_down (lo hole : nat) (adj : list nat) (w : list Z) (v : nat) : res (nat * list nat * list Z) :=
  match hole with
  | O => Val (O, adj, w)
  | S h =>
      if Nat.ltb lo hole then
        match nth_error adj h, nth_error w h with
        | Some x, Some y =>
            if Nat.ltb v x then
              if Nat.ltb hole (length adj) && Nat.ltb hole (length w)
              then shift_down lo h (upd adj hole x) (upd w hole y) v
              else Undef
            else Val (hole, adj, w)
        | _, _ => Undef
        end
      else Val (hole, adj, w)
  end.
Definition sort_entry (lo : nat) (st : res (list nat * list Z)) (i : nat) : res (list nat * list Z) :=
  rbind st (fun '(adj, w) =>
    match nth_error adj i, nth_error w i with
    | Some v, Some d => rbind (shift_down lo i adj w v) (fun '(hole, adj, w) =>
        if Nat.ltb hole (length adj) && Nat.ltb hole (length w) then Val (upd adj hole v, upd w hole d) else Undef)
    | _, _ => Undef
    end).
Definition sort_node (rec : list nat) (st : res (list nat * list Z)) (n : nat) : res (list nat * list Z) :=
  match nth_error rec n, nth_error rec (n + 1)%nat with
  | Some lo, Some hi => fold_left (sort_entry lo) (seq lo (hi - lo)) st
  | _, _ => Undef
  end.
(** The nodes are treated in parallel, each in its own part of the arrays: any order. *)
Definition sort_nodes (g : graph) (nodes : list nat) : res graph :=
  rmap (fun '(adj, w) => mkg (g_rec g) adj w) (fold_left (sort_node (g_rec g)) nodes (Val (g_adj g, g_wt g))).
End G.
