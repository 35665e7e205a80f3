(** Experiment runs: their traits, text form, comparison and generation
    (src/utils/Timings.cpp, include/utils/Timings.h, src/exe/Benchmark.cpp). *)
From Coq Require Import Ascii String.
From Verif Require Import Outcome WordsModel.
Local Open Scope N_scope.

(** std::string: the list of its bytes. *)
Notation str := (list ascii).
Notation txt := list_ascii_of_string.
(** The length of a string as std::size_t. *)
Notation slen s := (N.of_nat (length s)).
(** std::string::npos. *)
Definition npos : N := 2 ^ 64 - 1.
(** std::string::operator==. *)
Fixpoint str_eq (a b : str) : bool :=
  match a, b with
  | [], [] => true
  | x :: a, y :: b => Ascii.eqb x y && str_eq a b
  | _, _ => false
  end.
(** std::less<std::string>: lexicographic, bytes as unsigned values. *)
Fixpoint str_lt (a b : str) : bool :=
  match a, b with
  | [], _ :: _ => true
  | x :: a, y :: b => (N_of_ascii x <? N_of_ascii y) || Ascii.eqb x y && str_lt a b
  | _, _ => false
  end.
(** Does [s] begin with [w]?  Part of std::string::find. *)
Fixpoint begins (w s : str) : bool :=
  match w, s with
  | [], _ => true
  | x :: w, y :: s => Ascii.eqb x y && begins w s
  | _ :: _, [] => false
  end.
(** The first place at which [w] occurs in [s].  Part of std::string::find. *)
Fixpoint first_at (w s : str) : option nat :=
  if begins w s then Some 0%nat else match s with [] => None | _ :: s => option_map S (first_at w s) end.
(** std::string::find(w, pos). *)
Definition s_find (s w : str) (pos : N) : N :=
  if pos <=? slen s then match first_at w (skipn (N.to_nat pos) s) with Some i => pos + N.of_nat i | None => npos end else npos.
(** std::string::substr(pos, n); [None]: std::out_of_range is thrown. *)
Definition s_substr (s : str) (pos n : N) : option str :=
  if pos <=? slen s then Some (firstn (N.to_nat (N.min n (slen s - pos))) (skipn (N.to_nat pos) s)) else None.

(** m_traits, Timings.h:107: a std::map, as the list of its entries in the order of iteration. *)
Notation traits := (list (str * str)).
(** std::map::count and std::map::at (Timings.h:47-53). *)
Fixpoint t_get (m : traits) (k : str) : option str :=
  match m with [] => None | (n, v) :: m => if str_eq n k then Some v else t_get m k end.
(** addTrait, Timings.h:36-38: std::map::emplace keeps an entry that is there. *)
Fixpoint t_add (m : traits) (k x : str) : traits :=
  match m with
  | [] => [(k, x)]
  | (n, v) :: m' => if str_eq n k then m else if str_lt k n then (k, x) :: m else (n, v) :: t_add m' k x
  end.
(** updateTrait, Timings.h:63-65. *)
Fixpoint t_set (m : traits) (k x : str) : traits :=
  match m with
  | [] => [(k, x)]
  | (n, v) :: m' => if str_eq n k then (k, x) :: m' else if str_lt k n then (k, x) :: m else (n, v) :: t_set m' k x
  end.

(** c_ignored_fields, Timings.cpp:8-9. *)
Definition ignored : list str := [txt "git-rev"; txt "start-time"; txt "end-time"; txt "run-number"; txt "host"].
(** std::find in c_ignored_fields, Timings.cpp:36, 85. *)
Definition is_ignored (k : str) : bool := existsb (str_eq k) ignored.

(** The default separators, Timings.h:34, 99. *)
Definition trait_sep : str := txt "   ".
Definition inner_sep : str := txt ": ".

(** str(), Timings.cpp:44-62, with printMeas = false (its default; the measurements are not modelled).  [sep]: the separator written before the next trait. *)
Fixpoint str_from (ts is sep : str) (m : traits) : str :=
  match m with [] => [] | (n, v) :: m => sep ++ n ++ is ++ v ++ str_from ts is ts m end.
Definition run_str (ts is : str) (m : traits) : str := str_from ts is [] m.

Section Host.
  (** getHostname() and GIT_COMMIT of the running program, Timings.cpp:15-16. *)
  Variables host rev : str.

  (** ExperimentRun::ExperimentRun(), Timings.cpp:11-17. *)
  Definition run_new : traits := t_add (t_add [] (txt "host") host) (txt "git-rev") rev.

  (** The loop of ExperimentRun::ExperimentRun(run, traitSep, innerSep), Timings.cpp:26-41, on std::size_t with its wrap.  [None]: substr throws. *)
  Fixpoint parse_loop (fuel : nat) (run ts is : str) (cur : N) (m : traits) : res (option traits) :=
    match fuel with
    | O => NoFuel
    | S fuel =>
        if cur <? slen run then
          let inner := s_find run is cur in
          let t0 := s_find run ts cur in
          let tsep := if t0 =? npos then slen run + 1 else t0 in
          let from := wrap 64 (inner + slen is) in
          match s_substr run cur (wrap 64 (inner + 2 ^ 64 - cur)), s_substr run from (wrap 64 (tsep + 2 ^ 64 - from)) with
          | Some name, Some value => parse_loop fuel run ts is (wrap 64 (tsep + slen ts)) (if is_ignored name then m else t_add m name value)
          | _, _ => Val None
          end
        else Val (Some m)
    end.
  (** Timings.cpp:19-42. *)
  Definition run_parse (fuel : nat) (ts is run : str) : res (option traits) := parse_loop fuel run ts is 0 run_new.

  (** operator==, Timings.cpp:78-99. *)
  Definition run_eq (m o : traits) : bool :=
    (Nat.eqb (length m) (length o)) &&
    forallb (fun t => is_ignored (fst t) || match t_get o (fst t) with None => false | Some w => str_eq (snd t) w end) m.

  (** operator<< of std::ostream for an unsigned number. *)
  Fixpoint digits (u : Decimal.uint) : str :=
    match u with
    | Decimal.Nil => []
    | Decimal.D0 u => "0"%char :: digits u | Decimal.D1 u => "1"%char :: digits u | Decimal.D2 u => "2"%char :: digits u | Decimal.D3 u => "3"%char :: digits u
    | Decimal.D4 u => "4"%char :: digits u | Decimal.D5 u => "5"%char :: digits u | Decimal.D6 u => "6"%char :: digits u | Decimal.D7 u => "7"%char :: digits u
    | Decimal.D8 u => "8"%char :: digits u | Decimal.D9 u => "9"%char :: digits u
    end.
  Definition show (n : N) : str := digits (N.to_uint n).
  (** operator<< for bool (no boolalpha). *)
  Definition show_bool (b : bool) : str := if b then txt "1" else txt "0".

  (** TriState, Benchmark.cpp:27-29. *)
  Inductive tristate := Indef | No | Yes.

  (** Benchmark.cpp:163-167 (c), 180-184 (m), 195-202 and 217-224 (d). *)
  Definition run_c (dist : ascii) (n : N) (alg : ascii) : traits :=
    t_add (t_add (t_add (t_add run_new (txt "dist") [dist]) (txt "nP") (show n)) (txt "alg") [alg]) (txt "threads") (show 1).
  Definition run_m (dist : ascii) (n : N) (alg : ascii) (threads occ : N) : traits :=
    t_add (t_add (t_add (t_add (t_add run_new (txt "dist") [dist]) (txt "nP") (show n)) (txt "alg") [alg]) (txt "threads") (show threads)) (txt "occupancy") (show occ).
  Definition run_d (dist : ascii) (n : N) (alg : ascii) (threads occ : N) (splitter : ascii) (base : bool) : traits :=
    t_add (t_add (run_m dist n alg threads occ) (txt "splitter") [splitter]) (txt "parallel-base") (show_bool base).
  (** Benchmark.cpp:203-213 and 226-236. *)
  Definition with_edge (edge : tristate) (r : traits) : list traits :=
    match edge with
    | Indef => let r1 := t_add r (txt "parallel-edge") (show_bool false) in [r1; t_set r1 (txt "parallel-edge") (show_bool true)]
    | No => [t_add r (txt "parallel-edge") (show_bool false)]
    | Yes => [t_add r (txt "parallel-edge") (show_bool true)]
    end.

  Section Gen.
    (** The lists of Benchmark.cpp:22-25 (set by the options, 352-362) and the options parallel_base, parallel_edge. *)
    Variables (splitters triangulators distributions : list ascii) (occupancies : list N) (pbase : bool) (pedge : tristate).

    (** The loop over the grid occupancies, Benchmark.cpp:175-243; [first]: firstOccupancy. *)
    Fixpoint occ_loop (first : bool) (dist : ascii) (n : N) (alg : ascii) (threads : N) (occs : list N) : list traits :=
      match occs with
      | [] => []
      | occ :: occs =>
          (if Ascii.eqb alg "m" then [run_m dist n alg threads occ]
           else flat_map (fun sp => (if first then with_edge pedge (run_d dist n alg threads 1 sp false) else []) ++
                                    (if pbase then with_edge pedge (run_d dist n alg threads occ sp true) else [])) splitters)
          ++ occ_loop false dist n alg threads occs
      end.
    (** The loop over the numbers of threads, Benchmark.cpp:172-244: uint, doubled by a shift. *)
    Fixpoint thr_loop (fuel : nat) (dist : ascii) (n : N) (alg : ascii) (t maxt : N) : res (list traits) :=
      match fuel with
      | O => NoFuel
      | S fuel => if t <=? maxt then rmap (app (occ_loop true dist n alg t occupancies)) (thr_loop fuel dist n alg (wrap 32 (2 * t)) maxt) else Val []
      end.
    (** A loop over a vector that appends to [runs]. *)
    Fixpoint each {A} (f : A -> res (list traits)) (l : list A) : res (list traits) :=
      match l with [] => Val [] | a :: l => rbind (f a) (fun r => rmap (app r) (each f l)) end.
    (** The loop over the triangulators, Benchmark.cpp:157-246. *)
    Definition alg_loop (fuel : nat) (dist : ascii) (n mint maxt : N) : res (list traits) :=
      each (fun alg => if Ascii.eqb alg "c" then Val [run_c dist n alg] else thr_loop fuel dist n alg mint maxt) triangulators.
    (** pow(10, floor(log10(n))) for a uint n, Benchmark.cpp:154.  log10 and pow are taken to be right for these values; log10(0) is -inf and pow gives 0. *)
    Definition step (n : N) : N := if n =? 0 then 0 else 10 ^ N.of_nat (length (filter (fun k => 10 ^ k <=? n) [1; 2; 3; 4; 5; 6; 7; 8; 9])).
    (** The loop over the numbers of points, Benchmark.cpp:154-247.  The sum is computed in double and converted to uint, which is undefined from 2^32 on. *)
    Fixpoint pts_loop (fuel : nat) (dist : ascii) (n maxn mint maxt : N) : res (list traits) :=
      match fuel with
      | O => NoFuel
      | S f => if n <=? maxn then
                 rbind (alg_loop fuel dist n mint maxt) (fun r =>
                   if n + step n <? 2 ^ 32 then rmap (app r) (pts_loop f dist (n + step n) maxn mint maxt) else Undef)
               else Val []
      end.
    (** generateExperimentRuns, Benchmark.cpp:134-251.  [hw]: default_num_threads().  Numbers of threads: int, converted to uint. *)
    Definition gen_runs (fuel : nat) (hw : Z) (maxn minn : N) (maxt mint : Z) : res (list traits) :=
      let maxt := if (maxt =? -1)%Z then hw else maxt in
      let mint := if (mint =? -1)%Z then maxt else mint in
      each (fun dist => pts_loop fuel dist minn maxn (Z.to_N (mint mod 2 ^ 32)) (Z.to_N (maxt mod 2 ^ 32))) distributions.
  End Gen.
End Host.

(** The order in which runExperiments (Benchmark.cpp:113-118) visits the indices of [n] runs, signed long. *)
Fixpoint visit_loop (fuel : nat) (i e d : Z) : res (list Z) :=
  match fuel with
  | O => NoFuel
  | S fuel => if (i =? e)%Z then Val [] else rmap (cons i) (visit_loop fuel (i + d) e d)
  end.
Definition visit (fuel : nat) (n : N) (reverse : bool) : res (list Z) :=
  if reverse then visit_loop fuel (Z.of_N n - 1) (-1) (-1) else visit_loop fuel 0 (Z.of_N n) 1.
