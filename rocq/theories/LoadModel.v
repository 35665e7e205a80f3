(** Points from a file: dPoints::loadFromFile (include/Geometry.h:255-303), split (include/utils/Misc.h:68-85), and what LB_PointDump prints
    (src/exe/LB_PointDump.cpp:43-45). *)
From Coq Require Import Ascii String Reals.
From Verif Require Import Outcome ExpModel GeoModel.
Local Open Scope R_scope.

(** split with empties_ok, Misc.h:75-83: getline until the end of the stream; a text with k delimiters has k + 1 fields. *)
Fixpoint fields (sep : ascii) (s : str) : list str :=
  match s with
  | [] => [[]]
  | c :: s => match fields sep s with
              | f :: fs => if Ascii.eqb c sep then [] :: f :: fs else (c :: f) :: fs
              | [] => []
              end
  end.
(** The lines that getline gives, Geometry.h:274: a newline at the end of the file begins no further line. *)
Definition newline : ascii := ascii_of_N 10.
Fixpoint drop_empty_last (l : list str) : list str :=
  match l with [] => [] | [f] => match f with [] => [] | _ => [f] end | f :: l => f :: drop_empty_last l end.
Definition file_lines (s : str) : list str := drop_empty_last (fields newline s).

Section Load.
  (** std::stod, rounded to Precision; [None]: it throws. *)
  Variable stod : str -> option R.

  (** The loop over the dimensions, Geometry.h:283-290 (release build: the number of fields is not checked, so that too few are undefined behaviour).
      The box is the list of its low and high values by dimension.  [None]: stod throws. *)
  Fixpoint read_point (fs : list str) (box : list (R * R)) : res (option (list R * list (R * R))) :=
    match box with
    | [] => Val (Some ([], []))
    | (low, high) :: box =>
        match fs with
        | [] => Undef
        | f :: fs =>
            match stod f with
            | None => Val None
            | Some x =>
                let low := if rltb x low then x else low in
                let high := if rltb high x then x else high in
                rmap (option_map (fun '(p, b) => (x :: p, (low, high) :: b))) (read_point fs box)
            end
        end
    end.
  (** The loop over the lines, Geometry.h:274-293; [vec]: the vector of the points. *)
  Fixpoint load_lines (sep : ascii) (lines : list str) (vec : list (list R)) (box : list (R * R)) : res (option (list (list R) * list (R * R))) :=
    match lines with
    | [] => Val (Some (vec, box))
    | l :: lines =>
        rbind (read_point (fields sep l) box) (fun r =>
          match r with None => Val None | Some (p, box) => load_lines sep lines (vec ++ [p]) box end)
    end.
  (** loadFromFile, Geometry.h:255-303.  [tiny], [huge]: numeric_limits::min() and max(); [file]: its content, [None] if it cannot be opened. *)
  Definition load_file (tiny huge : R) (D : nat) (sep : ascii) (file : option str) (vec : list (list R)) : res (option (list (list R) * list (R * R))) :=
    let box := repeat (huge, tiny) D in
    match file with None => Val (Some (vec, box)) | Some s => load_lines sep (file_lines s) vec box end.
End Load.

(** printf, LB_PointDump.cpp:44, with [fmt] for %f; the program has three coordinates. *)
Fixpoint dump_point (fmt : R -> str) (p : list R) : str :=
  match p with [] => [newline] | [x] => fmt x ++ [newline] | x :: p => fmt x ++ " "%char :: dump_point fmt p end.
(** The loop over all entries of the vector, LB_PointDump.cpp:43-45 (begin() is that of the vector, VectorAdapter2.hxx:98-102). *)
Definition dump (fmt : R -> str) (vec : list (list R)) : str := concat (map (dump_point fmt) vec).
