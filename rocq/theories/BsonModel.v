(** The types with which the traits of a run are stored in the database (include/utils/StringUtils.h:7-17, src/utils/DBConnection.cpp:114-128). *)
From Coq Require Import Ascii String.
From Verif Require Import Outcome ExpModel.
Local Open Scope N_scope.

(** std::isdigit and [0-9]. *)
Definition is_digit (c : ascii) : bool := (48 <=? N_of_ascii c) && (N_of_ascii c <=? 57).
(** The class [(-|+)|] of the two expressions: the range from ( to |, and + ) | which are in it.  Ranges by byte value (locale C). *)
Definition in_class (c : ascii) : bool := (40 <=? N_of_ascii c) && (N_of_ascii c <=? 124).
(** is_int, StringUtils.h:7-11. *)
Definition is_int (s : str) : bool :=
  match s with
  | [] => false
  | [c] => is_digit c
  | c :: ds => in_class c && forallb is_digit ds
  end.
(** Removes the digits at the front. *)
Fixpoint drop_digits (s : str) : str := match s with c :: s' => if is_digit c then drop_digits s' else s | [] => [] end.
(** The part ([Ee][+-]?[0-9]+)? of is_float, at the end of the text. *)
Definition exponent (s : str) : bool :=
  match s with
  | [] => true
  | e :: s => (Ascii.eqb e "E" || Ascii.eqb e "e") &&
      let s := match s with c :: s' => if Ascii.eqb c "+" || Ascii.eqb c "-" then s' else s | [] => [] end in
      negb (Nat.eqb (length s) 0) && forallb is_digit s
  end.
(** is_float, StringUtils.h:13-17.  The classes that meet are disjoint, so that taking as many digits as there are is right. *)
Definition is_float (s : str) : bool :=
  match s with
  | [] => false
  | [c] => is_digit c
  | c :: d :: s =>
      in_class c &&
      (if (49 <=? N_of_ascii d) && (N_of_ascii d <=? 57) then
         exponent (match drop_digits s with x :: r => if Ascii.eqb x "." then drop_digits r else x :: r | [] => [] end)
       else if Ascii.eqb d "." then match s with x :: _ => is_digit x && exponent (drop_digits s) | [] => false end
       else false)
  end.
(** The value of digits, most significant first, up to the first other letter. *)
Fixpoint dval (acc : N) (s : str) : N := match s with c :: s' => if is_digit c then dval (10 * acc + (N_of_ascii c - 48)) s' else acc | [] => acc end.
(** isspace of the locale C: blank, tab, newline, vertical tab, form feed, carriage return. *)
Definition is_space (c : ascii) : bool := (N_of_ascii c =? 32) || ((9 <=? N_of_ascii c) && (N_of_ascii c <=? 13)).
Fixpoint skip_space (s : str) : str := match s with c :: s' => if is_space c then skip_space s' else s | [] => [] end.
(** std::stol (strtol, base 10); [None]: std::invalid_argument or std::out_of_range is thrown. *)
Definition stol (s : str) : option Z :=
  let s := skip_space s in
  let '(neg, s) := match s with c :: s' => if Ascii.eqb c "-" then (true, s') else if Ascii.eqb c "+" then (false, s') else (false, s) | [] => (false, []) end in
  match s with
  | c :: _ => if is_digit c then
                let z := if neg then (- Z.of_N (dval 0 s))%Z else Z.of_N (dval 0 s) in
                if ((- 2 ^ 63 <=? z) && (z <? 2 ^ 63))%Z then Some z else None
              else None
  | [] => None
  end.
(** What bsonify does with a trait, DBConnection.cpp:116-126: the long that is stored, a double (std::stod is not modelled), the text, or an exception of stol. *)
Inductive stored := Long (z : Z) | Double | Text | Throws.
Definition bson_trait (s : str) : stored :=
  if is_int s then match stol s with Some z => Long z | None => Throws end else if is_float s then Double else Text.
