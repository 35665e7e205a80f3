(** The first stage of the adaptive predicates, src/utils/Predicates.cpp, and the static initialisation of their
    constants.  Every operation on Precision is the operation on the reals followed by the rounding [rnd]; the
    theorems say what they need of it.  Overflow, infinities and NaN are not modelled. *)
From Verif Require Import Outcome GeoModel.
From Coq Require Import ZArith.
Local Open Scope R_scope.

(** What a predicate does: [return det] after the first stage, or the call of the _adapt function with its last
    argument (the _adapt functions are not modelled). *)
Inductive stage := Early (det : R) | Adapt (permanent : R).

Section Rnd.
Variable rnd : R -> R.
(** +, -, * of Precision. *)
Definition fadd (x y : R) : R := rnd (x + y).
Definition fsub (x y : R) : R := rnd (x - y).
Definition fmul (x y : R) : R := rnd (x * y).

(** Predicates<2>::orient, Predicates.cpp:1347-1378; [A] is ccwerrboundA. *)
Definition orient2_fp (A : R) (pa pb pc : vec) : stage :=
  let detleft := fmul (fsub (pa 0%nat) (pc 0%nat)) (fsub (pb 1%nat) (pc 1%nat)) in
  let detright := fmul (fsub (pa 1%nat) (pc 1%nat)) (fsub (pb 0%nat) (pc 0%nat)) in
  let det := fsub detleft detright in
  let last detsum := let errbound := fmul A detsum in
    if rleb errbound det || rleb errbound (- det) then Early det else Adapt detsum in
  if rltb 0 detleft then if rleb detright 0 then Early det else last (fadd detleft detright)
  else if rltb detleft 0 then if rleb 0 detright then Early det else last (fsub (- detleft) detright)
  else Early det.

(** The common end of the other three: [errbound = A * permanent; if (det > errbound || -det > errbound) return det]. *)
Definition last_test (A det permanent : R) : stage :=
  let errbound := fmul A permanent in
  if rltb errbound det || rltb errbound (- det) then Early det else Adapt permanent.

(** Predicates<2>::insphere, Predicates.cpp:2296-2334; [A] is iccerrboundA. *)
Definition insphere2_fp (A : R) (pa pb pc pd : vec) : stage :=
  let adx := fsub (pa 0%nat) (pd 0%nat) in let bdx := fsub (pb 0%nat) (pd 0%nat) in let cdx := fsub (pc 0%nat) (pd 0%nat) in
  let ady := fsub (pa 1%nat) (pd 1%nat) in let bdy := fsub (pb 1%nat) (pd 1%nat) in let cdy := fsub (pc 1%nat) (pd 1%nat) in
  let bdxcdy := fmul bdx cdy in let cdxbdy := fmul cdx bdy in
  let alift := fadd (fmul adx adx) (fmul ady ady) in
  let cdxady := fmul cdx ady in let adxcdy := fmul adx cdy in
  let blift := fadd (fmul bdx bdx) (fmul bdy bdy) in
  let adxbdy := fmul adx bdy in let bdxady := fmul bdx ady in
  let clift := fadd (fmul cdx cdx) (fmul cdy cdy) in
  let det := fadd (fadd (fmul alift (fsub bdxcdy cdxbdy)) (fmul blift (fsub cdxady adxcdy))) (fmul clift (fsub adxbdy bdxady)) in
  let permanent := fadd (fadd (fmul (fadd (Rabs bdxcdy) (Rabs cdxbdy)) alift) (fmul (fadd (Rabs cdxady) (Rabs adxcdy)) blift))
    (fmul (fadd (Rabs adxbdy) (Rabs bdxady)) clift) in
  last_test A det permanent.

(** Predicates<3>::orient, Predicates.cpp:3020-3058; [A] is o3derrboundA. *)
Definition orient3_fp (A : R) (pa pb pc pd : vec) : stage :=
  let adx := fsub (pa 0%nat) (pd 0%nat) in let bdx := fsub (pb 0%nat) (pd 0%nat) in let cdx := fsub (pc 0%nat) (pd 0%nat) in
  let ady := fsub (pa 1%nat) (pd 1%nat) in let bdy := fsub (pb 1%nat) (pd 1%nat) in let cdy := fsub (pc 1%nat) (pd 1%nat) in
  let adz := fsub (pa 2%nat) (pd 2%nat) in let bdz := fsub (pb 2%nat) (pd 2%nat) in let cdz := fsub (pc 2%nat) (pd 2%nat) in
  let bdxcdy := fmul bdx cdy in let cdxbdy := fmul cdx bdy in
  let cdxady := fmul cdx ady in let adxcdy := fmul adx cdy in
  let adxbdy := fmul adx bdy in let bdxady := fmul bdx ady in
  let det := fadd (fadd (fmul adz (fsub bdxcdy cdxbdy)) (fmul bdz (fsub cdxady adxcdy))) (fmul cdz (fsub adxbdy bdxady)) in
  let permanent := fadd (fadd (fmul (fadd (Rabs bdxcdy) (Rabs cdxbdy)) (Rabs adz)) (fmul (fadd (Rabs cdxady) (Rabs adxcdy)) (Rabs bdz)))
    (fmul (fadd (Rabs adxbdy) (Rabs bdxady)) (Rabs cdz)) in
  last_test A det permanent.

(** Predicates<3>::insphere, Predicates.cpp:3941-4040; [A] is isperrboundA. *)
Definition insphere3_fp (A : R) (pa pb pc pd pe : vec) : stage :=
  let aex := fsub (pa 0%nat) (pe 0%nat) in let bex := fsub (pb 0%nat) (pe 0%nat) in let cex := fsub (pc 0%nat) (pe 0%nat) in let dex := fsub (pd 0%nat) (pe 0%nat) in
  let aey := fsub (pa 1%nat) (pe 1%nat) in let bey := fsub (pb 1%nat) (pe 1%nat) in let cey := fsub (pc 1%nat) (pe 1%nat) in let dey := fsub (pd 1%nat) (pe 1%nat) in
  let aez := fsub (pa 2%nat) (pe 2%nat) in let bez := fsub (pb 2%nat) (pe 2%nat) in let cez := fsub (pc 2%nat) (pe 2%nat) in let dez := fsub (pd 2%nat) (pe 2%nat) in
  let aexbey := fmul aex bey in let bexaey := fmul bex aey in let ab := fsub aexbey bexaey in
  let bexcey := fmul bex cey in let cexbey := fmul cex bey in let bc := fsub bexcey cexbey in
  let cexdey := fmul cex dey in let dexcey := fmul dex cey in let cd := fsub cexdey dexcey in
  let dexaey := fmul dex aey in let aexdey := fmul aex dey in let da := fsub dexaey aexdey in
  let aexcey := fmul aex cey in let cexaey := fmul cex aey in let ac := fsub aexcey cexaey in
  let bexdey := fmul bex dey in let dexbey := fmul dex bey in let bd := fsub bexdey dexbey in
  let abc := fadd (fsub (fmul aez bc) (fmul bez ac)) (fmul cez ab) in
  let bcd := fadd (fsub (fmul bez cd) (fmul cez bd)) (fmul dez bc) in
  let cda := fadd (fadd (fmul cez da) (fmul dez ac)) (fmul aez cd) in
  let dab := fadd (fadd (fmul dez ab) (fmul aez bd)) (fmul bez da) in
  let alift := fadd (fadd (fmul aex aex) (fmul aey aey)) (fmul aez aez) in
  let blift := fadd (fadd (fmul bex bex) (fmul bey bey)) (fmul bez bez) in
  let clift := fadd (fadd (fmul cex cex) (fmul cey cey)) (fmul cez cez) in
  let dlift := fadd (fadd (fmul dex dex) (fmul dey dey)) (fmul dez dez) in
  let det := fadd (fsub (fmul dlift abc) (fmul clift dab)) (fsub (fmul blift cda) (fmul alift bcd)) in
  let aezplus := Rabs aez in let bezplus := Rabs bez in let cezplus := Rabs cez in let dezplus := Rabs dez in
  let aexbeyplus := Rabs aexbey in let bexaeyplus := Rabs bexaey in let bexceyplus := Rabs bexcey in let cexbeyplus := Rabs cexbey in
  let cexdeyplus := Rabs cexdey in let dexceyplus := Rabs dexcey in let dexaeyplus := Rabs dexaey in let aexdeyplus := Rabs aexdey in
  let aexceyplus := Rabs aexcey in let cexaeyplus := Rabs cexaey in let bexdeyplus := Rabs bexdey in let dexbeyplus := Rabs dexbey in
  let permanent :=
    fadd (fadd (fadd
      (fmul (fadd (fadd (fmul (fadd cexdeyplus dexceyplus) bezplus) (fmul (fadd dexbeyplus bexdeyplus) cezplus)) (fmul (fadd bexceyplus cexbeyplus) dezplus)) alift)
      (fmul (fadd (fadd (fmul (fadd dexaeyplus aexdeyplus) cezplus) (fmul (fadd aexceyplus cexaeyplus) dezplus)) (fmul (fadd cexdeyplus dexceyplus) aezplus)) blift))
      (fmul (fadd (fadd (fmul (fadd aexbeyplus bexaeyplus) dezplus) (fmul (fadd bexdeyplus dexbeyplus) aezplus)) (fmul (fadd dexaeyplus aexdeyplus) bezplus)) clift))
      (fmul (fadd (fadd (fmul (fadd bexceyplus cexbeyplus) aezplus) (fmul (fadd cexaeyplus aexceyplus) bezplus)) (fmul (fadd aexbeyplus bexaeyplus) cezplus)) dlift) in
  last_test A det permanent.

(** The loop of the static constructor, Predicates.cpp:430-448: the values of epsilon and splitter after it.  In C++ the
    sums with literals are double also if Precision is float; the values are rounded when they are assigned, and the
    double sums are exact there, so that the result is the same. *)
Fixpoint init_loop (fuel : nat) (epsilon splitter check : R) (every_other : bool) : res (R * R) :=
  match fuel with
  | O => NoFuel
  | S fuel =>
      let lastcheck := check in
      let epsilon := fmul epsilon (1 / 2) in
      let splitter := if every_other then fmul splitter 2 else splitter in
      let check := fadd 1 epsilon in
      if reqb check 1 || reqb check lastcheck then Val (epsilon, fadd splitter 1)
      else init_loop fuel epsilon splitter check (negb every_other)
  end.
(** The error bounds of the first stage, Predicates.cpp:451-463: [(m + n * epsilon) * epsilon].  The other bounds are used by
    the _adapt functions only. *)
Definition err_bound (m n epsilon : R) : R := fmul (fadd m (fmul n epsilon)) epsilon.
Record consts := mkconsts { k_eps : R; k_splitter : R; k_ccwA : R; k_o3dA : R; k_iccA : R; k_ispA : R }.
(** constructor(), Predicates.cpp:415-464. *)
Definition exact_init (fuel : nat) : res consts :=
  rbind (init_loop fuel 1 1 1 true) (fun '(epsilon, splitter) =>
  Val (mkconsts epsilon splitter (err_bound 3 16 epsilon) (err_bound 7 56 epsilon) (err_bound 10 96 epsilon) (err_bound 16 224 epsilon))).
End Rnd.

(** ** Rounding to nearest, ties to even, of IEEE 754 numbers with [p] bits; [lo] is the exponent of the least positive number
    (-1074 for double, -149 for float), [None]: no underflow.  The range is not bounded above. *)
(** The integer nearest to y. *)
Definition nearest (y : R) : Z :=
  let n := Int_part y in let f := y - IZR n in
  if rltb f (1 / 2) then n else if rltb (1 / 2) f then (n + 1)%Z else if Z.even n then n else (n + 1)%Z.
(** The exponent of x: 2^e <= |x| < 2^(e+1). *)
Definition expo (x : R) : Z := Int_part (ln (Rabs x) / ln 2).
Definition fround (p : Z) (lo : option Z) (x : R) : R :=
  if reqb x 0 then 0 else
  let e := (expo x - p + 1)%Z in
  let e := match lo with None => e | Some l => Z.max l e end in
  let u := powerRZ 2 e in
  (if rltb x 0 then -1 else 1) * (IZR (nearest (Rabs x / u)) * u).
