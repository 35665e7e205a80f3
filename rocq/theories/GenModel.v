(** The point generators, include/utils/Generator.h:7-317, include/load_balancing/UnboundBubbleGenerator.h,
    PatchBubbleGenerator.h and MaliciousBubbleGenerator.h.

    Coordinates are exact real numbers (GeoModel).  The random engine with its distribution is a source of numbers: a state
    and [draw]; what is known of the numbers is stated in the theorems.  The state of a std::normal_distribution between
    two numbers counts as part of the state. *)
From Coq Require Import Floats.SpecFloat.
From Verif Require Import Outcome ListUtil WordsModel GeoModel.
Local Open Scope R_scope.
Open Scope list_scope.
Import ListNotations.

(** The vector of points: [None] is a point that was default constructed and not written, whose coordinates are
    indeterminate (dPoint(), Geometry.h:198). *)
Definition cells := list (option vec).
(** _init, Generator.h:24-35: entry 0 is set by dPoints(), Geometry.h:242-251; reserveUpToIdx(n + 1). *)
Definition init (n : nat) : cells := Some (fun _ => 0) :: repeat None n.
(** points[i] = p; outside the vector undefined. *)
Definition write (c : cells) (i : nat) (p : vec) : res cells := if Nat.ltb i (length c) then Val (upd c i (Some p)) else Undef.
(** _sort, Generator.h:37-40, SpatialSort.cpp: points 1 to n in another order; [srt] is CGAL::spatial_sort.  Comparing
    indeterminate coordinates is undefined (for a single point nothing is compared; any later use reads them). *)
Definition is_set (o : option vec) : bool := match o with Some _ => true | None => false end.
Definition sort_points (srt : cells -> cells) (c : cells) : res cells :=
  match c with
  | [] => Undef
  | z :: t => if forallb is_set t then Val (z :: srt t) else Undef
  end.

(** (float) k, and the conversion of a float to size_t: towards zero, undefined outside its range. *)
Definition f32 (k : N) : spec_float := binary_normalize 24 128 (Z.of_N k) 0 false.
Definition f32_size (x : spec_float) : option N :=
  match x with
  | S754_zero _ => Some 0%N
  | S754_finite false m e =>
      let v := match e with
               | Zneg k => N.shiftr (Npos m) (Npos k)
               | _ => N.shiftl (Npos m) (Z.to_N e)
               end in
      if (v <? 2 ^ 64)%N then Some v else None
  | _ => None
  end.
(** size_t centerIndex = i * ((float)mNumBubbles / n), UnboundBubbleGenerator.h:57, MaliciousBubbleGenerator.h:35. *)
Definition center_index (i k n : N) : option N := f32_size (SFmul 24 128 (f32 i) (SFdiv 24 128 (f32 k) (f32 n))).

Section Gen.
Context {Eng : Type}.
Variable D : nat.
Variable b : box.

Section One.
Variable draw : Eng -> R * Eng.
(** [k] numbers one after the other. *)
Fixpoint draws (k : nat) (e : Eng) : list R * Eng :=
  match k with
  | O => ([], e)
  | S k => let '(x, e1) := draw e in let '(l, e2) := draws k e1 in (x :: l, e2)
  end.
(** A loop that makes a point and writes it, for the ids listed. *)
Fixpoint gen_each (mk : nat -> Eng -> res (vec * Eng)) (ids : list nat) (c : cells) (e : Eng) : res (cells * Eng) :=
  match ids with
  | [] => Val (c, e)
  | i :: r => rbind (mk i e) (fun '(p, e1) => rbind (write c i p) (fun c1 => gen_each mk r c1 e1))
  end.

(** UniformPointGenerator::_gen, Generator.h:53-77. *)
Definition uniform_point (i : nat) (e : Eng) : res (vec * Eng) :=
  let '(l, e') := draws D e in Val (fun d => b_lo b d + (b_hi b d - b_lo b d) * nth d l 0, e').
(** std::bind(distribution, gen) copies the engine, so the caller's engine stays as it was: the state returned is [e]. *)
Definition gen_uniform (n : nat) (e : Eng) : res (cells * Eng) :=
  rmap (fun r => (fst r, e)) (gen_each uniform_point (seq 1 n) (init n) e).

(** do ... while(!bounds.contains(p.coords)), Generator.h:106-113, 163-170. *)
Fixpoint reject (fuel : nat) (mid span : vec) (e : Eng) : res (vec * Eng) :=
  match fuel with
  | O => NoFuel
  | S f => let '(l, e') := draws D e in
           let p := fun d => mid d + span d * nth d l 0 in
           if box_has D b p then Val (p, e') else reject f mid span e'
  end.
(** midpoint and span of a box, Generator.h:97-101, 153-159. *)
Definition mid_of (x : box) : vec := fun d => b_lo x d + (b_hi x d - b_lo x d) / 2.
Definition span_of (x : box) : vec := fun d => b_hi x d - b_lo x d.
(** NormalPointGenerator::_gen, Generator.h:86-118. *)
Definition gen_normal (fuel n : nat) (e : Eng) : res (cells * Eng) :=
  rmap (fun r => (fst r, e)) (gen_each (fun _ => reject fuel (mid_of b) (span_of b)) (seq 1 n) (init n) e).

(** BubblePointGenerator::_gen, Generator.h:126-180: the [i]-th bubble and the loops. *)
Definition bubble (i : nat) : box :=
  mkbox (fun d => if Nat.testbit i d then mid_of b d else b_lo b d) (fun d => if Nat.testbit i d then b_hi b d else mid_of b d).
Definition gen_bubble (fuel n : nat) (e : Eng) : res (cells * Eng) :=
  let pp := (n / 2 ^ D)%nat in
  rmap (fun r => (fst r, e))
    (fold_left (fun st k => rbind st (fun '(c, e1) =>
       gen_each (fun _ => reject fuel (mid_of (bubble k)) (span_of (bubble k))) (seq (k * pp + 1) pp) c e1)) (seq 0 (2 ^ D)) (Val (init n, e))).

(** EllipsoidPointGenerator::_gen, Generator.h:189-232.  A zero vector gives 0/0; [Undef] here. *)
Definition ellipsoid_point (i : nat) (e : Eng) : res (vec * Eng) :=
  let '(l, e') := draws D e in
  let r := sqrt (sum_loop D (fun d => nth d l 0 * nth d l 0)) in
  if reqb r 0 then Undef
  else Val (fun d => mid_of b d + 45 / 100 * (b_hi b d - b_lo b d) * (nth d l 0 / r), e').
Definition gen_ellipsoid (n : nat) (e : Eng) : res (cells * Eng) :=
  rmap (fun r => (fst r, e)) (gen_each ellipsoid_point (seq 1 n) (init n) e).

(** SkewLinePointGenerator::_gen, Generator.h:248-292, for at least two dimensions: the lines a + rx and b + ry. *)
Definition skew_a : vec := fun d => if Nat.eqb d 1 then b_lo b 1%nat + 1 / 10 * (b_hi b 1%nat - b_lo b 1%nat) else b_lo b d.
Definition skew_b : vec := fun d => if Nat.eqb d 0 then b_hi b 0%nat else b_lo b d.
Definition skew_h : vec := fun d => if Nat.eqb d 0 then b_lo b 0%nat else b_hi b d.
Definition line (a x : vec) (r : R) : vec := fun d => a d + r * (x d - a d).
(** for (i = 1; i < n; i += 2); [todo] counts the rounds. *)
Fixpoint skew_loop (todo i : nat) (c : cells) (e : Eng) : res cells :=
  match todo with
  | O => Val c
  | S t => let '(r, e') := draw e in
           rbind (write c i (line skew_a (b_hi b) r)) (fun c1 =>
           rbind (write c1 (i + 1) (line skew_b skew_h r)) (fun c2 => skew_loop t (i + 2) c2 e'))
  end.
Definition gen_skew (n : nat) (e : Eng) : res (cells * Eng) :=
  rmap (fun c => (c, e)) (skew_loop (n / 2) 1 (init n) e).
End One.

Section Two.
Variable draw draw2 : Eng -> R * Eng.
(** UnboundBubbleGenerator::_gen, UnboundBubbleGenerator.h:34-65; the engine is used itself, so it advances.  [draw]: bubbleDist,
    [draw2]: pointDist. *)
Definition shrunk (rad : R) : box := mkbox (fun d => b_lo b d + rad) (fun d => b_hi b d - rad).
Fixpoint unbound_centers (rad : R) (k : nat) (e : Eng) : list vec * Eng :=
  match k with
  | O => ([], e)
  | S k => let '(l, e1) := draws draw D e in
           let s := shrunk rad in
           let '(r, e2) := unbound_centers rad k e1 in
           ((fun d => b_lo s d + (b_hi s d - b_lo s d) * nth d l 0) :: r, e2)
  end.
Definition unbound_point (centers : list vec) (n i : nat) (e : Eng) : res (vec * Eng) :=
  let '(l, e') := draws draw2 D e in
  match center_index (N.of_nat i) (N.of_nat (length centers)) (N.of_nat n) with
  | None => Undef
  | Some k => match nth_error centers (N.to_nat k) with
              | None => Undef
              | Some c => Val (fun d => c d + nth d l 0, e')
              end
  end.
Definition gen_unbound (rad : R) (k n : nat) (e : Eng) : res (cells * Eng) :=
  let '(centers, e1) := unbound_centers rad k e in
  gen_each (unbound_point centers n) (seq 0 n) (init n) e1.
End Two.

(** calculateBubbleRadiuses, MaliciousBubbleGenerator.h:78-103, PatchBubbleGenerator.h:82-107; [q] is the divisor 4 or 2.
    nth_element puts the second smallest at place 1; with one center that place does not exist. *)
Fixpoint least (x : R) (l : list R) : R := match l with [] => x | y :: r => least (Rmin x y) r end.
Fixpoint drop_one (x : R) (l : list R) : list R := match l with [] => [] | y :: r => if reqb x y then r else y :: drop_one x r end.
Definition second (l : list R) : res R :=
  match l with
  | x :: r => match drop_one (least x r) l with
              | [] => Undef
              | y :: s => Val (least y s)
              end
  | [] => Undef
  end.
Definition radius (q : R) (centers : list vec) (c : vec) : res R :=
  rmap (fun nn => sqrt (Rmin nn (len2 D (vec_box_boundary D c b))) / q) (second (map (fun o => len2 D (vminus o c)) centers)).

(** The rejection loop of MaliciousBubbleGenerator.h:39-45 and PatchBubbleGenerator.h:55-61. *)
Section Bub.
Variable draw : Eng -> R * Eng.
Fixpoint reject_at (fuel : nat) (center : vec) (rad : R) (e : Eng) : res (vec * Eng) :=
  match fuel with
  | O => NoFuel
  | S f => let '(l, e') := draws draw D e in
           let p := vplus (vscale (fun d => nth d l 0) rad) center in
           if box_has D b p then Val (p, e') else reject_at f center rad e'
  end.
(** MaliciousBubbleGenerator.h:50-74; [per]: bubblesPerDim. *)
Definition malicious_center (per i : nat) : vec :=
  fun d => b_lo b d + (b_hi b d - b_lo b d) / INR per * INR ((i / per ^ d) mod per).
(** MaliciousBubbleGenerator.h:24-48. *)
Definition malicious_point (fuel : nat) (centers : list vec) (n i : nat) (e : Eng) : res (vec * Eng) :=
  match center_index (N.of_nat i) (N.of_nat (length centers)) (N.of_nat n) with
  | None => Undef
  | Some k => match nth_error centers (N.to_nat k) with
              | None => Undef
              | Some c => rbind (radius 4 centers c) (fun rad => reject_at fuel c rad e)
              end
  end.
Definition gen_malicious (fuel per k n : nat) (e : Eng) : res (cells * Eng) :=
  let centers := map (malicious_center per) (seq 0 k) in
  gen_each (malicious_point fuel centers n) (seq 0 n) (init n) e.
End Bub.

Section Patch.
(** The distributions of PatchBubbleGenerator.h:33-34, 73: [draw] coordsDist, [draw2] pointsDist, [draw3] bubbleDist. *)
Variable draw draw2 draw3 : Eng -> R * Eng.
Fixpoint patch_centers (k : nat) (e : Eng) : list vec * Eng :=
  match k with
  | O => ([], e)
  | S k => let '(l, e1) := draws draw3 D e in
           let '(r, e2) := patch_centers k e1 in
           ((fun d => b_lo b d + (b_hi b d - b_lo b d) * nth d l 0) :: r, e2)
  end.
(** pp = (remainingPoints / (mNumBubbles - c)) * pointsDist(gen), converted to size_t, PatchBubbleGenerator.h:44-47. *)
Definition patch_count (rem : N) (left : nat) (e : Eng) : res (N * Eng) :=
  if Nat.ltb 1 left then
    let '(g, e') := draw2 e in
    let x := IZR (Z.of_N (rem / N.of_nat left)) * g in
    if rltb (-1) x && rltb x (2 ^ 64) then Val (Z.to_N (if rleb 0 x then Int_part x else 0), e') else Undef
  else Val (rem, e).
(** PatchBubbleGenerator.h:36-66.  The radii are computed before the loop; here where they are used. *)
Fixpoint patch_loop (fuel : nat) (centers : list vec) (todo : list vec) (idx : nat) (rem : N) (c : cells) (e : Eng) : res (cells * Eng) :=
  match todo with
  | [] => Val (c, e)
  | m :: r =>
      rbind (patch_count rem (length todo) e) (fun '(pp, e1) =>
      rbind (radius 2 centers m) (fun rad =>
      rbind (gen_each (fun _ => reject_at draw fuel m rad) (seq idx (N.to_nat pp)) c e1) (fun '(c1, e2) =>
        patch_loop fuel centers r (idx + N.to_nat pp) (wrap 64 (rem + 2 ^ 64 - pp)) c1 e2)))
  end.
Definition gen_patch (fuel k n : nat) (e : Eng) : res (cells * Eng) :=
  let '(centers, e1) := patch_centers k e in
  patch_loop fuel centers centers 1 (N.of_nat n) (init n) e1.
End Patch.
End Gen.
