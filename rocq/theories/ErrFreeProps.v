(** C97 with IEEE rounding to nearest: [fround p lo] has p bits and the least exponent lo; there is no overflow. *)
From Coq Require Import Reals Lra.
From Verif Require Import Outcome GeoModel PredModel FloatProofs ExpansModel ExpansProps ErrFree.
Local Open Scope R_scope.

(** Two_Sum gives the rounded sum and its error, for all numbers of the format; Fast_Two_Sum if the first is not the smaller one, or zero. *)
Theorem C97_two_sum p lo a b : (1 <= p)%Z -> FN p lo a -> FN p lo b ->
  let '(x, y) := two_sum (fround p lo) a b in x = fround p lo (a + b) /\ x + y = a + b /\ FN p lo x /\ FN p lo y.
Proof. intros Hp A B. destruct (two_sum_exact p lo Hp a b A B) as (H1 & H2 & H3). unfold two_sum in *. cbn [fst snd] in *. now repeat split. Qed.
Theorem C97_fast_two_sum p lo a b : (1 <= p)%Z -> FN p lo a -> FN p lo b -> a = 0 \/ Rabs b <= Rabs a ->
  let '(x, y) := fast_two_sum (fround p lo) a b in x = fround p lo (a + b) /\ x + y = a + b /\ FN p lo x /\ FN p lo y.
Proof. intros Hp A B H. destruct (fast_two_sum_exact p lo Hp a b A B H) as (H1 & H2 & H3). unfold fast_two_sum in *. cbn [fst snd] in *. now repeat split. Qed.

(** fast_expansion_sum_zeroelim is exact for all expansions of numbers of the format, given an element behind each. *)
Theorem C97_ieee p lo elen e flen f : (1 <= p)%Z -> (0 < elen < length e)%nat -> (0 < flen < length f)%nat ->
  (forall i, (i < elen)%nat -> FN p lo (nth i e 0)) -> (forall i, (i < flen)%nat -> FN p lo (nth i f 0)) -> rising (firstn elen e) -> rising (firstn flen f) ->
  exists h, returns (expansion_sum (fround p lo) elen e flen f) h /\ rsum h = rsum (firstn elen e) + rsum (firstn flen f) /\
    (1 <= length h <= elen + flen)%nat /\ Forall (FN p lo) h /\ (forall x, In x h -> x = 0 -> h = [0]).
Proof. intros Hp. intros. apply C97_value_partial; trivial; intros a b; [now apply two_sum_exact|now apply fast_two_sum_exact]. Qed.
Print Assumptions C97_two_sum.
Print Assumptions C97_fast_two_sum.
Print Assumptions C97_ieee.

(** Double precision: 2^60 + 1 as an expansion of two components, and 3; the sum needs more bits than a double has. *)
Example C97_ieee_ex : exists h, returns (expansion_sum (fround 53 (Some (-1074)%Z)) 2 [1; IZR (2 ^ 60); 0] 1 [3; 0]) h /\ rsum h = IZR (2 ^ 60 + 4) /\ Forall (FN 53 (Some (-1074)%Z)) h.
Proof.
  assert (N1 : forall n, (Z.abs n <= 2 ^ 53)%Z -> FN 53 (Some (-1074)%Z) (IZR n)). { intros n H. exists n, 0%Z. split; [exact H|]. split; [cbn; lia|]. cbn [powerRZ]. lra. }
  assert (N2 : FN 53 (Some (-1074)%Z) (IZR (2 ^ 60))). { exists 1%Z, 60%Z. split; [lia|]. split; [cbn; lia|]. rewrite pw_nat by lia. lra. }
  destruct (C97_ieee 53 (Some (-1074)%Z) 2 [1; IZR (2 ^ 60); 0] 1 [3; 0]) as (h & R & S & _ & Fh & _); [lia|cbn; lia|cbn; lia| | | | |].
  - intros [|[|i]] H; cbn [nth]; [apply N1; lia|exact N2|lia].
  - intros [|i] H; cbn [nth]; [apply N1; lia|lia].
  - intros [|[|i]] [|[|j]] [H1 H2]; cbn [firstn length nth] in *; try lia. right. rewrite !Rabs_pos_eq by (apply IZR_le; lia). apply IZR_le. lia.
  - intros [|i] [|j] [H1 H2]; cbn [firstn length nth] in *; lia.
  - exists h. split; [exact R|]. split; [|exact Fh]. rewrite S. unfold rsum. cbn [firstn fold_right]. rewrite plus_IZR. lra.
Qed.
