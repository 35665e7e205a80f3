(** Property C27: word utilities of include/utils/Misc.h. *)
From Verif Require Import Outcome ListUtil WordsModel WordsProofs.
Local Open Scope N_scope.

(** nextPow2(x) is the least power of two that is at least x. *)
Theorem C27_nextPow2_least : forall w x,
  1 <= w -> 1 <= x -> x <= 2 ^ (w - 1) ->
  (exists k, nextPow2 w x = 2 ^ k /\ k < w) /\ x <= nextPow2 w x /\
  (forall j, x <= 2 ^ j -> nextPow2 w x <= 2 ^ j).
Proof. exact nextPow2_least. Qed.
Print Assumptions C27_nextPow2_least.
Example C27_nextPow2_ex : nextPow2 64 1000 = 1024 /\ 1000 <= 2 ^ (64 - 1).
Proof. vm_compute. split; [reflexivity|discriminate]. Qed.

(** Outside that range the result is 0: it is not a power of two. *)
Theorem C27_nextPow2_out_of_range_refuted :
  exists x, x < 2 ^ 64 /\ nextPow2 64 x < x.
Proof. exists (2 ^ 63 + 1). vm_compute. split; reflexivity. Qed.
Print Assumptions C27_nextPow2_out_of_range_refuted.

Theorem C27_isPow2 : forall w x, x < 2 ^ w -> isPow2 w x = true <-> exists k, x = 2 ^ k.
Proof. exact isPow2_correct. Qed.
Print Assumptions C27_isPow2.
Example C27_isPow2_ex : isPow2 32 4096 = true /\ isPow2 32 4097 = false /\ isPow2 32 0 = false.
Proof. vm_compute. auto. Qed.

(** isPowN does not recognise powers: it accepts every multiple of n. *)
Theorem C27_isPowN_refuted :
  exists x n, isPowN x n = Some true /\ forall k, x <> n ^ k.
Proof.
  exists 12, 4. split; [reflexivity|]. intros k E.
  destruct (N.lt_ge_cases k 2) as [H|H].
  - assert (k = 0 \/ k = 1) as [-> | ->] by lia; discriminate.
  - assert (4 ^ 2 <= 4 ^ k) by (apply N.pow_le_mono_r; lia). change (4 ^ 2) with 16 in *. lia.
Qed.
Print Assumptions C27_isPowN_refuted.

Theorem C27_log2_floor : forall x, 0 < x ->
  exists k, returns (fun f => log2m f x) k /\ 2 ^ k <= x < 2 ^ (k + 1).
Proof.
  intros x Hx. exists (N.log2 x). split; [exact (log2m_correct x Hx)|].
  rewrite N.add_1_r. exact (N.log2_spec x Hx).
Qed.
Print Assumptions C27_log2_floor.
Example C27_log2_ex : log2m 64 1000 = Val 9.
Proof. reflexivity. Qed.

(** logN is the floor logarithm for a base that is a power of two (its only
    caller uses 2^D, Partitioner.h:238)... *)
Theorem C27_logN_floor : forall x s, 1 <= s -> 1 <= x ->
  exists k, returns (fun f => logNm f x (2 ^ s)) k /\ (2 ^ s) ^ k <= x < (2 ^ s) ^ (k + 1).
Proof. exact logNm_pow2_base. Qed.
Print Assumptions C27_logN_floor.
Example C27_logN_ex : logNm 64 64 8 = Val 2.
Proof. reflexivity. Qed.
(** ... but not for other bases, ... *)
Theorem C27_logN_refuted : exists x n k, 2 <= n /\ returns (fun f => logNm f x n) k /\ ~ (n ^ k <= x).
Proof.
  exists 27, 3, 4. split; [discriminate|]. split; [exact (logNm_correct 27 3 ltac:(discriminate))|].
  intros H. vm_compute in H. apply H. reflexivity.
Qed.
Print Assumptions C27_logN_refuted.
(** ... and it never returns for base 1. *)
Theorem C27_logN_base1_diverges : forall x, 0 < x -> diverges (fun f => logNm f x 1).
Proof. exact logNm_one_diverges. Qed.
Print Assumptions C27_logN_base1_diverges.

(** popcount (used by the code at 32 bits, Bit_Set.hxx:370,383,418) counts the one bits. *)
Theorem C27_popcount32 : forall x, x < 2 ^ 32 ->
  popcount 32 x = N.of_nat (length (filter (N.testbit x) (map N.of_nat (seq 0 32)))).
Proof. intros x Hx. rewrite popcount32_correct by exact Hx. unfold ones_below. reflexivity. Qed.
Print Assumptions C27_popcount32.
Example C27_popcount_ex : popcount 32 4042322160 = 16 /\ 4042322160 < 2 ^ 32.
Proof. vm_compute. auto. Qed.
