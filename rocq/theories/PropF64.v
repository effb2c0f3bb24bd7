(** C43: number of Fourier grid points in IEEE binary64 arithmetic.

    [nodes64 n] is [FourierR2c::nodes(n)] = [FourierC2c::nodes(n)] (what
    [coords()] returns), run on binary64 floats with round-to-nearest-even;
    [RN x] is the real number x rounded to binary64, [tp] the exact value of
    2*PI in f64. *)
From Coq Require Import List Arith ZArith Reals Bool Lra Lia.
From Flocq Require Import Core BinarySingleNaN.
From Verif Require Import Base Num Fourier FourierF64.
Local Open Scope R_scope.

(** Never too few points, never more than one too many. *)
Theorem C43_f64_length : forall n, (1 <= n)%nat -> (Z.of_nat n <= 2 ^ 51)%Z ->
  length (nodes64 n) = n \/ length (nodes64 n) = (n + 1)%nat.
Proof.
  intros n H1 H2. destruct (nodes64_cases n H1 H2).
  destruct (Rle_or_lt (quot64 n) (INR n)); auto.
Qed.
Print Assumptions C43_f64_length.

(** Exactly when there is one too many. *)
Theorem C43_f64_extra_point_iff : forall n, (1 <= n)%nat -> (Z.of_nat n <= 2 ^ 51)%Z ->
  (length (nodes64 n) = (n + 1)%nat <-> INR n < RN (tp / RN (tp / INR n))).
Proof.
  intros n H1 H2. destruct (nodes64_cases n H1 H2) as [A B]. change (RN (tp / RN (tp / INR n))) with (quot64 n).
  destruct (Rle_or_lt (quot64 n) (INR n)) as [L|L]; split; auto.
  - intros E. rewrite A in E by auto. lia.
Qed.
Print Assumptions C43_f64_extra_point_iff.

(** Doubling n keeps the defect; powers of two have none. *)
Theorem C43_f64_scale : forall m k, (1 <= m)%nat -> (Z.of_nat (m * 2 ^ k) <= 2 ^ 51)%Z ->
  length (nodes64 m) = (m + 1)%nat -> length (nodes64 (m * 2 ^ k)) = (m * 2 ^ k + 1)%nat.
Proof.
  intros m k Hm H51 H.
  assert (P2 : (1 <= 2 ^ k)%nat) by (clear; induction k; simpl; lia).
  assert (Hm51 : (Z.of_nat m <= 2 ^ 51)%Z) by nia.
  apply C43_f64_extra_point_iff in H; auto. change (RN (tp / RN (tp / INR m))) with (quot64 m) in H.
  apply nodes64_cases; auto. nia. rewrite quot_scale, mult_INR, pow2_INR by auto.
  apply Rmult_lt_compat_r; auto. apply bpow_gt_0.
Qed.
Print Assumptions C43_f64_scale.

Theorem C43_f64_power_of_two : forall k, (k <= 51)%nat -> length (nodes64 (2 ^ k)) = (2 ^ k)%nat.
Proof.
  intros k Hk. assert (P2 : (1 <= 2 ^ k)%nat) by (clear; induction k; simpl; lia).
  assert (H51 : (Z.of_nat (2 ^ k) <= 2 ^ 51)%Z).
  { rewrite Nat2Z.inj_pow. apply Z.pow_le_mono_r; lia. }
  apply nodes64_cases; auto.
  rewrite <- (Nat.mul_1_l (2 ^ k)) at 1. rewrite quot_scale by (rewrite ?Nat.mul_1_l; auto).
  rewrite quot_1, pow2_INR. lra.
Qed.
Print Assumptions C43_f64_power_of_two.

(** ... but 61, 122, 244, ... have a spurious point: len(coords) <> len_phys. *)
Theorem C43_f64_wrong_sizes : forall k, (Z.of_nat (61 * 2 ^ k) <= 2 ^ 51)%Z ->
  length (nodes64 (61 * 2 ^ k)) = (61 * 2 ^ k + 1)%nat.
Proof.
  intros. apply C43_f64_scale; [lia|auto|].
  apply nodes64_cases; [lia|simpl; lia|]. apply quot_61.
Qed.
Print Assumptions C43_f64_wrong_sizes.

(** The size bounds are met: sizes 100 and 61 * 2^10; both lengths occur. *)
Example C43_f64_hyps_met : (Z.of_nat 100 <= 2 ^ 51)%Z /\ (Z.of_nat (61 * 2 ^ 10) <= 2 ^ 51)%Z /\
  length (nodes64 64) = 64%nat /\ length (nodes64 122) = 123%nat.
Proof.
  split; [vm_compute; discriminate|split]. vm_compute; discriminate. split. apply (C43_f64_power_of_two 6). lia.
  apply (C43_f64_wrong_sizes 1). vm_compute; discriminate.
Qed.
