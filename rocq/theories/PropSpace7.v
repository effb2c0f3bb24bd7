(** C32: the divisor of a scaled gradient for every derivative count, including those whose conversion to a 32-bit
    integer wraps (space1.rs:192-230, space2.rs, space3.rs: [s.powi(deriv as i32)]). *)
From Coq Require Import List Arith Lia Bool ZArith Reals Lra.
From Verif Require Import Base Num Fourier FourierFacts FourierProofs NdArray Bases Space PropSpace4.
Import ListNotations.
Local Open Scope R_scope.

(** the 32-bit two's complement integer congruent to [d]: the only [z] in range with [z = d] modulo [2^32] *)
Definition wrapped (d : nat) (z : Z) : Prop := (-2147483648 <= z < 2147483648)%Z /\ exists k, (Z.of_nat d = z + 4294967296 * k)%Z.
Lemma wrapped_as_i32 d z : wrapped d z -> as_i32 d = z.
Proof.
  intros [H [k E]]. unfold as_i32. rewrite E. replace (z + 4294967296 * k + 2147483648)%Z with (z + 2147483648 + k * 4294967296)%Z by ring.
  rewrite Z_mod_plus_full, Z.mod_small by lia. lia.
Qed.
Lemma npowi_powerRZ (s : R) z : npowi s z = powerRZ s z.
Proof.
  unfold npowi. destruct (Z.leb_spec 0 z).
  - rewrite npow_pow. rewrite pow_powerRZ, Z2Nat.id by auto. reflexivity.
  - rewrite npow_pow. destruct z as [|p|p]; try lia. cbn [Z.opp Z.to_nat powerRZ].
    change (1 / s ^ Pos.to_nat p = / s ^ Pos.to_nat p). unfold Rdiv. ring.
Qed.

(** For every [deriv], bounded or not, the scaled gradient is the unscaled one divided by [s^z], [z] the wrapped
    count; [powerRZ] is the standard library's integer power. *)
Theorem C32_scale_divides_by_the_wrapped_power : forall d0 d1 d2 z0 z1 z2 s0 s1 s2 zo,
  wrapped d0 z0 -> wrapped d1 z1 -> wrapped d2 z2 -> s0 <> 0 -> s1 <> 0 -> s2 <> 0 ->
  (forall P S (sp : space1 P S R) a, s1_gradient zo sp a d0 (Some s0) =
     let* r := s1_gradient zo sp a d0 (None (A := R)) in Ok (divided_R (powerRZ s0 z0) r)) /\
  (forall P S (sp : space1 P S CR) a, s1_gradient zo sp a d0 (Some s0) =
     let* r := s1_gradient zo sp a d0 (None (A := R)) in Ok (divided_C (powerRZ s0 z0) r)) /\
  (forall P I S (sp : space2 P I S R) a, s2_gradient zo sp a d0 d1 (Some (s0, s1)) =
     let* r := s2_gradient zo sp a d0 d1 (None (A := R * R)) in Ok (divided_R (powerRZ s0 z0 * powerRZ s1 z1) r)) /\
  (forall P I S (sp : space2 P I S CR) a, s2_gradient zo sp a d0 d1 (Some (s0, s1)) =
     let* r := s2_gradient zo sp a d0 d1 (None (A := R * R)) in Ok (divided_C (powerRZ s0 z0 * powerRZ s1 z1) r)) /\
  (forall P I J S (sp : space3 P I J S R) a, s3_gradient zo sp a d0 d1 d2 (Some (s0, s1, s2)) =
     let* r := s3_gradient zo sp a d0 d1 d2 (None (A := R * R * R)) in
     Ok (divided_R (powerRZ s0 z0 * powerRZ s1 z1 * powerRZ s2 z2) r)) /\
  (forall P I J S (sp : space3 P I J S CR) a, s3_gradient zo sp a d0 d1 d2 (Some (s0, s1, s2)) =
     let* r := s3_gradient zo sp a d0 d1 d2 (None (A := R * R * R)) in
     Ok (divided_C (powerRZ s0 z0 * powerRZ s1 z1 * powerRZ s2 z2) r)).
Proof.
  intros d0 d1 d2 z0 z1 z2 s0 s1 s2 zo W0 W1 W2 N0 N1 N2.
  pose proof (powerRZ_NOR s0 z0 N0) as Q0. pose proof (powerRZ_NOR s1 z1 N1) as Q1. pose proof (powerRZ_NOR s2 z2 N2) as Q2.
  assert (E0 : npowi s0 (as_i32 d0) = powerRZ s0 z0) by (rewrite (wrapped_as_i32 _ _ W0); apply npowi_powerRZ).
  assert (E1 : npowi s1 (as_i32 d1) = powerRZ s1 z1) by (rewrite (wrapped_as_i32 _ _ W1); apply npowi_powerRZ).
  assert (E2 : npowi s2 (as_i32 d2) = powerRZ s2 z2) by (rewrite (wrapped_as_i32 _ _ W2); apply npowi_powerRZ).
  split; [|split; [|split; [|split; [|split]]]].
  - intros. unfold s1_gradient. rewrite E0. destruct (gradient _ _ _ _ _); reflexivity.
  - intros. unfold s1_gradient. rewrite E0. destruct (gradient _ _ _ _ _); cbn [bind]; auto. rewrite scale_C; auto.
  - intros. unfold s2_gradient, s2_scale. rewrite E0, E1. destruct (gradient _ _ a _ _) as [x| |]; cbn [bind]; auto. destruct (gradient _ _ x _ _); reflexivity.
  - intros. unfold s2_gradient, s2_scale. rewrite E0, E1. destruct (gradient _ _ a _ _) as [x| |]; cbn [bind]; auto. destruct (gradient _ _ x _ _); cbn [bind]; auto.
    rewrite <- scale_C; auto.
  - intros. unfold s3_gradient, s3_scale. rewrite E0, E1, E2. destruct (gradient _ _ a _ _) as [x| |]; cbn [bind]; auto.
    destruct (gradient _ _ x _ _) as [y| |]; cbn [bind]; auto. destruct (gradient _ _ y _ _); reflexivity.
  - intros. unfold s3_gradient, s3_scale. rewrite E0, E1, E2. destruct (gradient _ _ a _ _) as [x| |]; cbn [bind]; auto.
    destruct (gradient _ _ x _ _) as [y| |]; cbn [bind]; auto. destruct (gradient _ _ y _ _); cbn [bind]; auto.
    rewrite <- scale_C; auto.
Qed.
Print Assumptions C32_scale_divides_by_the_wrapped_power.

(** every count has a wrapped value; [2^32 - 2] wraps to [-2], so the result is MULTIPLIED by [s^2] *)
Lemma wrapped_exists d : exists z, wrapped d z.
Proof.
  exists (as_i32 d). pose proof (C32_exponent_wraps d) as [H E]. split; [exact H|]. apply Z.mod_divide in E; [|lia]. destruct E as [k E]. exists (- k)%Z. lia.
Qed.
Example wrapped_case : forall d, Z.of_nat d = 4294967294%Z -> wrapped d (-2).
Proof. intros d E. split; [lia|]. exists 1%Z. lia. Qed.
Example wrapped_case_value : forall x, x / powerRZ 3 (-2) = x * 9.
Proof. intros. unfold powerRZ. change (Pos.to_nat 2) with 2%nat. cbn [pow]. unfold Rdiv. rewrite !Rinv_inv. field. Qed.
