(** C54, continued: the Fourier derivatives of any order in floating point. *)
From Coq Require Import List Arith ZArith Reals Bool Lra Lia.
From Flocq Require Import Core BinarySingleNaN.
From Verif Require Import Base Num Linalg Cheb ChebGrad Fourier FourierFacts FourierProofs FourierOps FourierF64 Rounding RndTdma RndGrad RndFourier PropRound2.
Import ListNotations.
Local Open Scope R_scope.

(** The derivative of order d against the same program run over the reals on the
    values of the coefficients.  [re_im true] is the real part, [re_im false] the
    imaginary part.  One finite part of one coefficient is enough: the other
    coefficients may be infinite or NaN. *)
Theorem C54_r2c_gradient :
  forall A (N : Num A) u eta rnd zmax inr fin val, float_arith N u eta rnd zmax inr fin val ->
  forall n f d (x o y : list (cplx A)), (Z.of_nat n <= zmax)%Z -> r2c_new n = Ok f ->
  length x = (n / 2 + 1)%nat -> length o = (n / 2 + 1)%nat -> r2c_gradient f x o d = Ok y ->
  forall (ox exact : list (cplx R)), length ox = (n / 2 + 1)%nat ->
  r2c_gradient (N := num_R) f (map (fun z : cplx A => (val (fst z), val (snd z)) : cplx R) x) ox d = Ok exact ->
  forall p k, (k < n / 2 + 1)%nat -> fin (re_im p y.[k]) ->
  Rabs (val (re_im p y.[k]) - re_im p exact.[k]) <=
    ((1 + u) ^ d - 1) * Rabs (re_im p exact.[k]) + INR d * ((1 + u) * INR k) ^ (d - 1) * eta.
Proof.
  intros A N u eta rnd zmax inr fin val FA n f d x o y Hz Hf Lx Lo E ox ex Lox Ex p k Hk F.
  destruct (r2c_new_inv n f Hf) as [Hn ->].
  pose proof (r2c_gradient_any n x o d Lx Lo) as W. rewrite E in W. destruct W as [_ W].
  pose proof (r2c_gradient_any (N := num_R) n (map (fun z : cplx A => (val (fst z), val (snd z)) : cplx R) x) ox d (eq_trans (map_length _ _) Lx) Lox) as W'.
  rewrite Ex in W'. destruct W' as [_ W']. rewrite W, W' in * by auto.
  rewrite (at_map (fun z : cplx A => (val (fst z), val (snd z)) : cplx R) x k) by lia.
  apply (mul_iter_err FA); auto. pose proof (Nat.div_lt n 2 Hn). lia.
Qed.

(** Over the reals this is i^d k^d x_k for the r2c base (C22); for the c2c base
    it is what C23 says. *)
Theorem C54_c2c_gradient :
  forall A (N : Num A) u eta rnd zmax inr fin val, float_arith N u eta rnd zmax inr fin val ->
  forall n f d (x o y : list (cplx A)), (Z.of_nat n <= zmax)%Z -> c2c_new n = Ok f ->
  length x = n -> length o = n -> c2c_gradient f x o d = Ok y ->
  forall (ox exact : list (cplx R)), length ox = n ->
  c2c_gradient (N := num_R) f (map (fun z : cplx A => (val (fst z), val (snd z)) : cplx R) x) ox d = Ok exact ->
  forall p k, (k < n)%nat -> fin (re_im p y.[k]) ->
  Rabs (val (re_im p y.[k]) - re_im p exact.[k]) <=
    ((1 + u) ^ d - 1) * Rabs (re_im p exact.[k]) + INR d * ((1 + u) * INR n) ^ (d - 1) * eta.
Proof.
  intros A N u eta rnd zmax inr fin val FA n f d x o y Hz Hf Lx Lo E ox ex Lox Ex p k Hk F.
  destruct (c2c_new_inv n f Hf) as [Hn ->].
  pose proof (c2c_gradient_any n x o d Hn Lx Lo) as W. rewrite E in W. destruct W as [_ W].
  pose proof (c2c_gradient_any (N := num_R) n (map (fun z : cplx A => (val (fst z), val (snd z)) : cplx R) x) ox d Hn (eq_trans (map_length _ _) Lx) Lox) as W'.
  rewrite Ex in W'. destruct W' as [_ W']. rewrite W, W' in * by auto.
  rewrite (at_map (fun z : cplx A => (val (fst z), val (snd z)) : cplx R) x k) by lia.
  assert (Hw : (c2c_w n k <= n)%nat) by (unfold c2c_w; destruct (Nat.ltb_spec k (npos n)); lia).
  eapply Rle_trans. apply (mul_iter_err FA); auto. lia. unfold cval. cbv zeta.
  apply Rplus_le_compat_l, Rmult_le_compat_r. apply (rn_eta _ _ _ (fa_rnd _ _ _ _ _ _ _ _ FA)). apply Rmult_le_compat_l. apply pos_INR.
  destruct (rn_u _ _ _ (fa_rnd _ _ _ _ _ _ _ _ FA)) as [U _]. pose proof (pos_INR (c2c_w n k)). apply le_INR in Hw.
  apply pow_incr. split. apply Rmult_le_pos; lra. apply Rmult_le_compat_l; lra.
Qed.

(** f64: the derivative of order d of every mode has relative error at most
    (1 + 2^-53)^d - 1, up to the effect of subnormal numbers. *)
Theorem C54_f64_fourier_gradient :
  forall n d, (Z.of_nat n <= 2 ^ 53)%Z ->
  (forall f (x o y : list (cplx f64)), r2c_new n = Ok f ->
   length x = (n / 2 + 1)%nat -> length o = (n / 2 + 1)%nat -> r2c_gradient f x o d = Ok y ->
   forall (ox exact : list (cplx R)), length ox = (n / 2 + 1)%nat ->
   r2c_gradient (N := num_R) f (map (fun z : cplx f64 => (B2R (fst z), B2R (snd z)) : cplx R) x) ox d = Ok exact ->
   forall p k, (k < n / 2 + 1)%nat -> is_finite (re_im p y.[k]) = true ->
   Rabs (B2R (re_im p y.[k]) - re_im p exact.[k]) <=
     ((1 + bpow radix2 (-53)) ^ d - 1) * Rabs (re_im p exact.[k]) + INR d * ((1 + bpow radix2 (-53)) * INR k) ^ (d - 1) * bpow radix2 (-1075)) /\
  (forall f (x o y : list (cplx f64)), c2c_new n = Ok f ->
   length x = n -> length o = n -> c2c_gradient f x o d = Ok y ->
   forall (ox exact : list (cplx R)), length ox = n ->
   c2c_gradient (N := num_R) f (map (fun z : cplx f64 => (B2R (fst z), B2R (snd z)) : cplx R) x) ox d = Ok exact ->
   forall p k, (k < n)%nat -> is_finite (re_im p y.[k]) = true ->
   Rabs (B2R (re_im p y.[k]) - re_im p exact.[k]) <=
     ((1 + bpow radix2 (-53)) ^ d - 1) * Rabs (re_im p exact.[k]) + INR d * ((1 + bpow radix2 (-53)) * INR n) ^ (d - 1) * bpow radix2 (-1075)).
Proof.
  intros n d Hz. split; intros f x o y Hf Lx Lo E ox ex Lox Ex p k Hk F.
  - exact (C54_r2c_gradient f64 num_f64 _ _ _ _ _ _ _ f64_float_arith n f d x o y Hz Hf Lx Lo E ox ex Lox Ex p k Hk F).
  - exact (C54_c2c_gradient f64 num_f64 _ _ _ _ _ _ _ f64_float_arith n f d x o y Hz Hf Lx Lo E ox ex Lox Ex p k Hk F).
Qed.

(** the hypotheses are met: second derivatives of five modes in f64 *)
Definition modes : list (cplx f64) :=
  map (fun k => (ndiv (nofZ k) (nofZ 10), ndiv (nofZ (k + 1)) (nofZ 7))) [1; 2; 3; 1; 9]%Z.
Example C54_example_fourier :
  let y := r2c_gradient (mk_r2c 8 5) modes (repeat (n0, n0) 5) 2 in
  forallb (fun z : cplx f64 => is_finite (fst z) && is_finite (snd z)) (match y with Ok z => z | _ => [] end) = true /\
  length (match y with Ok z => z | _ => [] end) = 5%nat.
Proof. split; vm_compute; reflexivity. Qed.
