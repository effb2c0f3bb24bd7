(** Vocabulary of C59: the exact derivatives that the gradients of the bases stand
    for, on the coefficients of a function, and the f64 bases that compute them.
    Real numbers x are written (x, 0). *)
From Coq Require Import List Arith ZArith Reals Bool.
From Flocq Require Import Core BinarySingleNaN.
From Verif Require Import Base Num Stencils Cheb Compo CompoProofs Fourier FourierF64 Bases ExtLib Rounding RndGrad RndAxis PropAny SpaceAcc SpaceVal.
Local Open Scope R_scope.

(** (sum_p c_p T_p)' = sum_k (sum over p > k with p - k odd of 2 p c_p) T_k, the term of T_0 halved *)
Definition cheb_d (n : nat) (c : nat -> R) (k : nat) : R :=
  rsum n (fun p => if ((k <? p) && Nat.odd (p - k))%nat then (if (k =? 0)%nat then 1 else 2) * INR p * c p else 0).
Definition cheb_derivative (n : nat) (c : nat -> R * R) (k : nat) : R * R := (cheb_d n (fun p => fst (c p)) k, cheb_d n (fun p => snd (c p)) k).
(** sum_(k < n-2) c_k (T_k - q_k T_(k+2)) = sum_(k < n) a_k T_k *)
Definition compo_a (n : nat) (q : nat -> R) (c : nat -> R) (k : nat) : R :=
  (if (k <? n - 2)%nat then c k else 0) - (if (k <? 2)%nat then 0 else q (k - 2)%nat * c (k - 2)%nat).
Definition compo_ortho (n : nat) (q : nat -> R) (c : nat -> R * R) (k : nat) : R * R := (compo_a n q (fun p => fst (c p)) k, compo_a n q (fun p => snd (c p)) k).
(** sum_(k < n-2) c_k (T_k + r_k T_(k+1) - s_k T_(k+2)) = sum_(k < n) a_k T_k *)
Definition dn_a (n : nat) (c : nat -> R) (k : nat) : R :=
  (if (k <? n - 2)%nat then c k else 0) + (if ((1 <=? k) && (k <? n - 1))%nat then dn_r (k - 1)%nat * c (k - 1)%nat else 0) - (if (k <? 2)%nat then 0 else dn_s (k - 2)%nat * c (k - 2)%nat).
Definition dn_ortho (n : nat) (c : nat -> R * R) (k : nat) : R * R := (dn_a n (fun p => fst (c p)) k, dn_a n (fun p => snd (c p)) k).
(** (sum_k c_k e^(ikx))' = sum_k (i k c_k) e^(ikx) *)
Definition fourier_derivative (c : nat -> R * R) (k : nat) : R * R := (- INR k * snd (c k), INR k * fst (c k)).
(** what `gradient` of FourierC2c (c2c.rs, gradient_slice) computes: i k times the mode k for
    the modes of frequency k >= 0 (2k < n) - the derivative - and i (n-1-k) times the mode k for the
    others, whose derivative is -i (n-k) times the mode (C23) *)
Definition c2c_factor (n k : nat) : nat := if (2 * k <? n)%nat then k else (n - 1 - k)%nat.
Definition c2c_derivative (n : nat) (c : nat -> R * R) (k : nat) : R * R := (- INR (c2c_factor n k) * snd (c k), INR (c2c_factor n k) * fst (c k)).
Fixpoint times (d : nat) (D : (nat -> R * R) -> nat -> R * R) (c : nat -> R * R) : nat -> R * R :=
  match d with O => c | S d => D (times d D c) end.

(** The coefficients are real, or complex with componentwise operations, or
    complex with the products and quotients of the crate num-complex. *)
Inductive f64_scalar : forall T, Vec f64 T -> fel T -> Prop :=
| fs_real : f64_scalar f64 vec_self f64_real
| fs_cplx : f64_scalar (cplx f64) vec_cplx f64_cplx.

(** [F] is the exact derivative of order [d] that `gradient` of the base [b] stands
    for; no entry of [F] is larger than [K], and [L] is the factor by which the
    relative error of one operation is magnified. *)
Inductive f64_gradient (E : ext f64) (d : nat) : R -> R -> forall P S T, base_ops P S T -> fel T -> ((nat -> R * R) -> nat -> R * R) -> Prop :=
| fg_chebyshev T (V : Vec f64 T) e n b : f64_scalar T V e -> new_chebyshev n = Ok b -> (3 <= n)%nat ->
    f64_gradient E d (2 * INR n ^ (2 * d - 1)) (4 * INR (d + 1) * INR n) f64 f64 T (r2r_ops_x E b) e (times d (cheb_derivative n))
| fg_num_complex n b : new_chebyshev n = Ok b -> (3 <= n)%nat ->
    f64_gradient E d (2 * INR n ^ (2 * d - 1)) (4 * INR (d + 1) * INR n) f64 f64 (cplx f64) (r2r_ops_x (V := vec_num_complex) E b) f64_cplx (times d (cheb_derivative n))
| fg_dirichlet T (V : Vec f64 T) e n b : f64_scalar T V e -> new_composite KDirichlet n = Ok b -> (5 <= n)%nat ->
    f64_gradient E d (4 * INR n ^ (2 * d - 1)) (4 * INR (d + 1) * INR n) f64 f64 T (r2r_ops_x E b) e (fun c => times d (cheb_derivative n) (compo_ortho n dir_q c))
| fg_neumann T (V : Vec f64 T) e n b : f64_scalar T V e -> new_composite KNeumann n = Ok b -> (5 <= n)%nat -> (Z.of_nat n * Z.of_nat n <= 2 ^ 53)%Z ->
    f64_gradient E d (4 * INR n ^ (2 * d - 1)) (4 * INR (d + 1) * INR n) f64 f64 T (r2r_ops_x E b) e (fun c => times d (cheb_derivative n) (compo_ortho n neu_q c))
| fg_dirichlet_neumann T (V : Vec f64 T) e n b : f64_scalar T V e -> new_composite KDirichletNeumann n = Ok b -> (6 <= n)%nat -> (2 * (Z.of_nat n * Z.of_nat n) <= 2 ^ 53)%Z ->
    f64_gradient E d (4 * INR n ^ (2 * d - 1)) (4 * INR (d + 1) * INR n) f64 f64 T (r2r_ops_x E b) e (fun c => times d (cheb_derivative n) (dn_ortho n c))
| fg_r2c n f : r2c_new n = Ok f -> (1 <= n)%nat ->
    f64_gradient E d (INR (n / 2 + 1) ^ d) (4 * INR (d + 1) * INR n) f64 (cplx f64) (cplx f64) (r2c_ops_x E f) f64_cplx (times d fourier_derivative)
| fg_c2c n f : c2c_new n = Ok f ->
    f64_gradient E d (INR n ^ d) (4 * INR (d + 1) * INR n) (cplx f64) (cplx f64) (cplx f64) (c2c_ops_x E f) f64_cplx (times d (c2c_derivative n)).
