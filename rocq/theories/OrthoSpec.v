(** Vocabulary of C60: the exact changes of basis that `to_ortho` and `from_ortho`
    of the bases stand for, and the f64 bases that compute them.  Real numbers x are
    written (x, 0).  [compo_ortho] and [dn_ortho] are in GradSpec.v, [least_squares] in SpaceVal.v. *)
From Coq Require Import List Arith ZArith Reals Bool.
From Flocq Require Import Core BinarySingleNaN.
From Verif Require Import Base Num Stencils Cheb Compo CompoProofs Fourier FourierF64 Bases ExtLib Rounding RndAxis PropAny SpaceAcc SpaceVal GradSpec.
Local Open Scope R_scope.

Definition unchanged (c : nat -> R * R) (k : nat) : R * R := c k.
(** [F a] are the coefficients of the least-squares fit, by the functions
    T_k - q_k T_(k+2), of the Chebyshev coefficients a (real and imaginary parts) *)
Definition fits_coefs (n : nat) (q : nat -> R) (F : (nat -> R * R) -> nat -> R * R) : Prop :=
  forall a, least_squares n q (fun k => fst (a k)) (fun k => fst (F a k)) /\ least_squares n q (fun k => snd (a k)) (fun k => snd (F a k)).

(** [F] is the map from the coefficients of [b] to those of its orthogonal parent
    that `to_ortho` stands for *)
Inductive f64_to_ortho (E : ext f64) : forall P S T, base_ops P S T -> fel T -> ((nat -> R * R) -> nat -> R * R) -> Prop :=
| fto_chebyshev T (V : Vec f64 T) e n b : new_chebyshev n = Ok b -> (Z.of_nat n <= 2 ^ 20)%Z ->
    f64_to_ortho E f64 f64 T (r2r_ops_x E b) e unchanged
| fto_dirichlet T (V : Vec f64 T) e n b : f64_scalar T V e -> new_composite KDirichlet n = Ok b -> (5 <= n)%nat -> (Z.of_nat n <= 2 ^ 20)%Z ->
    f64_to_ortho E f64 f64 T (r2r_ops_x E b) e (compo_ortho n dir_q)
| fto_neumann T (V : Vec f64 T) e n b : f64_scalar T V e -> new_composite KNeumann n = Ok b -> (5 <= n)%nat -> (Z.of_nat n <= 2 ^ 20)%Z ->
    f64_to_ortho E f64 f64 T (r2r_ops_x E b) e (compo_ortho n neu_q)
| fto_dirichlet_neumann T (V : Vec f64 T) e n b : f64_scalar T V e -> new_composite KDirichletNeumann n = Ok b -> (6 <= n)%nat -> (Z.of_nat n <= 2 ^ 20)%Z ->
    f64_to_ortho E f64 f64 T (r2r_ops_x E b) e (dn_ortho n)
| fto_r2c e n f : r2c_new n = Ok f -> (Z.of_nat n <= 2 ^ 20)%Z -> f64_to_ortho E f64 (cplx f64) (cplx f64) (r2c_ops_x E f) e unchanged
| fto_c2c e n f : c2c_new n = Ok f -> (Z.of_nat n <= 2 ^ 20)%Z -> f64_to_ortho E (cplx f64) (cplx f64) (cplx f64) (c2c_ops_x E f) e unchanged.

(** ... and back; no entry of [F] is larger than [K], and the relative error of an
    operation is magnified by at most [L]. *)
Inductive f64_from_ortho (E : ext f64) : R -> R -> forall P S T, base_ops P S T -> fel T -> ((nat -> R * R) -> nat -> R * R) -> Prop :=
| ffo_chebyshev T (V : Vec f64 T) e n b : new_chebyshev n = Ok b -> (Z.of_nat n <= 2 ^ 20)%Z ->
    f64_from_ortho E 1 4 f64 f64 T (r2r_ops_x E b) e unchanged
| ffo_dirichlet T (V : Vec f64 T) e n b F : f64_scalar T V e -> new_composite KDirichlet n = Ok b -> (5 <= n)%nat -> (Z.of_nat n <= 2 ^ 20)%Z -> fits_coefs n dir_q F ->
    f64_from_ortho E ((INR n + 1) ^ 2) (8 * (INR n + 1) ^ 2) f64 f64 T (r2r_ops_x E b) e F
| ffo_neumann T (V : Vec f64 T) e n b F : f64_scalar T V e -> new_composite KNeumann n = Ok b -> (5 <= n)%nat -> (Z.of_nat n <= 2 ^ 20)%Z -> fits_coefs n neu_q F ->
    f64_from_ortho E ((INR n + 1) ^ 2) (8 * (INR n + 1) ^ 2) f64 f64 T (r2r_ops_x E b) e F
| ffo_r2c e n f : r2c_new n = Ok f -> (Z.of_nat n <= 2 ^ 20)%Z -> f64_from_ortho E 1 4 f64 (cplx f64) (cplx f64) (r2c_ops_x E f) e unchanged
| ffo_c2c e n f : c2c_new n = Ok f -> (Z.of_nat n <= 2 ^ 20)%Z -> f64_from_ortho E 1 4 (cplx f64) (cplx f64) (cplx f64) (c2c_ops_x E f) e unchanged.
