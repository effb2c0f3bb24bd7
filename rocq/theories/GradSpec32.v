(** Vocabulary of C68: the f32 bases that compute the exact derivatives of
    GradSpec.v and the exact changes of basis of OrthoSpec.v. *)
From Coq Require Import List Arith ZArith Reals Bool.
From Flocq Require Import Core BinarySingleNaN.
From Verif Require Import Base Num Stencils Cheb Compo CompoProofs Fourier FourierF64 Bases ExtLib Rounding RndGrad RndAxis PropAny SpaceAcc SpaceVal GradSpec OrthoSpec SpaceVal32.
Local Open Scope R_scope.

(** The coefficients are real, or complex with componentwise operations, or
    complex with the products and quotients of the crate num-complex. *)
Inductive f32_scalar : forall T, Vec f32 T -> fel T -> Prop :=
| fs32_real : f32_scalar f32 vec_self f32_real
| fs32_cplx : f32_scalar (cplx f32) vec_cplx f32_cplx.

(** [F] is the exact derivative of order [d] that `gradient` of the base [b] stands
    for; no entry of [F] is larger than [K], and [L] is the factor by which the
    relative error of one operation is magnified. *)
Inductive f32_gradient (E : ext f32) (d : nat) : R -> R -> forall P S T, base_ops P S T -> fel T -> ((nat -> R * R) -> nat -> R * R) -> Prop :=
| fg32_chebyshev T (V : Vec f32 T) e n b : f32_scalar T V e -> new_chebyshev n = Ok b -> (3 <= n)%nat ->
    f32_gradient E d (2 * INR n ^ (2 * d - 1)) (4 * INR (d + 1) * INR n) f32 f32 T (r2r_ops_x E b) e (times d (cheb_derivative n))
| fg32_num_complex n b : new_chebyshev n = Ok b -> (3 <= n)%nat ->
    f32_gradient E d (2 * INR n ^ (2 * d - 1)) (4 * INR (d + 1) * INR n) f32 f32 (cplx f32) (r2r_ops_x (V := vec_num_complex) E b) f32_cplx (times d (cheb_derivative n))
| fg32_dirichlet T (V : Vec f32 T) e n b : f32_scalar T V e -> new_composite KDirichlet n = Ok b -> (5 <= n)%nat ->
    f32_gradient E d (4 * INR n ^ (2 * d - 1)) (4 * INR (d + 1) * INR n) f32 f32 T (r2r_ops_x E b) e (fun c => times d (cheb_derivative n) (compo_ortho n dir_q c))
| fg32_neumann T (V : Vec f32 T) e n b : f32_scalar T V e -> new_composite KNeumann n = Ok b -> (5 <= n)%nat -> (Z.of_nat n * Z.of_nat n <= 2 ^ 24)%Z ->
    f32_gradient E d (4 * INR n ^ (2 * d - 1)) (4 * INR (d + 1) * INR n) f32 f32 T (r2r_ops_x E b) e (fun c => times d (cheb_derivative n) (compo_ortho n neu_q c))
| fg32_dirichlet_neumann T (V : Vec f32 T) e n b : f32_scalar T V e -> new_composite KDirichletNeumann n = Ok b -> (6 <= n)%nat -> (2 * (Z.of_nat n * Z.of_nat n) <= 2 ^ 24)%Z ->
    f32_gradient E d (4 * INR n ^ (2 * d - 1)) (4 * INR (d + 1) * INR n) f32 f32 T (r2r_ops_x E b) e (fun c => times d (cheb_derivative n) (dn_ortho n c))
| fg32_r2c n f : r2c_new n = Ok f -> (1 <= n)%nat ->
    f32_gradient E d (INR (n / 2 + 1) ^ d) (4 * INR (d + 1) * INR n) f32 (cplx f32) (cplx f32) (r2c_ops_x E f) f32_cplx (times d fourier_derivative)
| fg32_c2c n f : c2c_new n = Ok f ->
    f32_gradient E d (INR n ^ d) (4 * INR (d + 1) * INR n) (cplx f32) (cplx f32) (cplx f32) (c2c_ops_x E f) f32_cplx (times d (c2c_derivative n)).
(** [F] is the map from the coefficients of [b] to those of its orthogonal parent
    that `to_ortho` stands for *)
Inductive f32_to_ortho (E : ext f32) : forall P S T, base_ops P S T -> fel T -> ((nat -> R * R) -> nat -> R * R) -> Prop :=
| fto32_chebyshev T (V : Vec f32 T) e n b : new_chebyshev n = Ok b -> (Z.of_nat n <= 2 ^ 10)%Z ->
    f32_to_ortho E f32 f32 T (r2r_ops_x E b) e unchanged
| fto32_dirichlet T (V : Vec f32 T) e n b : f32_scalar T V e -> new_composite KDirichlet n = Ok b -> (5 <= n)%nat -> (Z.of_nat n <= 2 ^ 10)%Z ->
    f32_to_ortho E f32 f32 T (r2r_ops_x E b) e (compo_ortho n dir_q)
| fto32_neumann T (V : Vec f32 T) e n b : f32_scalar T V e -> new_composite KNeumann n = Ok b -> (5 <= n)%nat -> (Z.of_nat n <= 2 ^ 10)%Z ->
    f32_to_ortho E f32 f32 T (r2r_ops_x E b) e (compo_ortho n neu_q)
| fto32_dirichlet_neumann T (V : Vec f32 T) e n b : f32_scalar T V e -> new_composite KDirichletNeumann n = Ok b -> (6 <= n)%nat -> (Z.of_nat n <= 2 ^ 10)%Z ->
    f32_to_ortho E f32 f32 T (r2r_ops_x E b) e (dn_ortho n)
| fto32_r2c e n f : r2c_new n = Ok f -> (Z.of_nat n <= 2 ^ 10)%Z -> f32_to_ortho E f32 (cplx f32) (cplx f32) (r2c_ops_x E f) e unchanged
| fto32_c2c e n f : c2c_new n = Ok f -> (Z.of_nat n <= 2 ^ 10)%Z -> f32_to_ortho E (cplx f32) (cplx f32) (cplx f32) (c2c_ops_x E f) e unchanged.

(** ... and back; no entry of [F] is larger than [K], and the relative error of an
    operation is magnified by at most [L]. *)
Inductive f32_from_ortho (E : ext f32) : R -> R -> forall P S T, base_ops P S T -> fel T -> ((nat -> R * R) -> nat -> R * R) -> Prop :=
| ffo32_chebyshev T (V : Vec f32 T) e n b : new_chebyshev n = Ok b -> (Z.of_nat n <= 2 ^ 10)%Z ->
    f32_from_ortho E 1 4 f32 f32 T (r2r_ops_x E b) e unchanged
| ffo32_dirichlet T (V : Vec f32 T) e n b F : f32_scalar T V e -> new_composite KDirichlet n = Ok b -> (5 <= n)%nat -> (Z.of_nat n <= 2 ^ 7)%Z -> fits_coefs n dir_q F ->
    f32_from_ortho E ((INR n + 1) ^ 2) (8 * (INR n + 1) ^ 2) f32 f32 T (r2r_ops_x E b) e F
| ffo32_neumann T (V : Vec f32 T) e n b F : f32_scalar T V e -> new_composite KNeumann n = Ok b -> (5 <= n)%nat -> (Z.of_nat n <= 2 ^ 7)%Z -> fits_coefs n neu_q F ->
    f32_from_ortho E ((INR n + 1) ^ 2) (8 * (INR n + 1) ^ 2) f32 f32 T (r2r_ops_x E b) e F
| ffo32_r2c e n f : r2c_new n = Ok f -> (Z.of_nat n <= 2 ^ 10)%Z -> f32_from_ortho E 1 4 f32 (cplx f32) (cplx f32) (r2c_ops_x E f) e unchanged
| ffo32_c2c e n f : c2c_new n = Ok f -> (Z.of_nat n <= 2 ^ 10)%Z -> f32_from_ortho E 1 4 (cplx f32) (cplx f32) (cplx f32) (c2c_ops_x E f) e unchanged.
