(** Vocabulary of C58: the exact values and the exact coefficients that the
    transforms of the bases stand for, as sums of cosines and sines, and the f64
    bases that compute them.  Real numbers x are written (x, 0). *)
From Coq Require Import List Arith ZArith Reals Bool.
From Flocq Require Import Core BinarySingleNaN.
From Verif Require Import Base Num Stencils Cheb Compo CompoProofs Fourier FourierF64 Bases ExtLib Rounding LibAcc RndAxis PropAny SpaceAcc.
Local Open Scope R_scope.

(** ** Chebyshev: the grid points are cos(angle n j), from -1 to 1, and T_k(cos t) = cos(k t). *)
Definition angle (n j : nat) : R := PI - PI * INR j / INR (n - 1).
Definition half (n k : nat) : R := if ((k =? 0) || (k =? n - 1))%nat then / 2 else 1.
(** sum_k c_k T_k(x_j), and the coefficients of the polynomial through the values v *)
Definition cheb_values (n : nat) (c : nat -> R * R) (j : nat) : R * R := (rsum n (fun k => fst (c k) * cos (INR k * angle n j)), 0).
Definition cheb_coefs (n : nat) (v : nat -> R * R) (k : nat) : R * R :=
  (half n k * (2 / INR (n - 1)) * rsum n (fun j => half n j * fst (v j) * cos (INR k * angle n j)), 0).

(** ** Composite bases: the functions T_k - q_k T_(k+2) *)
Definition dir_q (k : nat) : R := 1.
Definition neu_q (k : nat) : R := (INR k / INR (k + 2)) ^ 2.
Definition compo_values (n : nat) (q : nat -> R) (c : nat -> R * R) (j : nat) : R * R :=
  (rsum (n - 2) (fun k => fst (c k) * (cos (INR k * angle n j) - q k * cos (INR (k + 2) * angle n j))), 0).
(** ... and, on DirichletNeumann bases, T_k + r_k T_(k+1) - s_k T_(k+2) *)
Definition dn_r (k : nat) : R := 4 * INR (k + 1) / (INR (k + 1) ^ 2 + INR (k + 2) ^ 2).
Definition dn_s (k : nat) : R := (INR k ^ 2 + INR (k + 1) ^ 2) / (INR (k + 1) ^ 2 + INR (k + 2) ^ 2).
Definition dn_values (n : nat) (c : nat -> R * R) (j : nat) : R * R :=
  (rsum (n - 2) (fun k => fst (c k) * (cos (INR k * angle n j) + dn_r k * cos (INR (k + 1) * angle n j) - dn_s k * cos (INR (k + 2) * angle n j))), 0).
(** c are the coefficients of the least-squares fit of the Chebyshev coefficients a:
    the residual is orthogonal to the coefficient vectors of T_k - q_k T_(k+2). *)
Definition least_squares (n : nat) (q : nat -> R) (a c : nat -> R) : Prop :=
  forall k, (k < n - 2)%nat ->
  let residual i := a i - ((if (i <? n - 2)%nat then c i else 0) - (if (i <? 2)%nat then 0 else q (i - 2)%nat * c (i - 2)%nat)) in
  residual k - q k * residual (k + 2)%nat = 0.
Definition fits_values (n : nat) (q : nat -> R) (F : (nat -> R * R) -> nat -> R * R) : Prop :=
  forall v, (forall k, snd (F v k) = 0) /\ least_squares n q (fun k => fst (cheb_coefs n v k)) (fun k => fst (F v k)).

(** ** Fourier: 1/n sum_k c_k e^{i k x_j} at x_j = 2 pi j / n, and sum_j v_j e^{-i k x_j} *)
Definition phase (n j k : nat) : R := 2 * PI * INR (j * k) / INR n.
Definition c2c_values (n : nat) (c : nat -> R * R) (j : nat) : R * R :=
  (rsum n (fun k => fst (c k) * cos (phase n j k) - snd (c k) * sin (phase n j k)) / INR n,
   rsum n (fun k => fst (c k) * sin (phase n j k) + snd (c k) * cos (phase n j k)) / INR n).
Definition c2c_coefs (n : nat) (v : nat -> R * R) (k : nat) : R * R :=
  (rsum n (fun j => fst (v j) * cos (phase n j k) + snd (v j) * sin (phase n j k)),
   rsum n (fun j => snd (v j) * cos (phase n j k) - fst (v j) * sin (phase n j k))).
(** real: the modes -k are the conjugates of the modes k *)
Definition r2c_values (n : nat) (c : nat -> R * R) (j : nat) : R * R :=
  (rsum (n / 2 + 1) (fun k => (if ((k =? 0) || (2 * k =? n))%nat then 1 else 2) * (fst (c k) * cos (phase n j k) - snd (c k) * sin (phase n j k))) / INR n, 0).
Definition r2c_coefs (n : nat) (v : nat -> R * R) (k : nat) : R * R :=
  (rsum n (fun j => fst (v j) * cos (phase n j k)), - rsum n (fun j => fst (v j) * sin (phase n j k))).

(** ** The bases of C56 and C57 with the exact map [F] that `backward` stands for;
    no entry of [F] is larger than [K]. *)
Inductive f64_values (E : ext f64) (dl zt : R) : R -> forall P S T, base_ops P S T -> fel P -> fel S -> ((nat -> R * R) -> nat -> R * R) -> Prop :=
| fv_chebyshev T (V : Vec f64 T) n b : new_chebyshev n = Ok b -> (Z.of_nat n <= 2 ^ 20)%Z ->
    dct1_accurate E f64_fin f64_val n dl zt -> dct1_in_range E f64_fin f64_val (ieee_inr 1024) n ->
    f64_values E dl zt 1 f64 f64 T (r2r_ops_x E b) f64_real f64_real (cheb_values n)
| fv_dirichlet T (V : Vec f64 T) n b : new_composite KDirichlet n = Ok b -> (5 <= n)%nat -> (Z.of_nat n <= 2 ^ 20)%Z ->
    dct1_accurate E f64_fin f64_val n dl zt -> dct1_in_range E f64_fin f64_val (ieee_inr 1024) n ->
    f64_values E dl zt 2 f64 f64 T (r2r_ops_x E b) f64_real f64_real (compo_values n dir_q)
| fv_neumann T (V : Vec f64 T) n b : new_composite KNeumann n = Ok b -> (5 <= n)%nat -> (Z.of_nat n <= 2 ^ 20)%Z ->
    dct1_accurate E f64_fin f64_val n dl zt -> dct1_in_range E f64_fin f64_val (ieee_inr 1024) n ->
    f64_values E dl zt 2 f64 f64 T (r2r_ops_x E b) f64_real f64_real (compo_values n neu_q)
| fv_dirichlet_neumann T (V : Vec f64 T) n b : new_composite KDirichletNeumann n = Ok b -> (6 <= n)%nat -> (Z.of_nat n <= 2 ^ 20)%Z ->
    dct1_accurate E f64_fin f64_val n dl zt -> dct1_in_range E f64_fin f64_val (ieee_inr 1024) n ->
    f64_values E dl zt 2 f64 f64 T (r2r_ops_x E b) f64_real f64_real (dn_values n)
| fv_r2c n f : r2c_new n = Ok f -> (Z.of_nat n <= 2 ^ 20)%Z ->
    c2r_accurate E f64_fin f64_val n dl zt -> c2r_in_range E f64_fin f64_val (ieee_inr 1024) n ->
    f64_values E dl zt (2 / INR n) f64 (cplx f64) (cplx f64) (r2c_ops_x E f) f64_real f64_cplx (r2c_values n)
| fv_c2c n f : c2c_new n = Ok f -> (Z.of_nat n <= 2 ^ 20)%Z ->
    fft_accurate E f64_fin f64_val true n dl zt -> fft_in_range E f64_fin f64_val (ieee_inr 1024) true n ->
    f64_values E dl zt (2 / INR n) (cplx f64) (cplx f64) (cplx f64) (c2c_ops_x E f) f64_cplx f64_cplx (c2c_values n).

(** ... and that `forward` stands for, with the factor [L] by which it magnifies
    relative errors: 4, or 16 (n+1)^2 where it solves a least-squares system. *)
Inductive f64_coefs (E : ext f64) (dl zt : R) : R -> R -> forall P S T, base_ops P S T -> fel P -> fel S -> ((nat -> R * R) -> nat -> R * R) -> Prop :=
| fc_chebyshev T (V : Vec f64 T) n b : new_chebyshev n = Ok b -> (Z.of_nat n <= 2 ^ 20)%Z ->
    dct1_accurate E f64_fin f64_val n dl zt -> dct1_in_range E f64_fin f64_val (ieee_inr 1024) n ->
    f64_coefs E dl zt (2 / INR (n - 1)) 4 f64 f64 T (r2r_ops_x E b) f64_real f64_real (cheb_coefs n)
| fc_dirichlet T (V : Vec f64 T) n b F : new_composite KDirichlet n = Ok b -> (5 <= n)%nat -> (Z.of_nat n <= 2 ^ 20)%Z ->
    dct1_accurate E f64_fin f64_val n dl zt -> dct1_in_range E f64_fin f64_val (ieee_inr 1024) n -> fits_values n dir_q F ->
    f64_coefs E dl zt ((INR n + 1) ^ 2 * (2 / INR (n - 1))) (16 * (INR n + 1) ^ 2) f64 f64 T (r2r_ops_x E b) f64_real f64_real F
| fc_neumann T (V : Vec f64 T) n b F : new_composite KNeumann n = Ok b -> (5 <= n)%nat -> (Z.of_nat n <= 2 ^ 20)%Z ->
    dct1_accurate E f64_fin f64_val n dl zt -> dct1_in_range E f64_fin f64_val (ieee_inr 1024) n -> fits_values n neu_q F ->
    f64_coefs E dl zt ((INR n + 1) ^ 2 * (2 / INR (n - 1))) (16 * (INR n + 1) ^ 2) f64 f64 T (r2r_ops_x E b) f64_real f64_real F
| fc_r2c n f : r2c_new n = Ok f -> (Z.of_nat n <= 2 ^ 20)%Z ->
    r2c_accurate E f64_fin f64_val n dl zt -> r2c_in_range E f64_fin f64_val (ieee_inr 1024) n ->
    f64_coefs E dl zt 2 4 f64 (cplx f64) (cplx f64) (r2c_ops_x E f) f64_real f64_cplx (r2c_coefs n)
| fc_c2c n f : c2c_new n = Ok f -> (Z.of_nat n <= 2 ^ 20)%Z ->
    fft_accurate E f64_fin f64_val false n dl zt -> fft_in_range E f64_fin f64_val (ieee_inr 1024) false n ->
    f64_coefs E dl zt 2 4 (cplx f64) (cplx f64) (cplx f64) (c2c_ops_x E f) f64_cplx f64_cplx (c2c_coefs n).
