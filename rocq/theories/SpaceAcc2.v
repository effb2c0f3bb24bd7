(** Vocabulary of C57: the bases of C56 together with the Dirichlet and Neumann
    bases, with the factor by which their forward transform can magnify errors. *)
From Coq Require Import List Arith ZArith Reals Bool.
From Flocq Require Import Core BinarySingleNaN.
From Verif Require Import Base Num Stencils Cheb Compo CompoProofs Fourier FourierF64 FourierFacts Bases ExtLib Rounding LibAcc RndFft RndAxis PropAny SpaceAcc.
Local Open Scope R_scope.

(** A Chebyshev or Fourier base (factor 1), or a Dirichlet or Neumann base of
    5 <= n <= 2^20 points (factor (n+1)^2: the size of the inverse of its normal
    equations), as the constructors of lib.rs:170-347 return it, with libraries of
    relative error [dl] and absolute error [zt] at its size (LibAcc.v). *)
Inductive f64_transform (E : ext f64) (dl zt : R) : R -> bool -> forall P S T, base_ops P S T -> fel P -> fel S -> Prop :=
| ft_orthogonal r P S T (b : base_ops P S T) eP eS : f64_orthogonal E dl zt r P S T b eP eS -> f64_transform E dl zt 1 r P S T b eP eS
| ft_dirichlet T (V : Vec f64 T) n b : new_composite KDirichlet n = Ok b -> (5 <= n)%nat -> (Z.of_nat n <= 2 ^ 20)%Z ->
    dct1_accurate E f64_fin f64_val n dl zt -> dct1_in_range E f64_fin f64_val (ieee_inr 1024) n ->
    f64_transform E dl zt ((INR n + 1) * (INR n + 1)) false f64 f64 T (r2r_ops_x E b) f64_real f64_real
| ft_neumann T (V : Vec f64 T) n b : new_composite KNeumann n = Ok b -> (5 <= n)%nat -> (Z.of_nat n <= 2 ^ 20)%Z ->
    dct1_accurate E f64_fin f64_val n dl zt -> dct1_in_range E f64_fin f64_val (ieee_inr 1024) n ->
    f64_transform E dl zt ((INR n + 1) * (INR n + 1)) false f64 f64 T (r2r_ops_x E b) f64_real f64_real.
