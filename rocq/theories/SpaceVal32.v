(** Vocabulary of C67: f32 numbers and complex f32 numbers, and the f32 bases of
    up to 2^10 points whose transform libraries are accurate at their size.  The
    exact maps are those of SpaceVal.v; sizes and distances those of SpaceAcc.v. *)
From Coq Require Import List Arith ZArith Reals Bool.
From Flocq Require Import Core BinarySingleNaN.
From Verif Require Import Base Num Stencils Cheb Compo CompoProofs Fourier FourierF64 FourierFacts Bases ExtLib Rounding LibAcc RndAxis PropAny SpaceAcc SpaceVal.
Local Open Scope R_scope.

(** [x == 0.0] *)
#[export] Instance eqz_f32 : EqZ f32 := fun x => match x with B754_zero _ => true | _ => false end.
Definition f32_real : fel f32 := mk_fel f32_fin (fun a => (f32_val a, 0)).
Definition f32_cplx : fel (cplx f32) := mk_fel (fun z => f32_fin (fst z) /\ f32_fin (snd z)) (fun z => (f32_val (fst z), f32_val (snd z))).

(** A Chebyshev or Fourier base of at most 2^10 points, as the constructors of
    lib.rs:170-347 return it, with libraries of relative error [dl] and absolute
    error [zt] at its size (LibAcc.v); and how its physical and spectral entries
    are to be read. The flag says that the base transforms real values into complex
    coefficients. *)
Inductive f32_orthogonal (E : ext f32) (dl zt : R) : bool -> forall P S T, base_ops P S T -> fel P -> fel S -> Prop :=
| fo32_chebyshev T (V : Vec f32 T) n b : new_chebyshev n = Ok b -> (Z.of_nat n <= 2 ^ 10)%Z ->
    dct1_accurate E f32_fin f32_val n dl zt -> dct1_in_range E f32_fin f32_val (ieee_inr 128) n ->
    f32_orthogonal E dl zt false f32 f32 T (r2r_ops_x E b) f32_real f32_real
| fo32_r2c n f : r2c_new n = Ok f -> (Z.of_nat n <= 2 ^ 10)%Z ->
    r2c_accurate E f32_fin f32_val n dl zt -> r2c_in_range E f32_fin f32_val (ieee_inr 128) n ->
    c2r_accurate E f32_fin f32_val n dl zt -> c2r_in_range E f32_fin f32_val (ieee_inr 128) n ->
    f32_orthogonal E dl zt true f32 (cplx f32) (cplx f32) (r2c_ops_x E f) f32_real f32_cplx
| fo32_c2c n f : c2c_new n = Ok f -> (Z.of_nat n <= 2 ^ 10)%Z ->
    (forall s, fft_accurate E f32_fin f32_val s n dl zt) -> (forall s, fft_in_range E f32_fin f32_val (ieee_inr 128) s n) ->
    f32_orthogonal E dl zt false (cplx f32) (cplx f32) (cplx f32) (c2c_ops_x E f) f32_cplx f32_cplx.
(** A Chebyshev or Fourier base (factor 1), or a Dirichlet or Neumann base of
    5 <= n <= 2^10 points (factor (n+1)^2: the size of the inverse of its normal
    equations), as the constructors of lib.rs:170-347 return it, with libraries of
    relative error [dl] and absolute error [zt] at its size (LibAcc.v). *)
Inductive f32_transform (E : ext f32) (dl zt : R) : R -> bool -> forall P S T, base_ops P S T -> fel P -> fel S -> Prop :=
| ft32_orthogonal r P S T (b : base_ops P S T) eP eS : f32_orthogonal E dl zt r P S T b eP eS -> f32_transform E dl zt 1 r P S T b eP eS
| ft32_dirichlet T (V : Vec f32 T) n b : new_composite KDirichlet n = Ok b -> (5 <= n)%nat -> (Z.of_nat n <= 2 ^ 10)%Z ->
    dct1_accurate E f32_fin f32_val n dl zt -> dct1_in_range E f32_fin f32_val (ieee_inr 128) n ->
    f32_transform E dl zt ((INR n + 1) * (INR n + 1)) false f32 f32 T (r2r_ops_x E b) f32_real f32_real
| ft32_neumann T (V : Vec f32 T) n b : new_composite KNeumann n = Ok b -> (5 <= n)%nat -> (Z.of_nat n <= 2 ^ 10)%Z ->
    dct1_accurate E f32_fin f32_val n dl zt -> dct1_in_range E f32_fin f32_val (ieee_inr 128) n ->
    f32_transform E dl zt ((INR n + 1) * (INR n + 1)) false f32 f32 T (r2r_ops_x E b) f32_real f32_real.
(** ** The bases of C67 with the exact map [F] that `backward` stands for;
    no entry of [F] is larger than [K]. *)
Inductive f32_values (E : ext f32) (dl zt : R) : R -> forall P S T, base_ops P S T -> fel P -> fel S -> ((nat -> R * R) -> nat -> R * R) -> Prop :=
| fv32_chebyshev T (V : Vec f32 T) n b : new_chebyshev n = Ok b -> (Z.of_nat n <= 2 ^ 10)%Z ->
    dct1_accurate E f32_fin f32_val n dl zt -> dct1_in_range E f32_fin f32_val (ieee_inr 128) n ->
    f32_values E dl zt 1 f32 f32 T (r2r_ops_x E b) f32_real f32_real (cheb_values n)
| fv32_dirichlet T (V : Vec f32 T) n b : new_composite KDirichlet n = Ok b -> (5 <= n)%nat -> (Z.of_nat n <= 2 ^ 10)%Z ->
    dct1_accurate E f32_fin f32_val n dl zt -> dct1_in_range E f32_fin f32_val (ieee_inr 128) n ->
    f32_values E dl zt 2 f32 f32 T (r2r_ops_x E b) f32_real f32_real (compo_values n dir_q)
| fv32_neumann T (V : Vec f32 T) n b : new_composite KNeumann n = Ok b -> (5 <= n)%nat -> (Z.of_nat n <= 2 ^ 10)%Z ->
    dct1_accurate E f32_fin f32_val n dl zt -> dct1_in_range E f32_fin f32_val (ieee_inr 128) n ->
    f32_values E dl zt 2 f32 f32 T (r2r_ops_x E b) f32_real f32_real (compo_values n neu_q)
| fv32_dirichlet_neumann T (V : Vec f32 T) n b : new_composite KDirichletNeumann n = Ok b -> (6 <= n)%nat -> (Z.of_nat n <= 2 ^ 10)%Z ->
    dct1_accurate E f32_fin f32_val n dl zt -> dct1_in_range E f32_fin f32_val (ieee_inr 128) n ->
    f32_values E dl zt 2 f32 f32 T (r2r_ops_x E b) f32_real f32_real (dn_values n)
| fv32_r2c n f : r2c_new n = Ok f -> (Z.of_nat n <= 2 ^ 10)%Z ->
    c2r_accurate E f32_fin f32_val n dl zt -> c2r_in_range E f32_fin f32_val (ieee_inr 128) n ->
    f32_values E dl zt (2 / INR n) f32 (cplx f32) (cplx f32) (r2c_ops_x E f) f32_real f32_cplx (r2c_values n)
| fv32_c2c n f : c2c_new n = Ok f -> (Z.of_nat n <= 2 ^ 10)%Z ->
    fft_accurate E f32_fin f32_val true n dl zt -> fft_in_range E f32_fin f32_val (ieee_inr 128) true n ->
    f32_values E dl zt (2 / INR n) (cplx f32) (cplx f32) (cplx f32) (c2c_ops_x E f) f32_cplx f32_cplx (c2c_values n).

(** ... and that `forward` stands for, with the factor [L] by which it magnifies
    relative errors: 4, or 16 (n+1)^2 where it solves a least-squares system. *)
Inductive f32_coefs (E : ext f32) (dl zt : R) : R -> R -> forall P S T, base_ops P S T -> fel P -> fel S -> ((nat -> R * R) -> nat -> R * R) -> Prop :=
| fc32_chebyshev T (V : Vec f32 T) n b : new_chebyshev n = Ok b -> (Z.of_nat n <= 2 ^ 10)%Z ->
    dct1_accurate E f32_fin f32_val n dl zt -> dct1_in_range E f32_fin f32_val (ieee_inr 128) n ->
    f32_coefs E dl zt (2 / INR (n - 1)) 4 f32 f32 T (r2r_ops_x E b) f32_real f32_real (cheb_coefs n)
| fc32_dirichlet T (V : Vec f32 T) n b F : new_composite KDirichlet n = Ok b -> (5 <= n)%nat -> (Z.of_nat n <= 2 ^ 10)%Z ->
    dct1_accurate E f32_fin f32_val n dl zt -> dct1_in_range E f32_fin f32_val (ieee_inr 128) n -> fits_values n dir_q F ->
    f32_coefs E dl zt ((INR n + 1) ^ 2 * (2 / INR (n - 1))) (16 * (INR n + 1) ^ 2) f32 f32 T (r2r_ops_x E b) f32_real f32_real F
| fc32_neumann T (V : Vec f32 T) n b F : new_composite KNeumann n = Ok b -> (5 <= n)%nat -> (Z.of_nat n <= 2 ^ 10)%Z ->
    dct1_accurate E f32_fin f32_val n dl zt -> dct1_in_range E f32_fin f32_val (ieee_inr 128) n -> fits_values n neu_q F ->
    f32_coefs E dl zt ((INR n + 1) ^ 2 * (2 / INR (n - 1))) (16 * (INR n + 1) ^ 2) f32 f32 T (r2r_ops_x E b) f32_real f32_real F
| fc32_r2c n f : r2c_new n = Ok f -> (Z.of_nat n <= 2 ^ 10)%Z ->
    r2c_accurate E f32_fin f32_val n dl zt -> r2c_in_range E f32_fin f32_val (ieee_inr 128) n ->
    f32_coefs E dl zt 2 4 f32 (cplx f32) (cplx f32) (r2c_ops_x E f) f32_real f32_cplx (r2c_coefs n)
| fc32_c2c n f : c2c_new n = Ok f -> (Z.of_nat n <= 2 ^ 10)%Z ->
    fft_accurate E f32_fin f32_val false n dl zt -> fft_in_range E f32_fin f32_val (ieee_inr 128) false n ->
    f32_coefs E dl zt 2 4 (cplx f32) (cplx f32) (cplx f32) (c2c_ops_x E f) f32_cplx f32_cplx (c2c_coefs n).
