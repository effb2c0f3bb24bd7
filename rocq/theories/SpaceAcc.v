(** Vocabulary of C56: f64 numbers and complex f64 numbers with their sizes, and
    the bases whose transform library is accurate at their size. *)
From Coq Require Import List Arith ZArith Reals Bool.
From Flocq Require Import Core BinarySingleNaN.
From Verif Require Import Base Num Cheb Compo Fourier FourierF64 FourierFacts Bases NdArray AxisFacts ExtLib Rounding LibAcc RndFft RndAxis PropAny.
Import ListNotations.
Local Open Scope R_scope.

(** Entries of arrays: a real number x counts as (x, 0). *)
Definition f64_real : fel f64 := mk_fel f64_fin (fun a => (f64_val a, 0)).
Definition f64_cplx : fel (cplx f64) := mk_fel (fun z => f64_fin (fst z) /\ f64_fin (snd z)) (fun z => (f64_val (fst z), f64_val (snd z))).
(** |a| (of a complex number: |re| + |im|) and |a - b| *)
Definition esize {T} (e : fel T) (a : T) : R := Rabs (fst (ev e a)) + Rabs (snd (ev e a)).
Definition edist {T} (e : fel T) (a : T) (z : R * R) : R := Rabs (fst (ev e a) - fst z) + Rabs (snd (ev e a) - snd z).

(** A Chebyshev or Fourier base of at most 2^20 points, as the constructors of
    lib.rs:170-347 return it, with libraries of relative error [dl] and absolute
    error [zt] at its size (LibAcc.v); and how its physical and spectral entries
    are to be read. The flag says that the base transforms real values into complex
    coefficients. *)
Inductive f64_orthogonal (E : ext f64) (dl zt : R) : bool -> forall P S T, base_ops P S T -> fel P -> fel S -> Prop :=
| fo_chebyshev T (V : Vec f64 T) n b : new_chebyshev n = Ok b -> (Z.of_nat n <= 2 ^ 20)%Z ->
    dct1_accurate E f64_fin f64_val n dl zt -> dct1_in_range E f64_fin f64_val (ieee_inr 1024) n ->
    f64_orthogonal E dl zt false f64 f64 T (r2r_ops_x E b) f64_real f64_real
| fo_r2c n f : r2c_new n = Ok f -> (Z.of_nat n <= 2 ^ 20)%Z ->
    r2c_accurate E f64_fin f64_val n dl zt -> r2c_in_range E f64_fin f64_val (ieee_inr 1024) n ->
    c2r_accurate E f64_fin f64_val n dl zt -> c2r_in_range E f64_fin f64_val (ieee_inr 1024) n ->
    f64_orthogonal E dl zt true f64 (cplx f64) (cplx f64) (r2c_ops_x E f) f64_real f64_cplx
| fo_c2c n f : c2c_new n = Ok f -> (Z.of_nat n <= 2 ^ 20)%Z ->
    (forall s, fft_accurate E f64_fin f64_val s n dl zt) -> (forall s, fft_in_range E f64_fin f64_val (ieee_inr 1024) s n) ->
    f64_orthogonal E dl zt false (cplx f64) (cplx f64) (cplx f64) (c2c_ops_x E f) f64_cplx f64_cplx.
(** What a round trip keeps of the coefficient [z] of the mode [k]: a real
    transform of n points loses the imaginary parts of the modes 0 and n/2. *)
Definition kept {P S T} (b : base_ops P S T) (real_to_complex : bool) (k : nat) (z : R * R) : R * R :=
  if real_to_complex && ((k =? 0)%nat || (2 * k =? len_phys b)%nat) then (fst z, 0) else z.
