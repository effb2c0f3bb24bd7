(** Utils: the comparison helpers of src/utils.rs (lines 1-96).

    [FloatNum] arithmetic enters through [sub] (`-`), [abs] and [lt] (`<`); the
    functions are run on exact reals ([R_approx_*]) and on IEEE binary64 values
    with infinities and NaN ([F64_approx_*], operations of Flocq's
    [BinarySingleNaN], round to nearest even). *)
From Coq Require Import List Bool ZArith Reals Arith.
From Flocq Require Import Core BinarySingleNaN.
From Verif Require Import Base Num NdArray FourierF64.
Import ListNotations.

Section Approx.
Context {A : Type}.
Variables (sub : A -> A -> A) (abs : A -> A) (lt : A -> A -> bool) (tol : A).

(** utils.rs:6-19 [approx_eq]: `for (a, b) in vec_a.iter().zip(vec_b.iter())
    assert!(abs(a - b) < tol)`; [tol] is `A::from_f64(1e-3)`. *)
Fixpoint approx_eq (vec_a vec_b : list A) : res unit :=
  match vec_a, vec_b with
  | a :: vec_a, b :: vec_b => assertb (lt (abs (sub a b)) tol) ;; approx_eq vec_a vec_b
  | _, _ => Ok tt
  end.

(** utils.rs:26-39 [approx_eq_complex]; a complex number is (re, im). *)
Fixpoint approx_eq_complex (vec_a vec_b : list (A * A)) : res unit :=
  match vec_a, vec_b with
  | a :: vec_a, b :: vec_b =>
      assertb (lt (abs (sub (fst a) (fst b))) tol || lt (abs (sub (snd a) (snd b))) tol) ;;
      approx_eq_complex vec_a vec_b
  | _, _ => Ok tt
  end.

(** utils.rs:45-63 [approx_eq_ndarray]: zips the logical (row-major) iterators of
    `expected` and `result`, in this order; the shapes are not compared. *)
Definition approx_eq_ndarray (result expected : arr A) : res unit :=
  approx_eq (dat expected) (dat result).

(** utils.rs:68-87 [approx_eq_complex_ndarray] *)
Definition approx_eq_complex_ndarray (result expected : arr (A * A)) : res unit :=
  approx_eq_complex (dat expected) (dat result).
End Approx.

(** Exact reals *)
Definition Rltb (x y : R) : bool := if Rlt_dec x y then true else false.
(** utils.rs [approx_eq] in exact arithmetic *)
Definition R_approx_eq := approx_eq Rminus Rabs Rltb (1 / 1000)%R.
(** utils.rs [approx_eq_complex] in exact arithmetic *)
Definition R_approx_eq_complex := approx_eq_complex Rminus Rabs Rltb (1 / 1000)%R.
(** utils.rs [approx_eq_ndarray] in exact arithmetic *)
Definition R_approx_eq_ndarray := approx_eq_ndarray Rminus Rabs Rltb (1 / 1000)%R.
(** utils.rs [approx_eq_complex_ndarray] in exact arithmetic *)
Definition R_approx_eq_complex_ndarray := approx_eq_complex_ndarray Rminus Rabs Rltb (1 / 1000)%R.

(** IEEE binary64. Rust's `<` is false when an operand is NaN. *)
Definition f64_lt (x y : f64) : bool := match Bcompare x y with Some Lt => true | _ => false end.
(** the f64 literal 1e-3: 0x3F50624DD2F1A9FC = 4611686018427388 * 2^-62 *)
Definition f64_tol : f64 := binary_normalize 53 1024 eq_refl eq_refl mode_NE 4611686018427388 (-62) false.
(** utils.rs [approx_eq] in f64 *)
Definition F64_approx_eq := approx_eq (@nsub f64 _) (@Babs 53 1024) f64_lt f64_tol.
(** utils.rs [approx_eq_complex] in f64 *)
Definition F64_approx_eq_complex := approx_eq_complex (@nsub f64 _) (@Babs 53 1024) f64_lt f64_tol.
(** utils.rs [approx_eq_ndarray] in f64 *)
Definition F64_approx_eq_ndarray := approx_eq_ndarray (@nsub f64 _) (@Babs 53 1024) f64_lt f64_tol.
(** utils.rs [approx_eq_complex_ndarray] in f64 *)
Definition F64_approx_eq_complex_ndarray := approx_eq_complex_ndarray (@nsub f64 _) (@Babs 53 1024) f64_lt f64_tol.
