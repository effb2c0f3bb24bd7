(** What "accurate transform libraries" means for the floating-point analysis of
    the transforms (C55): the library returns the sums it documents up to a
    relative error [dl] (relative to the sum of the magnitudes of the input) and
    an absolute error [zt] (underflow), provided what it returns is finite; and
    what it returns is finite only if its input is.  [dl] and [zt] are
    parameters: for rustdct and rustfft they are a small multiple of the unit
    roundoff times log n.  With dl = zt = 0 this is the documented function. *)
From Coq Require Import List Arith ZArith Reals Bool.
From Verif Require Import Base Num Cheb Fourier ExtLib.
Import ListNotations.
Local Open Scope R_scope.

Section Acc.
Context {A : Type} {N : Num A} (E : ext A) (fin : A -> Prop) (val : A -> R).

(** rustdct Dct1 of size n: X_k = x_0/2 + (-1)^k x_(n-1)/2 + sum_(0<j<n-1) x_j cos(pi j k/(n-1)) *)
Definition dct1_accurate (n : nat) (dl zt : R) : Prop :=
  forall x, length x = n -> length (x_dct1 E n x) = n /\
  ((forall k, (k < n)%nat -> fin (x_dct1 E n x).[k]) ->
   (forall j, (j < n)%nat -> fin x.[j]) /\
   forall k, (k < n)%nat ->
     Rabs (val (x_dct1 E n x).[k] - rsum n (fun j => (if (j =? 0) || (j =? n - 1) then / 2 else 1) * cos (PI * INR (j * k) / INR (n - 1)) * val x.[j])) <=
     dl * rsum n (fun j => Rabs (val x.[j])) + zt).

(** finite complex numbers (specification) *)
Definition cfin (z : cplx A) : Prop := fin (fst z) /\ fin (snd z).
(** the 1-norm of a complex number (specification) *)
Definition csize (z : cplx A) : R := Rabs (val (fst z)) + Rabs (val (snd z)).

(** rustfft Fft of size n: X_k = sum_j x_j e^(s 2 pi i j k/n), s = -1 (forward) or 1 (inverse, not normalised) *)
Definition fft_accurate (inverse : bool) (n : nat) (dl zt : R) : Prop :=
  forall x, length x = n -> length (x_fft E inverse n x) = n /\
  ((forall k, (k < n)%nat -> cfin (x_fft E inverse n x).[k]) ->
   (forall j, (j < n)%nat -> cfin x.[j]) /\
   forall k, (k < n)%nat ->
     let s := if inverse then 1 else -1 in
     let th j := s * (2 * PI * INR (j * k) / INR n) in
     Rabs (val (fst (x_fft E inverse n x).[k]) - rsum n (fun j => val (fst x.[j]) * cos (th j) - val (snd x.[j]) * sin (th j))) <=
       dl * rsum n (fun j => csize x.[j]) + zt /\
     Rabs (val (snd (x_fft E inverse n x).[k]) - rsum n (fun j => val (fst x.[j]) * sin (th j) + val (snd x.[j]) * cos (th j))) <=
       dl * rsum n (fun j => csize x.[j]) + zt).

(** realfft RealToComplex of size n: the first n/2+1 entries of the DFT *)
Definition r2c_accurate (n : nat) (dl zt : R) : Prop :=
  forall x, length x = n -> length (x_r2c E n x) = (n / 2 + 1)%nat /\
  ((forall k, (k < n / 2 + 1)%nat -> cfin (x_r2c E n x).[k]) ->
   (forall j, (j < n)%nat -> fin x.[j]) /\
   forall k, (k < n / 2 + 1)%nat ->
     Rabs (val (fst (x_r2c E n x).[k]) - rsum n (fun j => val x.[j] * cos (2 * PI * INR (j * k) / INR n))) <=
       dl * rsum n (fun j => Rabs (val x.[j])) + zt /\
     Rabs (val (snd (x_r2c E n x).[k]) + rsum n (fun j => val x.[j] * sin (2 * PI * INR (j * k) / INR n))) <=
       dl * rsum n (fun j => Rabs (val x.[j])) + zt).

(** realfft ComplexToReal of size n: x_j = sum over the Hermitian extension of
    the n/2+1 entries: the entries 0 and (n even) n/2 once, the others twice; realfft
    refuses input whose entries 0 and n/2 are not real, so nothing is asked there *)
Definition c2r_weight (n k : nat) : R := if (k =? 0) || (2 * k =? n) then 1 else 2.
(** assumption on realfft (specification) *)
Definition c2r_accurate (n : nat) (dl zt : R) : Prop :=
  forall c : list (cplx A), length c = (n / 2 + 1)%nat -> (forall k, (k < n / 2 + 1)%nat -> (k =? 0) || (2 * k =? n) = true -> snd c.[k] = n0) ->
  length (x_c2r E n c) = n /\ ((forall j, (j < n)%nat -> fin (x_c2r E n c).[j]) ->
   (forall k, (k < n / 2 + 1)%nat -> cfin c.[k]) /\
   forall j, (j < n)%nat ->
     Rabs (val (x_c2r E n c).[j] - rsum (n / 2 + 1) (fun k => c2r_weight n k *
        (val (fst c.[k]) * cos (2 * PI * INR (j * k) / INR n) - val (snd c.[k]) * sin (2 * PI * INR (j * k) / INR n)))) <=
       dl * rsum (n / 2 + 1) (fun k => csize c.[k]) + zt).

(** Nor do the libraries overflow: the transform of finite numbers is finite if
    four times the sum of their magnitudes is in range. *)
Variable inr : R -> Prop.
(** assumption on rustdct (specification) *)
Definition dct1_in_range (n : nat) : Prop :=
  forall x, length x = n -> (forall j, (j < n)%nat -> fin x.[j]) -> inr (4 * rsum n (fun j => Rabs (val x.[j]))) ->
  forall k, (k < n)%nat -> fin (x_dct1 E n x).[k].
(** assumption on rustfft (specification) *)
Definition fft_in_range (inverse : bool) (n : nat) : Prop :=
  forall x, length x = n -> (forall j, (j < n)%nat -> cfin x.[j]) -> inr (4 * rsum n (fun j => csize x.[j])) ->
  forall k, (k < n)%nat -> cfin (x_fft E inverse n x).[k].
(** assumption on realfft (specification) *)
Definition r2c_in_range (n : nat) : Prop :=
  forall x, length x = n -> (forall j, (j < n)%nat -> fin x.[j]) -> inr (4 * rsum n (fun j => Rabs (val x.[j]))) ->
  forall k, (k < n / 2 + 1)%nat -> cfin (x_r2c E n x).[k].
(** assumption on realfft (specification) *)
Definition c2r_in_range (n : nat) : Prop :=
  forall c : list (cplx A), length c = (n / 2 + 1)%nat -> (forall k, (k < n / 2 + 1)%nat -> (k =? 0) || (2 * k =? n) = true -> snd c.[k] = n0) ->
  (forall k, (k < n / 2 + 1)%nat -> cfin c.[k]) -> inr (4 * rsum (n / 2 + 1) (fun k => csize c.[k])) ->
  forall j, (j < n)%nat -> fin (x_c2r E n c).[j].
End Acc.
