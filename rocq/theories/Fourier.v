(** Fourier: the Fourier bases, src/fourier/r2c.rs and src/fourier/c2c.rs.

    External: rustfft (c2c.rs) and realfft (r2c.rs) are modelled by the discrete
    Fourier transform they document; the plan is determined by n.  n = 0 is not
    modelled (both constructors are modelled as a panic there). *)
From Coq Require Import List Arith ZArith Reals Bool.
From Verif Require Import Base Num Linalg Cheb.
Import ListNotations.

(** [x == 0] on the float type; only realfft's check on the imaginary part of
    the mean/Nyquist coefficient uses it. *)
Class EqZ (A : Type) := is0 : A -> bool.
(** [== 0] on the reals *)
#[export] Instance eqz_R : EqZ R := fun x => if Req_EM_T x 0%R then true else false.

(** Smallest natural number [k >= x] ([x.ceil().to_usize()], x > 0). *)
Class Ceil (A : Type) := nceil : A -> nat.
(** the unique z with x <= z < x+1 *)
Definition Zceil_R (x : R) : Z := (1 - up (- x))%Z.
(** [.ceil() as usize] on the reals *)
#[export] Instance ceil_R : Ceil R := fun x => Z.to_nat (Zceil_R x).

Section Complex.
Context {A : Type} {N : Num A}.
(** num_complex::Complex<A> arithmetic (external) *)
Definition c0 : cplx A := (n0, n0).
(** [Complex::one()] *)
Definition c1 : cplx A := (n1, n0).
(** [a + b] of num_complex *)
Definition cadd (x y : cplx A) : cplx A := (nadd (fst x) (fst y), nadd (snd x) (snd y)).
(** [a - b] of num_complex *)
Definition csub (x y : cplx A) : cplx A := (nsub (fst x) (fst y), nsub (snd x) (snd y)).
(** [-a] of num_complex *)
Definition copp (x : cplx A) : cplx A := (nopp (fst x), nopp (snd x)).
(** [a * b] of num_complex *)
Definition cmul (x y : cplx A) : cplx A :=
  (nsub (nmul (fst x) (fst y)) (nmul (snd x) (snd y)),
   nadd (nmul (fst x) (snd y)) (nmul (snd x) (fst y))).
(** [a / b] of num_complex *)
Definition cdiv (x y : cplx A) : cplx A :=
  let d := nadd (nmul (fst y) (fst y)) (nmul (snd y) (snd y)) in
  (ndiv (nadd (nmul (fst x) (fst y)) (nmul (snd x) (snd y))) d,
   ndiv (nsub (nmul (snd x) (fst y)) (nmul (fst x) (snd y))) d).
(** [a.conj()] of num_complex *)
Definition conj (x : cplx A) : cplx A := (fst x, nopp (snd x)).
(** repeated product *)
Fixpoint cpow (x : cplx A) (d : nat) : cplx A :=
  match d with 0 => c1 | S d => cmul x (cpow x d) end.
(** The same operations, as the element type of a matrix. *)
Definition num_cplx : Num (cplx A) :=
  {| n0 := c0; n1 := c1; nadd := cadd; nsub := csub; nmul := cmul; ndiv := cdiv;
     nopp := copp; nofZ z := (nofZ z, n0) |}.

(** [Complex::new(0, k)] *)
Definition ik (k : nat) : cplx A := (n0, nofN k).

(** [k.powi(deriv.try_into().unwrap())]: the exponent is an i32. *)
Definition powi (x : cplx A) (deriv : nat) : res (cplx A) :=
  assertb (Z.of_nat deriv <? 2147483648)%Z ;; Ok (cpow x deriv).
End Complex.

Section Fft.
Context {A : Type} {N : Num A} {Tr : Trig A}.

(** e^{-2 pi i p/n} (forward) and e^{+2 pi i p/n} (inverse) *)
Definition twiddle (inverse : bool) (n p : nat) : cplx A :=
  let arg := ndiv (nmul (nmul (nofZ 2%Z) tpi) (nofN p)) (nofN n) in
  (tcos arg, if inverse then tsin arg else nopp (tsin arg)).

(** rustfft [Fft::process] (external): unnormalised DFT. *)
Definition fft (inverse : bool) (n : nat) (x : list (cplx A)) : list (cplx A) :=
  map (fun k => vsum n (fun j => cmul x.[j] (twiddle inverse n (j * k)))) (seq 0 n).
(** rustfft [Fft::process] (external); a buffer of another length panics *)
Definition process_fft (inverse : bool) (n : nat) (x : list (cplx A)) : res (list (cplx A)) :=
  assertb (length x =? n) ;; Ok (fft inverse n x).

(** realfft [RealToComplex::process] (external): the first n/2+1 entries of
    the DFT; wrong lengths are an [Err], which the caller unwraps. *)
Definition process_r2c (n : nat) (x : list A) (out : list (cplx A)) : res (list (cplx A)) :=
  assertb (length x =? n) ;; assertb (length out =? n / 2 + 1) ;;
  Ok (firstn (n / 2 + 1) (fft false n (map (fun a => (a, n0)) x))).

(** realfft [ComplexToReal::process] (external): unnormalised inverse DFT of
    the Hermitian extension; an imaginary part in the first entry or (n even) the
    last one is an [Err], which the caller unwraps. *)
Definition hermitian (n : nat) (c : list (cplx A)) : list (cplx A) :=
  map (fun k => if k <=? n / 2 then c.[k] else conj c.[n - k]) (seq 0 n).
(** realfft [ComplexToReal::process] (external), with its check of the imaginary parts *)
Definition process_c2r {Z0 : EqZ A} (n : nat) (c : list (cplx A)) (out : list A) : res (list A) :=
  assertb (length c =? n / 2 + 1) ;; assertb (length out =? n) ;;
  assertb (is0 (snd c.[0])) ;;
  (if n mod 2 =? 0 then assertb (is0 (snd c.[n / 2])) else Ok tt) ;;
  Ok (map fst (fft true n (hermitian n c))).
End Fft.

Section Fourier.
Context {A : Type} {N : Num A}.

(** r2c.rs:48-54, c2c.rs:47-53: computed in f64 for every element type, then
    converted entry by entry (the conversion is exact here).  [Array1::range(a, b, step)] of ndarray (external)
    has ceil((b-a)/step) entries a + step*i. *)
Definition nd_range {C : Ceil A} (a b step : A) : list A :=
  map (fun i => nadd a (nmul step (nofN i))) (seq 0 (nceil (ndiv (nsub b a) step))).
(** fourier/r2c.rs:49-54, fourier/c2c.rs:48-53, for a given value of PI *)
Definition nodes_with (pi : A) {C : Ceil A} (n : nat) : list A :=
  nd_range n0 (nmul (nofZ 2%Z) pi) (ndiv (nmul (nofZ 2%Z) pi) (nofN n)).
(** fourier/r2c.rs:49-54, fourier/c2c.rs:48-53 *)
Definition fourier_nodes {Tr : Trig A} {C : Ceil A} (n : nat) : list A := nodes_with tpi n.

(** ** Operators shared (textually) by the two files, given the wavenumbers *)

(** [for (l, k) in mat.diag_mut().iter_mut().zip(wavenum) { *l = f(k)? }] *)
Definition diag_zip {B} (f : cplx A -> res B) (mat : list (list B)) (wn : list (cplx A)) : res (list (list B)) :=
  for_each (combine (seq 0 (length mat)) wn) (fun ik mat =>
    let* y := f (snd ik) in mwr mat (fst ik) (fst ik) y) mat.

(** r2c.rs:111-119, c2c.rs:117-125 *)
Definition f_diffmat (m : nat) (wavenum : res (list (cplx A))) (deriv : nat) : res (list (list (cplx A))) :=
  assertb (0 <? deriv) ;;
  let* wn := wavenum in
  diag_zip (fun k => powi k deriv) (mzeros c0 m m) wn.

(** [for p in mat.slice_mut(s![1.., 1..]).diag_mut().iter_mut() { *p = inv(p) }] *)
Definition diag1_map {B} (inv : B -> B) (m : nat) (mat : list (list B)) : res (list (list B)) :=
  assertb (1 <=? m) ;;
  for_each (range 1 m) (fun i mat => let* p := mrd mat i i in mwr mat i i (inv p)) mat.

(** r2c.rs:133-143, c2c.rs:139-149 *)
Definition f_diffmat_pinv (m : nat) (wavenum : res (list (cplx A))) (deriv : nat)
  : res (list (list (cplx A)) * list (list (cplx A))) :=
  assertb (0 <? deriv) ;;
  assertb (1 <=? m) ;;
  let peye := skipn 1 (eye (N := num_cplx) m) in
  let* pinv := f_diffmat m wavenum deriv in
  let* pinv := diag1_map (cdiv c1) m pinv in
  Ok (pinv, peye).

(** r2c.rs:165-172, c2c.rs:171-178 *)
Definition f_laplacian (m : nat) (wavenum : res (list (cplx A))) : res (list (list A)) :=
  let* wn := wavenum in
  diag_zip (fun k => Ok (nmul (nopp (snd k)) (snd k))) (mzeros n0 m m) wn.

(** r2c.rs:183-190, c2c.rs:189-196 *)
Definition f_laplacian_pinv (m : nat) (wavenum : res (list (cplx A))) : res (list (list A) * list (list A)) :=
  let* d := f_laplacian m wavenum in
  let* d := diag1_map (ndiv n1) m d in
  Ok (d, skipn 1 (eye m)).

(** ** FourierR2c *)
(** r2c.rs:19-28 *)
Record r2c := mk_r2c { r_n : nat; r_m : nat }.
(** r2c.rs:33-41 *)
Definition r2c_new (n : nat) : res r2c := assertb (1 <=? n) ;; Ok (mk_r2c n (n / 2 + 1)).
(** r2c.rs:68-81 *)
Definition r2c_len_phys (f : r2c) := r_n f.
(** fourier/r2c.rs:74-76 *)
Definition r2c_len_spec (f : r2c) := r_m f.
(** fourier/r2c.rs:78-80 *)
Definition r2c_len_orth (f : r2c) := r_m f.
(** r2c.rs:98-100 *)
Definition r2c_coords {Tr : Trig A} {C : Ceil A} (f : r2c) : list A := fourier_nodes (r2c_len_phys f).
(** r2c.rs:61-65 *)
Definition r2c_wavenumber (n : nat) : res (list (cplx A)) := Ok (map ik (seq 0 (n / 2 + 1))).
(** fourier/r2c.rs:113-121 *)
Definition r2c_diffmat (f : r2c) (deriv : nat) := f_diffmat (r2c_len_spec f) (r2c_wavenumber (r2c_len_phys f)) deriv.
(** fourier/r2c.rs:134-144 *)
Definition r2c_diffmat_pinv (f : r2c) (deriv : nat) :=
  f_diffmat_pinv (r_m f) (r2c_wavenumber (r2c_len_phys f)) deriv.
(** r2c.rs:150-157 *)
Definition r2c_stencil (f : r2c) : list (list A) := eye (r2c_len_spec f).
(** fourier/r2c.rs:156-158 *)
Definition r2c_stencil_inv (f : r2c) : list (list A) := eye (r2c_len_spec f).
(** fourier/r2c.rs:166-173 *)
Definition r2c_laplacian (f : r2c) := f_laplacian (r_m f) (r2c_wavenumber (r2c_len_phys f)).
(** fourier/r2c.rs:183-190 *)
Definition r2c_laplacian_pinv (f : r2c) := f_laplacian_pinv (r_m f) (r2c_wavenumber (r2c_len_phys f)).

(** r2c.rs:241-252, c2c.rs:254-265 *)
Definition f_to_ortho {T} (indata outdata : list T) : res (list T) := Ok (zip_write outdata indata).
(** fourier/r2c.rs:248-252, fourier/c2c.rs:261-265 *)
Definition f_from_ortho {T} (indata outdata : list T) : res (list T) := Ok (zip_write outdata indata).

(** [*y = *y * ki] at index i *)
Definition mul_at (out : list (cplx A)) (i : nat) (k : cplx A) : res (list (cplx A)) :=
  let* y := rd Checked out i in wr Checked out i (cmul y k).

(** r2c.rs:218-232 *)
Definition r2c_gradient (f : r2c) (indata outdata : list (cplx A)) (n_times : nat) : res (list (cplx A)) :=
  assertb (length outdata =? length indata) ;;
  assertb (length outdata =? r2c_len_spec f) ;;
  for_each (range 0 n_times) (fun _ out =>
    for_each (range 0 (length out)) (fun k out => mul_at out k (ik k)) out)
    (zip_write outdata indata).

(** r2c.rs:279-289 *)
Definition r2c_forward {Tr : Trig A} (f : r2c) (indata : list A) (outdata : list (cplx A)) : res (list (cplx A)) :=
  assertb (length indata =? r2c_len_phys f) ;;
  assertb (length outdata =? r2c_len_spec f) ;;
  process_r2c (r_n f) (zip_write (repeat n0 (length indata)) indata) outdata.

(** [indata_mut[i].im = 0] *)
Definition zero_im (c : list (cplx A)) (i : nat) : res (list (cplx A)) :=
  let* x := rd Checked c i in wr Checked c i (fst x, n0).

(** r2c.rs:310-328 *)
Definition r2c_backward {Tr : Trig A} {Z0 : EqZ A} (f : r2c) (indata : list (cplx A)) (outdata : list A) : res (list A) :=
  assertb (length indata =? r2c_len_spec f) ;;
  assertb (length outdata =? r2c_len_phys f) ;;
  let cor := ndiv n1 (nofN (r2c_len_phys f)) in
  let c := zip_write (repeat c0 (length indata))
             (map (fun b => (nmul cor (fst b), nmul cor (snd b))) indata) in
  let* c := zero_im c 0 in
  let* c := (if r_n f mod 2 =? 0 then let* m1 := usub (r_m f) 1 in zero_im c m1 else Ok c) in
  process_c2r (r_n f) c outdata.

(** ** FourierC2c *)
(** c2c.rs:17-26 *)
Record c2c := mk_c2c { cc_n : nat; cc_m : nat }.
(** c2c.rs:31-39 *)
Definition c2c_new (n : nat) : res c2c := assertb (1 <=? n) ;; Ok (mk_c2c n n).
(** c2c.rs:74-87 *)
Definition c2c_len_phys (f : c2c) := cc_n f.
(** fourier/c2c.rs:80-82 *)
Definition c2c_len_spec (f : c2c) := cc_m f.
(** fourier/c2c.rs:84-86 *)
Definition c2c_len_orth (f : c2c) := cc_m f.
(** c2c.rs:104-106 *)
Definition c2c_coords {Tr : Trig A} {C : Ceil A} (f : c2c) : list A := fourier_nodes (c2c_len_phys f).

(** c2c.rs:61-71.  [iter_mut().take(n2).enumerate()] visits (i, i),
    [iter_mut().rev().take(n/2).enumerate()] visits (i, n-1-i). *)
Definition c2c_wavenumber (n : nat) : res (list (cplx A)) :=
  let* n1' := usub n 1 in
  let n2 := n1' / 2 + 1 in
  let k := repeat c0 n in
  let* k := for_each (range 0 (min n2 n)) (fun i k =>
      let* x := rd Checked k i in wr Checked k i (fst x, nofN i)) k in
  for_each (range 0 (min (n / 2) n)) (fun i k =>
      let* x := rd Checked k (n - 1 - i) in
      wr Checked k (n - 1 - i) (fst x, nofZ (- Z.of_nat (i + 1))%Z)) k.
(** fourier/c2c.rs:119-127 *)
Definition c2c_diffmat (f : c2c) (deriv : nat) := f_diffmat (c2c_len_spec f) (c2c_wavenumber (c2c_len_phys f)) deriv.
(** fourier/c2c.rs:140-150 *)
Definition c2c_diffmat_pinv (f : c2c) (deriv : nat) :=
  f_diffmat_pinv (cc_m f) (c2c_wavenumber (c2c_len_phys f)) deriv.
(** c2c.rs:156-163 *)
Definition c2c_stencil (f : c2c) : list (list A) := eye (c2c_len_spec f).
(** fourier/c2c.rs:163-165 *)
Definition c2c_stencil_inv (f : c2c) : list (list A) := eye (c2c_len_spec f).
(** fourier/c2c.rs:173-180 *)
Definition c2c_laplacian (f : c2c) := f_laplacian (cc_m f) (c2c_wavenumber (c2c_len_phys f)).
(** fourier/c2c.rs:190-197 *)
Definition c2c_laplacian_pinv (f : c2c) := f_laplacian_pinv (cc_m f) (c2c_wavenumber (c2c_len_phys f)).

(** One pass of c2c.rs:233-242: note that the second half multiplies by
    +i*k with k counted from 0. *)
Definition c2c_grad_once (n : nat) (out : list (cplx A)) : res (list (cplx A)) :=
  let* n1' := usub n 1 in
  let n2 := n1' / 2 + 1 in
  let* out := for_each (range 0 (min n2 (length out))) (fun k out => mul_at out k (ik k)) out in
  for_each (range 0 (min (n / 2) (length out))) (fun k out =>
    mul_at out (length out - 1 - k) (ik k)) out.

(** c2c.rs:224-244 *)
Definition c2c_gradient (f : c2c) (indata outdata : list (cplx A)) (n_times : nat) : res (list (cplx A)) :=
  assertb (length outdata =? length indata) ;;
  assertb (length outdata =? c2c_len_spec f) ;;
  let* _ := usub (c2c_len_spec f) 1 in
  for_each (range 0 n_times) (fun _ out => c2c_grad_once (c2c_len_spec f) out) (zip_write outdata indata).

(** c2c.rs:298-307 *)
Definition c2c_forward {Tr : Trig A} (f : c2c) (indata outdata : list (cplx A)) : res (list (cplx A)) :=
  assertb (length indata =? c2c_len_phys f) ;;
  assertb (length outdata =? c2c_len_spec f) ;;
  process_fft false (cc_n f) (zip_write outdata indata).

(** c2c.rs:334-345 *)
Definition c2c_backward {Tr : Trig A} (f : c2c) (indata outdata : list (cplx A)) : res (list (cplx A)) :=
  assertb (length indata =? c2c_len_spec f) ;;
  assertb (length outdata =? c2c_len_phys f) ;;
  let cor := ndiv n1 (nofN (c2c_len_phys f)) in
  process_fft true (cc_n f)
    (zip_write outdata (map (fun b => (nmul cor (fst b), nmul cor (snd b))) indata)).
End Fourier.
