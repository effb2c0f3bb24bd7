(** The transforms over an arbitrary arithmetic and arbitrary transform
    libraries: Cheb.v, Compo.v, Fourier.v and Bases.v model rustdct, rustfft and
    realfft by the sums they document; here they are any functions that respect
    the lengths of their buffers (so in particular any rounding, any algorithm).
    The definitions are those of the files named, with the library call replaced;
    [ExtFacts.v] proves that the documented sums give back the same programs. *)
From Coq Require Import List Arith ZArith Bool.
From Verif Require Import Base Num Linalg Stencils Cheb Compo Fourier Bases.
Import ListNotations.

(** What the planned transforms compute (external: rustdct [Dct1], rustfft
    [Fft], realfft [RealToComplex], [ComplexToReal]): the new contents of the
    output buffer, as a function of the size of the plan and of the contents of
    the input buffer ([x_fft true] is the inverse). *)
Record ext (A : Type) := mk_ext {
  x_dct1 : nat -> list A -> list A;
  x_fft : bool -> nat -> list (cplx A) -> list (cplx A);
  x_r2c : nat -> list A -> list (cplx A);
  x_c2r : nat -> list (cplx A) -> list A
}.
Arguments mk_ext {A}. Arguments x_dct1 {A}. Arguments x_fft {A}. Arguments x_r2c {A}. Arguments x_c2r {A}.
(** The only thing assumed of them: they fill buffers of the planned lengths. *)
Definition ext_ok {A} (E : ext A) : Prop :=
  (forall n x, length x = n -> length (x_dct1 E n x) = n) /\
  (forall inv n x, length x = n -> length (x_fft E inv n x) = n) /\
  (forall n x, 1 <= n -> length x = n -> length (x_r2c E n x) = n / 2 + 1) /\
  (forall n x, 1 <= n -> length x = n / 2 + 1 -> length (x_c2r E n x) = n).

Section Ext.
Context {A : Type} {N : Num A} (E : ext A).

(** wrong lengths panic, as in Cheb.process_dct1 and Fourier.process_* *)
Definition process_dct1_x (n : nat) (x : list A) : res (list A) := assertb (length x =? n) ;; Ok (x_dct1 E n x).
(** rustfft [Fft::process] (external) *)
Definition process_fft_x (inverse : bool) (n : nat) (x : list (cplx A)) : res (list (cplx A)) :=
  assertb (length x =? n) ;; Ok (x_fft E inverse n x).
(** realfft [RealToComplex::process] (external) *)
Definition process_r2c_x (n : nat) (x : list A) (out : list (cplx A)) : res (list (cplx A)) :=
  assertb (length x =? n) ;; assertb (length out =? n / 2 + 1) ;; Ok (x_r2c E n x).
(** realfft's documented check of the imaginary parts; the caller unwraps its [Err] *)
Definition process_c2r_x {Z0 : EqZ A} (n : nat) (c : list (cplx A)) (out : list A) : res (list A) :=
  assertb (length c =? n / 2 + 1) ;; assertb (length out =? n) ;;
  assertb (is0 (snd c.[0])) ;;
  (if n mod 2 =? 0 then assertb (is0 (snd c.[n / 2])) else Ok tt) ;;
  Ok (x_c2r E n c).

(** ortho.rs:431-450 *)
Definition cheb_forward_x (c : cheb) (indata outdata : list A) : res (list A) :=
  assertb (length indata =? cheb_len_phys c) ;;
  assertb (length indata =? length outdata) ;;
  let* nm1 := usub (c_n c) 1 in
  let cor := ndiv (nmul (nadd n1 n1) n1) (nofN nm1) in
  let out := zip_write outdata (map (fun x => nmul x cor) (rev indata)) in
  let* out := process_dct1_x (c_n c) out in
  let half := ndiv n1 (nofZ 2%Z) in
  let* out := scale_at out 0 half in
  scale_at out nm1 half.

(** ortho.rs:452-473 *)
Definition cheb_backward_x (c : cheb) (indata outdata : list A) : res (list A) :=
  assertb (length indata =? cheb_len_spec c) ;;
  assertb (length indata =? length outdata) ;;
  let two := nadd n1 n1 in
  let out := zip_write outdata
    (map (fun ix : nat * A => if fst ix mod 2 =? 0 then snd ix else nmul (snd ix) (nopp n1))
         (combine (seq 0 (length indata)) indata)) in
  let* out := scale_at out 0 two in
  let* mm1 := usub (c_m c) 1 in
  let* out := scale_at out mm1 two in
  process_dct1_x (c_n c) out.

(** compo.rs:276-292 *)
Definition compo_forward_x (c : compo A) (indata outdata : list A) : res (list A) :=
  let scratch := repeat n0 (compo_len_orth c) in
  let* scratch := cheb_forward_x (p_ortho c) indata scratch in
  compo_from_ortho (V := vec_self) c scratch outdata.
(** chebyshev/compo.rs:287-291 *)
Definition compo_backward_x (c : compo A) (indata outdata : list A) : res (list A) :=
  let scratch := repeat n0 (compo_len_orth c) in
  let* scratch := compo_to_ortho (V := vec_self) c indata scratch in
  cheb_backward_x (p_ortho c) scratch outdata.

(** r2c.rs:279-289 *)
Definition r2c_forward_x (f : r2c) (indata : list A) (outdata : list (cplx A)) : res (list (cplx A)) :=
  assertb (length indata =? r2c_len_phys f) ;;
  assertb (length outdata =? r2c_len_spec f) ;;
  process_r2c_x (r_n f) (zip_write (repeat n0 (length indata)) indata) outdata.

(** r2c.rs:310-328 *)
Definition r2c_backward_x {Z0 : EqZ A} (f : r2c) (indata : list (cplx A)) (outdata : list A) : res (list A) :=
  assertb (length indata =? r2c_len_spec f) ;;
  assertb (length outdata =? r2c_len_phys f) ;;
  let cor := ndiv n1 (nofN (r2c_len_phys f)) in
  let c := zip_write (repeat c0 (length indata))
             (map (fun b => (nmul cor (fst b), nmul cor (snd b))) indata) in
  let* c := zero_im c 0 in
  let* c := (if r_n f mod 2 =? 0 then let* m1 := usub (r_m f) 1 in zero_im c m1 else Ok c) in
  process_c2r_x (r_n f) c outdata.

(** c2c.rs:298-307 *)
Definition c2c_forward_x (f : c2c) (indata outdata : list (cplx A)) : res (list (cplx A)) :=
  assertb (length indata =? c2c_len_phys f) ;;
  assertb (length outdata =? c2c_len_spec f) ;;
  process_fft_x false (cc_n f) (zip_write outdata indata).

(** c2c.rs:334-345 *)
Definition c2c_backward_x (f : c2c) (indata outdata : list (cplx A)) : res (list (cplx A)) :=
  assertb (length indata =? c2c_len_spec f) ;;
  assertb (length outdata =? c2c_len_phys f) ;;
  let cor := ndiv n1 (nofN (c2c_len_phys f)) in
  process_fft_x true (cc_n f)
    (zip_write outdata (map (fun b => (nmul cor (fst b), nmul cor (snd b))) indata)).

(** internal_macros.rs: dispatch of the enum methods to the variants *)
Definition r2r_ops_x {T} {V : Vec A T} (b : base_r2r A) : base_ops A A T :=
  match b with
  | BChebyshev c => mk_base (cheb_len_phys c) (cheb_len_spec c) (cheb_len_orth c)
      (cheb_forward_x c) (cheb_backward_x c) (cheb_to_ortho c) (cheb_from_ortho c) (cheb_gradient (A := A) c)
  | BChebyshevComposite c => mk_base (compo_len_phys c) (compo_len_spec c) (compo_len_orth c)
      (compo_forward_x c) (compo_backward_x c) (compo_to_ortho c) (compo_from_ortho c) (compo_gradient c)
  end.
(** enums.rs:21-26, internal_macros.rs *)
Definition r2c_ops_x {Z0 : EqZ A} (f : r2c) : base_ops A (cplx A) (cplx A) :=
  mk_base (r2c_len_phys f) (r2c_len_spec f) (r2c_len_orth f)
    (r2c_forward_x f) (r2c_backward_x f) f_to_ortho f_from_ortho (r2c_gradient f).
(** enums.rs:28-33, internal_macros.rs *)
Definition c2c_ops_x (f : c2c) : base_ops (cplx A) (cplx A) (cplx A) :=
  mk_base (c2c_len_phys f) (c2c_len_spec f) (c2c_len_orth f)
    (c2c_forward_x f) (c2c_backward_x f) f_to_ortho f_from_ortho (c2c_gradient f).
End Ext.

(** The libraries as documented (Cheb.v, Fourier.v) *)
Definition documented {A} {N : Num A} {Tr : Trig A} : ext A :=
  mk_ext dct1 fft (fun n x => firstn (n / 2 + 1) (fft false n (map (fun a => (a, n0)) x)))
    (fun n c => map fst (fft true n (hermitian n c))).
