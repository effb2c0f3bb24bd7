(** Model of space/space1.rs, space/space2.rs, space/space3.rs and the default
    methods of space/traits.rs. A space is a tuple of bases; the element types
    P (physical) -> ... -> S (spectral) chain as the macro instantiations
    require (space1.rs:408-410, space2.rs:449-452, space3.rs:508-512): the last
    base maps P to the intermediate type, the first one yields S. T is the
    element type of to_ortho/from_ortho/gradient.

    Space2Mpi (space_mpi/space2.rs:71-465) instantiates for its serial methods a
    macro whose text is, line by line, that of space2.rs:58-452: the [s2_*]
    definitions below model those methods too.

    The static dimension Ix1/Ix2/Ix3 of the Rust signatures is not enforced by
    the type [arr]; theorems assume the shape has the right length. *)
From Coq Require Import List Arith Lia Bool ZArith.
From Verif Require Import Base Num Fourier NdArray Bases.
Import ListNotations.

(** [deriv as i32]: truncation to 32 bits, two's complement. *)
Definition as_i32 (d : nat) : Z := ((Z.of_nat d + 2147483648) mod 4294967296 - 2147483648)%Z.
(** [x.powi(z)] on a real number. *)
Fixpoint npow {A} {N : Num A} (x : A) (d : nat) : A := match d with 0 => n1 | S d => nmul x (npow x d) end.
(** [x.powi(z)] of a floating point number (Rust standard library), as in space/space1.rs:213, space/space2.rs:245, space/space3.rs:289-291 *)
Definition npowi {A} {N : Num A} (x : A) (z : Z) : A :=
  if (0 <=? z)%Z then npow x (Z.to_nat z) else ndiv n1 (npow x (Z.to_nat (- z))).

(** [let sc: T = a.into(); x /= sc] *)
Class DivInto (A T : Type) := div_into : T -> A -> T.
(** T = A *)
#[export] Instance div_real {A} {N : Num A} : DivInto A A := fun x a => ndiv x a.
(** T = Complex<A>: the divisor becomes a + 0i *)
#[export] Instance div_cplx {A} {N : Num A} : DivInto A (cplx A) := fun x a => cdiv x (a, n0).
(** [for x in output.iter_mut() { *x /= sc }] *)
Definition scale_arr {A T} {D : DivInto A T} (o : arr T) (sc : A) : arr T :=
  mk_arr (shp o) (std o) (map (fun x => div_into x sc) (dat o)).

Section Space1.
Context {A P S T : Type} {N : Num A} {D : DivInto A T} {dP : Dflt P} {dS : Dflt S} {dT : Dflt T}.
(** space1.rs:36-52 *)
Record space1 := mk_space1 { s1_base0 : base_ops P S T }.
Variables (zo : zip_order) (sp : space1).
(** space1.rs:60-71 *)
Definition s1_shape_physical := [len_phys (s1_base0 sp)].
(** space/space1.rs:64-66 *)
Definition s1_shape_spectral := [len_spec (s1_base0 sp)].
(** space/space1.rs:68-70 *)
Definition s1_shape_spectral_ortho := [len_orth (s1_base0 sp)].
(** space1.rs:192-230 *)
Definition s1_gradient (i : arr T) (deriv : nat) (scale : option A) : res (arr T) :=
  let* out := gradient zo (s1_base0 sp) i deriv 0 in
  Ok (match scale with Some s => scale_arr out (npowi s (as_i32 deriv)) | None => out end).
(** space1.rs:252-281, 330-359 *)
Definition s1_to_ortho_inplace (i o : arr T) := to_ortho_inplace zo (s1_base0 sp) i o 0.
(** space/space1.rs:283-292 *)
Definition s1_from_ortho_inplace (i o : arr T) := from_ortho_inplace zo (s1_base0 sp) i o 0.
(** space/space1.rs:344-353 *)
Definition s1_forward_inplace (i : arr P) (o : arr S) := forward_inplace zo (s1_base0 sp) i o 0.
(** space/space1.rs:361-370 *)
Definition s1_backward_inplace (i : arr S) (o : arr P) := backward_inplace zo (s1_base0 sp) i o 0.
(** space/traits.rs:138-148, 170-178, 316-327, 352-363 *)
Definition s1_to_ortho (i : arr T) := s1_to_ortho_inplace i (azeros dflt s1_shape_spectral_ortho).
(** space/traits.rs:172-179 *)
Definition s1_from_ortho (i : arr T) := s1_from_ortho_inplace i (azeros dflt s1_shape_spectral).
(** space/traits.rs:319-329 *)
Definition s1_forward (i : arr P) := s1_forward_inplace i (azeros dflt s1_shape_spectral).
(** space/traits.rs:351-361 *)
Definition s1_backward (i : arr S) := s1_backward_inplace i (azeros dflt s1_shape_physical).
(** space/traits.rs:304-311 [ndarray_physical], [ndarray_spectral] *)
Definition s1_ndarray_physical : arr P := azeros dflt s1_shape_physical.
(** space/traits.rs:309-311 *)
Definition s1_ndarray_spectral : arr S := azeros dflt s1_shape_spectral.

(** Parallel variants (space1.rs:227-245, 300-328, 378-406; traits.rs:200-234,
    383-425) as sets of outcomes. *)
Variable im0 : base_impl P S T.
(** space/space1.rs:227-244 *)
Definition s1_gradient_par (i : arr T) (deriv : nat) (scale : option A) (r : res (arr T)) : Prop :=
  par_then (gradient_par im0 (s1_base0 sp) i deriv 0) (fun out r =>
    r = Ok (match scale with Some s => scale_arr out (npowi s (as_i32 deriv)) | None => out end)) r.
(** space/space1.rs:300-309 *)
Definition s1_to_ortho_inplace_par (i o : arr T) := to_ortho_inplace_par im0 (s1_base0 sp) i o 0.
(** space/space1.rs:317-326 *)
Definition s1_from_ortho_inplace_par (i o : arr T) := from_ortho_inplace_par im0 (s1_base0 sp) i o 0.
(** space/space1.rs:378-387 *)
Definition s1_forward_inplace_par (i : arr P) (o : arr S) := forward_inplace_par im0 (s1_base0 sp) i o 0.
(** space/space1.rs:395-404 *)
Definition s1_backward_inplace_par (i : arr S) (o : arr P) := backward_inplace_par im0 (s1_base0 sp) i o 0.
(** space/traits.rs:200-207 *)
Definition s1_to_ortho_par (i : arr T) := s1_to_ortho_inplace_par i (azeros dflt s1_shape_spectral_ortho).
(** space/traits.rs:228-235 *)
Definition s1_from_ortho_par (i : arr T) := s1_from_ortho_inplace_par i (azeros dflt s1_shape_spectral).
(** space/traits.rs:383-393 *)
Definition s1_forward_par (i : arr P) := s1_forward_inplace_par i (azeros dflt s1_shape_spectral).
(** space/traits.rs:415-425 *)
Definition s1_backward_par (i : arr S) := s1_backward_inplace_par i (azeros dflt s1_shape_physical).
End Space1.
Arguments space1 : clear implicits.

Section Space2.
Context {A P I S T : Type} {N : Num A} {D : DivInto A T} {dP : Dflt P} {dI : Dflt I} {dS : Dflt S} {dT : Dflt T}.
(** space2.rs:35-57 *)
Record space2 := mk_space2 { s2_base0 : base_ops I S T; s2_base1 : base_ops P I T }.
Variables (zo : zip_order) (sp : space2).
Notation b0 := (s2_base0 sp). Notation b1 := (s2_base1 sp).
(** space2.rs:65-75 *)
Definition s2_shape_physical := [len_phys b0; len_phys b1].
(** space/space2.rs:68-70 *)
Definition s2_shape_spectral := [len_spec b0; len_spec b1].
(** space/space2.rs:72-74 *)
Definition s2_shape_spectral_ortho := [len_orth b0; len_orth b1].
(** space2.rs:224-243 *)
Definition s2_scale (d0 d1 : nat) (scale : option (A * A)) (out : arr T) : arr T :=
  match scale with
  | Some (s0, s1) => scale_arr out (nmul (npowi s0 (as_i32 d0)) (npowi s1 (as_i32 d1)))
  | None => out
  end.
(** space/space2.rs:233-251 *)
Definition s2_gradient (i : arr T) (d0 d1 : nat) (scale : option (A * A)) : res (arr T) :=
  let* buffer := gradient zo b0 i d0 0 in
  let* output := gradient zo b1 buffer d1 1 in
  Ok (s2_scale d0 d1 scale output).
(** space2.rs:293-323 *)
Definition s2_to_ortho_inplace (i o : arr T) : res (arr T) :=
  let* buffer := to_ortho zo b0 i 0 in to_ortho_inplace zo b1 buffer o 1.
(** space/space2.rs:317-327 *)
Definition s2_from_ortho_inplace (i o : arr T) : res (arr T) :=
  let* buffer := from_ortho zo b0 i 0 in from_ortho_inplace zo b1 buffer o 1.
(** space2.rs:374-406 *)
Definition s2_forward_inplace (i : arr P) (o : arr S) : res (arr S) :=
  let* buffer := forward zo b1 i 1 in forward_inplace zo b0 buffer o 0.
(** space/space2.rs:399-409 *)
Definition s2_backward_inplace (i : arr S) (o : arr P) : res (arr P) :=
  let* buffer := backward zo b0 i 0 in backward_inplace zo b1 buffer o 1.
(** space/traits.rs:138-148, 170-178, 316-327, 352-363 *)
Definition s2_to_ortho (i : arr T) := s2_to_ortho_inplace i (azeros dflt s2_shape_spectral_ortho).
(** space/traits.rs:172-179 *)
Definition s2_from_ortho (i : arr T) := s2_from_ortho_inplace i (azeros dflt s2_shape_spectral).
(** space/traits.rs:319-329 *)
Definition s2_forward (i : arr P) := s2_forward_inplace i (azeros dflt s2_shape_spectral).
(** space/traits.rs:351-361 *)
Definition s2_backward (i : arr S) := s2_backward_inplace i (azeros dflt s2_shape_physical).
(** space/traits.rs:304-311 *)
Definition s2_ndarray_physical : arr P := azeros dflt s2_shape_physical.
(** space/traits.rs:309-311 *)
Definition s2_ndarray_spectral : arr S := azeros dflt s2_shape_spectral.

(** Parallel variants (space2.rs:251-270, 331-361, 414-446; traits.rs:201-228,
    376-423) as sets of outcomes. *)
Variables (im0 : base_impl I S T) (im1 : base_impl P I T).
(** space/space2.rs:259-277 *)
Definition s2_gradient_par (i : arr T) (d0 d1 : nat) (scale : option (A * A)) (r : res (arr T)) : Prop :=
  par_then (gradient_par im0 b0 i d0 0) (fun buffer =>
  par_then (gradient_par im1 b1 buffer d1 1) (fun output r => r = Ok (s2_scale d0 d1 scale output))) r.
(** space/space2.rs:335-345 *)
Definition s2_to_ortho_inplace_par (i o : arr T) : res (arr T) -> Prop :=
  par_then (to_ortho_par im0 b0 i 0) (fun buffer => to_ortho_inplace_par im1 b1 buffer o 1).
(** space/space2.rs:353-363 *)
Definition s2_from_ortho_inplace_par (i o : arr T) : res (arr T) -> Prop :=
  par_then (from_ortho_par im0 b0 i 0) (fun buffer => from_ortho_inplace_par im1 b1 buffer o 1).
(** space/space2.rs:417-427 *)
Definition s2_forward_inplace_par (i : arr P) (o : arr S) : res (arr S) -> Prop :=
  par_then (forward_par im1 b1 i 1) (fun buffer => forward_inplace_par im0 b0 buffer o 0).
(** space/space2.rs:435-445 *)
Definition s2_backward_inplace_par (i : arr S) (o : arr P) : res (arr P) -> Prop :=
  par_then (backward_par im0 b0 i 0) (fun buffer => backward_inplace_par im1 b1 buffer o 1).
(** space/traits.rs:200-207 *)
Definition s2_to_ortho_par (i : arr T) := s2_to_ortho_inplace_par i (azeros dflt s2_shape_spectral_ortho).
(** space/traits.rs:228-235 *)
Definition s2_from_ortho_par (i : arr T) := s2_from_ortho_inplace_par i (azeros dflt s2_shape_spectral).
(** space/traits.rs:383-393 *)
Definition s2_forward_par (i : arr P) := s2_forward_inplace_par i (azeros dflt s2_shape_spectral).
(** space/traits.rs:415-425 *)
Definition s2_backward_par (i : arr S) := s2_backward_inplace_par i (azeros dflt s2_shape_physical).
End Space2.
Arguments space2 : clear implicits.

Section Space3.
Context {A P I J S T : Type} {N : Num A} {D : DivInto A T}
  {dP : Dflt P} {dI : Dflt I} {dJ : Dflt J} {dS : Dflt S} {dT : Dflt T}.
(** space3.rs:37-62 *)
Record space3 := mk_space3 { s3_base0 : base_ops J S T; s3_base1 : base_ops I J T; s3_base2 : base_ops P I T }.
Variables (zo : zip_order) (sp : space3).
Notation b0 := (s3_base0 sp). Notation b1 := (s3_base1 sp). Notation b2 := (s3_base2 sp).
(** space3.rs:70-92 *)
Definition s3_shape_physical := [len_phys b0; len_phys b1; len_phys b2].
(** space/space3.rs:78-84 *)
Definition s3_shape_spectral := [len_spec b0; len_spec b1; len_spec b2].
(** space/space3.rs:86-92 *)
Definition s3_shape_spectral_ortho := [len_orth b0; len_orth b1; len_orth b2].
(** space3.rs:266-289. The third step calls [self.base1], not [self.base2]. *)
Definition s3_scale (d0 d1 d2 : nat) (scale : option (A * A * A)) (out : arr T) : arr T :=
  match scale with
  | Some (s0, s1, s2) =>
      scale_arr out (nmul (nmul (npowi s0 (as_i32 d0)) (npowi s1 (as_i32 d1))) (npowi s2 (as_i32 d2)))
  | None => out
  end.
(** space/space3.rs:276-298 *)
Definition s3_gradient (i : arr T) (d0 d1 d2 : nat) (scale : option (A * A * A)) : res (arr T) :=
  let* buffer1 := gradient zo b0 i d0 0 in
  let* buffer2 := gradient zo b1 buffer1 d1 1 in
  let* output := gradient zo b1 buffer2 d2 2 in
  Ok (s3_scale d0 d1 d2 scale output).
(** space3.rs:343-375 *)
Definition s3_to_ortho_inplace (i o : arr T) : res (arr T) :=
  let* buffer1 := to_ortho zo b0 i 0 in
  let* buffer2 := to_ortho zo b1 buffer1 1 in
  to_ortho_inplace zo b2 buffer2 o 2.
(** space/space3.rs:369-380 *)
Definition s3_from_ortho_inplace (i o : arr T) : res (arr T) :=
  let* buffer1 := from_ortho zo b0 i 0 in
  let* buffer2 := from_ortho zo b1 buffer1 1 in
  from_ortho_inplace zo b2 buffer2 o 2.
(** space3.rs:430-464 *)
Definition s3_forward_inplace (i : arr P) (o : arr S) : res (arr S) :=
  let* buffer1 := forward zo b2 i 2 in
  let* buffer2 := forward zo b1 buffer1 1 in
  forward_inplace zo b0 buffer2 o 0.
(** space/space3.rs:455-466 *)
Definition s3_backward_inplace (i : arr S) (o : arr P) : res (arr P) :=
  let* buffer1 := backward zo b0 i 0 in
  let* buffer2 := backward zo b1 buffer1 1 in
  backward_inplace zo b2 buffer2 o 2.
(** space/traits.rs:143-151 *)
Definition s3_to_ortho (i : arr T) := s3_to_ortho_inplace i (azeros dflt s3_shape_spectral_ortho).
(** space/traits.rs:172-179 *)
Definition s3_from_ortho (i : arr T) := s3_from_ortho_inplace i (azeros dflt s3_shape_spectral).
(** space/traits.rs:319-329 *)
Definition s3_forward (i : arr P) := s3_forward_inplace i (azeros dflt s3_shape_spectral).
(** space/traits.rs:351-361 *)
Definition s3_backward (i : arr S) := s3_backward_inplace i (azeros dflt s3_shape_physical).
(** space/traits.rs:304-311 *)
Definition s3_ndarray_physical : arr P := azeros dflt s3_shape_physical.
(** space/traits.rs:309-311 *)
Definition s3_ndarray_spectral : arr S := azeros dflt s3_shape_spectral.

(** Parallel variants (space3.rs:297-320, 383-415, 472-504). *)
Variables (im0 : base_impl J S T) (im1 : base_impl I J T) (im2 : base_impl P I T).
(** space/space3.rs:306-328 *)
Definition s3_gradient_par (i : arr T) (d0 d1 d2 : nat) (scale : option (A * A * A)) (r : res (arr T)) : Prop :=
  par_then (gradient_par im0 b0 i d0 0) (fun buffer1 =>
  par_then (gradient_par im1 b1 buffer1 d1 1) (fun buffer2 =>
  par_then (gradient_par im1 b1 buffer2 d2 2) (fun output r => r = Ok (s3_scale d0 d1 d2 scale output)))) r.
(** space/space3.rs:388-399 *)
Definition s3_to_ortho_inplace_par (i o : arr T) : res (arr T) -> Prop :=
  par_then (to_ortho_par im0 b0 i 0) (fun buffer1 =>
  par_then (to_ortho_par im1 b1 buffer1 1) (fun buffer2 => to_ortho_inplace_par im2 b2 buffer2 o 2)).
(** space/space3.rs:407-418 *)
Definition s3_from_ortho_inplace_par (i o : arr T) : res (arr T) -> Prop :=
  par_then (from_ortho_par im0 b0 i 0) (fun buffer1 =>
  par_then (from_ortho_par im1 b1 buffer1 1) (fun buffer2 => from_ortho_inplace_par im2 b2 buffer2 o 2)).
(** space/space3.rs:474-485 *)
Definition s3_forward_inplace_par (i : arr P) (o : arr S) : res (arr S) -> Prop :=
  par_then (forward_par im2 b2 i 2) (fun buffer1 =>
  par_then (forward_par im1 b1 buffer1 1) (fun buffer2 => forward_inplace_par im0 b0 buffer2 o 0)).
(** space/space3.rs:493-504 *)
Definition s3_backward_inplace_par (i : arr S) (o : arr P) : res (arr P) -> Prop :=
  par_then (backward_par im0 b0 i 0) (fun buffer1 =>
  par_then (backward_par im1 b1 buffer1 1) (fun buffer2 => backward_inplace_par im2 b2 buffer2 o 2)).
(** space/traits.rs:201-228, 376-423 *)
Definition s3_to_ortho_par (i : arr T) := s3_to_ortho_inplace_par i (azeros dflt s3_shape_spectral_ortho).
(** space/traits.rs:228-235 *)
Definition s3_from_ortho_par (i : arr T) := s3_from_ortho_inplace_par i (azeros dflt s3_shape_spectral).
(** space/traits.rs:383-393 *)
Definition s3_forward_par (i : arr P) := s3_forward_inplace_par i (azeros dflt s3_shape_spectral).
(** space/traits.rs:415-425 *)
Definition s3_backward_par (i : arr S) := s3_backward_inplace_par i (azeros dflt s3_shape_physical).
End Space3.
Arguments space3 : clear implicits.

(** Accessors that select a base by axis (coords_axis, base_kind,
    transform_kind, stencil, stencil_inv, laplacian, laplacian_pinv):
    space1.rs:86-175 ignore the axis, space2.rs:98-208 test only axis == 0,
    space3.rs:119-244 assert axis <= 2. [x0 x1 x2] are the values of the
    corresponding method on the bases. *)
Definition s1_axis {X} (x0 : X) (axis : nat) : res X := Ok x0.
(** space/space2.rs:97-209, the [if axis == 0] of the accessors *)
Definition s2_axis {X} (x0 x1 : X) (axis : nat) : res X := Ok (if axis =? 0 then x0 else x1).
(** space/space3.rs:119-253, the [match axis] of the accessors *)
Definition s3_axis {X} (x0 x1 x2 : X) (axis : nat) : res X :=
  assertb (axis <=? 2) ;;
  Ok (if axis =? 0 then x0 else if axis =? 1 then x1 else x2).
