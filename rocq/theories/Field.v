(** Model of examples/field.rs: [FieldBase], a field on a space. *)
From Coq Require Import List Arith Bool ZArith.
From Verif Require Import Base Num Linalg Stencils Cheb Compo Fourier NdArray Bases Space Elements.
Import ListNotations.

(** What FieldBase uses of `S: BaseSpace<A, N>` (field.rs:37); [D] is [usize; N] and
    [Sc] is [A; N].  The parallel methods are sets of outcomes, as in Space.v. *)
Record field_space (A T1 T2 D Sc : Type) := mk_fs {
  fs_ndim : nat; fs_physical : arr T1; fs_spectral : arr T2; fs_coords : res (list (list A));
  fs_forward_inplace_par : arr T1 -> arr T2 -> res (arr T2) -> Prop;
  fs_backward_inplace_par : arr T2 -> arr T1 -> res (arr T1) -> Prop;
  fs_to_ortho_par : arr T2 -> res (arr T2) -> Prop;
  fs_from_ortho_inplace_par : arr T2 -> arr T2 -> res (arr T2) -> Prop;
  fs_gradient_par : arr T2 -> D -> option Sc -> res (arr T2) -> Prop;
  fs_base_kind : nat -> res base_kind; fs_stencil : nat -> res (list (list A));
  fs_laplacian : nat -> res (list (list A)); fs_laplacian_pinv : nat -> res (list (list A) * list (list A)) }.
Arguments mk_fs {A T1 T2 D Sc}. Arguments fs_ndim {A T1 T2 D Sc}. Arguments fs_physical {A T1 T2 D Sc}. Arguments fs_spectral {A T1 T2 D Sc}.
Arguments fs_coords {A T1 T2 D Sc}. Arguments fs_forward_inplace_par {A T1 T2 D Sc}. Arguments fs_backward_inplace_par {A T1 T2 D Sc}.
Arguments fs_to_ortho_par {A T1 T2 D Sc}. Arguments fs_from_ortho_inplace_par {A T1 T2 D Sc}. Arguments fs_gradient_par {A T1 T2 D Sc}.
Arguments fs_base_kind {A T1 T2 D Sc}. Arguments fs_stencil {A T1 T2 D Sc}. Arguments fs_laplacian {A T1 T2 D Sc}. Arguments fs_laplacian_pinv {A T1 T2 D Sc}.

(** The three spaces; [im*] are the parallel implementations of the bases (Bases.v)
    and [e*] the accessors of the same bases (Elements.v). *)
Section Spaces.
Context {A : Type} {N : Num A}.
(** examples/field.rs with Space1 *)
Definition fs1 {P S} {dP : Dflt P} {dS : Dflt S} {DV : DivInto A S} (b0 : base_ops P S S) (im0 : base_impl P S S) (e0 : elems A) : field_space A P S nat A :=
  let sp := mk_space1 b0 in
  mk_fs 1 (s1_ndarray_physical sp) (s1_ndarray_spectral sp) (s1_coords e0)
    (s1_forward_inplace_par sp im0) (s1_backward_inplace_par sp im0) (s1_to_ortho_par sp im0) (s1_from_ortho_inplace_par sp im0) (s1_gradient_par sp im0)
    (s1_base_kind e0) (s1_stencil e0) (s1_laplacian e0) (s1_laplacian_pinv e0).
(** examples/field.rs with Space2 *)
Definition fs2 {P I S} {dP : Dflt P} {dI : Dflt I} {dS : Dflt S} {DV : DivInto A S} (b0 : base_ops I S S) (b1 : base_ops P I S) (im0 : base_impl I S S) (im1 : base_impl P I S)
    (e0 e1 : elems A) : field_space A P S (nat * nat) (A * A) :=
  let sp := mk_space2 b0 b1 in
  mk_fs 2 (s2_ndarray_physical sp) (s2_ndarray_spectral sp) (s2_coords e0 e1)
    (s2_forward_inplace_par sp im0 im1) (s2_backward_inplace_par sp im0 im1) (s2_to_ortho_par sp im0 im1) (s2_from_ortho_inplace_par sp im0 im1)
    (fun i d => s2_gradient_par sp im0 im1 i (fst d) (snd d))
    (s2_base_kind e0 e1) (s2_stencil e0 e1) (s2_laplacian e0 e1) (s2_laplacian_pinv e0 e1).
(** examples/field.rs with Space3 *)
Definition fs3 {P I J S} {dP : Dflt P} {dI : Dflt I} {dJ : Dflt J} {dS : Dflt S} {DV : DivInto A S} (b0 : base_ops J S S) (b1 : base_ops I J S) (b2 : base_ops P I S)
    (im0 : base_impl J S S) (im1 : base_impl I J S) (im2 : base_impl P I S) (e0 e1 e2 : elems A) : field_space A P S (nat * nat * nat) (A * A * A) :=
  let sp := mk_space3 b0 b1 b2 in
  mk_fs 3 (s3_ndarray_physical sp) (s3_ndarray_spectral sp) (s3_coords e0 e1 e2)
    (s3_forward_inplace_par sp im0 im1 im2) (s3_backward_inplace_par sp im0 im1 im2) (s3_to_ortho_par sp im0 im1 im2) (s3_from_ortho_inplace_par sp im0 im1 im2)
    (fun i d => s3_gradient_par sp im0 im1 i (fst (fst d)) (snd (fst d)) (snd d))
    (s3_base_kind e0 e1 e2) (s3_stencil e0 e1 e2) (s3_laplacian e0 e1 e2) (s3_laplacian_pinv e0 e1 e2).
End Spaces.

(** field.rs:7-22; the space is passed separately. *)
Record field A T1 T2 := mk_field { fl_ndim : nat; fl_v : arr T1; fl_vhat : arr T2; fl_x : list (list A); fl_dx : list (list A) }.
Arguments mk_field {A T1 T2}. Arguments fl_ndim {A T1 T2}. Arguments fl_v {A T1 T2}. Arguments fl_vhat {A T1 T2}. Arguments fl_x {A T1 T2}. Arguments fl_dx {A T1 T2}.

Section Field.
Context {A T1 T2 D Sc : Type} {N : Num A}.
Variable fs : field_space A T1 T2 D Sc.

(** One axis of get_dx: field.rs:85-98 *)
Definition dx_axis (x : list A) : res (list A) :=
  let two := nadd n1 n1 in
  for_each (range 0 (length x)) (fun i dx =>
    let* xs_left := (if i =? 0 then rd Checked x 0 else
                       let* a := rd Checked x i in let* b := rd Checked x (i - 1) in Ok (ndiv (nadd a b) two)) in
    let* last := usub (length x) 1 in
    let* xs_right := (if i =? last then rd Checked x last else
                        let* a := rd Checked x (i + 1) in let* b := rd Checked x i in Ok (ndiv (nadd a b) two)) in
    wr Checked dx i (nsub xs_right xs_left)) (repeat n0 (length x)).
(** get_dx: field.rs:81-104 *)
Definition get_dx (ndim : nat) (xs : list (list A)) : res (list (list A)) :=
  let* dxs := for_each xs (fun x dxs => let* dx := dx_axis x in Ok (dxs ++ [dx])) [] in
  assertb (length dxs =? ndim) ;; Ok dxs.

(** new: field.rs:39-48 *)
Definition field_new : res (field A T1 T2) :=
  let* x := fs_coords fs in
  let* x' := fs_coords fs in
  let* dx := get_dx (fs_ndim fs) x' in
  Ok (mk_field (fs_ndim fs) (fs_physical fs) (fs_spectral fs) x dx).

(** forward, backward, to_ortho, from_ortho, gradient: field.rs:51-77 *)
Definition field_forward (f : field A T1 T2) : res (field A T1 T2) -> Prop :=
  par_then (fs_forward_inplace_par fs (fl_v f) (fl_vhat f)) (fun vhat r => r = Ok (mk_field (fl_ndim f) (fl_v f) vhat (fl_x f) (fl_dx f))).
(** examples/field.rs:54-56 *)
Definition field_backward (f : field A T1 T2) : res (field A T1 T2) -> Prop :=
  par_then (fs_backward_inplace_par fs (fl_vhat f) (fl_v f)) (fun v r => r = Ok (mk_field (fl_ndim f) v (fl_vhat f) (fl_x f) (fl_dx f))).
(** examples/field.rs:59-61 *)
Definition field_to_ortho (f : field A T1 T2) : res (arr T2) -> Prop := fs_to_ortho_par fs (fl_vhat f).
(** examples/field.rs:64-69 *)
Definition field_from_ortho (f : field A T1 T2) (input : arr T2) : res (field A T1 T2) -> Prop :=
  par_then (fs_from_ortho_inplace_par fs input (fl_vhat f)) (fun vhat r => r = Ok (mk_field (fl_ndim f) (fl_v f) vhat (fl_x f) (fl_dx f))).
(** examples/field.rs:73-75 *)
Definition field_gradient (f : field A T1 T2) (deriv : D) (scale : option Sc) : res (arr T2) -> Prop := fs_gradient_par fs (fl_vhat f) deriv scale.

(** Two-dimensional arrays as lists of rows; the number of columns is read off the
    first row (no array without rows gets here). *)
Definition ncols (m : list (list A)) : nat := match m with [] => 0 | r :: _ => length r end.
(** ndarray's `dot` panics unless the inner dimensions agree.  The order in which
    it adds up is not specified: the values are meant for exact arithmetic. *)
Definition mdot (a b : list (list A)) : res (list (list A)) :=
  assertb (ncols a =? length b) ;;
  Ok (map (fun r => map (fun j => fold_right nadd n0 (map (fun k => nmul (r.[k]) (b.[k].[j])) (seq 0 (length b)))) (seq 0 (ncols b))) a).
(** ndarray's `assign` broadcasts the right side to the shape of the left one: an axis
    of length 1 is repeated, any other difference panics. *)
Definition massign (a b : list (list A)) : res (list (list A)) :=
  assertb ((length b =? length a) || (length b =? 1)) ;;
  assertb ((ncols b =? ncols a) || (ncols b =? 1)) ;;
  Ok (map (fun i => map (fun j => b.[if length b =? 1 then 0 else i].[if ncols b =? 1 then 0 else j]) (seq 0 (ncols a))) (seq 0 (length a))).
(** `m.slice(s![.., 2..])` *)
Definition mslice2 (m : list (list A)) : res (list (list A)) := assertb (2 <=? ncols m) ;; Ok (map (skipn 2) m).

(** ingredients_for_hholtz: field.rs:106-135; the last arm of the match is unreachable. *)
Definition ingredients_for_hholtz (axis : nat) : res (list (list A) * list (list A) * option (list (list A))) :=
  let* kind := fs_base_kind fs axis in
  let* sten := fs_stencil fs axis in
  let* lap := fs_laplacian fs axis in
  match kind with
  | BkChebyshev =>
      let* pp := fs_laplacian_pinv fs axis in let '(pinv, peye) := pp in
      let* tmp := mdot peye pinv in
      let* pinv := massign pinv tmp in
      let* sten_sliced := mslice2 sten in
      let* a := mdot pinv sten_sliced in
      let* b := mdot peye sten_sliced in
      Ok (a, b, Some pinv)
  | BkChebDirichlet | BkChebNeumann | BkChebDirichletNeumann | BkChebBiHarmonicA | BkChebBiHarmonicB =>
      let* pp := fs_laplacian_pinv fs axis in let '(pinv, peye) := pp in
      let* tmp := mdot peye pinv in
      let* pinv := massign pinv tmp in
      let* a := mdot pinv sten in
      let* b := mdot peye sten in
      Ok (a, b, Some pinv)
  | BkFourierR2c | BkFourierC2c => Ok (sten, lap, None)
  end.
(** ingredients_for_poisson: field.rs:137-163 *)
Definition ingredients_for_poisson (axis : nat) : res (list (list A) * list (list A) * option (list (list A)) * bool) :=
  let* abp := ingredients_for_hholtz axis in let '(mat_a, mat_b, precond) := abp in
  let* kind := fs_base_kind fs axis in
  let is_diag := match kind with
    | BkChebyshev | BkChebDirichlet | BkChebNeumann | BkChebDirichletNeumann | BkChebBiHarmonicA | BkChebBiHarmonicB => false
    | BkFourierR2c | BkFourierC2c => true
    end in
  Ok (mat_a, mat_b, precond, is_diag).

(** main: field.rs:166-174; [one] is 1. *)
Definition field_main (one : T1) : res (field A T1 T2) -> Prop :=
  then_par field_new (fun f =>
    let f := mk_field (fl_ndim f) (mk_arr (shp (fl_v f)) (std (fl_v f)) (map (fun _ => one) (dat (fl_v f)))) (fl_vhat f) (fl_x f) (fl_dx f) in
    par_then (field_forward f) field_backward).
End Field.
