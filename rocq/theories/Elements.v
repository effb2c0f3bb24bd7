(** Model of [BaseElements], [BaseMatOpStencil], [BaseMatOpLaplacian] on the base
    enums (enums.rs:36-40 through internal_macros.rs:33-120) and of the methods
    of Space1/Space2/Space3 that select one base by an axis number
    (space/space1.rs:80-175, space2.rs:82-208, space3.rs:98-244). *)
From Coq Require Import List Arith Bool ZArith.
From Verif Require Import Base Num Linalg Stencils Cheb Compo Fourier NdArray Bases Space.
Import ListNotations.

(** enums.rs:42-50 *)
Inductive transform_kind := TkR2r | TkR2c | TkC2c.
(** enums.rs:52-71 *)
Inductive base_kind := BkChebyshev | BkChebDirichlet | BkChebNeumann | BkChebDirichletNeumann
  | BkChebBiHarmonicA | BkChebBiHarmonicB | BkFourierR2c | BkFourierC2c.

(** The values of the accessor methods of one base. *)
Record elems (A : Type) := mk_elems {
  e_kind : base_kind; e_transform : transform_kind; e_coords : res (list A);
  e_stencil : res (list (list A)); e_stencil_inv : res (list (list A));
  e_laplacian : res (list (list A)); e_laplacian_pinv : res (list (list A) * list (list A)) }.
Arguments mk_elems {A}. Arguments e_kind {A}. Arguments e_transform {A}. Arguments e_coords {A}.
Arguments e_stencil {A}. Arguments e_stencil_inv {A}. Arguments e_laplacian {A}. Arguments e_laplacian_pinv {A}.

Section Elems.
Context {A : Type} {N : Num A} {Tr : Trig A} {C : Ceil A}.
Variable bm : bmode.

(** compo.rs:51-59 *)
Definition compo_kind (c : compo A) : base_kind :=
  match p_st c with
  | Dirichlet _ => BkChebDirichlet
  | Neumann _ => BkChebNeumann
  | DirichletNeumann _ => BkChebDirichletNeumann
  | BiHarmonicA _ => BkChebBiHarmonicA
  | BiHarmonicB _ => BkChebBiHarmonicB
  end.
(** ortho.rs:269-285, 316-351; compo.rs:46-69, 89-134; dispatch by internal_macros.rs *)
Definition r2r_elems (b : base_r2r A) : elems A :=
  match b with
  | BChebyshev c => mk_elems BkChebyshev TkR2r (cheb_coords c) (Ok (cheb_stencil c)) (Ok (cheb_stencil_inv c))
      (cheb_laplacian bm c) (cheb_laplacian_pinv bm c)
  | BChebyshevComposite c => mk_elems (compo_kind c) TkR2r (compo_coords c) (compo_stencil c) (compo_stencil_inv c)
      (compo_laplacian bm c) (compo_laplacian_pinv bm c)
  end.
(** r2c.rs:84-101, 145-191 *)
Definition r2c_elems (f : r2c) : elems A :=
  mk_elems BkFourierR2c TkR2c (Ok (r2c_coords f)) (Ok (r2c_stencil f)) (Ok (r2c_stencil_inv f))
    (r2c_laplacian f) (r2c_laplacian_pinv f).
(** c2c.rs:90-107, 151-197 *)
Definition c2c_elems (f : c2c) : elems A :=
  mk_elems BkFourierC2c TkC2c (Ok (c2c_coords f)) (Ok (c2c_stencil f)) (Ok (c2c_stencil_inv f))
    (c2c_laplacian f) (c2c_laplacian_pinv f).
(** [BaseMatOpDiffmat] on the real enum: internal_macros.rs:57-75 *)
Definition r2r_diffmat (b : base_r2r A) (d : nat) : res (list (list A)) :=
  match b with BChebyshev c => cheb_diffmat bm c d | BChebyshevComposite c => compo_diffmat bm c d end.
(** internal_macros.rs:70-74 *)
Definition r2r_diffmat_pinv (b : base_r2r A) (d : nat) : res (list (list A) * list (list A)) :=
  match b with BChebyshev c => cheb_diffmat_pinv bm c d | BChebyshevComposite c => compo_diffmat_pinv bm c d end.

(** The public constructors, lib.rs:203-347, by name and size. *)
Inductive ctor := Chebyshev | ChebComposite (k : skind) | FourierR2c | FourierC2c.
(** lib.rs:219-347, the constructor of each name *)
Definition elems_new (k : ctor) (n : nat) : res (elems A) :=
  match k with
  | Chebyshev => let* b := new_chebyshev n in Ok (r2r_elems b)
  | ChebComposite k => let* b := new_composite k n in Ok (r2r_elems b)
  | FourierR2c => let* f := r2c_new n in Ok (r2c_elems f)
  | FourierC2c => let* f := c2c_new n in Ok (c2c_elems f)
  end.
End Elems.

(** Selecting a base by axis and calling the method of the same name on it:
    space1.rs:80-175, space2.rs:82-208, space3.rs:98-244. *)
Section Axis.
Context {A : Type}.
(** space/space1.rs:93-178, the axis is ignored *)
Definition s1_method {X} (m : elems A -> res X) (e0 : elems A) (axis : nat) : res X :=
  let* e := s1_axis e0 axis in m e.
(** space/space2.rs:97-209 *)
Definition s2_method {X} (m : elems A -> res X) (e0 e1 : elems A) (axis : nat) : res X :=
  let* e := s2_axis e0 e1 axis in m e.
(** space/space3.rs:119-252 *)
Definition s3_method {X} (m : elems A -> res X) (e0 e1 e2 : elems A) (axis : nat) : res X :=
  let* e := s3_axis e0 e1 e2 axis in m e.
(** space/space1.rs:93-95 *)
Definition s1_coords_axis := s1_method e_coords.
(** space/space2.rs:97-103 *)
Definition s2_coords_axis := s2_method e_coords.
(** space/space3.rs:119-128 *)
Definition s3_coords_axis := s3_method e_coords.
(** space/space1.rs:98-100 *)
Definition s1_base_kind := s1_method (fun e => Ok (e_kind e)).
(** space/space2.rs:106-112 *)
Definition s2_base_kind := s2_method (fun e => Ok (e_kind e)).
(** space/space3.rs:131-140 *)
Definition s3_base_kind := s3_method (fun e => Ok (e_kind e)).
(** space/space1.rs:103-105 *)
Definition s1_transform_kind := s1_method (fun e => Ok (e_transform e)).
(** space/space2.rs:115-121 *)
Definition s2_transform_kind := s2_method (fun e => Ok (e_transform e)).
(** space/space3.rs:143-152 *)
Definition s3_transform_kind := s3_method (fun e => Ok (e_transform e)).
(** space/space1.rs:126-128 *)
Definition s1_stencil := s1_method e_stencil.
(** space/space2.rs:141-147 *)
Definition s2_stencil := s2_method e_stencil.
(** space/space3.rs:172-181 *)
Definition s3_stencil := s3_method e_stencil.
(** space/space1.rs:141-143 *)
Definition s1_stencil_inv := s1_method e_stencil_inv.
(** space/space2.rs:160-166 *)
Definition s2_stencil_inv := s2_method e_stencil_inv.
(** space/space3.rs:194-203 *)
Definition s3_stencil_inv := s3_method e_stencil_inv.
(** space/space1.rs:161-163 *)
Definition s1_laplacian := s1_method e_laplacian.
(** space/space2.rs:184-190 *)
Definition s2_laplacian := s2_method e_laplacian.
(** space/space3.rs:221-230 *)
Definition s3_laplacian := s3_method e_laplacian.
(** space/space1.rs:176-178 *)
Definition s1_laplacian_pinv := s1_method e_laplacian_pinv.
(** space/space2.rs:203-209 *)
Definition s2_laplacian_pinv := s2_method e_laplacian_pinv.
(** space/space3.rs:243-252 *)
Definition s3_laplacian_pinv := s3_method e_laplacian_pinv.
(** [coords]: space1.rs:83-85, space2.rs:89-91, space3.rs:104-110 *)
Definition s1_coords (e0 : elems A) : res (list (list A)) :=
  let* x := s1_coords_axis e0 0 in Ok [x].
(** space/space2.rs:88-90 *)
Definition s2_coords (e0 e1 : elems A) : res (list (list A)) :=
  let* x := s2_coords_axis e0 e1 0 in let* y := s2_coords_axis e0 e1 1 in Ok [x; y].
(** space/space3.rs:106-112 *)
Definition s3_coords (e0 e1 e2 : elems A) : res (list (list A)) :=
  let* x := s3_coords_axis e0 e1 e2 0 in let* y := s3_coords_axis e0 e1 e2 1 in
  let* z := s3_coords_axis e0 e1 e2 2 in Ok [x; y; z].
End Axis.
