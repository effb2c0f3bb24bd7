(** Compo: composite Chebyshev bases, src/chebyshev/compo.rs. *)
From Coq Require Import List Arith ZArith.
From Verif Require Import Base Num Linalg Stencils Cheb.
Import ListNotations.

Section Compo.
Context {A T : Type} {N : Num A} {V : Vec A T}.

(** compo.rs:17-27 *)
Record compo := mk_compo { p_n : nat; p_m : nat; p_ortho : cheb; p_st : stencil A }.

(** compo.rs:172-274: the five constructors [dirichlet], [neumann],
    [dirichlet_neumann], [biharmonic_a], [biharmonic_b], by kind. *)
Definition compo_new (k : skind) (n : nat) : res compo :=
  let* s := stencil_new k n in
  let* m := get_m k n in
  let* o := cheb_new n in
  Ok (mk_compo n m o s).

(** [BaseSize], compo.rs:29-44 *)
Definition compo_len_phys (c : compo) : nat := p_n c.
Definition compo_len_spec (c : compo) : nat := p_m c.
Definition compo_len_orth (c : compo) : nat := cheb_len_orth (p_ortho c).

(** compo.rs:67-69 *)
Definition compo_coords {Tr : Trig A} (c : compo) : res (list A) := cheb_nodes (compo_len_phys c).

(** [BaseMatOpDiffmat], [BaseMatOpStencil], [BaseMatOpLaplacian]: compo.rs:72-134 *)
Definition compo_diffmat bm (c : compo) (d : nat) : res (list (list A)) := cheb_diffmat bm (p_ortho c) d.
Definition compo_diffmat_pinv (bm : bmode) (c : compo) (d : nat) := cheb_diffmat_pinv (A := A) bm (p_ortho c) d.
Definition compo_stencil (c : compo) : res (list (list A)) := stencil_to_array (p_st c).
Definition compo_stencil_inv (c : compo) : res (list (list A)) := stencil_pinv (p_st c).
Definition compo_laplacian bm (c : compo) := compo_diffmat bm c 2.
Definition compo_laplacian_pinv (bm : bmode) (c : compo) := compo_diffmat_pinv bm c 2.

(** [BaseFromOrtho]: compo.rs:136-154 *)
Definition compo_to_ortho (c : compo) (indata outdata : list T) : res (list T) :=
  stencil_dot (p_st c) indata outdata.
Definition compo_from_ortho (c : compo) (indata outdata : list T) : res (list T) :=
  stencil_solve (p_st c) indata outdata.

(** [BaseGradient]: compo.rs:156-170 *)
Definition compo_gradient (c : compo) (indata outdata : list T) (n_times : nat) : res (list T) :=
  let scratch := repeat v0 (compo_len_orth c) in
  let* scratch := compo_to_ortho c indata scratch in
  cheb_gradient (p_ortho c) scratch outdata n_times.
End Compo.
Arguments compo : clear implicits.

Section Transform.
Context {A : Type} {N : Num A} {Tr : Trig A}.
(** [BaseTransform]: compo.rs:276-292 *)
Definition compo_forward (c : compo A) (indata outdata : list A) : res (list A) :=
  let scratch := repeat n0 (compo_len_orth c) in
  let* scratch := cheb_forward (p_ortho c) indata scratch in
  compo_from_ortho (V := vec_self) c scratch outdata.
Definition compo_backward (c : compo A) (indata outdata : list A) : res (list A) :=
  let scratch := repeat n0 (compo_len_orth c) in
  let* scratch := compo_to_ortho (V := vec_self) c indata scratch in
  cheb_backward (p_ortho c) scratch outdata.
End Transform.
