(** The base enums (enums.rs:14-41, dispatch by internal_macros.rs:6-184) and,
    generically over a base, the axis-wise array methods of traits.rs. *)
From Coq Require Import List Arith Lia Bool ZArith.
From Verif Require Import Base Num Linalg Stencils Cheb Compo Fourier NdArray.
Import ListNotations.

(** What the traits [BaseSize], [BaseTransform], [BaseFromOrtho<T>] and
    [BaseGradient<T>] require of a base: P = Physical, S = Spectral, T = element
    type of the spectral-space operations. (traits.rs:38-47, 120-130, 216-236,
    330-337) *)
Record base_ops (P S T : Type) := mk_base {
  len_phys : nat; len_spec : nat; len_orth : nat;
  forward_slice : list P -> list S -> res (list S);
  backward_slice : list S -> list P -> res (list P);
  to_ortho_slice : list T -> list T -> res (list T);
  from_ortho_slice : list T -> list T -> res (list T);
  gradient_slice : list T -> list T -> nat -> res (list T)
}.
Arguments len_phys {P S T}. Arguments len_spec {P S T}. Arguments len_orth {P S T}.
Arguments forward_slice {P S T}. Arguments backward_slice {P S T}.
Arguments to_ortho_slice {P S T}. Arguments from_ortho_slice {P S T}. Arguments gradient_slice {P S T}.
Arguments mk_base {P S T}.

(** enums.rs:14-19 [BaseR2r] *)
Inductive base_r2r (A : Type) := BChebyshev (c : cheb) | BChebyshevComposite (c : compo A).
Arguments BChebyshev {A}. Arguments BChebyshevComposite {A}.

(** lib.rs:200-347: the public constructors [chebyshev], [cheb_dirichlet],
    [cheb_neumann], [cheb_dirichlet_neumann], [cheb_biharmonic_a/b]. *)
Definition new_chebyshev {A} {N : Num A} (n : nat) : res (base_r2r A) := let* c := cheb_new n in Ok (BChebyshev c).
(** lib.rs:269-302 [cheb_dirichlet], [cheb_neumann], [cheb_dirichlet_neumann], [cheb_biharmonic_a], [cheb_biharmonic_b] (and 244-246) *)
Definition new_composite {A} {N : Num A} (k : skind) (n : nat) : res (base_r2r A) :=
  let* c := compo_new k n in Ok (BChebyshevComposite c).

(** internal_macros.rs: dispatch of the enum methods to the variants. *)
Definition r2r_ops {A T} {N : Num A} {Tr : Trig A} {V : Vec A T} (b : base_r2r A) : base_ops A A T :=
  match b with
  | BChebyshev c => mk_base (cheb_len_phys c) (cheb_len_spec c) (cheb_len_orth c)
      (cheb_forward c) (cheb_backward c) (cheb_to_ortho c) (cheb_from_ortho c) (cheb_gradient (A := A) c)
  | BChebyshevComposite c => mk_base (compo_len_phys c) (compo_len_spec c) (compo_len_orth c)
      (compo_forward c) (compo_backward c) (compo_to_ortho c) (compo_from_ortho c) (compo_gradient c)
  end.

(** enums.rs:21-26 [BaseR2c], lib.rs:345-347 [fourier_r2c] *)
Definition r2c_ops {A} {N : Num A} {Tr : Trig A} {Z0 : EqZ A} (f : r2c) : base_ops A (cplx A) (cplx A) :=
  mk_base (r2c_len_phys f) (r2c_len_spec f) (r2c_len_orth f)
    (r2c_forward f) (r2c_backward f) f_to_ortho f_from_ortho (r2c_gradient f).
(** enums.rs:28-33 [BaseC2c], lib.rs:322-324 [fourier_c2c] *)
Definition c2c_ops {A} {N : Num A} {Tr : Trig A} (f : c2c) : base_ops (cplx A) (cplx A) (cplx A) :=
  mk_base (c2c_len_phys f) (c2c_len_spec f) (c2c_len_orth f)
    (c2c_forward f) (c2c_backward f) f_to_ortho f_from_ortho (c2c_gradient f).

(** The order in which [Zip] visits the lanes of an array: any function of the
    two shapes and the axis (the layouts are fixed to standard layout). *)
Definition zip_order := list nat -> list nat -> nat -> list nat.

Section Axis.
Context {P S T : Type} {dP : Dflt P} {dS : Dflt S} {dT : Dflt T}.
Variables (zo : zip_order) (b : base_ops P S T).

(** In-place methods, traits.rs; the first one: traits.rs:140-149. *)
Definition to_ortho_inplace (i o : arr T) (ax : nat) : res (arr T) :=
  apply_along_axis dflt (to_ortho_slice b) (len_spec b) (len_orth b) (zo (shp i) (shp o) ax) i o ax.
(** traits.rs:162-171 *)
Definition from_ortho_inplace (i o : arr T) (ax : nat) : res (arr T) :=
  apply_along_axis dflt (from_ortho_slice b) (len_orth b) (len_spec b) (zo (shp i) (shp o) ax) i o ax.
(** traits.rs:256-265 *)
Definition forward_inplace (i : arr P) (o : arr S) (ax : nat) : res (arr S) :=
  apply_along_axis dflt (forward_slice b) (len_phys b) (len_spec b) (zo (shp i) (shp o) ax) i o ax.
(** traits.rs:280-289 *)
Definition backward_inplace (i : arr S) (o : arr P) (ax : nat) : res (arr P) :=
  apply_along_axis dflt (backward_slice b) (len_spec b) (len_phys b) (zo (shp i) (shp o) ax) i o ax.
(** traits.rs:362-398 *)
Definition gradient_inplace (i o : arr T) (n_times ax : nat) : res (arr T) :=
  gradient_along_axis dflt (fun x y => gradient_slice b x y n_times) (len_spec b) (len_orth b) (zo (shp i) (shp o) ax) i o ax.

(** Allocating methods, traits.rs; the first one: traits.rs:130-138. *)
Definition to_ortho (i : arr T) (ax : nat) : res (arr T) :=
  let* o := array_resized_axis dflt i (len_orth b) ax in to_ortho_inplace i o ax.
(** traits.rs:152-160 *)
Definition from_ortho (i : arr T) (ax : nat) : res (arr T) :=
  let* o := array_resized_axis dflt i (len_spec b) ax in from_ortho_inplace i o ax.
(** traits.rs:244-254 *)
Definition forward (i : arr P) (ax : nat) : res (arr S) :=
  let* o := array_resized_axis dflt i (len_spec b) ax in forward_inplace i o ax.
(** traits.rs:268-278 *)
Definition backward (i : arr S) (ax : nat) : res (arr P) :=
  let* o := array_resized_axis dflt i (len_phys b) ax in backward_inplace i o ax.
(** traits.rs:351-359 *)
Definition gradient (i : arr T) (n_times ax : nat) : res (arr T) :=
  let* o := array_resized_axis dflt i (len_orth b) ax in gradient_inplace i o n_times ax.
End Axis.

(** Parallel variants (traits.rs:174-219, 292-339, 401-458), as the set of
    outcomes over all schedules; [im] gives the memory accesses of each slice
    method on its output lane. *)
Record base_impl (P S T : Type) := mk_impl {
  im_forward : list P -> prog S; im_backward : list S -> prog P;
  im_to_ortho : list T -> prog T; im_from_ortho : list T -> prog T;
  im_gradient : nat -> list T -> prog T
}.
Arguments im_forward {P S T}. Arguments im_backward {P S T}. Arguments im_to_ortho {P S T}.
Arguments im_from_ortho {P S T}. Arguments im_gradient {P S T}. Arguments mk_impl {P S T}.

(** each memory-access program computes the slice method of the same name (relates two models of one function) *)
Definition base_implements {P S T} (im : base_impl P S T) (b : base_ops P S T) : Prop :=
  implements (len_phys b) (len_spec b) (im_forward im) (forward_slice b) /\
  implements (len_spec b) (len_phys b) (im_backward im) (backward_slice b) /\
  implements (len_spec b) (len_orth b) (im_to_ortho im) (to_ortho_slice b) /\
  implements (len_orth b) (len_spec b) (im_from_ortho im) (from_ortho_slice b) /\
  (forall n, implements (len_spec b) (len_orth b) (im_gradient im n) (fun x y => gradient_slice b x y n)).

Section ParAxis.
Context {P S T : Type} {dP : Dflt P} {dS : Dflt S} {dT : Dflt T}.
Variables (im : base_impl P S T) (b : base_ops P S T).

(** traits.rs:186-195 *)
Definition to_ortho_inplace_par (i o : arr T) (ax : nat) : res (arr T) -> Prop :=
  par_apply_along_axis dflt (to_ortho_slice b) (im_to_ortho im) (len_spec b) (len_orth b) i o ax.
(** traits.rs:210-219 *)
Definition from_ortho_inplace_par (i o : arr T) (ax : nat) : res (arr T) -> Prop :=
  par_apply_along_axis dflt (from_ortho_slice b) (im_from_ortho im) (len_orth b) (len_spec b) i o ax.
(** traits.rs:305-314 *)
Definition forward_inplace_par (i : arr P) (o : arr S) (ax : nat) : res (arr S) -> Prop :=
  par_apply_along_axis dflt (forward_slice b) (im_forward im) (len_phys b) (len_spec b) i o ax.
(** traits.rs:330-339 *)
Definition backward_inplace_par (i : arr S) (o : arr P) (ax : nat) : res (arr P) -> Prop :=
  par_apply_along_axis dflt (backward_slice b) (im_backward im) (len_spec b) (len_phys b) i o ax.
(** traits.rs:419-458 *)
Definition gradient_inplace_par (i o : arr T) (n_times ax : nat) : res (arr T) -> Prop :=
  par_gradient_along_axis dflt (fun x y => gradient_slice b x y n_times) (im_gradient im n_times) (len_spec b) (len_orth b) i o ax.

(** sequencing a deterministic step with a non-deterministic one *)
Definition then_par {A B} (m : res A) (k : A -> res B -> Prop) (r : res B) : Prop :=
  match m with Ok a => k a r | Panic => r = Panic | UB => r = UB end.
(** sequencing of two non-deterministic steps *)
Definition par_then {A B} (m : res A -> Prop) (k : A -> res B -> Prop) (r : res B) : Prop :=
  exists ra, m ra /\ then_par ra k r.

(** traits.rs:174-184 *)
Definition to_ortho_par (i : arr T) (ax : nat) : res (arr T) -> Prop :=
  then_par (array_resized_axis dflt i (len_orth b) ax) (fun o => to_ortho_inplace_par i o ax).
(** traits.rs:198-208 *)
Definition from_ortho_par (i : arr T) (ax : nat) : res (arr T) -> Prop :=
  then_par (array_resized_axis dflt i (len_spec b) ax) (fun o => from_ortho_inplace_par i o ax).
(** traits.rs:292-303 *)
Definition forward_par (i : arr P) (ax : nat) : res (arr S) -> Prop :=
  then_par (array_resized_axis dflt i (len_spec b) ax) (fun o => forward_inplace_par i o ax).
(** traits.rs:317-328 *)
Definition backward_par (i : arr S) (ax : nat) : res (arr P) -> Prop :=
  then_par (array_resized_axis dflt i (len_phys b) ax) (fun o => backward_inplace_par i o ax).
(** traits.rs:401-416 *)
Definition gradient_par (i : arr T) (n_times ax : nat) : res (arr T) -> Prop :=
  then_par (array_resized_axis dflt i (len_orth b) ax) (fun o => gradient_inplace_par i o n_times ax).
End ParAxis.
