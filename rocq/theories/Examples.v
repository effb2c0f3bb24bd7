(** Model of the example programs examples/space_mpi.rs and
    examples/space_complex_mpi.rs: main() of one rank. The two files differ in
    the bases only (space_mpi.rs:12-17, space_complex_mpi.rs:12-17); here the
    space [sm] is an argument, constructed by [s2mpi_new] as in C40. *)
From Coq Require Import List Arith Bool.
From Verif Require Import Base Num Cheb NdArray Bases Space MpiSem Decomp SpaceMpi MpiMix.
Import ListNotations.

Section MpiExample.
Context {P I S : Type} {dP : Dflt P} {dI : Dflt I} {dS : Dflt S}.
(** assert_eq! on arrays: same shape, elements equal by [eqP] (PartialEq) *)
Fixpoint all_eq (eqP : P -> P -> bool) (a b : list P) : bool :=
  match a, b with [], [] => true | x :: a, y :: b => eqP x y && all_eq eqP a b | _, _ => false end.
Definition arr_eq (eqP : P -> P -> bool) (a b : arr P) : bool := list_eqb (shp a) (shp b) && all_eq eqP (dat a) (dat b).

(** [value i] is `i as f64`; [zo] gives the lane order of each call. *)
Variables (bm : bmode) (zo : nat -> zip_order) (eqP : P -> P -> bool) (value : nat -> P) (me : nat) (sm : space2mpi P I S).
Notation sp := (sm_space sm).
(** for (i, v) in global.iter_mut().enumerate() { *v = i as f64; } *)
Definition enumerated : arr P := mk_arr (s2_shape_physical sp) true (map value (seq 0 (size (s2_shape_physical sp)))).
(** space_mpi.rs:22-57 *)
Definition mpi_example : mprog (mix P I S) unit :=
  let^ y_pencil := ndarray_physical_y_pen sm in
  let! y_pencil := (if me =? 0 then phys (scatter_to_y_pencil_phys_root bm sm enumerated y_pencil)
                    else phys (scatter_to_y_pencil_phys sm y_pencil)) in
  let^ x_pencil := ndarray_spectral_x_pen sm in
  let! x_pencil := mid (forward_inplace_mpi bm (zo 0) sm y_pencil x_pencil) in
  let! y_pencil := mid (backward_inplace_mpi bm (zo 1) sm x_pencil y_pencil) in
  let v_mpi := s2_ndarray_physical sp in
  let! v_mpi := phys (all_gather_from_y_pencil_phys bm sm y_pencil v_mpi) in
  let v := enumerated in
  let vhat := s2_ndarray_spectral sp in
  let^ vhat := s2_forward_inplace (zo 2) sp v vhat in
  let^ v := s2_backward_inplace (zo 3) sp vhat v in
  let^ _ := assertb (arr_eq eqP v v_mpi) in
  let! ortho := spec (to_ortho_mpi bm (zo 4) sm x_pencil) in
  let! _ := spec (from_ortho_mpi bm (zo 5) sm ortho) in
  MRet tt.
End MpiExample.
