(** Model of space_mpi/decomp_handler.rs and of the distributed methods of
    space_mpi/space2.rs. The serial methods that space_mpi/space2.rs:71-465
    defines on Space2Mpi are textual copies of space/space2.rs:60-452 (checked
    by diff: they differ in the type name only) and are modelled by the s2_*
    definitions of [Space]. *)
From Coq Require Import List Arith Lia Bool ZArith.
From Verif Require Import Base Num Cheb Fourier NdArray Bases Space MpiSem Decomp.
Import ListNotations.

(** ** decomp_handler.rs *)
(** std HashMap: an association list with at most one entry per key. *)
Section HashMap.
Context {K V : Type} (eqb : K -> K -> bool).
(** [HashMap::get] *)
Fixpoint hm_get (m : list (K * V)) (k : K) : option V :=
  match m with [] => None | (k', v) :: m => if eqb k k' then Some v else hm_get m k end.
(** [HashMap::insert] *)
Fixpoint hm_insert (m : list (K * V)) (k : K) (v : V) : list (K * V) :=
  match m with [] => [(k, v)] | (k', v') :: m => if eqb k k' then (k', v) :: m else (k', v') :: hm_insert m k v end.
(** [m.entry(k).or_insert(v)] *)
Definition hm_or_insert (m : list (K * V)) (k : K) (v : V) : list (K * V) :=
  match hm_get m k with Some _ => m | None => hm_insert m k v end.
End HashMap.

(** decomp_handler.rs:10-18 *)
Record handler := mk_handler { h_decomp : list (nat * decomp); h_map : list (list nat * nat) }.
(** decomp_handler.rs:24-32 *)
Definition handler_new : handler := mk_handler [] [].
(** decomp_handler.rs:37-44. The argument of [or_insert] is a block and is
    evaluated before the call, whether or not the key is present. *)
Definition handler_insert (h : handler) (d : decomp) : handler :=
  let lookup_val := length (h_decomp h) in
  mk_handler (hm_insert Nat.eqb (h_decomp h) lookup_val d) (hm_or_insert list_eqb (h_map h) (n_global d) lookup_val).
(** [Option::unwrap] (Rust standard library) *)
Definition unwrap {X} (o : option X) : res X := match o with Some x => Ok x | None => Panic end.
(** decomp_handler.rs:52-55 *)
Definition handler_get (h : handler) (shape : list nat) : res decomp :=
  let* lookup_val := unwrap (hm_get list_eqb (h_map h) shape) in
  unwrap (hm_get Nat.eqb (h_decomp h) lookup_val).

(** ** space2.rs *)
Section Space2Mpi.
Context {A P I S : Type} {N : Num A} {D : DivInto A S} {dP : Dflt P} {dI : Dflt I} {dS : Dflt S}.
(** space2.rs:20-28. The element type of to_ortho, from_ortho and gradient is
    the spectral type in the mpi methods. *)
Record space2mpi := mk_space2mpi { sm_space : space2 P I S S; sm_handler : handler }.
Variables (bm : bmode) (zo : zip_order).

(** space2.rs:36-67; [nprocs] and [me] describe the universe. *)
Definition s2mpi_new (nprocs me : nat) (sp : space2 P I S S) : res space2mpi :=
  let b0 := s2_base0 sp in let b1 := s2_base1 sp in
  let* d := decomp_new bm nprocs me [len_phys b0; len_phys b1] in
  let h := handler_insert handler_new d in
  let* h := (if negb (len_spec b0 =? len_phys b0) then
      let* d := decomp_new bm nprocs me [len_spec b0; len_phys b1] in Ok (handler_insert h d) else Ok h) in
  let* h := (if negb (len_spec b1 =? len_phys b1) then
      let* d := decomp_new bm nprocs me [len_phys b0; len_spec b1] in Ok (handler_insert h d) else Ok h) in
  let* h := (if negb (len_spec b0 =? len_phys b0) && negb (len_spec b1 =? len_phys b1) then
      let* d := decomp_new bm nprocs me [len_spec b0; len_spec b1] in Ok (handler_insert h d) else Ok h) in
  Ok (mk_space2mpi sp h).

Variable sm : space2mpi.
Notation b0 := (s2_base0 (sm_space sm)). Notation b1 := (s2_base1 (sm_space sm)).
(** space2.rs:489-491 *)
Definition get_dcp (shape : list nat) : res decomp := handler_get (sm_handler sm) shape.

(** space2.rs:493-511 *)
Definition shape_physical_x_pen : res (list nat) := let* d := get_dcp (s2_shape_physical (sm_space sm)) in Ok (d_sz (x_pencil d)).
(** space_mpi/space2.rs:498-501 *)
Definition shape_physical_y_pen : res (list nat) := let* d := get_dcp (s2_shape_physical (sm_space sm)) in Ok (d_sz (y_pencil d)).
(** space_mpi/space2.rs:503-506 *)
Definition shape_spectral_x_pen : res (list nat) := let* d := get_dcp (s2_shape_spectral (sm_space sm)) in Ok (d_sz (x_pencil d)).
(** space_mpi/space2.rs:508-511 *)
Definition shape_spectral_y_pen : res (list nat) := let* d := get_dcp (s2_shape_spectral (sm_space sm)) in Ok (d_sz (y_pencil d)).
(** space2.rs:513-531 *)
Definition ndarray_physical_x_pen : res (arr P) := let* s := shape_physical_x_pen in Ok (azeros dflt s).
(** space_mpi/space2.rs:518-521 *)
Definition ndarray_physical_y_pen : res (arr P) := let* s := shape_physical_y_pen in Ok (azeros dflt s).
(** space_mpi/space2.rs:523-526 *)
Definition ndarray_spectral_x_pen : res (arr S) := let* s := shape_spectral_x_pen in Ok (azeros dflt s).
(** space_mpi/space2.rs:528-531 *)
Definition ndarray_spectral_y_pen : res (arr S) := let* s := shape_spectral_y_pen in Ok (azeros dflt s).

(** space2.rs:533-590 *)
Definition to_ortho_inplace_mpi (input output : arr S) : mprog S (arr S) :=
  let^ dcp := get_dcp [len_orth b0; len_spec b1] in
  let^ a := to_ortho zo b0 input 0 in
  let! buffer_ypen := transpose_x_to_y bm dcp a (azeros dflt (d_sz (y_pencil dcp))) in
  let^ work := to_ortho zo b1 buffer_ypen 1 in
  let^ dcp := get_dcp [len_orth b0; len_orth b1] in
  transpose_y_to_x bm dcp work output.
(** space_mpi/space2.rs:533-561 *)
Definition to_ortho_mpi (input : arr S) : mprog S (arr S) :=
  let^ dcp := get_dcp [len_orth b0; len_spec b1] in
  let^ a := to_ortho zo b0 input 0 in
  let! buffer_ypen := transpose_x_to_y bm dcp a (azeros dflt (d_sz (y_pencil dcp))) in
  let^ work := to_ortho zo b1 buffer_ypen 1 in
  let^ dcp := get_dcp [len_orth b0; len_orth b1] in
  transpose_y_to_x bm dcp work (azeros dflt (d_sz (x_pencil dcp))).
(** space2.rs:592-649 *)
Definition from_ortho_inplace_mpi (input output : arr S) : mprog S (arr S) :=
  let^ dcp := get_dcp [len_spec b0; len_orth b1] in
  let^ a := from_ortho zo b0 input 0 in
  let! buffer_ypen := transpose_x_to_y bm dcp a (azeros dflt (d_sz (y_pencil dcp))) in
  let^ work := from_ortho zo b1 buffer_ypen 1 in
  let^ dcp := get_dcp [len_spec b0; len_spec b1] in
  transpose_y_to_x bm dcp work output.
(** space_mpi/space2.rs:592-620 *)
Definition from_ortho_mpi (input : arr S) : mprog S (arr S) :=
  let^ dcp := get_dcp [len_spec b0; len_orth b1] in
  let^ a := from_ortho zo b0 input 0 in
  let! buffer_ypen := transpose_x_to_y bm dcp a (azeros dflt (d_sz (y_pencil dcp))) in
  let^ work := from_ortho zo b1 buffer_ypen 1 in
  let^ dcp := get_dcp [len_spec b0; len_spec b1] in
  transpose_y_to_x bm dcp work (azeros dflt (d_sz (x_pencil dcp))).
(** space2.rs:651-693 *)
Definition gradient_mpi (input : arr S) (d0 d1 : nat) (scale : option (A * A)) : mprog S (arr S) :=
  let^ dcp := get_dcp [len_orth b0; len_spec b1] in
  let^ a := gradient zo b0 input d0 0 in
  let! buffer_ypen := transpose_x_to_y bm dcp a (azeros dflt (d_sz (y_pencil dcp))) in
  let^ work := gradient zo b1 buffer_ypen d1 1 in
  let^ dcp := get_dcp [len_orth b0; len_orth b1] in
  let! output := transpose_y_to_x bm dcp work (azeros dflt (d_sz (x_pencil dcp))) in
  MRet (s2_scale d0 d1 scale output).
(** space2.rs:695-728 *)
Definition forward_mpi (input : arr P) : mprog I (arr S) :=
  let^ buffer := forward zo b1 input 1 in
  let^ dcp := get_dcp [len_phys b0; len_spec b1] in
  let! buffer_xpen := transpose_y_to_x bm dcp buffer (azeros dflt (d_sz (x_pencil dcp))) in
  mlift (forward zo b0 buffer_xpen 0).
(** space_mpi/space2.rs:712-728 *)
Definition forward_inplace_mpi (input : arr P) (output : arr S) : mprog I (arr S) :=
  let^ buffer := forward zo b1 input 1 in
  let^ dcp := get_dcp [len_phys b0; len_spec b1] in
  let! buffer_xpen := transpose_y_to_x bm dcp buffer (azeros dflt (d_sz (x_pencil dcp))) in
  mlift (forward_inplace zo b0 buffer_xpen output 0).
(** space2.rs:730-763 *)
Definition backward_mpi (input : arr S) : mprog I (arr P) :=
  let^ buffer := backward zo b0 input 0 in
  let^ dcp := get_dcp [len_phys b0; len_spec b1] in
  let! buffer_ypen := transpose_x_to_y bm dcp buffer (azeros dflt (d_sz (y_pencil dcp))) in
  mlift (backward zo b1 buffer_ypen 1).
(** space_mpi/space2.rs:747-763 *)
Definition backward_inplace_mpi (input : arr S) (output : arr P) : mprog I (arr P) :=
  let^ buffer := backward zo b0 input 0 in
  let^ dcp := get_dcp [len_phys b0; len_spec b1] in
  let! buffer_ypen := transpose_x_to_y bm dcp buffer (azeros dflt (d_sz (y_pencil dcp))) in
  mlift (backward_inplace zo b1 buffer_ypen output 1).

(** space2.rs:765-1043: every wrapper looks up the physical or the spectral
    shape and calls the routine of the same name on the decomposition. *)
Definition with_phys {T X} (k : decomp -> mprog T X) : mprog T X :=
  let^ dcp := get_dcp (s2_shape_physical (sm_space sm)) in k dcp.
(** the lookup of the spectral shape in the wrappers below *)
Definition with_spec {T X} (k : decomp -> mprog T X) : mprog T X :=
  let^ dcp := get_dcp (s2_shape_spectral (sm_space sm)) in k dcp.
(** space_mpi/space2.rs:765-772 *)
Definition gather_from_x_pencil_phys (a : arr P) := with_phys (fun d => gather_x d a).
(** space_mpi/space2.rs:774-785 *)
Definition gather_from_x_pencil_phys_root (a g : arr P) := with_phys (fun d => gather_x_inplace_root bm d a g).
(** space_mpi/space2.rs:787-794 *)
Definition gather_from_y_pencil_phys (a : arr P) := with_phys (fun d => gather_y d a).
(** space_mpi/space2.rs:796-807 *)
Definition gather_from_y_pencil_phys_root (a g : arr P) := with_phys (fun d => gather_y_inplace_root bm d a g).
(** space_mpi/space2.rs:809-816 *)
Definition gather_from_x_pencil_spec (a : arr S) := with_spec (fun d => gather_x d a).
(** space_mpi/space2.rs:818-829 *)
Definition gather_from_x_pencil_spec_root (a g : arr S) := with_spec (fun d => gather_x_inplace_root bm d a g).
(** space_mpi/space2.rs:831-838 *)
Definition gather_from_y_pencil_spec (a : arr S) := with_spec (fun d => gather_y d a).
(** space_mpi/space2.rs:840-851 *)
Definition gather_from_y_pencil_spec_root (a g : arr S) := with_spec (fun d => gather_y_inplace_root bm d a g).
(** space_mpi/space2.rs:853-864 *)
Definition all_gather_from_x_pencil_phys (a g : arr P) := with_phys (fun d => all_gather_x bm d a g).
(** space_mpi/space2.rs:866-877 *)
Definition all_gather_from_y_pencil_phys (a g : arr P) := with_phys (fun d => all_gather_y bm d a g).
(** space_mpi/space2.rs:879-890 *)
Definition all_gather_from_x_pencil_spec (a g : arr S) := with_spec (fun d => all_gather_x bm d a g).
(** space_mpi/space2.rs:892-903 *)
Definition all_gather_from_y_pencil_spec (a g : arr S) := with_spec (fun d => all_gather_y bm d a g).
(** space_mpi/space2.rs:905-912 *)
Definition scatter_to_x_pencil_phys (a : arr P) := with_phys (fun d => scatter_x_inplace d a).
(** space_mpi/space2.rs:914-925 *)
Definition scatter_to_x_pencil_phys_root (g a : arr P) := with_phys (fun d => scatter_x_inplace_root bm d g a).
(** space_mpi/space2.rs:927-934 *)
Definition scatter_to_y_pencil_phys (a : arr P) := with_phys (fun d => scatter_y_inplace d a).
(** space_mpi/space2.rs:936-947 *)
Definition scatter_to_y_pencil_phys_root (g a : arr P) := with_phys (fun d => scatter_y_inplace_root bm d g a).
(** space_mpi/space2.rs:949-956 *)
Definition scatter_to_x_pencil_spec (a : arr S) := with_spec (fun d => scatter_x_inplace d a).
(** space_mpi/space2.rs:958-969 *)
Definition scatter_to_x_pencil_spec_root (g a : arr S) := with_spec (fun d => scatter_x_inplace_root bm d g a).
(** space_mpi/space2.rs:971-978 *)
Definition scatter_to_y_pencil_spec (a : arr S) := with_spec (fun d => scatter_y_inplace d a).
(** space_mpi/space2.rs:980-991 *)
Definition scatter_to_y_pencil_spec_root (g a : arr S) := with_spec (fun d => scatter_y_inplace_root bm d g a).
(** space_mpi/space2.rs:993-1004 *)
Definition transpose_x_to_y_phys (x y : arr P) := with_phys (fun d => transpose_x_to_y bm d x y).
(** space_mpi/space2.rs:1006-1017 *)
Definition transpose_y_to_x_phys (y x : arr P) := with_phys (fun d => transpose_y_to_x bm d y x).
(** space_mpi/space2.rs:1019-1030 *)
Definition transpose_x_to_y_spec (x y : arr S) := with_spec (fun d => transpose_x_to_y bm d x y).
(** space_mpi/space2.rs:1032-1043 *)
Definition transpose_y_to_x_spec (y x : arr S) := with_spec (fun d => transpose_y_to_x bm d y x).
End Space2Mpi.
Arguments space2mpi : clear implicits.
