(** User programs over the public API of Space2 and of Space2Mpi (no /repo code
    of its own: a program a user writes, in the shape of
    examples/space_mpi.rs:22-57 and examples/space_complex_mpi.rs).

    A program works on any number of arrays and any number of spaces. Each step
    is one API call, or arithmetic of the user on whole lines of two arrays.
    What the program does next may depend on everything it has gathered so far
    (loops, stopping criteria, adaptive steps). The same program is run
    - serially, on the global arrays, with Space2;
    - on p ranks, on the pencils, with Space2Mpi: physical arrays live in
      y-pencils and spectral arrays in x-pencils where the transforms need them
      so, and the transposes of the API move them. *)
From Coq Require Import List Arith Bool ZArith.
From Verif Require Import Base Num Cheb NdArray NdArrayFacts AxisFacts TabFacts Bases SpaceBases Space MpiSem Decomp MpiSpec SpaceMpi PropSpace PropSpaceMpi MpiMix.
Import ListNotations.
Local Open Scope nat_scope.

Inductive layout := InX | InY.

Section Programs.
Context {A P I S : Type} {N : Num A} {D : DivInto A S} {dP : Dflt P} {dI : Dflt I} {dS : Dflt S}.

(** The arrays a program holds: a name is a layout, a global shape and a number. *)
Record store := mk_store { phys_arr : layout -> nat -> nat -> nat -> arr P; spec_arr : layout -> nat -> nat -> nat -> arr S }.
Definition lay_eqb (a b : layout) : bool := match a, b with InX, InX => true | InY, InY => true | _, _ => false end.
Definition set_reg {T} (f : layout -> nat -> nat -> nat -> arr T) (l : layout) (n0 n1 j : nat) (a : arr T) : layout -> nat -> nat -> nat -> arr T :=
  fun l' m0 m1 k => if lay_eqb l' l && (m0 =? n0) && (m1 =? n1) && (k =? j) then a else f l' m0 m1 k.
Definition set_phys (m : store) l n0 n1 j a := mk_store (set_reg (phys_arr m) l n0 n1 j a) (spec_arr m).
Definition set_spec (m : store) l n0 n1 j a := mk_store (phys_arr m) (set_reg (spec_arr m) l n0 n1 j a).
(** what the program has gathered *)
Inductive seen := SeenPhys (a : arr P) | SeenSpec (a : arr S).

(** Steps; [s] names the space, [i], [j], [k] number the arrays. *)
Inductive step :=
| Forward (inplace : bool) (s i j : nat)        (* spectral[j] = forward(physical[i]) *)
| Backward (inplace : bool) (s i j : nat)       (* physical[j] = backward(spectral[i]) *)
| ToOrtho (inplace : bool) (s i j : nat)        (* orthogonal[j] = to_ortho(spectral[i]) *)
| FromOrtho (inplace : bool) (s i j : nat)      (* spectral[j] = from_ortho(orthogonal[i]) *)
| Gradient (s i j d0 d1 : nat) (scale : option (A * A)) (* orthogonal[j] = gradient(spectral[i], [d0, d1], scale) *)
| TransposePhys (to : layout) (s i j : nat)     (* transpose_x_to_y_phys, transpose_y_to_x_phys *)
| TransposeSpec (to : layout) (s i j : nat)     (* transpose_x_to_y_spec, transpose_y_to_x_spec *)
| LinesPhys (l : layout) (s : nat) (f : nat -> list P -> list P -> list P) (i j k : nat) (* physical[k] = line by line, f(physical[i], physical[j]) *)
| LinesSpec (l : layout) (s : nat) (f : nat -> list S -> list S -> list S) (i j k : nat)
| ScatterPhys (l : layout) (s : nat) (g : arr P) (j : nat)  (* scatter_to_*_pencil_phys(_root) of an array the root holds *)
| ScatterSpec (l : layout) (s : nat) (g : arr S) (j : nat)
| AllGatherPhys (l : layout) (s i : nat)        (* all_gather_from_*_pencil_phys *)
| AllGatherSpec (l : layout) (s i : nat).
Inductive program := Stop | Do (st : step) (k : list seen -> program).

(** Arithmetic of the user along whole lines: every line along the undivided
    axis (columns of an x-pencil, rows of a y-pencil) is computed from the same
    lines of two arrays and from its global position. [st] is the position of
    the first line. Constant arrays, sums, products, multiplication by wave
    numbers, and solves along a line are all of this form. *)
Definition on_columns {T} {dT : Dflt T} (n0 n1 st : nat) (f : nat -> list T -> list T -> list T) (a b : arr T) : arr T :=
  mk_arr [n0; n1] true (tab n0 n1 (fun i j => (f (st + j) (map (fun i => get a [i; j]) (seq 0 n0)) (map (fun i => get b [i; j]) (seq 0 n0))).[i])).
Definition on_rows {T} {dT : Dflt T} (n0 n1 st : nat) (f : nat -> list T -> list T -> list T) (a b : arr T) : arr T :=
  mk_arr [n0; n1] true (tab n0 n1 (fun i j => (f (st + i) (map (fun j => get a [i; j]) (seq 0 n1)) (map (fun j => get b [i; j]) (seq 0 n1))).[j])).

(** ** Serially, on the global arrays: Space2 *)
Definition find {X} (l : list X) (s : nat) : res X := match nth_error l s with Some x => Ok x | None => Panic end.
Definition on_lines {T} {dT : Dflt T} (l : layout) (n0 n1 : nat) (f : nat -> list T -> list T -> list T) (a b : arr T) : arr T :=
  match l with InX => on_columns n0 n1 0 f a b | InY => on_rows n0 n1 0 f a b end.
Definition other (l : layout) : layout := match l with InX => InY | InY => InX end.

Definition serial_step (zo : zip_order) (sps : list (space2 P I S S)) (st : step) (m : store) : res (store * list seen) :=
  match st with
  | Forward inplace s i j => let* sp := find sps s in let b0 := s2_base0 sp in let b1 := s2_base1 sp in
      let v := phys_arr m InY (len_phys b0) (len_phys b1) i in
      let* h := (if inplace then s2_forward_inplace zo sp v (spec_arr m InX (len_spec b0) (len_spec b1) j) else s2_forward zo sp v) in
      Ok (set_spec m InX (len_spec b0) (len_spec b1) j h, [])
  | Backward inplace s i j => let* sp := find sps s in let b0 := s2_base0 sp in let b1 := s2_base1 sp in
      let v := spec_arr m InX (len_spec b0) (len_spec b1) i in
      let* h := (if inplace then s2_backward_inplace zo sp v (phys_arr m InY (len_phys b0) (len_phys b1) j) else s2_backward zo sp v) in
      Ok (set_phys m InY (len_phys b0) (len_phys b1) j h, [])
  | ToOrtho inplace s i j => let* sp := find sps s in let b0 := s2_base0 sp in let b1 := s2_base1 sp in
      let v := spec_arr m InX (len_spec b0) (len_spec b1) i in
      let* h := (if inplace then s2_to_ortho_inplace zo sp v (spec_arr m InX (len_orth b0) (len_orth b1) j) else s2_to_ortho zo sp v) in
      Ok (set_spec m InX (len_orth b0) (len_orth b1) j h, [])
  | FromOrtho inplace s i j => let* sp := find sps s in let b0 := s2_base0 sp in let b1 := s2_base1 sp in
      let v := spec_arr m InX (len_orth b0) (len_orth b1) i in
      let* h := (if inplace then s2_from_ortho_inplace zo sp v (spec_arr m InX (len_spec b0) (len_spec b1) j) else s2_from_ortho zo sp v) in
      Ok (set_spec m InX (len_spec b0) (len_spec b1) j h, [])
  | Gradient s i j d0 d1 scale => let* sp := find sps s in let b0 := s2_base0 sp in let b1 := s2_base1 sp in
      let* h := s2_gradient zo sp (spec_arr m InX (len_spec b0) (len_spec b1) i) d0 d1 scale in
      Ok (set_spec m InX (len_orth b0) (len_orth b1) j h, [])
  | TransposePhys to s i j => let* sp := find sps s in let n0 := len_phys (s2_base0 sp) in let n1 := len_phys (s2_base1 sp) in
      Ok (set_phys m to n0 n1 j (phys_arr m (other to) n0 n1 i), [])
  | TransposeSpec to s i j => let* sp := find sps s in let n0 := len_spec (s2_base0 sp) in let n1 := len_spec (s2_base1 sp) in
      Ok (set_spec m to n0 n1 j (spec_arr m (other to) n0 n1 i), [])
  | LinesPhys l s f i j k => let* sp := find sps s in let n0 := len_phys (s2_base0 sp) in let n1 := len_phys (s2_base1 sp) in
      Ok (set_phys m l n0 n1 k (on_lines l n0 n1 f (phys_arr m l n0 n1 i) (phys_arr m l n0 n1 j)), [])
  | LinesSpec l s f i j k => let* sp := find sps s in let n0 := len_spec (s2_base0 sp) in let n1 := len_spec (s2_base1 sp) in
      Ok (set_spec m l n0 n1 k (on_lines l n0 n1 f (spec_arr m l n0 n1 i) (spec_arr m l n0 n1 j)), [])
  | ScatterPhys l s g j => let* sp := find sps s in
      Ok (set_phys m l (len_phys (s2_base0 sp)) (len_phys (s2_base1 sp)) j g, [])
  | ScatterSpec l s g j => let* sp := find sps s in
      Ok (set_spec m l (len_spec (s2_base0 sp)) (len_spec (s2_base1 sp)) j g, [])
  | AllGatherPhys l s i => let* sp := find sps s in Ok (m, [SeenPhys (phys_arr m l (len_phys (s2_base0 sp)) (len_phys (s2_base1 sp)) i)])
  | AllGatherSpec l s i => let* sp := find sps s in Ok (m, [SeenSpec (spec_arr m l (len_spec (s2_base0 sp)) (len_spec (s2_base1 sp)) i)])
  end.
(** the c-th call visits the lanes in the order [zo c] *)
Fixpoint serial_run (zo : nat -> zip_order) (sps : list (space2 P I S S)) (c : nat) (pr : program) (m : store) (log : list seen) : res (store * list seen) :=
  match pr with
  | Stop => Ok (m, log)
  | Do st k => let* ml := serial_step (zo c) sps st m in serial_run zo sps (Datatypes.S c) (k (log ++ snd ml)) (fst ml) (log ++ snd ml)
  end.

(** ** On rank [me], on its pencils: Space2Mpi *)
Definition rank_step (bm : bmode) (zo : zip_order) (me : nat) (sms : list (space2mpi P I S)) (st : step) (m : store) : mprog (mix P I S) (store * list seen) :=
  match st with
  | Forward inplace s i j => let^ sm := find sms s in let b0 := s2_base0 (sm_space sm) in let b1 := s2_base1 (sm_space sm) in
      let v := phys_arr m InY (len_phys b0) (len_phys b1) i in
      let! h := mid (if inplace then forward_inplace_mpi bm zo sm v (spec_arr m InX (len_spec b0) (len_spec b1) j) else forward_mpi bm zo sm v) in
      MRet (set_spec m InX (len_spec b0) (len_spec b1) j h, [])
  | Backward inplace s i j => let^ sm := find sms s in let b0 := s2_base0 (sm_space sm) in let b1 := s2_base1 (sm_space sm) in
      let v := spec_arr m InX (len_spec b0) (len_spec b1) i in
      let! h := mid (if inplace then backward_inplace_mpi bm zo sm v (phys_arr m InY (len_phys b0) (len_phys b1) j) else backward_mpi bm zo sm v) in
      MRet (set_phys m InY (len_phys b0) (len_phys b1) j h, [])
  | ToOrtho inplace s i j => let^ sm := find sms s in let b0 := s2_base0 (sm_space sm) in let b1 := s2_base1 (sm_space sm) in
      let v := spec_arr m InX (len_spec b0) (len_spec b1) i in
      let! h := spec (if inplace then to_ortho_inplace_mpi bm zo sm v (spec_arr m InX (len_orth b0) (len_orth b1) j) else to_ortho_mpi bm zo sm v) in
      MRet (set_spec m InX (len_orth b0) (len_orth b1) j h, [])
  | FromOrtho inplace s i j => let^ sm := find sms s in let b0 := s2_base0 (sm_space sm) in let b1 := s2_base1 (sm_space sm) in
      let v := spec_arr m InX (len_orth b0) (len_orth b1) i in
      let! h := spec (if inplace then from_ortho_inplace_mpi bm zo sm v (spec_arr m InX (len_spec b0) (len_spec b1) j) else from_ortho_mpi bm zo sm v) in
      MRet (set_spec m InX (len_spec b0) (len_spec b1) j h, [])
  | Gradient s i j d0 d1 scale => let^ sm := find sms s in let b0 := s2_base0 (sm_space sm) in let b1 := s2_base1 (sm_space sm) in
      let! h := spec (gradient_mpi bm zo sm (spec_arr m InX (len_spec b0) (len_spec b1) i) d0 d1 scale) in
      MRet (set_spec m InX (len_orth b0) (len_orth b1) j h, [])
  | TransposePhys to s i j => let^ sm := find sms s in let n0 := len_phys (s2_base0 (sm_space sm)) in let n1 := len_phys (s2_base1 (sm_space sm)) in
      let a := phys_arr m (other to) n0 n1 i in let o := phys_arr m to n0 n1 j in
      let! h := phys (match to with InX => transpose_y_to_x_phys bm sm a o | InY => transpose_x_to_y_phys bm sm a o end) in
      MRet (set_phys m to n0 n1 j h, [])
  | TransposeSpec to s i j => let^ sm := find sms s in let n0 := len_spec (s2_base0 (sm_space sm)) in let n1 := len_spec (s2_base1 (sm_space sm)) in
      let a := spec_arr m (other to) n0 n1 i in let o := spec_arr m to n0 n1 j in
      let! h := spec (match to with InX => transpose_y_to_x_spec bm sm a o | InY => transpose_x_to_y_spec bm sm a o end) in
      MRet (set_spec m to n0 n1 j h, [])
  | LinesPhys l s f i j k => let^ sm := find sms s in let n0 := len_phys (s2_base0 (sm_space sm)) in let n1 := len_phys (s2_base1 (sm_space sm)) in
      let^ d := get_dcp sm [n0; n1] in
      let a := phys_arr m l n0 n1 i in let b := phys_arr m l n0 n1 j in
      let h := (match l with InX => on_columns (nth 0 (d_sz (x_pencil d)) 0) (nth 1 (d_sz (x_pencil d)) 0) (nth 1 (d_st (x_pencil d)) 0) f a b
                | InY => on_rows (nth 0 (d_sz (y_pencil d)) 0) (nth 1 (d_sz (y_pencil d)) 0) (nth 0 (d_st (y_pencil d)) 0) f a b end) in
      MRet (set_phys m l n0 n1 k h, [])
  | LinesSpec l s f i j k => let^ sm := find sms s in let n0 := len_spec (s2_base0 (sm_space sm)) in let n1 := len_spec (s2_base1 (sm_space sm)) in
      let^ d := get_dcp sm [n0; n1] in
      let a := spec_arr m l n0 n1 i in let b := spec_arr m l n0 n1 j in
      let h := (match l with InX => on_columns (nth 0 (d_sz (x_pencil d)) 0) (nth 1 (d_sz (x_pencil d)) 0) (nth 1 (d_st (x_pencil d)) 0) f a b
                | InY => on_rows (nth 0 (d_sz (y_pencil d)) 0) (nth 1 (d_sz (y_pencil d)) 0) (nth 0 (d_st (y_pencil d)) 0) f a b end) in
      MRet (set_spec m l n0 n1 k h, [])
  | ScatterPhys l s g j => let^ sm := find sms s in let n0 := len_phys (s2_base0 (sm_space sm)) in let n1 := len_phys (s2_base1 (sm_space sm)) in
      let o := phys_arr m l n0 n1 j in
      let! h := phys (match l with
        | InX => if me =? 0 then scatter_to_x_pencil_phys_root bm sm g o else scatter_to_x_pencil_phys sm o
        | InY => if me =? 0 then scatter_to_y_pencil_phys_root bm sm g o else scatter_to_y_pencil_phys sm o end) in
      MRet (set_phys m l n0 n1 j h, [])
  | ScatterSpec l s g j => let^ sm := find sms s in let n0 := len_spec (s2_base0 (sm_space sm)) in let n1 := len_spec (s2_base1 (sm_space sm)) in
      let o := spec_arr m l n0 n1 j in
      let! h := spec (match l with
        | InX => if me =? 0 then scatter_to_x_pencil_spec_root bm sm g o else scatter_to_x_pencil_spec sm o
        | InY => if me =? 0 then scatter_to_y_pencil_spec_root bm sm g o else scatter_to_y_pencil_spec sm o end) in
      MRet (set_spec m l n0 n1 j h, [])
  | AllGatherPhys l s i => let^ sm := find sms s in let n0 := len_phys (s2_base0 (sm_space sm)) in let n1 := len_phys (s2_base1 (sm_space sm)) in
      let a := phys_arr m l n0 n1 i in let o := s2_ndarray_physical (sm_space sm) in
      let! h := phys (match l with InX => all_gather_from_x_pencil_phys bm sm a o | InY => all_gather_from_y_pencil_phys bm sm a o end) in
      MRet (m, [SeenPhys h])
  | AllGatherSpec l s i => let^ sm := find sms s in let n0 := len_spec (s2_base0 (sm_space sm)) in let n1 := len_spec (s2_base1 (sm_space sm)) in
      let a := spec_arr m l n0 n1 i in let o := s2_ndarray_spectral (sm_space sm) in
      let! h := spec (match l with InX => all_gather_from_x_pencil_spec bm sm a o | InY => all_gather_from_y_pencil_spec bm sm a o end) in
      MRet (m, [SeenSpec h])
  end.
Fixpoint rank_run (bm : bmode) (zo : nat -> zip_order) (me : nat) (sms : list (space2mpi P I S)) (c : nat) (pr : program) (m : store) (log : list seen) : mprog (mix P I S) (store * list seen) :=
  match pr with
  | Stop => MRet (m, log)
  | Do st k => let! ml := rank_step bm (zo c) me sms st m in rank_run bm zo me sms (Datatypes.S c) (k (log ++ snd ml)) (fst ml) (log ++ snd ml)
  end.
(** every rank constructs the spaces one after the other *)
Fixpoint new_all (bm : bmode) (p r : nat) (sps : list (space2 P I S S)) : res (list (space2mpi P I S)) :=
  match sps with [] => Ok [] | sp :: sps => let* sm := s2mpi_new bm p r sp in let* sms := new_all bm p r sps in Ok (sm :: sms) end.
(** the programs of all ranks, each starting from its own pencils *)
Definition mpi_program (bm : bmode) (zo : nat -> nat -> zip_order) (p : nat) (sps : list (space2 P I S S)) (pr : program) (par : nat -> store) : list (mprog (mix P I S) (store * list seen)) :=
  map (fun r => let^ sms := new_all bm p r sps in rank_run bm (zo r) r sms 0 pr (par r) []) (seq 0 p).

(** ** When a program is admissible *)
(** the shapes of the arrays it may use *)
Definition phys_shape (sps : list (space2 P I S S)) (n0 n1 : nat) : Prop :=
  exists sp, In sp sps /\ n0 = len_phys (s2_base0 sp) /\ n1 = len_phys (s2_base1 sp).
Definition spec_shape (sps : list (space2 P I S S)) (n0 n1 : nat) : Prop :=
  exists sp, In sp sps /\ ((n0 = len_spec (s2_base0 sp) /\ n1 = len_spec (s2_base1 sp)) \/ (n0 = len_orth (s2_base0 sp) /\ n1 = len_orth (s2_base1 sp))).
(** every array has its shape and is in standard layout *)
Definition well_shaped (sps : list (space2 P I S S)) (m : store) : Prop :=
  (forall l n0 n1 j, phys_shape sps n0 n1 -> proper [n0; n1] (phys_arr m l n0 n1 j)) /\
  (forall l n0 n1 j, spec_shape sps n0 n1 -> proper [n0; n1] (spec_arr m l n0 n1 j)).
(** A step names an existing space; derivative orders are supported by the base
    along each line; a scattered array has the global shape; what is gathered
    or scattered fits the i32 counts of MPI. *)
Definition step_ok (sps : list (space2 P I S S)) (st : step) : Prop :=
  let count n0 n1 := (Z.of_nat (n0 * n1) < 2 ^ 31)%Z in
  match st with
  | Forward _ s _ _ | Backward _ s _ _ | ToOrtho _ s _ _ | FromOrtho _ s _ _ | TransposePhys _ s _ _ | TransposeSpec _ s _ _
  | LinesPhys _ s _ _ _ _ | LinesSpec _ s _ _ _ _ => exists sp, nth_error sps s = Some sp
  | Gradient s _ _ d0 d1 _ => exists sp, nth_error sps s = Some sp /\ total_gradient (s2_base0 sp) d0 /\ total_gradient (s2_base1 sp) d1
  | ScatterPhys _ s g _ => exists sp, nth_error sps s = Some sp /\ proper [len_phys (s2_base0 sp); len_phys (s2_base1 sp)] g /\ count (len_phys (s2_base0 sp)) (len_phys (s2_base1 sp))
  | ScatterSpec _ s g _ => exists sp, nth_error sps s = Some sp /\ proper [len_spec (s2_base0 sp); len_spec (s2_base1 sp)] g /\ count (len_spec (s2_base0 sp)) (len_spec (s2_base1 sp))
  | AllGatherPhys _ s _ => exists sp, nth_error sps s = Some sp /\ count (len_phys (s2_base0 sp)) (len_phys (s2_base1 sp))
  | AllGatherSpec _ s _ => exists sp, nth_error sps s = Some sp /\ count (len_spec (s2_base0 sp)) (len_spec (s2_base1 sp))
  end.
(** every step that the serial run performs is admissible *)
Fixpoint admissible (zo : nat -> zip_order) (sps : list (space2 P I S S)) (c : nat) (pr : program) (m : store) (log : list seen) : Prop :=
  match pr with
  | Stop => True
  | Do st k => step_ok sps st /\
      forall m' l, serial_step (zo c) sps st m = Ok (m', l) -> admissible zo sps (Datatypes.S c) (k (log ++ l)) m' (log ++ l)
  end.
(** [par r] holds rank r's pencils of the arrays of [m] *)
Definition pencils (sps : list (space2 P I S S)) (p : nat) (m : store) (par : nat -> store) : Prop :=
  (forall n0 n1 j, phys_shape sps n0 n1 -> x_pencils_of [n0; n1] p (phys_arr m InX n0 n1 j) (fun r => phys_arr (par r) InX n0 n1 j) /\
                                           y_pencils_of [n0; n1] p (phys_arr m InY n0 n1 j) (fun r => phys_arr (par r) InY n0 n1 j)) /\
  (forall n0 n1 j, spec_shape sps n0 n1 -> x_pencils_of [n0; n1] p (spec_arr m InX n0 n1 j) (fun r => spec_arr (par r) InX n0 n1 j) /\
                                           y_pencils_of [n0; n1] p (spec_arr m InY n0 n1 j) (fun r => spec_arr (par r) InY n0 n1 j)).
End Programs.
Arguments store : clear implicits. Arguments seen : clear implicits. Arguments step : clear implicits. Arguments program : clear implicits.
Arguments Stop {A P S}. Arguments Do {A P S}.
