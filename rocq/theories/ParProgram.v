(** User programs over Space1, Space2 and Space3 that mix the serial methods and
    their parallel variants (no /repo code of its own: a program a user writes,
    in the shape of examples/field.rs and of the doc examples of space/*.rs).

    A program works on any number of arrays and any number of spaces of one, two
    or three axes. Each step is one API call, serial or parallel, allocating or
    in place, or arithmetic of the user on all arrays. What the program does next
    may depend on the contents of all arrays. The parallel methods are sets of
    outcomes, one per schedule of the worker threads (Space.v). *)
From Coq Require Import List Arith Bool ZArith.
From Verif Require Import Base Num Fourier NdArray Bases Space ExtLib AnyBase.
Import ListNotations.
Local Open Scope nat_scope.

Section Programs.
Context {A P S : Type} {N : Num A} {D : DivInto A S} {dP : Dflt P} {dS : Dflt S}.

(** orders of differentiation and scale per axis; a space reads those of its axes *)
Notation grads := ((nat * nat * nat) * option (A * A * A))%type.

(** The methods of a space, with the name of the variant. *)
Record api := mk_api {
  forward_ser : arr P -> res (arr S); forward_inplace_ser : arr P -> arr S -> res (arr S);
  backward_ser : arr S -> res (arr P); backward_inplace_ser : arr S -> arr P -> res (arr P);
  to_ortho_ser : arr S -> res (arr S); to_ortho_inplace_ser : arr S -> arr S -> res (arr S);
  from_ortho_ser : arr S -> res (arr S); from_ortho_inplace_ser : arr S -> arr S -> res (arr S);
  gradient_ser : arr S -> grads -> res (arr S);
  forward_par_ : arr P -> res (arr S) -> Prop; forward_inplace_par_ : arr P -> arr S -> res (arr S) -> Prop;
  backward_par_ : arr S -> res (arr P) -> Prop; backward_inplace_par_ : arr S -> arr P -> res (arr P) -> Prop;
  to_ortho_par_ : arr S -> res (arr S) -> Prop; to_ortho_inplace_par_ : arr S -> arr S -> res (arr S) -> Prop;
  from_ortho_par_ : arr S -> res (arr S) -> Prop; from_ortho_inplace_par_ : arr S -> arr S -> res (arr S) -> Prop;
  gradient_par_ : arr S -> grads -> res (arr S) -> Prop }.
Definition opt_map {X Y} (f : X -> Y) (o : option X) : option Y := match o with Some x => Some (f x) | None => None end.
(** space/space1.rs, space/traits.rs: the methods of Space1 (modelled in Space.v) *)
Definition api1 (b0 : base_ops P S S) (im0 : base_impl P S S) (zo : zip_order) : api :=
  let sp := mk_space1 b0 in mk_api
  (s1_forward zo sp) (s1_forward_inplace zo sp) (s1_backward zo sp) (s1_backward_inplace zo sp)
  (s1_to_ortho zo sp) (s1_to_ortho_inplace zo sp) (s1_from_ortho zo sp) (s1_from_ortho_inplace zo sp)
  (fun a g => s1_gradient zo sp a (fst (fst (fst g))) (opt_map (fun s => fst (fst s)) (snd g)))
  (s1_forward_par sp im0) (s1_forward_inplace_par sp im0) (s1_backward_par sp im0) (s1_backward_inplace_par sp im0)
  (s1_to_ortho_par sp im0) (s1_to_ortho_inplace_par sp im0) (s1_from_ortho_par sp im0) (s1_from_ortho_inplace_par sp im0)
  (fun a g => s1_gradient_par sp im0 a (fst (fst (fst g))) (opt_map (fun s => fst (fst s)) (snd g))).
(** space/space2.rs, space/traits.rs: the methods of Space2 *)
Definition api2 {I} {dI : Dflt I} (b0 : base_ops I S S) (b1 : base_ops P I S) (im0 : base_impl I S S) (im1 : base_impl P I S) (zo : zip_order) : api :=
  let sp := mk_space2 b0 b1 in mk_api
  (s2_forward zo sp) (s2_forward_inplace zo sp) (s2_backward zo sp) (s2_backward_inplace zo sp)
  (s2_to_ortho zo sp) (s2_to_ortho_inplace zo sp) (s2_from_ortho zo sp) (s2_from_ortho_inplace zo sp)
  (fun a g => s2_gradient zo sp a (fst (fst (fst g))) (snd (fst (fst g))) (opt_map fst (snd g)))
  (s2_forward_par sp im0 im1) (s2_forward_inplace_par sp im0 im1) (s2_backward_par sp im0 im1) (s2_backward_inplace_par sp im0 im1)
  (s2_to_ortho_par sp im0 im1) (s2_to_ortho_inplace_par sp im0 im1) (s2_from_ortho_par sp im0 im1) (s2_from_ortho_inplace_par sp im0 im1)
  (fun a g => s2_gradient_par sp im0 im1 a (fst (fst (fst g))) (snd (fst (fst g))) (opt_map fst (snd g))).
(** space/space3.rs, space/traits.rs: the methods of Space3 *)
Definition api3 {I J} {dI : Dflt I} {dJ : Dflt J} (b0 : base_ops J S S) (b1 : base_ops I J S) (b2 : base_ops P I S)
    (im0 : base_impl J S S) (im1 : base_impl I J S) (im2 : base_impl P I S) (zo : zip_order) : api :=
  let sp := mk_space3 b0 b1 b2 in mk_api
  (s3_forward zo sp) (s3_forward_inplace zo sp) (s3_backward zo sp) (s3_backward_inplace zo sp)
  (s3_to_ortho zo sp) (s3_to_ortho_inplace zo sp) (s3_from_ortho zo sp) (s3_from_ortho_inplace zo sp)
  (fun a g => s3_gradient zo sp a (fst (fst (fst g))) (snd (fst (fst g))) (snd (fst g)) (snd g))
  (s3_forward_par sp im0 im1 im2) (s3_forward_inplace_par sp im0 im1 im2) (s3_backward_par sp im0 im1 im2) (s3_backward_inplace_par sp im0 im1 im2)
  (s3_to_ortho_par sp im0 im1 im2) (s3_to_ortho_inplace_par sp im0 im1 im2) (s3_from_ortho_par sp im0 im1 im2) (s3_from_ortho_inplace_par sp im0 im1 im2)
  (fun a g => s3_gradient_par sp im0 im1 a (fst (fst (fst g))) (snd (fst (fst g))) (snd (fst g)) (snd g)).

(** The spaces of the library: any constructible bases (any size, any kind the
    types admit), with any memory-access programs that compute their slice methods. *)
Inductive library_space {A0} {N0 : Num A0} {Z0 : EqZ A0} (E : ext A0) : (zip_order -> api) -> Prop :=
| lib1 b0 im0 : any_base E P S S b0 -> base_implements im0 b0 -> library_space E (api1 b0 im0)
| lib2 I (dI : Dflt I) b0 b1 im0 im1 : any_base E I S S b0 -> any_base E P I S b1 -> base_implements im0 b0 -> base_implements im1 b1 ->
    library_space E (api2 b0 b1 im0 im1)
| lib3 I J (dI : Dflt I) (dJ : Dflt J) b0 b1 b2 im0 im1 im2 : any_base E J S S b0 -> any_base E I J S b1 -> any_base E P I S b2 ->
    base_implements im0 b0 -> base_implements im1 b1 -> base_implements im2 b2 -> library_space E (api3 b0 b1 b2 im0 im1 im2).

(** The arrays of a program, by number. *)
Record pstore := mk_pstore { physical : nat -> arr P; spectral : nat -> arr S }.
Definition put_physical (m : pstore) j a := mk_pstore (fun k => if k =? j then a else physical m k) (spectral m).
Definition put_spectral (m : pstore) j a := mk_pstore (physical m) (fun k => if k =? j then a else spectral m k).
(** as many elements as the shape says: every array ndarray can hold *)
Definition all_wf (m : pstore) : Prop := forall k, wf (physical m k) /\ wf (spectral m k).

(** Steps: [par] chooses the parallel variant, [s] names the space, [i], [j] the arrays. *)
Inductive pstep :=
| PForward (par inplace : bool) (s i j : nat)
| PBackward (par inplace : bool) (s i j : nat)
| PToOrtho (par inplace : bool) (s i j : nat)
| PFromOrtho (par inplace : bool) (s i j : nat)
| PGradient (par : bool) (s i j : nat) (g : grads)
| PUser (f : pstore -> res pstore).
Inductive pprogram := PStop | PDo (st : pstep) (k : pstore -> pprogram).

(** ** One call *)
(** its outcomes: the serial one, or one per schedule of the threads *)
Definition call {X} (par : bool) (ser : res X) (outs : res X -> Prop) : res X -> Prop := if par then outs else fun r => r = ser.
Definition get_space (sps : list (zip_order -> api)) (s : nat) : res (zip_order -> api) := match nth_error sps s with Some x => Ok x | None => Panic end.

Definition step_outcomes (zo : zip_order) (sps : list (zip_order -> api)) (st : pstep) (m : pstore) : res pstore -> Prop :=
  let to_spec j (outs : res (arr S) -> Prop) := par_then outs (fun a r => r = Ok (put_spectral m j a)) in
  let to_phys j (outs : res (arr P) -> Prop) := par_then outs (fun a r => r = Ok (put_physical m j a)) in
  match st with
  | PForward par inplace s i j => then_par (get_space sps s) (fun sp => let x := sp zo in to_spec j
      (if inplace then call par (forward_inplace_ser x (physical m i) (spectral m j)) (forward_inplace_par_ x (physical m i) (spectral m j))
       else call par (forward_ser x (physical m i)) (forward_par_ x (physical m i))))
  | PBackward par inplace s i j => then_par (get_space sps s) (fun sp => let x := sp zo in to_phys j
      (if inplace then call par (backward_inplace_ser x (spectral m i) (physical m j)) (backward_inplace_par_ x (spectral m i) (physical m j))
       else call par (backward_ser x (spectral m i)) (backward_par_ x (spectral m i))))
  | PToOrtho par inplace s i j => then_par (get_space sps s) (fun sp => let x := sp zo in to_spec j
      (if inplace then call par (to_ortho_inplace_ser x (spectral m i) (spectral m j)) (to_ortho_inplace_par_ x (spectral m i) (spectral m j))
       else call par (to_ortho_ser x (spectral m i)) (to_ortho_par_ x (spectral m i))))
  | PFromOrtho par inplace s i j => then_par (get_space sps s) (fun sp => let x := sp zo in to_spec j
      (if inplace then call par (from_ortho_inplace_ser x (spectral m i) (spectral m j)) (from_ortho_inplace_par_ x (spectral m i) (spectral m j))
       else call par (from_ortho_ser x (spectral m i)) (from_ortho_par_ x (spectral m i))))
  | PGradient par s i j g => then_par (get_space sps s) (fun sp => let x := sp zo in to_spec j (call par (gradient_ser x (spectral m i) g) (gradient_par_ x (spectral m i) g)))
  | PUser f => fun r => r = f m
  end.
(** all outcomes of a program; its c-th serial call visits the lanes in the order [zo c] *)
Fixpoint outcomes (zo : nat -> zip_order) (sps : list (zip_order -> api)) (c : nat) (pr : pprogram) (m : pstore) : res pstore -> Prop :=
  match pr with
  | PStop => fun r => r = Ok m
  | PDo st k => par_then (step_outcomes (zo c) sps st m) (fun m' => outcomes zo sps (Datatypes.S c) (k m') m')
  end.

(** ** The serial program: every parallel call replaced by the serial method *)
Definition serial_call (zo : zip_order) (sps : list (zip_order -> api)) (st : pstep) (m : pstore) : res pstore :=
  match st with
  | PForward _ inplace s i j => let* sp := get_space sps s in let x := sp zo in
      let* a := (if inplace then forward_inplace_ser x (physical m i) (spectral m j) else forward_ser x (physical m i)) in Ok (put_spectral m j a)
  | PBackward _ inplace s i j => let* sp := get_space sps s in let x := sp zo in
      let* a := (if inplace then backward_inplace_ser x (spectral m i) (physical m j) else backward_ser x (spectral m i)) in Ok (put_physical m j a)
  | PToOrtho _ inplace s i j => let* sp := get_space sps s in let x := sp zo in
      let* a := (if inplace then to_ortho_inplace_ser x (spectral m i) (spectral m j) else to_ortho_ser x (spectral m i)) in Ok (put_spectral m j a)
  | PFromOrtho _ inplace s i j => let* sp := get_space sps s in let x := sp zo in
      let* a := (if inplace then from_ortho_inplace_ser x (spectral m i) (spectral m j) else from_ortho_ser x (spectral m i)) in Ok (put_spectral m j a)
  | PGradient _ s i j g => let* sp := get_space sps s in let x := sp zo in let* a := gradient_ser x (spectral m i) g in Ok (put_spectral m j a)
  | PUser f => f m
  end.
Fixpoint serial_program (zo : nat -> zip_order) (sps : list (zip_order -> api)) (c : nat) (pr : pprogram) (m : pstore) : res pstore :=
  match pr with
  | PStop => Ok m
  | PDo st k => let* m' := serial_call (zo c) sps st m in serial_program zo sps (Datatypes.S c) (k m') m'
  end.

(** the user's own steps produce arrays that ndarray can hold *)
Fixpoint sane (pr : pprogram) : Prop :=
  match pr with
  | PStop => True
  | PDo st k => match st with PUser f => forall m m', all_wf m -> f m = Ok m' -> all_wf m' | _ => True end /\ forall m, sane (k m)
  end.
End Programs.
Arguments api : clear implicits. Arguments pstore : clear implicits. Arguments pstep : clear implicits. Arguments pprogram : clear implicits.
Arguments PStop {A P S}. Arguments PDo {A P S}.
