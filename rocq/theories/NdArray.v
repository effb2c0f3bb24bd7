(** Model of the multi-dimensional layer: [traits.rs] (the axis-wise default
    methods of [BaseTransform], [BaseFromOrtho], [BaseGradient]),
    [internal_macros.rs] ([apply_along_axis!], [par_apply_along_axis!]) and the
    two array helpers of [utils.rs].

    An ndarray is modelled by its shape, its logical elements in row-major
    order and the flag [is_standard_layout()] (a view may be strided or
    transposed: then the flag is false while the logical elements are still
    listed in row-major order). *)
From Coq Require Import List Arith Lia Bool Permutation.
From Verif Require Import Base.
Import ListNotations.

(** [ArrayBase<S, D>] of ndarray (external): shape, layout flag, entries in row-major order *)
Record arr (T : Type) := mk_arr { shp : list nat; std : bool; dat : list T }.
Arguments mk_arr {T}. Arguments shp {T}. Arguments std {T}. Arguments dat {T}.

(** [.ndim()] *)
Definition ndim {T} (a : arr T) : nat := length (shp a).
(** [.len()]: the product of the extents *)
Definition size (sh : list nat) : nat := fold_right Nat.mul 1 sh.
(** Every ndarray satisfies this (ndarray's own invariant). *)
Definition wf {T} (a : arr T) : Prop := length (dat a) = size (shp a).

(** [ndarray::Array::zeros(dim)]. *)
Definition azeros {T} (z : T) (sh : list nat) : arr T := mk_arr sh true (repeat z (size sh)).

(** [shape()[axis]]: panics if axis >= ndim. *)
Definition extent {T} (a : arr T) (ax : nat) : res nat := rd Checked (shp a) ax.

(** Lanes of ndarray ([lanes(Axis(ax))]): lane [j] fixes all other indices; its
    k-th element sits [k] steps along [ax]. [inner] = product of the extents
    after [ax]. *)
Definition axlen (sh : list nat) (ax : nat) : nat := nth ax sh 0.
(** the number of index tuples before the axis *)
Definition outer (sh : list nat) (ax : nat) : nat := size (firstn ax sh).
(** the number of index tuples after the axis *)
Definition inner (sh : list nat) (ax : nat) : nat := size (skipn (S ax) sh).
(** the number of one-dimensional lanes along the axis *)
Definition nlanes (sh : list nat) (ax : nat) : nat := outer sh ax * inner sh ax.
(** the lane array has the shape of the array without axis [ax] *)
Definition rm_axis (sh : list nat) (ax : nat) : list nat := firstn ax sh ++ skipn (S ax) sh.
(** position of entry k of lane j *)
Definition lidx (sh : list nat) (ax j k : nat) : nat :=
  (j / inner sh ax * axlen sh ax + k) * inner sh ax + j mod inner sh ax.

(** lane j along the axis ([.lanes(axis)]) *)
Definition lane {T} {d : Dflt T} (sh : list nat) (ax : nat) (l : list T) (j : nat) : list T :=
  map (fun k => l.[lidx sh ax j k]) (seq 0 (axlen sh ax)).
(** [for (yi, si) in y.iter_mut().zip(s.iter()) { *yi = *si }] on lane [j]. *)
Definition put_lane {T} (sh : list nat) (ax : nat) (l : list T) (j : nat) (s : list T) : list T :=
  fold_left (fun l '(k, x) => upd l (lidx sh ax j k) x) (combine (seq 0 (axlen sh ax)) s) l.

(** equality of shapes *)
Fixpoint list_eqb (a b : list nat) : bool :=
  match a, b with
  | [], [] => true
  | x :: a, y :: b => (x =? y) && list_eqb a b
  | _, _ => false
  end.

(** utils.rs:97-115 [array_resized_axis]: [dim[axis] = size] panics if axis is
    out of range. *)
Definition array_resized_axis {T1 T2} (z : T2) (a : arr T1) (n ax : nat) : res (arr T2) :=
  let* sh := wr Checked (shp a) ax n in
  Ok (azeros z sh).

(** utils.rs:129-149 [check_array_axis]. *)
Definition check_array_axis {T} (a : arr T) (n ax : nat) : res unit :=
  let* m := extent a ax in
  assertb (m =? n).

Section Apply.
Context {T1 T2 : Type} {d1 : Dflt T1} {d2 : Dflt T2}.
(** A slice method: input slice, previous content of the output slice, new
    content of the output slice. *)
Notation slicefn := (list T1 -> list T2 -> res (list T2)).

(** internal_macros.rs:186-233 [apply_along_axis!]. [order] is the order in
    which [Zip] visits the lanes (ndarray chooses it from the memory layout;
    theorems quantify over every order). [Zip] panics unless the two lane
    arrays have the same shape. [zero] is [<T2>::zero()]. *)
Definition apply_along_axis (zero : T2) (f : slicefn) (l1 l2 : nat) (order : list nat)
    (indata : arr T1) (outdata : arr T2) (axis : nat) : res (arr T2) :=
  assertb (std indata) ;;
  assertb (std outdata) ;;
  check_array_axis indata l1 axis ;;
  check_array_axis outdata l2 axis ;;
  let* outer_axis := usub (ndim indata) 1 in
  let si := shp indata in
  let so := shp outdata in
  if axis =? outer_axis then
    (* data is contiguous in memory: the slice method works on the lane itself *)
    assertb (list_eqb (rm_axis si axis) (rm_axis so axis)) ;;
    let* out := for_each order (fun j out =>
        let* y := f (lane si axis (dat indata) j) (lane so axis out j) in
        Ok (put_lane so axis out j y)) (dat outdata) in
    Ok (mk_arr so (std outdata) out)
  else
    (* not contiguous: copy through one scratch vector shared by all lanes *)
    let* n := extent outdata axis in
    assertb (list_eqb (rm_axis si axis) (rm_axis so axis)) ;;
    let* st := for_each order (fun j '(out, scratch) =>
        let* scratch := f (lane si axis (dat indata) j) scratch in
        Ok (put_lane so axis out j scratch, scratch)) (dat outdata, repeat zero n) in
    Ok (mk_arr so (std outdata) (fst st)).

(** traits.rs:351-391 [gradient_inplace]: the same loop written out by hand,
    with [outdata.ndim()] and [rows()] (= lanes of the last axis) in the
    contiguous case. *)
Definition gradient_along_axis (zero : T2) (f : slicefn) (len_spec len_orth : nat) (order : list nat)
    (indata : arr T1) (outdata : arr T2) (axis : nat) : res (arr T2) :=
  assertb (std indata) ;;
  assertb (std outdata) ;;
  check_array_axis indata len_spec axis ;;
  check_array_axis outdata len_orth axis ;;
  let* outer_axis := usub (ndim outdata) 1 in
  let si := shp indata in
  let so := shp outdata in
  let ri := length si - 1 in
  let ro := length so - 1 in
  if axis =? outer_axis then
    assertb (list_eqb (rm_axis si ri) (rm_axis so ro)) ;;
    let* out := for_each order (fun j out =>
        let* y := f (lane si ri (dat indata) j) (lane so ro out j) in
        Ok (put_lane so ro out j y)) (dat outdata) in
    Ok (mk_arr so (std outdata) out)
  else
    let* n := extent outdata axis in
    assertb (list_eqb (rm_axis si axis) (rm_axis so axis)) ;;
    let* st := for_each order (fun j '(out, scratch) =>
        let* scratch := f (lane si axis (dat indata) j) scratch in
        Ok (put_lane so axis out j scratch, scratch)) (dat outdata, repeat zero n) in
    Ok (mk_arr so (std outdata) (fst st)).

End Apply.

(** ** Parallel variants *)

(** A lane task as a sequence of individual memory accesses to its own output
    lane ([PRd k]/[PWr k v]: element [k] of the lane), interleaved arbitrarily
    with the accesses of the other tasks. *)
Inductive prog (T : Type) :=
| PRet : prog T
| PFail : res unit -> prog T
| PRd : nat -> (T -> prog T) -> prog T
| PWr : nat -> T -> prog T -> prog T.
Arguments PRet {T}. Arguments PFail {T}. Arguments PRd {T}. Arguments PWr {T}.

(** the outcome is a panic or undefined behaviour *)
Definition failed {T} (e : res unit) : res T := match e with Panic => Panic | _ => UB end.

(** The task run alone on its lane [y]. *)
Fixpoint prun {T} (p : prog T) (y : list T) : res (list T) :=
  match p with
  | PRet => Ok y
  | PFail e => failed e
  | PRd k c => match nth_error y k with Some v => prun (c v) y | None => UB end
  | PWr k v p => if k <? length y then prun p (upd y k v) else UB
  end.

(** One access of task [j] on the whole output buffer. An access outside the
    lane would be undefined behaviour. *)
Definition pact {T} (sh : list nat) (ax j : nat) (p : prog T) (l : list T) : option (res (prog T * list T)) :=
  match p with
  | PRet => None
  | PFail e => Some (failed e)
  | PRd k c => Some (if k <? axlen sh ax then
      match nth_error l (lidx sh ax j k) with Some v => Ok (c v, l) | None => UB end else UB)
  | PWr k v p => Some (if k <? axlen sh ax then Ok (p, upd l (lidx sh ax j k) v) else UB)
  end.

(** All interleavings. [par_exec sh ax (tasks, buffer) r]: some schedule ends
    with outcome [r]; [tasks] lists the tasks of lanes 0, 1, .... If a task
    fails, the whole [par_for_each] does (rayon re-raises the panic). *)
Inductive par_exec {T} (sh : list nat) (ax : nat) : list (prog T) * list T -> res (list T) -> Prop :=
| pe_done ts l : (forall j p, nth_error ts j = Some p -> p = PRet) -> par_exec sh ax (ts, l) (Ok l)
| pe_step ts l j p p' l' r : nth_error ts j = Some p -> pact sh ax j p l = Some (Ok (p', l')) ->
    par_exec sh ax (upd ts j p', l') r -> par_exec sh ax (ts, l) r
| pe_panic ts l j p : nth_error ts j = Some p -> pact sh ax j p l = Some Panic -> par_exec sh ax (ts, l) Panic
| pe_ub ts l j p : nth_error ts j = Some p -> pact sh ax j p l = Some UB -> par_exec sh ax (ts, l) UB.

(** One scheduling step, for termination. *)
Definition par_step {T} (sh : list nat) (ax : nat) (s s' : list (prog T) * list T) : Prop :=
  exists j p p', nth_error (fst s) j = Some p /\
    pact sh ax j p (snd s) = Some (Ok (p', snd s')) /\ fst s' = upd (fst s) j p'.

(** [for (yi, si) in y.iter_mut().zip(scratch.iter()) { *yi = *si }] *)
Fixpoint copy_prog {T} (k : nat) (s : list T) : prog T :=
  match s with
  | [] => PRet
  | x :: s => PWr k x (copy_prog (S k) s)
  end.

Section Par.
Context {T1 T2 : Type} {d1 : Dflt T1} {d2 : Dflt T2}.
Notation slicefn := (list T1 -> list T2 -> res (list T2)).

(** [impl x] is the slice method called on input lane [x], as accesses to the
    output lane; it implements [f] when, run alone on lanes of the lengths the
    caller has checked, it has [f]'s effect. *)
Definition implements (l1 l2 : nat) (impl : list T1 -> prog T2) (f : slicefn) : Prop :=
  forall x y, length x = l1 -> length y = l2 -> prun (impl x) y = f x y.

(** Task of one lane when the axis is not the last one: compute in a private
    scratch vector, then copy (internal_macros.rs:266-277). *)
Definition scratch_task (zero : T2) (f : slicefn) (n : nat) (x : list T1) : prog T2 :=
  match f x (repeat zero n) with
  | Ok s => copy_prog 0 (firstn n s)
  | Panic => PFail Panic
  | UB => PFail UB
  end.

(** internal_macros.rs:237-279 [par_apply_along_axis!]: every outcome the call
    can have. *)
Definition par_apply_along_axis (zero : T2) (f : slicefn) (impl : list T1 -> prog T2) (l1 l2 : nat)
    (indata : arr T1) (outdata : arr T2) (axis : nat) (r : res (arr T2)) : Prop :=
  let si := shp indata in
  let so := shp outdata in
  match
    (assertb (std indata) ;;
     assertb (std outdata) ;;
     check_array_axis indata l1 axis ;;
     check_array_axis outdata l2 axis ;;
     let* outer_axis := usub (ndim indata) 1 in
     let* n := extent outdata axis in
     assertb (list_eqb (rm_axis si axis) (rm_axis so axis)) ;;
     Ok (outer_axis, n))
  with
  | Ok (outer_axis, n) =>
      let task x := if axis =? outer_axis then impl x else scratch_task zero f n x in
      let tasks := map (fun j => task (lane si axis (dat indata) j)) (seq 0 (nlanes so axis)) in
      exists ro, par_exec so axis (tasks, dat outdata) ro /\
        r = (let* out := ro in Ok (mk_arr so (std outdata) out))
  | Panic => r = Panic
  | UB => r = UB
  end.

(** traits.rs:411-455 [gradient_inplace_par]. *)
Definition par_gradient_along_axis (zero : T2) (f : slicefn) (impl : list T1 -> prog T2) (len_spec len_orth : nat)
    (indata : arr T1) (outdata : arr T2) (axis : nat) (r : res (arr T2)) : Prop :=
  let si := shp indata in
  let so := shp outdata in
  match
    (assertb (std indata) ;;
     assertb (std outdata) ;;
     check_array_axis indata len_spec axis ;;
     check_array_axis outdata len_orth axis ;;
     let* outer_axis := usub (ndim outdata) 1 in
     if axis =? outer_axis then
       assertb (list_eqb (rm_axis si (length si - 1)) (rm_axis so (length so - 1))) ;;
       Ok (map (fun j => impl (lane si (length si - 1) (dat indata) j)) (seq 0 (nlanes so (length so - 1))), length so - 1)
     else
       let* n := extent outdata axis in
       assertb (list_eqb (rm_axis si axis) (rm_axis so axis)) ;;
       Ok (map (fun j => scratch_task zero f n (lane si axis (dat indata) j)) (seq 0 (nlanes so axis)), axis))
  with
  | Ok (tasks, ax) =>
      exists ro, par_exec so ax (tasks, dat outdata) ro /\
        r = (let* out := ro in Ok (mk_arr so (std outdata) out))
  | Panic => r = Panic
  | UB => r = UB
  end.
End Par.
