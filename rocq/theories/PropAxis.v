(** C25-C28, C45: the axis-wise array methods of every base. *)
From Coq Require Import List Arith Lia Bool ZArith Reals Lra Permutation.
From Verif Require Import Base Num Linalg Stencils Cheb Compo Fourier CompoProofs NdArray NdArrayFacts AxisFacts Bases
  BaseLin LibBase AxisProps.
Import ListNotations.
Local Open Scope nat_scope.

(** Zip may visit the lanes in any order, but visits each exactly once. *)
Definition zip_ok (zo : zip_order) : Prop := forall si so ax, Permutation (zo si so ax) (seq 0 (nlanes so ax)).

(** Arguments that suit a method reading lines of length l1 and writing lines
    of length l2 ([fits], AxisFacts.v): both arrays in standard layout, [ax]
    within range, extents l1 and l2 along [ax], equal extents elsewhere.
    The array an allocating method creates for its result: *)
Definition fresh {T1 T2} (z : T2) (i : arr T1) (l2 ax : nat) : arr T2 := azeros z (upd (shp i) ax l2).

Lemma resized_ok {T1 T2} (z : T2) (i : arr T1) l1 l2 ax : nth_error (shp i) ax = Some l1 ->
  array_resized_axis z i l2 ax = Ok (fresh z i l2 ax).
Proof.
  intros H. destruct (nth_error_axlen _ _ _ H) as [Ha _]. unfold array_resized_axis. rewrite wr_at by auto. reflexivity.
Qed.
Lemma resized_no {T1 T2} (z : T2) (i : arr T1) l2 ax : length (shp i) <= ax -> array_resized_axis z i l2 ax = Panic.
Proof. intros H. unfold array_resized_axis, wr. destruct (Nat.ltb_spec ax (length (shp i))); try lia. reflexivity. Qed.
Lemma resized_in {T1 T2} (z : T2) (i : arr T1) l2 ax : ax < length (shp i) -> array_resized_axis z i l2 ax = Ok (fresh z i l2 ax).
Proof. intros. unfold array_resized_axis. rewrite wr_at by auto. reflexivity. Qed.
Lemma wf_fresh {T1 T2} (z : T2) (i : arr T1) l2 ax : wf (fresh z i l2 ax).
Proof. unfold wf, fresh, azeros. cbn. apply repeat_length. Qed.
Lemma rm_axis_upd sh ax n : rm_axis (upd sh ax n) ax = rm_axis sh ax.
Proof.
  unfold rm_axis. f_equal. revert ax; induction sh as [|a sh IH]; intros [|ax]; cbn; auto. f_equal; auto.
  revert ax; induction sh as [|a sh IH]; intros [|ax]; cbn; auto. apply IH.
Qed.
Lemma nth_error_upd_same sh ax (n : nat) : ax < length sh -> nth_error (upd sh ax n) ax = Some n.
Proof. revert ax; induction sh as [|a sh IH]; intros [|ax] H; cbn in *; try lia; auto. apply IH; lia. Qed.
Lemma fits_fresh {T1 T2} (z : T2) (i : arr T1) l1 l2 ax : std i = true -> nth_error (shp i) ax = Some l1 ->
  fits l1 l2 i (fresh z i l2 ax) ax.
Proof.
  intros S E. destruct (nth_error_axlen _ _ _ E) as [Ha _]. unfold fits, fresh, azeros. cbn [shp std].
  rewrite nth_error_upd_same, rm_axis_upd by auto. auto.
Qed.
Lemma fits_fresh_inv {T1 T2} (z : T2) (i : arr T1) l1 l2 ax : fits l1 l2 i (fresh z i l2 ax) ax -> std i = true /\ nth_error (shp i) ax = Some l1.
Proof. unfold fits. tauto. Qed.

(** ** C25 *)
Theorem C25_inplace_methods_act_on_every_line :
  forall P S T VP VS VT b, lib_base P S T VP VS VT b ->
  forall (dP : Dflt P) (dS : Dflt S) (dT : Dflt T) zo, zip_ok zo ->
  (forall i o ax, wf o -> fits (len_phys b) (len_spec b) i o ax ->
     along_axis (forward_slice b) ax i o (forward_inplace zo b i o ax)) /\
  (forall i o ax, wf o -> fits (len_spec b) (len_phys b) i o ax ->
     along_axis (backward_slice b) ax i o (backward_inplace zo b i o ax)) /\
  (forall i o ax, wf o -> fits (len_spec b) (len_orth b) i o ax ->
     along_axis (to_ortho_slice b) ax i o (to_ortho_inplace zo b i o ax)) /\
  (forall i o ax, wf o -> fits (len_orth b) (len_spec b) i o ax ->
     along_axis (from_ortho_slice b) ax i o (from_ortho_inplace zo b i o ax)) /\
  (forall i o d ax, wf o -> fits (len_spec b) (len_orth b) i o ax ->
     along_axis (fun x y => gradient_slice b x y d) ax i o (gradient_inplace zo b i o d ax)).
Proof.
  intros P S T VP VS VT b Hb dP dS dT zo Hz. destruct (lib_uniform _ _ _ _ _ _ b Hb) as (U1 & U2 & U3 & U4 & U5).
  repeat split; intros; try (apply apply_along; auto). unfold gradient_inplace. rewrite gradient_apply. apply apply_along; auto.
Qed.
Print Assumptions C25_inplace_methods_act_on_every_line.

Theorem C25_allocating_methods_act_on_every_line :
  forall P S T VP VS VT b, lib_base P S T VP VS VT b ->
  forall (dP : Dflt P) (dS : Dflt S) (dT : Dflt T) zo, zip_ok zo ->
  (forall i ax, std i = true -> nth_error (shp i) ax = Some (len_phys b) ->
     along_axis (forward_slice b) ax i (fresh dflt i (len_spec b) ax) (forward zo b i ax)) /\
  (forall i ax, std i = true -> nth_error (shp i) ax = Some (len_spec b) ->
     along_axis (backward_slice b) ax i (fresh dflt i (len_phys b) ax) (backward zo b i ax)) /\
  (forall i ax, std i = true -> nth_error (shp i) ax = Some (len_spec b) ->
     along_axis (to_ortho_slice b) ax i (fresh dflt i (len_orth b) ax) (to_ortho zo b i ax)) /\
  (forall i ax, std i = true -> nth_error (shp i) ax = Some (len_orth b) ->
     along_axis (from_ortho_slice b) ax i (fresh dflt i (len_spec b) ax) (from_ortho zo b i ax)) /\
  (forall i d ax, std i = true -> nth_error (shp i) ax = Some (len_spec b) ->
     along_axis (fun x y => gradient_slice b x y d) ax i (fresh dflt i (len_orth b) ax) (gradient zo b i d ax)).
Proof.
  intros P S T VP VS VT b Hb dP dS dT zo Hz.
  destruct (C25_inplace_methods_act_on_every_line P S T VP VS VT b Hb dP dS dT zo Hz) as (U1 & U2 & U3 & U4 & U5).
  repeat split; intros; [unfold forward|unfold backward|unfold to_ortho|unfold from_ortho|unfold gradient];
    erewrite resized_ok by eauto; cbn [bind]; [apply U1|apply U2|apply U3|apply U4|apply U5];
    try apply wf_fresh; apply fits_fresh; auto.
Qed.
Print Assumptions C25_allocating_methods_act_on_every_line.

(** What "line" and "element" mean: [line] picks exactly the elements whose
    index at position [ax] varies; two arrays of the same shape with the same
    lines along some axis are the same array. *)
Theorem C25_line_elements : forall T (d : Dflt T) (a : arr T) pre k post,
  k < axlen (shp a) (length pre) -> (line a pre post).[k] = get a (pre ++ k :: post).
Proof. intros. unfold line. apply (at_map_seq (fun k => get a (pre ++ k :: post))); auto. Qed.
Theorem C25_lines_determine_array : forall T (d : Dflt T) (a b : arr T) ax, ax < length (shp a) -> wf a -> wf b ->
  shp a = shp b -> std a = std b ->
  (forall pre post, length pre = ax -> valid (rm_axis (shp a) ax) (pre ++ post) -> line a pre post = line b pre post) -> a = b.
Proof.
  intros T d a b ax Hax Wa Wb Es Et H. apply arr_eq; auto. unfold wf in *. apply (lanes_ext (shp a) ax); auto. congruence.
  intros j Hj. destruct (lane_idx (shp a) ax j Hax Hj) as (pre & post & Hp & Hv & Er). specialize (H pre post Hp Hv).
  subst ax. rewrite line_lane in H by auto. rewrite line_lane in H by (rewrite <- Es; auto). rewrite <- Es, Er in H. auto.
Qed.
Print Assumptions C25_lines_determine_array.

(** ** C26 *)
(** The set of outcomes of a parallel call, over all interleavings of the
    individual memory accesses of all lane tasks, is exactly the outcome of the
    serial call; [im] is any decomposition of the slice methods into accesses. *)
Theorem C26_inplace_par_equals_serial :
  forall P S T VP VS VT b, lib_base P S T VP VS VT b ->
  forall (dP : Dflt P) (dS : Dflt S) (dT : Dflt T) zo im, zip_ok zo -> base_implements im b ->
  (forall i o ax r, wf o -> (forward_inplace_par im b i o ax r <-> r = forward_inplace zo b i o ax)) /\
  (forall i o ax r, wf o -> (backward_inplace_par im b i o ax r <-> r = backward_inplace zo b i o ax)) /\
  (forall i o ax r, wf o -> (to_ortho_inplace_par im b i o ax r <-> r = to_ortho_inplace zo b i o ax)) /\
  (forall i o ax r, wf o -> (from_ortho_inplace_par im b i o ax r <-> r = from_ortho_inplace zo b i o ax)) /\
  (forall i o d ax r, wf o -> (gradient_inplace_par im b i o d ax r <-> r = gradient_inplace zo b i o d ax)).
Proof.
  intros P S T VP VS VT b Hb dP dS dT zo im Hz (I1 & I2 & I3 & I4 & I5).
  destruct (lib_uniform _ _ _ _ _ _ b Hb) as (U1 & U2 & U3 & U4 & U5).
  split; [|split; [|split; [|split]]]; intros; try (apply par_serial; auto).
  unfold gradient_inplace_par, gradient_inplace. rewrite par_gradient_apply, gradient_apply. apply par_serial; auto.
Qed.
Print Assumptions C26_inplace_par_equals_serial.

Lemma then_par_eq {A B} (m : res A) (k : A -> res B -> Prop) (k' : A -> res B) r :
  (forall a, m = Ok a -> (k a r <-> r = k' a)) -> (then_par m k r <-> r = bind m k').
Proof. intros H. destruct m; cbn [then_par bind]; auto; tauto. Qed.

Theorem C26_allocating_par_equals_serial :
  forall P S T VP VS VT b, lib_base P S T VP VS VT b ->
  forall (dP : Dflt P) (dS : Dflt S) (dT : Dflt T) zo im, zip_ok zo -> base_implements im b ->
  (forall i ax r, forward_par im b i ax r <-> r = forward zo b i ax) /\
  (forall i ax r, backward_par im b i ax r <-> r = backward zo b i ax) /\
  (forall i ax r, to_ortho_par im b i ax r <-> r = to_ortho zo b i ax) /\
  (forall i ax r, from_ortho_par im b i ax r <-> r = from_ortho zo b i ax) /\
  (forall i d ax r, gradient_par im b i d ax r <-> r = gradient zo b i d ax).
Proof.
  intros P S T VP VS VT b Hb dP dS dT zo im Hz Hi.
  destruct (C26_inplace_par_equals_serial P S T VP VS VT b Hb dP dS dT zo im Hz Hi) as (U1 & U2 & U3 & U4 & U5).
  assert (W : forall T1 T2 (z : T2) (i : arr T1) l ax o, array_resized_axis z i l ax = Ok o -> wf o).
  { intros T1 T2 z i l ax o E. unfold array_resized_axis in E. destruct (wr Checked (shp i) ax l); try discriminate.
    inversion E. unfold wf, azeros; cbn. apply repeat_length. }
  split; [|split; [|split; [|split]]]; intros;
    [unfold forward_par, forward|unfold backward_par, backward|unfold to_ortho_par, to_ortho
    |unfold from_ortho_par, from_ortho|unfold gradient_par, gradient];
    apply then_par_eq; intros o E; apply W in E; auto.
Qed.
Print Assumptions C26_allocating_par_equals_serial.

(** No schedule runs forever. *)
Theorem C26_every_schedule_terminates : forall T (sh : list nat) ax (s : list (prog T) * list T),
  Acc (fun s' s => par_step sh ax s s') s.
Proof. intros. apply par_step_wf. Qed.
Print Assumptions C26_every_schedule_terminates.

(** Distinct lanes touch disjoint addresses. *)
Theorem C26_lanes_are_disjoint : forall sh ax j k j' k', j < nlanes sh ax -> j' < nlanes sh ax ->
  k < axlen sh ax -> k' < axlen sh ax -> lidx sh ax j k = lidx sh ax j' k' -> j = j' /\ k = k'.
Proof. intros. apply (lidx_inj sh ax); auto. Qed.
Print Assumptions C26_lanes_are_disjoint.

(** Non-vacuity: decompositions into accesses exist for every base. *)
Theorem C26_implementation_exists : forall P S T VP VS VT b, lib_base P S T VP VS VT b -> exists im, base_implements im b.
Proof.
  intros P S T VP VS VT b Hb. destruct (lib_uniform _ _ _ _ _ _ b Hb) as (U1 & U2 & U3 & U4 & U5).
  exists (mk_impl (impl_of (len_spec b) (forward_slice b)) (impl_of (len_phys b) (backward_slice b))
     (impl_of (len_orth b) (to_ortho_slice b)) (impl_of (len_spec b) (from_ortho_slice b))
     (fun d => impl_of (len_orth b) (fun x y => gradient_slice b x y d))).
  unfold base_implements. cbn [im_forward im_backward im_to_ortho im_from_ortho im_gradient].
  repeat split; intros; apply impl_of_ok; auto.
Qed.
Print Assumptions C26_implementation_exists.

(** ** C27 *)
(** For any base at all, even one whose slice methods are immediately UB: if
    the arguments do not fit, the outcome is a panic. As the outcome does not
    depend on what the slice methods do, none of them has been called, hence
    nothing has been written. *)
Theorem C27_mismatch_panics_before_any_write :
  forall P S T (b : base_ops P S T) (dP : Dflt P) (dS : Dflt S) (dT : Dflt T) zo,
  (forall i o ax, ~ fits (len_phys b) (len_spec b) i o ax -> forward_inplace zo b i o ax = Panic) /\
  (forall i o ax, ~ fits (len_spec b) (len_phys b) i o ax -> backward_inplace zo b i o ax = Panic) /\
  (forall i o ax, ~ fits (len_spec b) (len_orth b) i o ax -> to_ortho_inplace zo b i o ax = Panic) /\
  (forall i o ax, ~ fits (len_orth b) (len_spec b) i o ax -> from_ortho_inplace zo b i o ax = Panic) /\
  (forall i o d ax, ~ fits (len_spec b) (len_orth b) i o ax -> gradient_inplace zo b i o d ax = Panic).
Proof.
  intros. repeat split; intros; try (apply apply_no_fit; auto).
  unfold gradient_inplace. rewrite gradient_apply. apply apply_no_fit; auto.
Qed.
Print Assumptions C27_mismatch_panics_before_any_write.

Theorem C27_par_mismatch_panics_before_any_write :
  forall P S T (b : base_ops P S T) (dP : Dflt P) (dS : Dflt S) (dT : Dflt T) im,
  (forall i o ax r, ~ fits (len_phys b) (len_spec b) i o ax -> forward_inplace_par im b i o ax r -> r = Panic) /\
  (forall i o ax r, ~ fits (len_spec b) (len_phys b) i o ax -> backward_inplace_par im b i o ax r -> r = Panic) /\
  (forall i o ax r, ~ fits (len_spec b) (len_orth b) i o ax -> to_ortho_inplace_par im b i o ax r -> r = Panic) /\
  (forall i o ax r, ~ fits (len_orth b) (len_spec b) i o ax -> from_ortho_inplace_par im b i o ax r -> r = Panic) /\
  (forall i o d ax r, ~ fits (len_spec b) (len_orth b) i o ax -> gradient_inplace_par im b i o d ax r -> r = Panic).
Proof.
  intros. repeat split; intros i o; intros;
    try (match goal with N : ~ _, K : _ |- _ => exact (proj1 (par_no_fit _ _ _ _ _ _ _ _ _ N) K) end).
  unfold gradient_inplace_par in H0. apply par_gradient_apply in H0. exact (proj1 (par_no_fit _ _ _ _ _ _ _ _ _ H) H0).
Qed.
Print Assumptions C27_par_mismatch_panics_before_any_write.

(** Allocating variants: the output is sized by the library, so only the axis
    and the extent of the input along it (and its layout) matter. *)
Theorem C27_allocating_mismatch_panics :
  forall P S T (b : base_ops P S T) (dP : Dflt P) (dS : Dflt S) (dT : Dflt T) zo,
  (forall i ax, nth_error (shp i) ax <> Some (len_phys b) \/ std i = false -> forward zo b i ax = Panic) /\
  (forall i ax, nth_error (shp i) ax <> Some (len_spec b) \/ std i = false -> backward zo b i ax = Panic) /\
  (forall i ax, nth_error (shp i) ax <> Some (len_spec b) \/ std i = false -> to_ortho zo b i ax = Panic) /\
  (forall i ax, nth_error (shp i) ax <> Some (len_orth b) \/ std i = false -> from_ortho zo b i ax = Panic) /\
  (forall i d ax, nth_error (shp i) ax <> Some (len_spec b) \/ std i = false -> gradient zo b i d ax = Panic).
Proof.
  intros P S T b dP dS dT zo.
  destruct (C27_mismatch_panics_before_any_write P S T b dP dS dT zo) as (U1 & U2 & U3 & U4 & U5).
  repeat split; intros i; intros; [unfold forward|unfold backward|unfold to_ortho|unfold from_ortho|unfold gradient];
    (destruct (le_lt_dec (length (shp i)) ax); [rewrite resized_no by auto; reflexivity|]); rewrite resized_in by auto; cbn [bind];
    [apply U1|apply U2|apply U3|apply U4|apply U5]; intros F; apply fits_fresh_inv in F; destruct F, H; congruence.
Qed.
Print Assumptions C27_allocating_mismatch_panics.

(** The checks succeed whenever the arguments fit: the only failures left are
    those of the slice method itself on lines of the right lengths. *)
Definition slice_total {T1 T2} (l1 l2 : nat) (f : list T1 -> list T2 -> res (list T2)) : Prop :=
  forall x y, length x = l1 -> length y = l2 -> exists z, f x y = Ok z.
Lemma along_total {T1 T2} {d1 : Dflt T1} {d2 : Dflt T2} (f : list T1 -> list T2 -> res (list T2)) l1 l2 i o ax r :
  slice_total l1 l2 f -> fits l1 l2 i o ax -> along_axis f ax i o r -> exists b, r = Ok b.
Proof.
  intros Hs F H. destruct F as (Sa & So & Ea & Eo & R).
  destruct (nth_error_axlen _ _ _ Ea) as [Ha La]. destruct (nth_error_axlen _ _ _ Eo) as [Hox Lo].
  destruct r as [r| |]; eauto; destruct H as (pre & post & Hp & _ & E);
   edestruct (Hs (line i pre post) (line o pre post)) as [z Ez]; rewrite ?line_length, ?Hp; auto; congruence.
Qed.
Theorem C27_fitting_arguments_never_panic_for_size :
  forall P S T VP VS VT b, lib_base P S T VP VS VT b ->
  forall (dP : Dflt P) (dS : Dflt S) (dT : Dflt T) zo, zip_ok zo ->
  (slice_total (len_phys b) (len_spec b) (forward_slice b) ->
   forall i o ax, wf o -> fits (len_phys b) (len_spec b) i o ax -> exists r, forward_inplace zo b i o ax = Ok r) /\
  (slice_total (len_spec b) (len_phys b) (backward_slice b) ->
   forall i o ax, wf o -> fits (len_spec b) (len_phys b) i o ax -> exists r, backward_inplace zo b i o ax = Ok r) /\
  (slice_total (len_spec b) (len_orth b) (to_ortho_slice b) ->
   forall i o ax, wf o -> fits (len_spec b) (len_orth b) i o ax -> exists r, to_ortho_inplace zo b i o ax = Ok r) /\
  (slice_total (len_orth b) (len_spec b) (from_ortho_slice b) ->
   forall i o ax, wf o -> fits (len_orth b) (len_spec b) i o ax -> exists r, from_ortho_inplace zo b i o ax = Ok r) /\
  (forall d, slice_total (len_spec b) (len_orth b) (fun x y => gradient_slice b x y d) ->
   forall i o ax, wf o -> fits (len_spec b) (len_orth b) i o ax -> exists r, gradient_inplace zo b i o d ax = Ok r).
Proof.
  intros P S T VP VS VT b Hb dP dS dT zo Hz.
  destruct (C25_inplace_methods_act_on_every_line P S T VP VS VT b Hb dP dS dT zo Hz) as (U1 & U2 & U3 & U4 & U5).
  split; [|split; [|split; [|split]]].
  - intros. eapply (along_total (forward_slice b)); eauto.
  - intros. eapply (along_total (backward_slice b)); eauto.
  - intros. eapply (along_total (to_ortho_slice b)); eauto.
  - intros. eapply (along_total (from_ortho_slice b)); eauto.
  - intros. eapply (along_total (fun x y => gradient_slice b x y d)); eauto.
Qed.
Print Assumptions C27_fitting_arguments_never_panic_for_size.

(** ** C28 *)
Definition same_layout {T} (o o' : arr T) : Prop := wf o /\ wf o' /\ shp o = shp o' /\ std o = std o'.

Theorem C28_result_independent_of_previous_output :
  forall P S T VP VS VT b, lib_base P S T VP VS VT b ->
  forall (dP : Dflt P) (dS : Dflt S) (dT : Dflt T) zo zo', zip_ok zo -> zip_ok zo' ->
  (forall i o o' ax, same_layout o o' -> forward_inplace zo b i o ax = forward_inplace zo' b i o' ax) /\
  (forall i o o' ax, same_layout o o' -> backward_inplace zo b i o ax = backward_inplace zo' b i o' ax) /\
  (forall i o o' ax, same_layout o o' -> to_ortho_inplace zo b i o ax = to_ortho_inplace zo' b i o' ax) /\
  (forall i o o' ax, same_layout o o' -> from_ortho_inplace zo b i o ax = from_ortho_inplace zo' b i o' ax) /\
  (forall i o o' d ax, same_layout o o' -> gradient_inplace zo b i o d ax = gradient_inplace zo' b i o' d ax).
Proof.
  intros P S T VP VS VT b Hb dP dS dT zo zo' Hz Hz'.
  destruct (lib_uniform _ _ _ _ _ _ b Hb) as (U1 & U2 & U3 & U4 & U5).
  repeat split; intros i o o'; intros; destruct H as (W & W' & Es & Et); try (apply apply_indep; auto).
  unfold gradient_inplace. rewrite !gradient_apply. apply (apply_indep dflt dflt (fun x y => gradient_slice b x y d)); auto.
Qed.
Print Assumptions C28_result_independent_of_previous_output.

Theorem C28_inplace_equals_allocating :
  forall P S T VP VS VT b, lib_base P S T VP VS VT b ->
  forall (dP : Dflt P) (dS : Dflt S) (dT : Dflt T) zo, zip_ok zo ->
  (forall i o ax, ax < length (shp i) -> wf o -> std o = true -> shp o = upd (shp i) ax (len_spec b) ->
     forward_inplace zo b i o ax = forward zo b i ax) /\
  (forall i o ax, ax < length (shp i) -> wf o -> std o = true -> shp o = upd (shp i) ax (len_phys b) ->
     backward_inplace zo b i o ax = backward zo b i ax) /\
  (forall i o ax, ax < length (shp i) -> wf o -> std o = true -> shp o = upd (shp i) ax (len_orth b) ->
     to_ortho_inplace zo b i o ax = to_ortho zo b i ax) /\
  (forall i o ax, ax < length (shp i) -> wf o -> std o = true -> shp o = upd (shp i) ax (len_spec b) ->
     from_ortho_inplace zo b i o ax = from_ortho zo b i ax) /\
  (forall i o d ax, ax < length (shp i) -> wf o -> std o = true -> shp o = upd (shp i) ax (len_orth b) ->
     gradient_inplace zo b i o d ax = gradient zo b i d ax).
Proof.
  intros P S T VP VS VT b Hb dP dS dT zo Hz.
  destruct (C28_result_independent_of_previous_output P S T VP VS VT b Hb dP dS dT zo zo Hz Hz) as (U1 & U2 & U3 & U4 & U5).
  repeat split; intros i o; intros; [unfold forward|unfold backward|unfold to_ortho|unfold from_ortho|unfold gradient];
   rewrite resized_in by auto; cbn [bind]; [apply U1|apply U2|apply U3|apply U4|apply U5];
   split; auto; split; try apply wf_fresh; split; auto.
Qed.
Print Assumptions C28_inplace_equals_allocating.

(** ** C45 *)
(** [lin al x be y] is al*x + be*y element by element. *)
Theorem C45_lin_elements : forall T (V : Vec R T) al (x : list T) be y i, length x = length y -> i < length x ->
  (lin al x be y).[i] = vadd (vmul x.[i] al) (vmul y.[i] be).
Proof. intros. apply nth_lin; auto. Qed.

(** Whenever a slice method succeeds on two inputs, it succeeds on every linear
    combination and returns the same combination of the results; the previous
    contents o, o', o'' of the outputs are arbitrary. *)
Definition linear_slice {T1 T2} {V1 : Vec R T1} {V2 : Vec R T2} (l1 l2 : nat) (f : list T1 -> list T2 -> res (list T2)) : Prop :=
  forall x x' o o' o'' z z' al be, length x = l1 -> length x' = l1 -> length o = l2 -> length o' = l2 -> length o'' = l2 ->
    f x o = Ok z -> f x' o' = Ok z' -> f (lin al x be x') o'' = Ok (lin al z be z').
Definition linear_method {T1 T2} {V1 : Vec R T1} {V2 : Vec R T2} (op : arr T1 -> res (arr T2)) : Prop :=
  forall i i' r r' al be, wf i -> wf i' -> shp i = shp i' -> op i = Ok r -> op i' = Ok r' ->
    op (alin al i be i') = Ok (alin al r be r').

Lemma slice_linear {T1 T2} {V1 : Vec R T1} {V2 : Vec R T2} (f : list T1 -> list T2 -> res (list T2)) l1 l2 :
  uniform f l1 l2 -> linear_slice l1 l2 f.
Proof.
  intros [(g & C & Lg)|[U|U]] x x' o o' o'' z z' al be Hx Hx' Ho Ho' Ho'' E E';
    try (rewrite U in E by auto; discriminate).
  rewrite (proj1 (C x o Hx Ho)) in E. rewrite (proj1 (C x' o' Hx' Ho')) in E'. inversion E; inversion E'; subst z z'.
  assert (length (lin al x be x') = l1) by (rewrite lin_length; congruence).
  rewrite (proj1 (C _ o'' H Ho'')). f_equal. apply (linear_lin l1); auto.
Qed.

Theorem C45_slice_methods_linear : forall P S T VP VS VT b, lib_base P S T VP VS VT b ->
  linear_slice (len_phys b) (len_spec b) (forward_slice b) /\
  linear_slice (len_spec b) (len_phys b) (backward_slice b) /\
  linear_slice (len_spec b) (len_orth b) (to_ortho_slice b) /\
  linear_slice (len_orth b) (len_spec b) (from_ortho_slice b) /\
  (forall d, linear_slice (len_spec b) (len_orth b) (fun x y => gradient_slice b x y d)).
Proof.
  intros P S T VP VS VT b Hb. destruct (lib_uniform _ _ _ _ _ _ b Hb) as (U1 & U2 & U3 & U4 & U5).
  split; [|split; [|split; [|split]]]; intros; apply slice_linear; auto.
Qed.
Print Assumptions C45_slice_methods_linear.

Theorem C45_axis_methods_linear : forall P S T VP VS VT b, lib_base P S T VP VS VT b ->
  forall (dP : Dflt P) (dS : Dflt S) (dT : Dflt T) zo, zip_ok zo -> forall ax,
  linear_method (fun i => forward zo b i ax) /\ linear_method (fun i => backward zo b i ax) /\
  linear_method (fun i => to_ortho zo b i ax) /\ linear_method (fun i => from_ortho zo b i ax) /\
  (forall d, linear_method (fun i => gradient zo b i d ax)).
Proof.
  intros P S T VP VS VT b Hb dP dS dT zo Hz ax.
  destruct (lib_uniform _ _ _ _ _ _ b Hb) as (U1 & U2 & U3 & U4 & U5).
  assert (K : forall T1 T2 (V1 : Vec R T1) (V2 : Vec R T2) (d1 : Dflt T1) (d2 : Dflt T2) f l1 l2, uniform f l1 l2 ->
    linear_method (fun i : arr T1 => let* o := array_resized_axis (dflt : T2) i l2 ax in
       apply_along_axis dflt f l1 l2 (zo (shp i) (shp o) ax) i o ax)).
  { intros T1 T2 V1 V2 d1 d2 f l1 l2 U i i' r r' al be W W' Es. cbv beta.
    destruct (le_lt_dec (length (shp i)) ax) as [L|L]. { rewrite resized_no by auto. discriminate. }
    rewrite !resized_in by (rewrite <- ?Es; auto). cbn [bind]. intros E E'.
    apply (apply_linear dflt f l1 l2 (zo (shp i) (shp (fresh (dflt : T2) i l2 ax)) ax) (zo (shp i') (shp (fresh (dflt : T2) i' l2 ax)) ax)
      _ i i' (fresh dflt i l2 ax) (fresh dflt i' l2 ax)); auto; try apply wf_fresh; cbn [fresh azeros shp std alin]; try congruence; apply Hz. }
  split; [|split; [|split; [|split]]]; try (apply K; auto).
  intros d i i' r r' al be W W' Es. cbv beta. unfold gradient, gradient_inplace.
  intros E E'. specialize (K T T VT VT dT dT _ _ _ (U5 d) i i' r r' al be W W' Es).
  assert (G : forall j : arr T, (let* o := array_resized_axis dflt j (len_orth b) ax in
       gradient_along_axis dflt (fun x y => gradient_slice b x y d) (len_spec b) (len_orth b) (zo (shp j) (shp o) ax) j o ax) =
      (let* o := array_resized_axis dflt j (len_orth b) ax in
       apply_along_axis dflt (fun x y => gradient_slice b x y d) (len_spec b) (len_orth b) (zo (shp j) (shp o) ax) j o ax)).
  { intros j. destruct (array_resized_axis dflt j (len_orth b) ax); cbn [bind]; auto. apply gradient_apply. }
  rewrite G in *. apply K; auto.
Qed.
Print Assumptions C45_axis_methods_linear.

(** ** Non-vacuity *)
(** A zip order, a base, arguments that fit along a contiguous and a strided
    axis, arguments that do not. *)
Example zip_ok_row_major : zip_ok (fun si so ax => seq 0 (nlanes so ax)).
Proof. intros si so ax. apply Permutation_refl. Qed.
Example lib_base_dirichlet : exists b, new_composite KDirichlet 8 = Ok b /\ lib_base R R R vec_self vec_self vec_self (r2r_ops b).
Proof.
  unfold new_composite. destruct (compo_new_ok KDirichlet 8) as [c Hc]. cbn; lia. exists (BChebyshevComposite c). rewrite Hc. split. reflexivity.
  apply (lib_composite R vec_self vecR_R KDirichlet 8). unfold new_composite. rewrite Hc. reflexivity.
Qed.
Example fits_strided : fits 3 5 (mk_arr [3; 4] true (seq 0 12)) (mk_arr [5; 4] true (seq 0 20)) 0.
Proof. repeat split. Qed.
Example fits_contiguous : fits 4 2 (mk_arr [3; 4] true (seq 0 12)) (mk_arr [3; 2] true (seq 0 6)) 1.
Proof. repeat split. Qed.
Example fits_not : ~ fits 3 5 (mk_arr [3; 4] true (seq 0 12)) (mk_arr [5; 3] true (seq 0 15)) 0.
Proof. intros (_ & _ & _ & _ & E). discriminate. Qed.

(** Differentiating the Chebyshev series of a 3 x 2 and a 2 x 3 array over Q:
    column-wise (strided, scratch buffer) and row-wise (contiguous). *)
From Coq Require Import QArith.
Definition qb : base_ops Q Q Q := mk_base 3 3 3 (fun _ _ => Panic) (fun _ _ => Panic)
  (cheb_to_ortho (mk_cheb 3 3)) (cheb_from_ortho (mk_cheb 3 3)) (cheb_gradient (A := Q) (mk_cheb 3 3)).
Example strided_run : gradient (dT := dflt_num) (fun si so ax => rev (seq 0 (nlanes so ax))) qb
  (mk_arr [3; 2]%nat true [1; 2; 3; 4; 5; 6]%Q) 1 0 = Ok (mk_arr [3; 2]%nat true [3; 4; 20; 24; 0; 0]%Q).
Proof. vm_compute. reflexivity. Qed.
Example contiguous_run : gradient (dT := dflt_num) (fun si so ax => seq 0 (nlanes so ax)) qb
  (mk_arr [2; 3]%nat true [1; 3; 5; 2; 4; 6]%Q) 1 1 = Ok (mk_arr [2; 3]%nat true [3; 20; 0; 4; 24; 0]%Q).
Proof. vm_compute. reflexivity. Qed.
