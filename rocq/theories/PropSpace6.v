(** C29, C30 continued: the parallel methods of Space1, and the arrays that
    [ndarray_physical()] / [ndarray_spectral()] return. *)
From Coq Require Import List Arith Lia Bool ZArith Reals Lra Permutation.
From Verif Require Import Base Num Linalg Stencils Cheb Compo Fourier FourierFacts FourierProofs CompoProofs NdArray NdArrayFacts AxisFacts Bases BaseLin LibBase
  AxisProps PropAxis SpaceFacts SpaceBases SpaceStages Space MatOp SpaceOrder PropSpace PropSpace2 PropSpace3 ExtLib AnyArith AnyBase PropAny Witness.
Import ListNotations.
Local Open Scope nat_scope.

(** ** Space1: every schedule gives the serial result *)
Theorem C29_space1_par_equals_serial : forall P S T VP VS VT (b0 : base_ops P S T), lib_base P S T VP VS VT b0 ->
  forall (dP : Dflt P) (dS : Dflt S) (dT : Dflt T) zo im0, zip_ok zo -> base_implements im0 b0 ->
  let sp := mk_space1 b0 in
  (forall i o r, wf o -> (s1_forward_inplace_par sp im0 i o r <-> r = s1_forward_inplace zo sp i o)) /\
  (forall i o r, wf o -> (s1_backward_inplace_par sp im0 i o r <-> r = s1_backward_inplace zo sp i o)) /\
  (forall i o r, wf o -> (s1_to_ortho_inplace_par sp im0 i o r <-> r = s1_to_ortho_inplace zo sp i o)) /\
  (forall i o r, wf o -> (s1_from_ortho_inplace_par sp im0 i o r <-> r = s1_from_ortho_inplace zo sp i o)) /\
  (forall i r, s1_forward_par sp im0 i r <-> r = s1_forward zo sp i) /\
  (forall i r, s1_backward_par sp im0 i r <-> r = s1_backward zo sp i) /\
  (forall i r, s1_to_ortho_par sp im0 i r <-> r = s1_to_ortho zo sp i) /\
  (forall i r, s1_from_ortho_par sp im0 i r <-> r = s1_from_ortho zo sp i) /\
  (forall A (N : Num A) (D : DivInto A T) i d (s : option A) r,
     s1_gradient_par sp im0 i d s r <-> r = s1_gradient zo sp i d s).
Proof.
  intros P S T VP VS VT b0 H0 dP dS dT zo im0 Hz I0 sp.
  destruct (C26_inplace_par_equals_serial _ _ _ _ _ _ b0 H0 _ _ _ zo im0 Hz I0) as (X1 & X2 & X3 & X4 & X5).
  destruct (C26_allocating_par_equals_serial _ _ _ _ _ _ b0 H0 _ _ _ zo im0 Hz I0) as (Z1 & Z2 & Z3 & Z4 & Z5).
  split; [|split; [|split; [|split; [|split; [|split; [|split; [|split]]]]]]];
    try (intros; first [apply X1|apply X2|apply X3|apply X4]; auto; apply proper_zeros).
  intros A N D i d s r. apply par_then_eq; intros; [apply Z5|reflexivity].
Qed.
Print Assumptions C29_space1_par_equals_serial.

Theorem C53_space1_par_equals_serial :
  forall A (N : Num A) (Z0 : EqZ A) (E : ext A), ext_ok E -> is0 (n0 (A := A)) = true ->
  forall P S T (b0 : base_ops P S T), any_base E P S T b0 ->
  forall (dP : Dflt P) (dS : Dflt S) (dT : Dflt T) zo im0, zip_ok zo -> base_implements im0 b0 ->
  let sp := mk_space1 b0 in
  (forall i o r, wf o -> (s1_forward_inplace_par sp im0 i o r <-> r = s1_forward_inplace zo sp i o)) /\
  (forall i o r, wf o -> (s1_backward_inplace_par sp im0 i o r <-> r = s1_backward_inplace zo sp i o)) /\
  (forall i o r, wf o -> (s1_to_ortho_inplace_par sp im0 i o r <-> r = s1_to_ortho_inplace zo sp i o)) /\
  (forall i o r, wf o -> (s1_from_ortho_inplace_par sp im0 i o r <-> r = s1_from_ortho_inplace zo sp i o)) /\
  (forall i r, s1_forward_par sp im0 i r <-> r = s1_forward zo sp i) /\
  (forall i r, s1_backward_par sp im0 i r <-> r = s1_backward zo sp i) /\
  (forall i r, s1_to_ortho_par sp im0 i r <-> r = s1_to_ortho zo sp i) /\
  (forall i r, s1_from_ortho_par sp im0 i r <-> r = s1_from_ortho zo sp i) /\
  (forall A' (N' : Num A') (D : DivInto A' T) i d (s : option A') r,
     s1_gradient_par sp im0 i d s r <-> r = s1_gradient zo sp i d s).
Proof.
  intros A NN Z0 EX HE HZ P S T b0 H0 dP dS dT zo im0 Hz I0 sp.
  destruct (C53_inplace_par_equals_serial A NN Z0 EX HE HZ _ _ _ b0 H0 _ _ _ zo im0 Hz I0) as (X1 & X2 & X3 & X4 & X5).
  destruct (C53_allocating_par_equals_serial A NN Z0 EX HE HZ _ _ _ b0 H0 _ _ _ zo im0 Hz I0) as (Z1 & Z2 & Z3 & Z4 & Z5).
  split; [|split; [|split; [|split; [|split; [|split; [|split; [|split]]]]]]];
    try (intros; first [apply X1|apply X2|apply X3|apply X4]; auto; apply proper_zeros).
  intros A' N' D i d s r. apply par_then_eq; intros; [apply Z5|reflexivity].
Qed.
Print Assumptions C53_space1_par_equals_serial.

(** ** The zero field *)
Lemma usable_vecR P S T VP VS VT b : usable P S T VP VS VT b ->
  (exists L : @VecR P VP, True) /\ (exists L : @VecR S VS, True) /\ (exists L : @VecR T VT, True).
Proof.
  intros H. destruct H as [T V L n b H | T V L k n b H Hb Hs | n f H | n f H];
    (split; [|split]); first [exists vecR_R; exact Logic.I|exists vecR_C; exact Logic.I|exists L; exact Logic.I].
Qed.

Section Zero.
Context {T1 T2 : Type} {V1 : Vec R T1} {V2 : Vec R T2} {L1 : VecR T1} {L2 : VecR T2}.
Implicit Type f : list T1 -> list T2 -> res (list T2).
Lemma lscal_zero {T} {V : Vec R T} {L : VecR T} (x : list T) : lscal x 0%R = repeat v0 (length x).
Proof.
  induction x as [|a x IH]; cbn; auto. unfold lscal in *. cbn. rewrite IH. f_equal. apply vext. intros p.
  rewrite vproj_mul, vproj_0. ring.
Qed.
Lemma linop_zero f l1 l2 : linop f l1 l2 -> forall y, length y = l2 -> f (repeat v0 l1) y = Ok (repeat v0 l2).
Proof.
  intros (g & C & _ & S) y Hy. destruct (C (repeat v0 l1) y (repeat_length _ _) Hy) as [E Lg]. rewrite E. f_equal.
  pose proof (S (repeat v0 l1) 0%R (repeat_length _ _)) as H. rewrite !lscal_zero, repeat_length in H. rewrite Lg in H. auto.
Qed.
Lemma line_zeros {T} (z : T) (d : Dflt T) sh pre post : dflt = z -> line (azeros z sh) pre post = repeat z (axlen sh (length pre)).
Proof.
  intros Hd. unfold line, azeros, get. cbn [shp dat].
  assert (K : forall l : list nat, map (fun k => (repeat z (size sh)).[ravel sh (pre ++ k :: post)]) l = repeat z (length l)).
  { induction l as [|k l IH]; cbn [map length repeat]; auto. rewrite IH. f_equal. unfold at_. rewrite Hd.
    generalize (ravel sh (pre ++ k :: post)). generalize (size sh). induction n; intros [|m]; cbn; auto. }
  rewrite K, seq_length. auto.
Qed.
Lemma axis_op_zero f l1 l2 ax sh (d1 : Dflt T1) (d2 : Dflt T2) : linop f l1 l2 -> nth_error sh ax = Some l1 ->
  dflt = (v0 : T1) -> dflt = (v0 : T2) ->
  axis_op f l2 ax (azeros (@dflt T1 d1) sh) (azeros (@dflt T2 d2) (upd sh ax l2)).
Proof.
  intros HL HN D1 D2. rewrite D1, D2. assert (Hax : ax < length sh) by (apply nth_error_Some; rewrite HN; discriminate).
  split; [reflexivity|]. split; [reflexivity|]. split; [unfold wf, azeros; cbn; apply repeat_length|].
  intros pre post Hp Hv y Hy. subst ax. rewrite !line_zeros by auto. rewrite axlen_upd by auto.
  rewrite (proj2 (nth_error_axlen _ _ _ HN)). apply linop_zero; auto.
Qed.
End Zero.

(** The arrays handed out by [ndarray_physical()] and [ndarray_spectral()] hold
    zeros, are accepted by forward and backward, and are mapped to each other.
    (dP, dS, ...: the zero that the code fills arrays with is the zero of the
    element type.) *)
Theorem C29_space1_zero_field : forall P S T VP VS VT (b0 : base_ops P S T), usable P S T VP VS VT b0 ->
  forall (dP : Dflt P) (dS : Dflt S) (dT : Dflt T) zo, @dflt P dP = v0 -> @dflt S dS = v0 -> zip_ok zo ->
  let sp := mk_space1 b0 in
  (shp (s1_ndarray_physical sp) = s1_shape_physical sp /\ shp (s1_ndarray_spectral sp) = s1_shape_spectral sp) /\
  s1_forward zo sp (s1_ndarray_physical sp) = Ok (s1_ndarray_spectral sp) /\
  s1_backward zo sp (s1_ndarray_spectral sp) = Ok (s1_ndarray_physical sp).
Proof.
  intros P S T VP VS VT b0 U0 dP dS dT zo EP ES Hz sp.
  destruct (usable_facts _ _ _ _ _ _ b0 U0) as (F0 & B0 & _).
  destruct (usable_vecR _ _ _ _ _ _ b0 U0) as ([LP _] & [LS _] & _).
  destruct (C29_space1_applies_each_base_along_its_axis P S T VP VS VT b0 U0 dP dS dT zo Hz) as (TF & TB & _).
  split; [split; reflexivity|]. split.
  - destruct (TF (s1_ndarray_physical sp) (azeros dflt (s1_shape_spectral sp)) (proper_zeros _ _) (proper_zeros _ _)) as (r & _ & E & _ & A0).
    unfold sp in *. rewrite E. f_equal.
    refine (axis_op_det _ _ _ _ _ _ _ A0 (axis_op_zero (forward_slice b0) (len_phys b0) (len_spec b0) 0 _ _ _ F0 _ _ _)); cbn; auto.
  - destruct (TB (s1_ndarray_spectral sp) (azeros dflt (s1_shape_physical sp)) (proper_zeros _ _) (proper_zeros _ _)) as (r & _ & E & _ & A0).
    unfold sp in *. rewrite E. f_equal.
    refine (axis_op_det _ _ _ _ _ _ _ A0 (axis_op_zero (backward_slice b0) (len_spec b0) (len_phys b0) 0 _ _ _ B0 _ _ _)); cbn; auto.
Qed.
Print Assumptions C29_space1_zero_field.

Theorem C29_space2_zero_field : forall P I S T VP VI VS VT (b0 : base_ops I S T) (b1 : base_ops P I T),
  usable I S T VI VS VT b0 -> usable P I T VP VI VT b1 ->
  forall (dP : Dflt P) (dI : Dflt I) (dS : Dflt S) (dT : Dflt T) zo, @dflt P dP = v0 -> @dflt I dI = v0 -> @dflt S dS = v0 -> zip_ok zo ->
  let sp := mk_space2 b0 b1 in
  (shp (s2_ndarray_physical sp) = s2_shape_physical sp /\ shp (s2_ndarray_spectral sp) = s2_shape_spectral sp) /\
  s2_forward zo sp (s2_ndarray_physical sp) = Ok (s2_ndarray_spectral sp) /\
  s2_backward zo sp (s2_ndarray_spectral sp) = Ok (s2_ndarray_physical sp).
Proof.
  intros P I S T VP VI VS VT b0 b1 U0 U1 dP dI dS dT zo EP EI ES Hz sp.
  destruct (usable_facts _ _ _ _ _ _ b0 U0) as (F0 & B0 & _). destruct (usable_facts _ _ _ _ _ _ b1 U1) as (F1 & B1 & _).
  destruct (usable_vecR _ _ _ _ _ _ b0 U0) as ([LI _] & [LS _] & _). destruct (usable_vecR _ _ _ _ _ _ b1 U1) as ([LP _] & _).
  destruct (C29_space2_applies_each_base_along_its_axis P I S T VP VI VS VT b0 b1 U0 U1 dP dI dS dT zo Hz) as (TF & TB & _).
  split; [split; reflexivity|]. split.
  - destruct (TF (s2_ndarray_physical sp) (azeros dflt (s2_shape_spectral sp)) (proper_zeros _ _) (proper_zeros _ _)) as (m & r & _ & E & _ & A0 & A1).
    unfold sp in *. rewrite E. f_equal.
    assert (X : m = azeros dflt [len_phys b0; len_spec b1])
      by (refine (axis_op_det _ _ _ _ _ _ _ A0 (axis_op_zero (forward_slice b1) (len_phys b1) (len_spec b1) 1 _ _ _ F1 _ _ _)); cbn; auto).
    subst m.
    refine (axis_op_det _ _ _ _ _ _ _ A1 (axis_op_zero (forward_slice b0) (len_phys b0) (len_spec b0) 0 _ _ _ F0 _ _ _)); cbn; auto.
  - destruct (TB (s2_ndarray_spectral sp) (azeros dflt (s2_shape_physical sp)) (proper_zeros _ _) (proper_zeros _ _)) as (m & r & _ & E & _ & A0 & A1).
    unfold sp in *. rewrite E. f_equal.
    assert (X : m = azeros dflt [len_phys b0; len_spec b1])
      by (refine (axis_op_det _ _ _ _ _ _ _ A0 (axis_op_zero (backward_slice b0) (len_spec b0) (len_phys b0) 0 _ _ _ B0 _ _ _)); cbn; auto).
    subst m.
    refine (axis_op_det _ _ _ _ _ _ _ A1 (axis_op_zero (backward_slice b1) (len_spec b1) (len_phys b1) 1 _ _ _ B1 _ _ _)); cbn; auto.
Qed.
Print Assumptions C29_space2_zero_field.

Theorem C30_space3_zero_field : forall P I J S T VP VI VJ VS VT (b0 : base_ops J S T) (b1 : base_ops I J T) (b2 : base_ops P I T),
  usable J S T VJ VS VT b0 -> usable I J T VI VJ VT b1 -> usable P I T VP VI VT b2 ->
  forall (dP : Dflt P) (dI : Dflt I) (dJ : Dflt J) (dS : Dflt S) (dT : Dflt T) zo, @dflt P dP = v0 -> @dflt I dI = v0 -> @dflt J dJ = v0 -> @dflt S dS = v0 -> zip_ok zo ->
  let sp := mk_space3 b0 b1 b2 in
  (shp (s3_ndarray_physical sp) = s3_shape_physical sp /\ shp (s3_ndarray_spectral sp) = s3_shape_spectral sp) /\
  s3_forward zo sp (s3_ndarray_physical sp) = Ok (s3_ndarray_spectral sp) /\
  s3_backward zo sp (s3_ndarray_spectral sp) = Ok (s3_ndarray_physical sp).
Proof.
  intros P I J S T VP VI VJ VS VT b0 b1 b2 U0 U1 U2 dP dI dJ dS dT zo EP EI EJ ES Hz sp.
  destruct (usable_facts _ _ _ _ _ _ b0 U0) as (F0 & B0 & _). destruct (usable_facts _ _ _ _ _ _ b1 U1) as (F1 & B1 & _).
  destruct (usable_facts _ _ _ _ _ _ b2 U2) as (F2 & B2 & _).
  destruct (usable_vecR _ _ _ _ _ _ b0 U0) as ([LJ _] & [LS _] & _). destruct (usable_vecR _ _ _ _ _ _ b2 U2) as ([LP _] & [LI _] & _).
  destruct (C30_space3_applies_each_base_along_its_axis P I J S T VP VI VJ VS VT b0 b1 b2 U0 U1 U2 dP dI dJ dS dT zo Hz) as (TF & TB & _).
  split; [split; reflexivity|]. split.
  - destruct (TF (s3_ndarray_physical sp) (azeros dflt (s3_shape_spectral sp)) (proper_zeros _ _) (proper_zeros _ _)) as (m & m' & r & _ & E & _ & A0 & A1 & A2).
    unfold sp in *. rewrite E. f_equal.
    assert (X : m = azeros dflt [len_phys b0; len_phys b1; len_spec b2])
      by (refine (axis_op_det _ _ _ _ _ _ _ A0 (axis_op_zero (forward_slice b2) (len_phys b2) (len_spec b2) 2 _ _ _ F2 _ _ _)); cbn; auto).
    subst m.
    assert (X : m' = azeros dflt [len_phys b0; len_spec b1; len_spec b2])
      by (refine (axis_op_det _ _ _ _ _ _ _ A1 (axis_op_zero (forward_slice b1) (len_phys b1) (len_spec b1) 1 _ _ _ F1 _ _ _)); cbn; auto).
    subst m'.
    refine (axis_op_det _ _ _ _ _ _ _ A2 (axis_op_zero (forward_slice b0) (len_phys b0) (len_spec b0) 0 _ _ _ F0 _ _ _)); cbn; auto.
  - destruct (TB (s3_ndarray_spectral sp) (azeros dflt (s3_shape_physical sp)) (proper_zeros _ _) (proper_zeros _ _)) as (m & m' & r & _ & E & _ & A0 & A1 & A2).
    unfold sp in *. rewrite E. f_equal.
    assert (X : m = azeros dflt [len_phys b0; len_spec b1; len_spec b2])
      by (refine (axis_op_det _ _ _ _ _ _ _ A0 (axis_op_zero (backward_slice b0) (len_spec b0) (len_phys b0) 0 _ _ _ B0 _ _ _)); cbn; auto).
    subst m.
    assert (X : m' = azeros dflt [len_phys b0; len_phys b1; len_spec b2])
      by (refine (axis_op_det _ _ _ _ _ _ _ A1 (axis_op_zero (backward_slice b1) (len_spec b1) (len_phys b1) 1 _ _ _ B1 _ _ _)); cbn; auto).
    subst m'.
    refine (axis_op_det _ _ _ _ _ _ _ A2 (axis_op_zero (backward_slice b2) (len_spec b2) (len_phys b2) 2 _ _ _ B2 _ _ _)); cbn; auto.
Qed.
Print Assumptions C30_space3_zero_field.

Example C29_par_hyps_met_space1 : exists b im0, new_composite KDirichlet 7 = Ok b /\
  base_implements im0 (r2r_ops (T := R) b) /\ lib_base R R R vec_self vec_self vec_self (r2r_ops b).
Proof.
  destruct witness_dirichlet as (b & Hb & Ub & _). apply usable_lib in Ub.
  destruct (C26_implementation_exists _ _ _ _ _ _ _ Ub) as [im0 I0].
  exists b, im0. split; [assumption|]. split; assumption.
Qed.

(** The zero-field theorem instantiated at the Dirichlet base of size 7. *)
Example C29_zero_field_met : exists b, new_composite KDirichlet 7 = Ok b /\ forall zo, zip_ok zo ->
  s1_backward (dP := (@dflt_vec R R vec_self)) (dS := (@dflt_vec R R vec_self)) zo (mk_space1 (r2r_ops (T := R) b)) (mk_arr [5] true (repeat 0%R 5))
    = Ok (mk_arr [7] true (repeat 0%R 7)).
Proof.
  destruct witness_dirichlet as (b & Hb & Ub & _ & W). exists b. split; [exact Hb|]. intros zo Hz.
  destruct (C29_space1_zero_field R R R vec_self vec_self vec_self _ Ub (@dflt_vec R R vec_self) (@dflt_vec R R vec_self) (@dflt_vec R R vec_self) zo ltac:(reflexivity) ltac:(reflexivity) Hz) as (_ & _ & E).
  unfold s1_ndarray_physical, s1_ndarray_spectral, s1_shape_spectral, s1_shape_physical, azeros in E. cbn [s1_base0] in E.
  destruct (W R vec_self) as (W1 & W2 & W3). rewrite W1, W2 in E. exact E.
Qed.
