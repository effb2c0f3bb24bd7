(** C53, spaces: Space1, Space2 and Space3 apply each base along its own axis,
    return arrays of the right shapes, reject other shapes, and the parallel
    methods give the serial results, in any arithmetic and with any transform
    libraries. *)
From Coq Require Import List Arith Lia Bool ZArith Reals Permutation.
From Verif Require Import Base Num Linalg Stencils Cheb Compo CompoProofs Fourier NdArray NdArrayFacts AxisFacts Bases BaseLin LibBase
  AxisProps PropAxis SpaceFacts SpaceBases SpaceStages Space PropSpace PropSpace3 PropSpace4 ExtLib AnyArith ExtFacts AnyBase PropAny.
Import ListNotations.
Local Open Scope nat_scope.

Theorem C53_space1_applies_each_base_along_its_axis :
  forall A (N : Num A) (Z0 : EqZ A) (E : ext A), ext_ok E -> is0 (n0 (A := A)) = true ->
  forall P S T (b0 : base_ops P S T), any_usable E P S T b0 ->
  forall (dP : Dflt P) (dS : Dflt S) (dT : Dflt T) zo, zip_ok zo ->
  let sp := mk_space1 b0 in
  (forall (a : arr P) (o : arr S), proper (s1_shape_physical sp) a -> proper (s1_shape_spectral sp) o ->
     exists r, s1_forward_inplace zo sp a o = Ok r /\ s1_forward zo sp a = Ok r /\ proper (s1_shape_spectral sp) r /\
       axis_op (forward_slice b0) (len_spec b0) 0 a r) /\
  (forall (a : arr S) (o : arr P), proper (s1_shape_spectral sp) a -> proper (s1_shape_physical sp) o ->
     exists r, s1_backward_inplace zo sp a o = Ok r /\ s1_backward zo sp a = Ok r /\ proper (s1_shape_physical sp) r /\
       axis_op (backward_slice b0) (len_phys b0) 0 a r) /\
  (forall (a : arr T) (o : arr T), proper (s1_shape_spectral sp) a -> proper (s1_shape_spectral_ortho sp) o ->
     exists r, s1_to_ortho_inplace zo sp a o = Ok r /\ s1_to_ortho zo sp a = Ok r /\ proper (s1_shape_spectral_ortho sp) r /\
       axis_op (to_ortho_slice b0) (len_orth b0) 0 a r) /\
  (forall (a : arr T) (o : arr T), proper (s1_shape_spectral_ortho sp) a -> proper (s1_shape_spectral sp) o ->
     exists r, s1_from_ortho_inplace zo sp a o = Ok r /\ s1_from_ortho zo sp a = Ok r /\ proper (s1_shape_spectral sp) r /\
       axis_op (from_ortho_slice b0) (len_spec b0) 0 a r).
Proof.
  intros A NN Z0 EX HE HZ P S T b0 U0 dP dS dT zo Hz sp. pose (VP := deg dP : Vec R P). pose (VS := deg dS : Vec R S). pose (VT := deg dT : Vec R T).
  destruct (any_facts EX HE HZ P S T b0 dP dS dT U0) as (F0 & B0 & O0 & Q0).
  split; [|split; [|split]].
  - intros a o (Sa & Ta & Wa) (So & To & Wo). unfold s1_forward. 
    assert (E : nth_error (shp a) 0 = Some (len_phys b0)) by (rewrite Sa; reflexivity).
    destruct (axop_runs (forward_slice b0) (len_phys b0) (len_spec b0) zo a 0 F0 Hz Ta E) as (r & Er & Ar).
    assert (K : forall o, proper (s1_shape_spectral sp) o -> s1_forward_inplace zo sp a o = Ok r).
    { intros o' (So' & To' & Wo'). rewrite <- Er. apply inplace_runs; auto. left; auto. rewrite So', Sa; reflexivity. rewrite Sa; cbn; lia. }
    exists r. split; [apply K; split; auto|]. split; [apply K; apply proper_zeros|]. split; auto.
    exact (proper_op _ _ _ _ _ _ _ Ar (Logic.conj Sa (Logic.conj Ta Wa)) eq_refl).
  - intros a o (Sa & Ta & Wa) (So & To & Wo). unfold s1_backward. 
    assert (E : nth_error (shp a) 0 = Some (len_spec b0)) by (rewrite Sa; reflexivity).
    destruct (axop_runs (backward_slice b0) (len_spec b0) (len_phys b0) zo a 0 B0 Hz Ta E) as (r & Er & Ar).
    assert (K : forall o, proper (s1_shape_physical sp) o -> s1_backward_inplace zo sp a o = Ok r).
    { intros o' (So' & To' & Wo'). rewrite <- Er. apply inplace_runs; auto. left; auto. rewrite So', Sa; reflexivity. rewrite Sa; cbn; lia. }
    exists r. split; [apply K; split; auto|]. split; [apply K; apply proper_zeros|]. split; auto.
    exact (proper_op _ _ _ _ _ _ _ Ar (Logic.conj Sa (Logic.conj Ta Wa)) eq_refl).
  - intros a o (Sa & Ta & Wa) (So & To & Wo). unfold s1_to_ortho. 
    assert (E : nth_error (shp a) 0 = Some (len_spec b0)) by (rewrite Sa; reflexivity).
    destruct (axop_runs (to_ortho_slice b0) (len_spec b0) (len_orth b0) zo a 0 O0 Hz Ta E) as (r & Er & Ar).
    assert (K : forall o, proper (s1_shape_spectral_ortho sp) o -> s1_to_ortho_inplace zo sp a o = Ok r).
    { intros o' (So' & To' & Wo'). rewrite <- Er. apply inplace_runs; auto. left; auto. rewrite So', Sa; reflexivity. rewrite Sa; cbn; lia. }
    exists r. split; [apply K; split; auto|]. split; [apply K; apply proper_zeros|]. split; auto.
    exact (proper_op _ _ _ _ _ _ _ Ar (Logic.conj Sa (Logic.conj Ta Wa)) eq_refl).
  - intros a o (Sa & Ta & Wa) (So & To & Wo). unfold s1_from_ortho. 
    assert (E : nth_error (shp a) 0 = Some (len_orth b0)) by (rewrite Sa; reflexivity).
    destruct (axop_runs (from_ortho_slice b0) (len_orth b0) (len_spec b0) zo a 0 Q0 Hz Ta E) as (r & Er & Ar).
    assert (K : forall o, proper (s1_shape_spectral sp) o -> s1_from_ortho_inplace zo sp a o = Ok r).
    { intros o' (So' & To' & Wo'). rewrite <- Er. apply inplace_runs; auto. left; auto. rewrite So', Sa; reflexivity. rewrite Sa; cbn; lia. }
    exists r. split; [apply K; split; auto|]. split; [apply K; apply proper_zeros|]. split; auto.
    exact (proper_op _ _ _ _ _ _ _ Ar (Logic.conj Sa (Logic.conj Ta Wa)) eq_refl).
Qed.
Print Assumptions C53_space1_applies_each_base_along_its_axis.

Theorem C53_space2_applies_each_base_along_its_axis :
  forall A (N : Num A) (Z0 : EqZ A) (E : ext A), ext_ok E -> is0 (n0 (A := A)) = true ->
  forall P I S T (b0 : base_ops I S T) (b1 : base_ops P I T), any_usable E I S T b0 -> any_usable E P I T b1 ->
  forall (dP : Dflt P) (dI : Dflt I) (dS : Dflt S) (dT : Dflt T) zo, zip_ok zo ->
  let sp := mk_space2 b0 b1 in
  (forall (a : arr P) (o : arr S), proper (s2_shape_physical sp) a -> proper (s2_shape_spectral sp) o ->
     exists m r, s2_forward_inplace zo sp a o = Ok r /\ s2_forward zo sp a = Ok r /\ proper (s2_shape_spectral sp) r /\
       axis_op (forward_slice b1) (len_spec b1) 1 a m /\ axis_op (forward_slice b0) (len_spec b0) 0 m r) /\
  (forall (a : arr S) (o : arr P), proper (s2_shape_spectral sp) a -> proper (s2_shape_physical sp) o ->
     exists m r, s2_backward_inplace zo sp a o = Ok r /\ s2_backward zo sp a = Ok r /\ proper (s2_shape_physical sp) r /\
       axis_op (backward_slice b0) (len_phys b0) 0 a m /\ axis_op (backward_slice b1) (len_phys b1) 1 m r) /\
  (forall (a : arr T) (o : arr T), proper (s2_shape_spectral sp) a -> proper (s2_shape_spectral_ortho sp) o ->
     exists m r, s2_to_ortho_inplace zo sp a o = Ok r /\ s2_to_ortho zo sp a = Ok r /\ proper (s2_shape_spectral_ortho sp) r /\
       axis_op (to_ortho_slice b0) (len_orth b0) 0 a m /\ axis_op (to_ortho_slice b1) (len_orth b1) 1 m r) /\
  (forall (a : arr T) (o : arr T), proper (s2_shape_spectral_ortho sp) a -> proper (s2_shape_spectral sp) o ->
     exists m r, s2_from_ortho_inplace zo sp a o = Ok r /\ s2_from_ortho zo sp a = Ok r /\ proper (s2_shape_spectral sp) r /\
       axis_op (from_ortho_slice b0) (len_spec b0) 0 a m /\ axis_op (from_ortho_slice b1) (len_spec b1) 1 m r).
Proof.
  intros A NN Z0 EX HE HZ P I S T b0 b1 U0 U1 dP dI dS dT zo Hz sp. pose (VP := deg dP : Vec R P). pose (VI := deg dI : Vec R I). pose (VS := deg dS : Vec R S). pose (VT := deg dT : Vec R T).
  destruct (any_facts EX HE HZ I S T b0 dI dS dT U0) as (F0 & B0 & O0 & Q0).
  destruct (any_facts EX HE HZ P I T b1 dP dI dT U1) as (F1 & B1 & O1 & Q1).
  split; [|split; [|split]].
  - intros a o (Sa & Ta & Wa) (So & To & Wo). unfold s2_forward.
    assert (K : forall o, proper (s2_shape_spectral sp) o -> exists m r, s2_forward_inplace zo sp a o = Ok r /\ axis_op (forward_slice b1) (len_spec b1) 1 a m /\ axis_op (forward_slice b0) (len_spec b0) 0 m r).
    { intros o' (So' & To' & Wo'). apply (stage2_runs (forward_slice b1) (forward_slice b0) (len_phys b1) (len_spec b1) 1 (len_phys b0) (len_spec b0) 0 zo Hz ltac:(lia) a o' F1 F0 Ta);
        auto; rewrite ?Sa, ?So'; reflexivity. }
    destruct (K o) as (m & r & E & A0 & A1); [split; auto|].
    destruct (K (azeros dflt (s2_shape_spectral sp))) as (q0 & r' & E' & B0_ & B1_); [apply proper_zeros|].
    assert (X : m = q0) by (refine (axis_op_det _ _ _ _ _ _ _ A0 B0_); rewrite Sa; cbn; lia). destruct X. clear B0_.
    pose proof (proj1 A0) as S0.
    assert (X : r = r') by (refine (axis_op_det _ _ _ _ _ _ _ A1 B1_); rewrite S0, !upd_length, Sa; cbn; lia). destruct X. clear B1_.
    exists m, r. split; auto. split; auto. split; auto.
    exact (proper_op _ _ _ _ _ _ _ A1 (proper_op _ _ _ _ _ _ _ A0 (Logic.conj Sa (Logic.conj Ta Wa)) eq_refl) eq_refl).
  - intros a o (Sa & Ta & Wa) (So & To & Wo). unfold s2_backward.
    assert (K : forall o, proper (s2_shape_physical sp) o -> exists m r, s2_backward_inplace zo sp a o = Ok r /\ axis_op (backward_slice b0) (len_phys b0) 0 a m /\ axis_op (backward_slice b1) (len_phys b1) 1 m r).
    { intros o' (So' & To' & Wo'). apply (stage2_runs (backward_slice b0) (backward_slice b1) (len_spec b0) (len_phys b0) 0 (len_spec b1) (len_phys b1) 1 zo Hz ltac:(lia) a o' B0 B1 Ta);
        auto; rewrite ?Sa, ?So'; reflexivity. }
    destruct (K o) as (m & r & E & A0 & A1); [split; auto|].
    destruct (K (azeros dflt (s2_shape_physical sp))) as (q0 & r' & E' & B0_ & B1_); [apply proper_zeros|].
    assert (X : m = q0) by (refine (axis_op_det _ _ _ _ _ _ _ A0 B0_); rewrite Sa; cbn; lia). destruct X. clear B0_.
    pose proof (proj1 A0) as S0.
    assert (X : r = r') by (refine (axis_op_det _ _ _ _ _ _ _ A1 B1_); rewrite S0, !upd_length, Sa; cbn; lia). destruct X. clear B1_.
    exists m, r. split; auto. split; auto. split; auto.
    exact (proper_op _ _ _ _ _ _ _ A1 (proper_op _ _ _ _ _ _ _ A0 (Logic.conj Sa (Logic.conj Ta Wa)) eq_refl) eq_refl).
  - intros a o (Sa & Ta & Wa) (So & To & Wo). unfold s2_to_ortho.
    assert (K : forall o, proper (s2_shape_spectral_ortho sp) o -> exists m r, s2_to_ortho_inplace zo sp a o = Ok r /\ axis_op (to_ortho_slice b0) (len_orth b0) 0 a m /\ axis_op (to_ortho_slice b1) (len_orth b1) 1 m r).
    { intros o' (So' & To' & Wo'). apply (stage2_runs (to_ortho_slice b0) (to_ortho_slice b1) (len_spec b0) (len_orth b0) 0 (len_spec b1) (len_orth b1) 1 zo Hz ltac:(lia) a o' O0 O1 Ta);
        auto; rewrite ?Sa, ?So'; reflexivity. }
    destruct (K o) as (m & r & E & A0 & A1); [split; auto|].
    destruct (K (azeros dflt (s2_shape_spectral_ortho sp))) as (q0 & r' & E' & B0_ & B1_); [apply proper_zeros|].
    assert (X : m = q0) by (refine (axis_op_det _ _ _ _ _ _ _ A0 B0_); rewrite Sa; cbn; lia). destruct X. clear B0_.
    pose proof (proj1 A0) as S0.
    assert (X : r = r') by (refine (axis_op_det _ _ _ _ _ _ _ A1 B1_); rewrite S0, !upd_length, Sa; cbn; lia). destruct X. clear B1_.
    exists m, r. split; auto. split; auto. split; auto.
    exact (proper_op _ _ _ _ _ _ _ A1 (proper_op _ _ _ _ _ _ _ A0 (Logic.conj Sa (Logic.conj Ta Wa)) eq_refl) eq_refl).
  - intros a o (Sa & Ta & Wa) (So & To & Wo). unfold s2_from_ortho.
    assert (K : forall o, proper (s2_shape_spectral sp) o -> exists m r, s2_from_ortho_inplace zo sp a o = Ok r /\ axis_op (from_ortho_slice b0) (len_spec b0) 0 a m /\ axis_op (from_ortho_slice b1) (len_spec b1) 1 m r).
    { intros o' (So' & To' & Wo'). apply (stage2_runs (from_ortho_slice b0) (from_ortho_slice b1) (len_orth b0) (len_spec b0) 0 (len_orth b1) (len_spec b1) 1 zo Hz ltac:(lia) a o' Q0 Q1 Ta);
        auto; rewrite ?Sa, ?So'; reflexivity. }
    destruct (K o) as (m & r & E & A0 & A1); [split; auto|].
    destruct (K (azeros dflt (s2_shape_spectral sp))) as (q0 & r' & E' & B0_ & B1_); [apply proper_zeros|].
    assert (X : m = q0) by (refine (axis_op_det _ _ _ _ _ _ _ A0 B0_); rewrite Sa; cbn; lia). destruct X. clear B0_.
    pose proof (proj1 A0) as S0.
    assert (X : r = r') by (refine (axis_op_det _ _ _ _ _ _ _ A1 B1_); rewrite S0, !upd_length, Sa; cbn; lia). destruct X. clear B1_.
    exists m, r. split; auto. split; auto. split; auto.
    exact (proper_op _ _ _ _ _ _ _ A1 (proper_op _ _ _ _ _ _ _ A0 (Logic.conj Sa (Logic.conj Ta Wa)) eq_refl) eq_refl).
Qed.
Print Assumptions C53_space2_applies_each_base_along_its_axis.

Theorem C53_space3_applies_each_base_along_its_axis :
  forall A (N : Num A) (Z0 : EqZ A) (E : ext A), ext_ok E -> is0 (n0 (A := A)) = true ->
  forall P I J S T (b0 : base_ops J S T) (b1 : base_ops I J T) (b2 : base_ops P I T), any_usable E J S T b0 -> any_usable E I J T b1 -> any_usable E P I T b2 ->
  forall (dP : Dflt P) (dI : Dflt I) (dJ : Dflt J) (dS : Dflt S) (dT : Dflt T) zo, zip_ok zo ->
  let sp := mk_space3 b0 b1 b2 in
  (forall (a : arr P) (o : arr S), proper (s3_shape_physical sp) a -> proper (s3_shape_spectral sp) o ->
     exists m m' r, s3_forward_inplace zo sp a o = Ok r /\ s3_forward zo sp a = Ok r /\ proper (s3_shape_spectral sp) r /\
       axis_op (forward_slice b2) (len_spec b2) 2 a m /\ axis_op (forward_slice b1) (len_spec b1) 1 m m' /\ axis_op (forward_slice b0) (len_spec b0) 0 m' r) /\
  (forall (a : arr S) (o : arr P), proper (s3_shape_spectral sp) a -> proper (s3_shape_physical sp) o ->
     exists m m' r, s3_backward_inplace zo sp a o = Ok r /\ s3_backward zo sp a = Ok r /\ proper (s3_shape_physical sp) r /\
       axis_op (backward_slice b0) (len_phys b0) 0 a m /\ axis_op (backward_slice b1) (len_phys b1) 1 m m' /\ axis_op (backward_slice b2) (len_phys b2) 2 m' r) /\
  (forall (a : arr T) (o : arr T), proper (s3_shape_spectral sp) a -> proper (s3_shape_spectral_ortho sp) o ->
     exists m m' r, s3_to_ortho_inplace zo sp a o = Ok r /\ s3_to_ortho zo sp a = Ok r /\ proper (s3_shape_spectral_ortho sp) r /\
       axis_op (to_ortho_slice b0) (len_orth b0) 0 a m /\ axis_op (to_ortho_slice b1) (len_orth b1) 1 m m' /\ axis_op (to_ortho_slice b2) (len_orth b2) 2 m' r) /\
  (forall (a : arr T) (o : arr T), proper (s3_shape_spectral_ortho sp) a -> proper (s3_shape_spectral sp) o ->
     exists m m' r, s3_from_ortho_inplace zo sp a o = Ok r /\ s3_from_ortho zo sp a = Ok r /\ proper (s3_shape_spectral sp) r /\
       axis_op (from_ortho_slice b0) (len_spec b0) 0 a m /\ axis_op (from_ortho_slice b1) (len_spec b1) 1 m m' /\ axis_op (from_ortho_slice b2) (len_spec b2) 2 m' r).
Proof.
  intros A NN Z0 EX HE HZ P I J S T b0 b1 b2 U0 U1 U2 dP dI dJ dS dT zo Hz sp. pose (VP := deg dP : Vec R P). pose (VI := deg dI : Vec R I). pose (VJ := deg dJ : Vec R J). pose (VS := deg dS : Vec R S). pose (VT := deg dT : Vec R T).
  destruct (any_facts EX HE HZ J S T b0 dJ dS dT U0) as (F0 & B0 & O0 & Q0).
  destruct (any_facts EX HE HZ I J T b1 dI dJ dT U1) as (F1 & B1 & O1 & Q1).
  destruct (any_facts EX HE HZ P I T b2 dP dI dT U2) as (F2 & B2 & O2 & Q2).
  split; [|split; [|split]].
  - intros a o (Sa & Ta & Wa) (So & To & Wo). unfold s3_forward.
    assert (K : forall o, proper (s3_shape_spectral sp) o -> exists m m' r, s3_forward_inplace zo sp a o = Ok r /\ axis_op (forward_slice b2) (len_spec b2) 2 a m /\ axis_op (forward_slice b1) (len_spec b1) 1 m m' /\ axis_op (forward_slice b0) (len_spec b0) 0 m' r).
    { intros o' (So' & To' & Wo'). apply (stage3_runs (forward_slice b2) (forward_slice b1) (forward_slice b0) (len_phys b2) (len_spec b2) 2 (len_phys b1) (len_spec b1) 1 (len_phys b0) (len_spec b0) 0 zo Hz ltac:(lia) ltac:(lia) ltac:(lia) a o' F2 F1 F0 Ta);
        auto; rewrite ?Sa, ?So'; reflexivity. }
    destruct (K o) as (m & m' & r & E & A0 & A1 & A2); [split; auto|].
    destruct (K (azeros dflt (s3_shape_spectral sp))) as (q0 & q1 & r' & E' & B0_ & B1_ & B2_); [apply proper_zeros|].
    assert (X : m = q0) by (refine (axis_op_det _ _ _ _ _ _ _ A0 B0_); rewrite Sa; cbn; lia). destruct X. clear B0_.
    pose proof (proj1 A0) as S0.
    pose proof (proj1 A1) as S1.
    assert (X : m' = q1) by (refine (axis_op_det _ _ _ _ _ _ _ A1 B1_); rewrite S0, !upd_length, Sa; cbn; lia). destruct X. clear B1_.
    assert (X : r = r') by (refine (axis_op_det _ _ _ _ _ _ _ A2 B2_); rewrite S1, S0, !upd_length, Sa; cbn; lia). destruct X. clear B2_.
    exists m, m', r. split; auto. split; auto. split; auto.
    exact (proper_op _ _ _ _ _ _ _ A2 (proper_op _ _ _ _ _ _ _ A1 (proper_op _ _ _ _ _ _ _ A0 (Logic.conj Sa (Logic.conj Ta Wa)) eq_refl) eq_refl) eq_refl).
  - intros a o (Sa & Ta & Wa) (So & To & Wo). unfold s3_backward.
    assert (K : forall o, proper (s3_shape_physical sp) o -> exists m m' r, s3_backward_inplace zo sp a o = Ok r /\ axis_op (backward_slice b0) (len_phys b0) 0 a m /\ axis_op (backward_slice b1) (len_phys b1) 1 m m' /\ axis_op (backward_slice b2) (len_phys b2) 2 m' r).
    { intros o' (So' & To' & Wo'). apply (stage3_runs (backward_slice b0) (backward_slice b1) (backward_slice b2) (len_spec b0) (len_phys b0) 0 (len_spec b1) (len_phys b1) 1 (len_spec b2) (len_phys b2) 2 zo Hz ltac:(lia) ltac:(lia) ltac:(lia) a o' B0 B1 B2 Ta);
        auto; rewrite ?Sa, ?So'; reflexivity. }
    destruct (K o) as (m & m' & r & E & A0 & A1 & A2); [split; auto|].
    destruct (K (azeros dflt (s3_shape_physical sp))) as (q0 & q1 & r' & E' & B0_ & B1_ & B2_); [apply proper_zeros|].
    assert (X : m = q0) by (refine (axis_op_det _ _ _ _ _ _ _ A0 B0_); rewrite Sa; cbn; lia). destruct X. clear B0_.
    pose proof (proj1 A0) as S0.
    pose proof (proj1 A1) as S1.
    assert (X : m' = q1) by (refine (axis_op_det _ _ _ _ _ _ _ A1 B1_); rewrite S0, !upd_length, Sa; cbn; lia). destruct X. clear B1_.
    assert (X : r = r') by (refine (axis_op_det _ _ _ _ _ _ _ A2 B2_); rewrite S1, S0, !upd_length, Sa; cbn; lia). destruct X. clear B2_.
    exists m, m', r. split; auto. split; auto. split; auto.
    exact (proper_op _ _ _ _ _ _ _ A2 (proper_op _ _ _ _ _ _ _ A1 (proper_op _ _ _ _ _ _ _ A0 (Logic.conj Sa (Logic.conj Ta Wa)) eq_refl) eq_refl) eq_refl).
  - intros a o (Sa & Ta & Wa) (So & To & Wo). unfold s3_to_ortho.
    assert (K : forall o, proper (s3_shape_spectral_ortho sp) o -> exists m m' r, s3_to_ortho_inplace zo sp a o = Ok r /\ axis_op (to_ortho_slice b0) (len_orth b0) 0 a m /\ axis_op (to_ortho_slice b1) (len_orth b1) 1 m m' /\ axis_op (to_ortho_slice b2) (len_orth b2) 2 m' r).
    { intros o' (So' & To' & Wo'). apply (stage3_runs (to_ortho_slice b0) (to_ortho_slice b1) (to_ortho_slice b2) (len_spec b0) (len_orth b0) 0 (len_spec b1) (len_orth b1) 1 (len_spec b2) (len_orth b2) 2 zo Hz ltac:(lia) ltac:(lia) ltac:(lia) a o' O0 O1 O2 Ta);
        auto; rewrite ?Sa, ?So'; reflexivity. }
    destruct (K o) as (m & m' & r & E & A0 & A1 & A2); [split; auto|].
    destruct (K (azeros dflt (s3_shape_spectral_ortho sp))) as (q0 & q1 & r' & E' & B0_ & B1_ & B2_); [apply proper_zeros|].
    assert (X : m = q0) by (refine (axis_op_det _ _ _ _ _ _ _ A0 B0_); rewrite Sa; cbn; lia). destruct X. clear B0_.
    pose proof (proj1 A0) as S0.
    pose proof (proj1 A1) as S1.
    assert (X : m' = q1) by (refine (axis_op_det _ _ _ _ _ _ _ A1 B1_); rewrite S0, !upd_length, Sa; cbn; lia). destruct X. clear B1_.
    assert (X : r = r') by (refine (axis_op_det _ _ _ _ _ _ _ A2 B2_); rewrite S1, S0, !upd_length, Sa; cbn; lia). destruct X. clear B2_.
    exists m, m', r. split; auto. split; auto. split; auto.
    exact (proper_op _ _ _ _ _ _ _ A2 (proper_op _ _ _ _ _ _ _ A1 (proper_op _ _ _ _ _ _ _ A0 (Logic.conj Sa (Logic.conj Ta Wa)) eq_refl) eq_refl) eq_refl).
  - intros a o (Sa & Ta & Wa) (So & To & Wo). unfold s3_from_ortho.
    assert (K : forall o, proper (s3_shape_spectral sp) o -> exists m m' r, s3_from_ortho_inplace zo sp a o = Ok r /\ axis_op (from_ortho_slice b0) (len_spec b0) 0 a m /\ axis_op (from_ortho_slice b1) (len_spec b1) 1 m m' /\ axis_op (from_ortho_slice b2) (len_spec b2) 2 m' r).
    { intros o' (So' & To' & Wo'). apply (stage3_runs (from_ortho_slice b0) (from_ortho_slice b1) (from_ortho_slice b2) (len_orth b0) (len_spec b0) 0 (len_orth b1) (len_spec b1) 1 (len_orth b2) (len_spec b2) 2 zo Hz ltac:(lia) ltac:(lia) ltac:(lia) a o' Q0 Q1 Q2 Ta);
        auto; rewrite ?Sa, ?So'; reflexivity. }
    destruct (K o) as (m & m' & r & E & A0 & A1 & A2); [split; auto|].
    destruct (K (azeros dflt (s3_shape_spectral sp))) as (q0 & q1 & r' & E' & B0_ & B1_ & B2_); [apply proper_zeros|].
    assert (X : m = q0) by (refine (axis_op_det _ _ _ _ _ _ _ A0 B0_); rewrite Sa; cbn; lia). destruct X. clear B0_.
    pose proof (proj1 A0) as S0.
    pose proof (proj1 A1) as S1.
    assert (X : m' = q1) by (refine (axis_op_det _ _ _ _ _ _ _ A1 B1_); rewrite S0, !upd_length, Sa; cbn; lia). destruct X. clear B1_.
    assert (X : r = r') by (refine (axis_op_det _ _ _ _ _ _ _ A2 B2_); rewrite S1, S0, !upd_length, Sa; cbn; lia). destruct X. clear B2_.
    exists m, m', r. split; auto. split; auto. split; auto.
    exact (proper_op _ _ _ _ _ _ _ A2 (proper_op _ _ _ _ _ _ _ A1 (proper_op _ _ _ _ _ _ _ A0 (Logic.conj Sa (Logic.conj Ta Wa)) eq_refl) eq_refl) eq_refl).
Qed.
Print Assumptions C53_space3_applies_each_base_along_its_axis.

Theorem C53_space1_rejects_wrong_shapes :
  forall A (N : Num A) (Z0 : EqZ A) (E : ext A), ext_ok E -> is0 (n0 (A := A)) = true ->
  forall P S T (b0 : base_ops P S T), any_usable E P S T b0 ->
  forall (dP : Dflt P) (dS : Dflt S) (dT : Dflt T) zo, zip_ok zo ->
  let sp := mk_space1 b0 in
  (forall (a : arr P) (o : arr S), ndim a = 1 -> ndim o = 1 -> wf a -> wf o -> ~ (proper (s1_shape_physical sp) a /\ proper (s1_shape_spectral sp) o) ->
     s1_forward_inplace zo sp a o = Panic) /\
  (forall (a : arr S) (o : arr P), ndim a = 1 -> ndim o = 1 -> wf a -> wf o -> ~ (proper (s1_shape_spectral sp) a /\ proper (s1_shape_physical sp) o) ->
     s1_backward_inplace zo sp a o = Panic) /\
  (forall (a : arr T) (o : arr T), ndim a = 1 -> ndim o = 1 -> wf a -> wf o -> ~ (proper (s1_shape_spectral sp) a /\ proper (s1_shape_spectral_ortho sp) o) ->
     s1_to_ortho_inplace zo sp a o = Panic) /\
  (forall (a : arr T) (o : arr T), ndim a = 1 -> ndim o = 1 -> wf a -> wf o -> ~ (proper (s1_shape_spectral_ortho sp) a /\ proper (s1_shape_spectral sp) o) ->
     s1_from_ortho_inplace zo sp a o = Panic).
Proof.
  intros A NN Z0 EX HE HZ P S T b0 U0 dP dS dT zo Hz sp. pose (VP := deg dP : Vec R P). pose (VS := deg dS : Vec R S). pose (VT := deg dT : Vec R T).
  destruct (any_facts EX HE HZ P S T b0 dP dS dT U0) as (F0 & B0 & O0 & Q0).
  split; [|split; [|split]].
  - intros a o Na No Wa Wo N. apply apply_no_fit. intros (Ta & To & E1 & E2 & _). apply N.
    destruct a as [[|x [|]] ? ?], o as [[|y [|]] ? ?]; cbn in *; try lia; inversion E1; inversion E2; subst. split; repeat split; auto.
  - intros a o Na No Wa Wo N. apply apply_no_fit. intros (Ta & To & E1 & E2 & _). apply N.
    destruct a as [[|x [|]] ? ?], o as [[|y [|]] ? ?]; cbn in *; try lia; inversion E1; inversion E2; subst. split; repeat split; auto.
  - intros a o Na No Wa Wo N. apply apply_no_fit. intros (Ta & To & E1 & E2 & _). apply N.
    destruct a as [[|x [|]] ? ?], o as [[|y [|]] ? ?]; cbn in *; try lia; inversion E1; inversion E2; subst. split; repeat split; auto.
  - intros a o Na No Wa Wo N. apply apply_no_fit. intros (Ta & To & E1 & E2 & _). apply N.
    destruct a as [[|x [|]] ? ?], o as [[|y [|]] ? ?]; cbn in *; try lia; inversion E1; inversion E2; subst. split; repeat split; auto.
Qed.
Print Assumptions C53_space1_rejects_wrong_shapes.

Theorem C53_space2_rejects_wrong_shapes :
  forall A (N : Num A) (Z0 : EqZ A) (E : ext A), ext_ok E -> is0 (n0 (A := A)) = true ->
  forall P I S T (b0 : base_ops I S T) (b1 : base_ops P I T), any_usable E I S T b0 -> any_usable E P I T b1 ->
  forall (dP : Dflt P) (dI : Dflt I) (dS : Dflt S) (dT : Dflt T) zo, zip_ok zo ->
  let sp := mk_space2 b0 b1 in
  (forall (a : arr P) (o : arr S), ndim a = 2 -> ndim o = 2 -> wf a -> wf o -> ~ (proper (s2_shape_physical sp) a /\ proper (s2_shape_spectral sp) o) ->
     s2_forward_inplace zo sp a o = Panic) /\
  (forall (a : arr S) (o : arr P), ndim a = 2 -> ndim o = 2 -> wf a -> wf o -> ~ (proper (s2_shape_spectral sp) a /\ proper (s2_shape_physical sp) o) ->
     s2_backward_inplace zo sp a o = Panic) /\
  (forall (a : arr T) (o : arr T), ndim a = 2 -> ndim o = 2 -> wf a -> wf o -> ~ (proper (s2_shape_spectral sp) a /\ proper (s2_shape_spectral_ortho sp) o) ->
     s2_to_ortho_inplace zo sp a o = Panic) /\
  (forall (a : arr T) (o : arr T), ndim a = 2 -> ndim o = 2 -> wf a -> wf o -> ~ (proper (s2_shape_spectral_ortho sp) a /\ proper (s2_shape_spectral sp) o) ->
     s2_from_ortho_inplace zo sp a o = Panic).
Proof.
  intros A NN Z0 EX HE HZ P I S T b0 b1 U0 U1 dP dI dS dT zo Hz sp. pose (VP := deg dP : Vec R P). pose (VI := deg dI : Vec R I). pose (VS := deg dS : Vec R S). pose (VT := deg dT : Vec R T).
  destruct (any_facts EX HE HZ I S T b0 dI dS dT U0) as (F0 & B0 & O0 & Q0).
  destruct (any_facts EX HE HZ P I T b1 dP dI dT U1) as (F1 & B1 & O1 & Q1).
  split; [|split; [|split]].
  - intros a o Na No Wa Wo N. apply (stage2_panics (forward_slice b1) (forward_slice b0) (len_phys b1) (len_spec b1) 1 (len_phys b0) (len_spec b0) 0 zo Hz ltac:(lia) a o F1). intros (Ta & E0 & E1 & To & So). apply N.
    destruct a as [[|x0 [|x1 [|]]] ? ?], o as [[|y0 [|y1 [|]]] ? ?]; cbn in *; try lia; inversion E0; inversion E1; inversion So; subst. split; repeat split; auto.
  - intros a o Na No Wa Wo N. apply (stage2_panics (backward_slice b0) (backward_slice b1) (len_spec b0) (len_phys b0) 0 (len_spec b1) (len_phys b1) 1 zo Hz ltac:(lia) a o B0). intros (Ta & E0 & E1 & To & So). apply N.
    destruct a as [[|x0 [|x1 [|]]] ? ?], o as [[|y0 [|y1 [|]]] ? ?]; cbn in *; try lia; inversion E0; inversion E1; inversion So; subst. split; repeat split; auto.
  - intros a o Na No Wa Wo N. apply (stage2_panics (to_ortho_slice b0) (to_ortho_slice b1) (len_spec b0) (len_orth b0) 0 (len_spec b1) (len_orth b1) 1 zo Hz ltac:(lia) a o O0). intros (Ta & E0 & E1 & To & So). apply N.
    destruct a as [[|x0 [|x1 [|]]] ? ?], o as [[|y0 [|y1 [|]]] ? ?]; cbn in *; try lia; inversion E0; inversion E1; inversion So; subst. split; repeat split; auto.
  - intros a o Na No Wa Wo N. apply (stage2_panics (from_ortho_slice b0) (from_ortho_slice b1) (len_orth b0) (len_spec b0) 0 (len_orth b1) (len_spec b1) 1 zo Hz ltac:(lia) a o Q0). intros (Ta & E0 & E1 & To & So). apply N.
    destruct a as [[|x0 [|x1 [|]]] ? ?], o as [[|y0 [|y1 [|]]] ? ?]; cbn in *; try lia; inversion E0; inversion E1; inversion So; subst. split; repeat split; auto.
Qed.
Print Assumptions C53_space2_rejects_wrong_shapes.

Theorem C53_space3_rejects_wrong_shapes :
  forall A (N : Num A) (Z0 : EqZ A) (E : ext A), ext_ok E -> is0 (n0 (A := A)) = true ->
  forall P I J S T (b0 : base_ops J S T) (b1 : base_ops I J T) (b2 : base_ops P I T), any_usable E J S T b0 -> any_usable E I J T b1 -> any_usable E P I T b2 ->
  forall (dP : Dflt P) (dI : Dflt I) (dJ : Dflt J) (dS : Dflt S) (dT : Dflt T) zo, zip_ok zo ->
  let sp := mk_space3 b0 b1 b2 in
  (forall (a : arr P) (o : arr S), ndim a = 3 -> ndim o = 3 -> wf a -> wf o -> ~ (proper (s3_shape_physical sp) a /\ proper (s3_shape_spectral sp) o) ->
     s3_forward_inplace zo sp a o = Panic) /\
  (forall (a : arr S) (o : arr P), ndim a = 3 -> ndim o = 3 -> wf a -> wf o -> ~ (proper (s3_shape_spectral sp) a /\ proper (s3_shape_physical sp) o) ->
     s3_backward_inplace zo sp a o = Panic) /\
  (forall (a : arr T) (o : arr T), ndim a = 3 -> ndim o = 3 -> wf a -> wf o -> ~ (proper (s3_shape_spectral sp) a /\ proper (s3_shape_spectral_ortho sp) o) ->
     s3_to_ortho_inplace zo sp a o = Panic) /\
  (forall (a : arr T) (o : arr T), ndim a = 3 -> ndim o = 3 -> wf a -> wf o -> ~ (proper (s3_shape_spectral_ortho sp) a /\ proper (s3_shape_spectral sp) o) ->
     s3_from_ortho_inplace zo sp a o = Panic).
Proof.
  intros A NN Z0 EX HE HZ P I J S T b0 b1 b2 U0 U1 U2 dP dI dJ dS dT zo Hz sp. pose (VP := deg dP : Vec R P). pose (VI := deg dI : Vec R I). pose (VJ := deg dJ : Vec R J). pose (VS := deg dS : Vec R S). pose (VT := deg dT : Vec R T).
  destruct (any_facts EX HE HZ J S T b0 dJ dS dT U0) as (F0 & B0 & O0 & Q0).
  destruct (any_facts EX HE HZ I J T b1 dI dJ dT U1) as (F1 & B1 & O1 & Q1).
  destruct (any_facts EX HE HZ P I T b2 dP dI dT U2) as (F2 & B2 & O2 & Q2).
  split; [|split; [|split]].
  - intros a o Na No Wa Wo N. apply (stage3_panics (forward_slice b2) (forward_slice b1) (forward_slice b0) (len_phys b2) (len_spec b2) 2 (len_phys b1) (len_spec b1) 1 (len_phys b0) (len_spec b0) 0 zo Hz ltac:(lia) ltac:(lia) ltac:(lia) a o F2 F1). intros (Ta & E0 & E1 & E2 & To & So). apply N.
    destruct a as [[|x0 [|x1 [|x2 [|]]]] ? ?], o as [[|y0 [|y1 [|y2 [|]]]] ? ?]; cbn in *; try lia; inversion E0; inversion E1; inversion E2; inversion So; subst. split; repeat split; auto.
  - intros a o Na No Wa Wo N. apply (stage3_panics (backward_slice b0) (backward_slice b1) (backward_slice b2) (len_spec b0) (len_phys b0) 0 (len_spec b1) (len_phys b1) 1 (len_spec b2) (len_phys b2) 2 zo Hz ltac:(lia) ltac:(lia) ltac:(lia) a o B0 B1). intros (Ta & E0 & E1 & E2 & To & So). apply N.
    destruct a as [[|x0 [|x1 [|x2 [|]]]] ? ?], o as [[|y0 [|y1 [|y2 [|]]]] ? ?]; cbn in *; try lia; inversion E0; inversion E1; inversion E2; inversion So; subst. split; repeat split; auto.
  - intros a o Na No Wa Wo N. apply (stage3_panics (to_ortho_slice b0) (to_ortho_slice b1) (to_ortho_slice b2) (len_spec b0) (len_orth b0) 0 (len_spec b1) (len_orth b1) 1 (len_spec b2) (len_orth b2) 2 zo Hz ltac:(lia) ltac:(lia) ltac:(lia) a o O0 O1). intros (Ta & E0 & E1 & E2 & To & So). apply N.
    destruct a as [[|x0 [|x1 [|x2 [|]]]] ? ?], o as [[|y0 [|y1 [|y2 [|]]]] ? ?]; cbn in *; try lia; inversion E0; inversion E1; inversion E2; inversion So; subst. split; repeat split; auto.
  - intros a o Na No Wa Wo N. apply (stage3_panics (from_ortho_slice b0) (from_ortho_slice b1) (from_ortho_slice b2) (len_orth b0) (len_spec b0) 0 (len_orth b1) (len_spec b1) 1 (len_orth b2) (len_spec b2) 2 zo Hz ltac:(lia) ltac:(lia) ltac:(lia) a o Q0 Q1). intros (Ta & E0 & E1 & E2 & To & So). apply N.
    destruct a as [[|x0 [|x1 [|x2 [|]]]] ? ?], o as [[|y0 [|y1 [|y2 [|]]]] ? ?]; cbn in *; try lia; inversion E0; inversion E1; inversion E2; inversion So; subst. split; repeat split; auto.
Qed.
Print Assumptions C53_space3_rejects_wrong_shapes.

Theorem C53_space2_par_equals_serial :
  forall A (N : Num A) (Z0 : EqZ A) (E : ext A), ext_ok E -> is0 (n0 (A := A)) = true ->
  forall P I S T (b0 : base_ops I S T) (b1 : base_ops P I T),
  any_base E I S T b0 -> any_base E P I T b1 ->
  forall (dP : Dflt P) (dI : Dflt I) (dS : Dflt S) (dT : Dflt T) zo im0 im1, zip_ok zo -> base_implements im0 b0 -> base_implements im1 b1 ->
  let sp := mk_space2 b0 b1 in
  (forall i o r, wf o -> (s2_forward_inplace_par sp im0 im1 i o r <-> r = s2_forward_inplace zo sp i o)) /\
  (forall i o r, wf o -> (s2_backward_inplace_par sp im0 im1 i o r <-> r = s2_backward_inplace zo sp i o)) /\
  (forall i o r, wf o -> (s2_to_ortho_inplace_par sp im0 im1 i o r <-> r = s2_to_ortho_inplace zo sp i o)) /\
  (forall i o r, wf o -> (s2_from_ortho_inplace_par sp im0 im1 i o r <-> r = s2_from_ortho_inplace zo sp i o)) /\
  (forall i r, s2_forward_par sp im0 im1 i r <-> r = s2_forward zo sp i) /\
  (forall i r, s2_backward_par sp im0 im1 i r <-> r = s2_backward zo sp i) /\
  (forall i r, s2_to_ortho_par sp im0 im1 i r <-> r = s2_to_ortho zo sp i) /\
  (forall i r, s2_from_ortho_par sp im0 im1 i r <-> r = s2_from_ortho zo sp i) /\
  (forall A' (N' : Num A') (D : DivInto A' T) i d0 d1 (s : option (A' * A')) r,
     s2_gradient_par sp im0 im1 i d0 d1 s r <-> r = s2_gradient zo sp i d0 d1 s).
Proof.
  intros A NN Z0 EX HE HZ P I S T b0 b1 H0 H1 dP dI dS dT zo im0 im1 Hz I0 I1 sp. pose (VP := deg dP : Vec R P). pose (VI := deg dI : Vec R I). pose (VS := deg dS : Vec R S). pose (VT := deg dT : Vec R T).
  destruct (C53_inplace_par_equals_serial A NN Z0 EX HE HZ _ _ _ b0 H0 _ _ _ zo im0 Hz I0) as (X1 & X2 & X3 & X4 & X5).
  destruct (C53_inplace_par_equals_serial A NN Z0 EX HE HZ _ _ _ b1 H1 _ _ _ zo im1 Hz I1) as (Y1 & Y2 & Y3 & Y4 & Y5).
  destruct (C53_allocating_par_equals_serial A NN Z0 EX HE HZ _ _ _ b0 H0 _ _ _ zo im0 Hz I0) as (Z1 & Z2 & Z3 & Z4 & Z5).
  destruct (C53_allocating_par_equals_serial A NN Z0 EX HE HZ _ _ _ b1 H1 _ _ _ zo im1 Hz I1) as (W1 & W2 & W3 & W4 & W5).
  assert (K1 : forall i o r, wf o -> (s2_forward_inplace_par sp im0 im1 i o r <-> r = s2_forward_inplace zo sp i o)).
  { intros. apply par_then_eq; intros; [apply W1|apply X1; auto]. }
  assert (K2 : forall i o r, wf o -> (s2_backward_inplace_par sp im0 im1 i o r <-> r = s2_backward_inplace zo sp i o)).
  { intros. apply par_then_eq; intros; [apply Z2|apply Y2; auto]. }
  assert (K3 : forall i o r, wf o -> (s2_to_ortho_inplace_par sp im0 im1 i o r <-> r = s2_to_ortho_inplace zo sp i o)).
  { intros. apply par_then_eq; intros; [apply Z3|apply Y3; auto]. }
  assert (K4 : forall i o r, wf o -> (s2_from_ortho_inplace_par sp im0 im1 i o r <-> r = s2_from_ortho_inplace zo sp i o)).
  { intros. apply par_then_eq; intros; [apply Z4|apply Y4; auto]. }
  split; [|split; [|split; [|split; [|split; [|split; [|split; [|split]]]]]]]; auto;
  try (intros i r; first [apply K1|apply K2|apply K3|apply K4]; apply proper_zeros).
  intros A' N' D i d0 d1 s r. apply par_then_eq. intros; apply Z5. intros a _. apply par_then_eq. intros; apply W5. intros; reflexivity.
Qed.
Print Assumptions C53_space2_par_equals_serial.

Theorem C53_space3_par_equals_serial :
  forall A (N : Num A) (Z0 : EqZ A) (E : ext A), ext_ok E -> is0 (n0 (A := A)) = true ->
  forall P I J S T (b0 : base_ops J S T) (b1 : base_ops I J T) (b2 : base_ops P I T),
  any_base E J S T b0 -> any_base E I J T b1 -> any_base E P I T b2 ->
  forall (dP : Dflt P) (dI : Dflt I) (dJ : Dflt J) (dS : Dflt S) (dT : Dflt T) zo im0 im1 im2, zip_ok zo ->
  base_implements im0 b0 -> base_implements im1 b1 -> base_implements im2 b2 ->
  let sp := mk_space3 b0 b1 b2 in
  (forall i o r, wf o -> (s3_forward_inplace_par sp im0 im1 im2 i o r <-> r = s3_forward_inplace zo sp i o)) /\
  (forall i o r, wf o -> (s3_backward_inplace_par sp im0 im1 im2 i o r <-> r = s3_backward_inplace zo sp i o)) /\
  (forall i o r, wf o -> (s3_to_ortho_inplace_par sp im0 im1 im2 i o r <-> r = s3_to_ortho_inplace zo sp i o)) /\
  (forall i o r, wf o -> (s3_from_ortho_inplace_par sp im0 im1 im2 i o r <-> r = s3_from_ortho_inplace zo sp i o)) /\
  (forall i r, s3_forward_par sp im0 im1 im2 i r <-> r = s3_forward zo sp i) /\
  (forall i r, s3_backward_par sp im0 im1 im2 i r <-> r = s3_backward zo sp i) /\
  (forall i r, s3_to_ortho_par sp im0 im1 im2 i r <-> r = s3_to_ortho zo sp i) /\
  (forall i r, s3_from_ortho_par sp im0 im1 im2 i r <-> r = s3_from_ortho zo sp i) /\
  (forall A' (N' : Num A') (D : DivInto A' T) i d0 d1 d2 (s : option (A' * A' * A')) r,
     s3_gradient_par sp im0 im1 i d0 d1 d2 s r <-> r = s3_gradient zo sp i d0 d1 d2 s).
Proof.
  intros A NN Z0 EX HE HZ P I J S T b0 b1 b2 H0 H1 H2 dP dI dJ dS dT zo im0 im1 im2 Hz I0 I1 I2 sp. pose (VP := deg dP : Vec R P). pose (VI := deg dI : Vec R I). pose (VJ := deg dJ : Vec R J). pose (VS := deg dS : Vec R S). pose (VT := deg dT : Vec R T).
  destruct (C53_inplace_par_equals_serial A NN Z0 EX HE HZ _ _ _ b0 H0 _ _ _ zo im0 Hz I0) as (X1 & X2 & X3 & X4 & X5).
  destruct (C53_inplace_par_equals_serial A NN Z0 EX HE HZ _ _ _ b2 H2 _ _ _ zo im2 Hz I2) as (Y1 & Y2 & Y3 & Y4 & Y5).
  destruct (C53_allocating_par_equals_serial A NN Z0 EX HE HZ _ _ _ b0 H0 _ _ _ zo im0 Hz I0) as (Z1 & Z2 & Z3 & Z4 & Z5).
  destruct (C53_allocating_par_equals_serial A NN Z0 EX HE HZ _ _ _ b1 H1 _ _ _ zo im1 Hz I1) as (W1 & W2 & W3 & W4 & W5).
  destruct (C53_allocating_par_equals_serial A NN Z0 EX HE HZ _ _ _ b2 H2 _ _ _ zo im2 Hz I2) as (V1 & V2 & V3 & V4 & V5).
  assert (K1 : forall i o r, wf o -> (s3_forward_inplace_par sp im0 im1 im2 i o r <-> r = s3_forward_inplace zo sp i o)).
  { intros. apply par_then_eq; intros; [apply V1|]. apply par_then_eq; intros; [apply W1|apply X1; auto]. }
  assert (K2 : forall i o r, wf o -> (s3_backward_inplace_par sp im0 im1 im2 i o r <-> r = s3_backward_inplace zo sp i o)).
  { intros. apply par_then_eq; intros; [apply Z2|]. apply par_then_eq; intros; [apply W2|apply Y2; auto]. }
  assert (K3 : forall i o r, wf o -> (s3_to_ortho_inplace_par sp im0 im1 im2 i o r <-> r = s3_to_ortho_inplace zo sp i o)).
  { intros. apply par_then_eq; intros; [apply Z3|]. apply par_then_eq; intros; [apply W3|apply Y3; auto]. }
  assert (K4 : forall i o r, wf o -> (s3_from_ortho_inplace_par sp im0 im1 im2 i o r <-> r = s3_from_ortho_inplace zo sp i o)).
  { intros. apply par_then_eq; intros; [apply Z4|]. apply par_then_eq; intros; [apply W4|apply Y4; auto]. }
  split; [|split; [|split; [|split; [|split; [|split; [|split; [|split]]]]]]]; auto;
  try (intros i r; first [apply K1|apply K2|apply K3|apply K4]; apply proper_zeros).
  intros A' N' D i d0 d1 d2 s r. apply par_then_eq; intros; [apply Z5|]. apply par_then_eq; intros; [apply W5|].
  apply par_then_eq; intros; [apply W5|]. reflexivity.
Qed.
Print Assumptions C53_space3_par_equals_serial.

Theorem C53_space1_gradient :
  forall A (N : Num A) (Z0 : EqZ A) (E : ext A), ext_ok E -> is0 (n0 (A := A)) = true ->
  forall P S T (b0 : base_ops P S T), any_usable E P S T b0 ->
  forall (dP : Dflt P) (dS : Dflt S) (dT : Dflt T) A' (N' : Num A') (D : DivInto A' T) zo, zip_ok zo -> let sp := mk_space1 b0 in
  forall d, total_gradient b0 d -> forall a, proper (s1_shape_spectral sp) a ->
  exists r, s1_gradient zo sp a d (None (A := A')) = Ok r /\ proper (s1_shape_spectral_ortho sp) r /\ axis_op (grad b0 d) (len_orth b0) 0 a r.
Proof.
  intros A NN Z0 EX HE HZ P S T b0 U0 dP dS dT A' N' D zo Hz sp d Td a Ha. pose (VP := deg dP : Vec R P). pose (VS := deg dS : Vec R S). pose (VT := deg dT : Vec R T). pose proof Ha as (Sa & Ta & Wa).
  pose proof (any_grad_linop EX HE HZ P S T b0 d dT U0 Td) as L.
  destruct (axop_runs (grad b0 d) (len_spec b0) (len_orth b0) zo a 0 L Hz Ta) as (r & E & Ar); [rewrite Sa; reflexivity|].
  exists r. unfold s1_gradient. cbn [sp s1_base0]. rewrite gradient_axop, E. split; auto. split; auto.
  exact (proper_op _ _ _ _ _ _ _ Ar Ha eq_refl).
Qed.
Print Assumptions C53_space1_gradient.

Theorem C53_space2_gradient :
  forall A (N : Num A) (Z0 : EqZ A) (E : ext A), ext_ok E -> is0 (n0 (A := A)) = true ->
  forall P I S T (b0 : base_ops I S T) (b1 : base_ops P I T), any_usable E I S T b0 -> any_usable E P I T b1 ->
  forall (dP : Dflt P) (dI : Dflt I) (dS : Dflt S) (dT : Dflt T) A' (N' : Num A') (D : DivInto A' T) zo, zip_ok zo -> let sp := mk_space2 b0 b1 in
  forall d0 d1, total_gradient b0 d0 -> total_gradient b1 d1 -> forall a, proper (s2_shape_spectral sp) a ->
  exists m r, s2_gradient zo sp a d0 d1 (None (A := A' * A')) = Ok r /\ proper (s2_shape_spectral_ortho sp) r /\
    axis_op (grad b0 d0) (len_orth b0) 0 a m /\ axis_op (grad b1 d1) (len_orth b1) 1 m r.
Proof.
  intros A NN Z0 EX HE HZ P I S T b0 b1 U0 U1 dP dI dS dT A' N' D zo Hz sp d0 d1 T0 T1 a Ha. pose (VP := deg dP : Vec R P). pose (VI := deg dI : Vec R I). pose (VS := deg dS : Vec R S). pose (VT := deg dT : Vec R T). pose proof Ha as (Sa & Ta & Wa).
  pose proof (any_grad_linop EX HE HZ I S T b0 d0 dT U0 T0) as L0. pose proof (any_grad_linop EX HE HZ P I T b1 d1 dT U1 T1) as L1.
  destruct (axop_runs (grad b0 d0) (len_spec b0) (len_orth b0) zo a 0 L0 Hz Ta) as (m & Em & Am); [rewrite Sa; reflexivity|].
  assert (Pm : proper [len_orth b0; len_spec b1] m) by exact (proper_op _ _ _ _ _ _ _ Am Ha eq_refl). pose proof Pm as (Sm & Tm & Wm).
  destruct (axop_runs (grad b1 d1) (len_spec b1) (len_orth b1) zo m 1 L1 Hz Tm) as (r & E & Ar); [rewrite Sm; reflexivity|].
  exists m, r. unfold s2_gradient. cbn [sp s2_base0 s2_base1]. rewrite gradient_axop, Em. cbn [bind]. rewrite gradient_axop, E. split; auto. split; auto.
  exact (proper_op _ _ _ _ _ _ _ Ar Pm eq_refl).
Qed.
Print Assumptions C53_space2_gradient.

