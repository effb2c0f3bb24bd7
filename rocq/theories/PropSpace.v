(** C29, C30: Space1, Space2 and Space3 apply each base along its own axis and
    round trip. *)
From Coq Require Import List Arith Lia Bool ZArith Reals Lra Permutation.
From Verif Require Import Base Num Linalg Stencils Cheb Compo Fourier CompoProofs NdArray NdArrayFacts AxisFacts Bases BaseLin LibBase
  AxisProps PropAxis SpaceFacts SpaceBases SpaceStages Space Witness.
Import ListNotations.
Local Open Scope nat_scope.

(** An array handed to a space: standard layout, complete, right shape. *)
Definition proper {T} (sh : list nat) (a : arr T) : Prop := shp a = sh /\ std a = true /\ wf a.
Lemma proper_zeros {T} (z : T) sh : proper sh (azeros z sh).
Proof. repeat split. unfold wf, azeros. cbn. apply repeat_length. Qed.
Lemma proper_op {T1 T2} {d1 : Dflt T1} {d2 : Dflt T2} (f : list T1 -> list T2 -> res (list T2)) l2 ax (a : arr T1) (b : arr T2) sh sh' :
  axis_op f l2 ax a b -> proper sh a -> upd sh ax l2 = sh' -> proper sh' b.
Proof. intros (S & St & W & _) (Sa & _ & _) E. split; [|split; auto]. rewrite S, Sa. auto. Qed.

(** Which bases round trip, in one dimension (C01, C02, C18-C21). *)
Theorem C29_one_dimensional_roundtrips :
  (forall T (V : Vec R T) n b, new_chebyshev n = Ok b -> spectral_roundtrip (r2r_ops (T := T) b) /\ physical_roundtrip (r2r_ops (T := T) b)) /\
  (forall T (V : Vec R T) k n b, new_composite k n = Ok b -> biharmonic k = false -> ssolve k <= n -> spectral_roundtrip (r2r_ops (T := T) b)) /\
  (forall n f, r2c_new n = Ok f -> physical_roundtrip (r2c_ops (A := R) f)) /\
  (forall n f, c2c_new n = Ok f -> spectral_roundtrip (c2c_ops (A := R) f) /\ physical_roundtrip (c2c_ops (A := R) f)).
Proof.
  split; [|split; [|split]].
  - intros; eapply rt_chebyshev; eauto.
  - intros; eapply rt_composite; eauto.
  - exact rt_r2c.
  - exact rt_c2c.
Qed.
Print Assumptions C29_one_dimensional_roundtrips.

Lemma fbf {P S T} VP VS VT (b : base_ops P S T) : usable P S T VP VS VT b ->
  forall x y z w, length x = len_phys b -> length y = len_spec b -> length z = len_phys b -> length w = len_spec b ->
  (let* s := (let* s := forward_slice b x y in backward_slice b s z) in forward_slice b s w) = forward_slice b x w.
Proof.
  intros U x y z w Hx Hy Hz Hw. destruct (usable_facts _ _ _ _ _ _ b U) as (Lf & Lb & _ & _ & _ & RT).
  destruct (linop_wp _ _ _ x y Lf Hx Hy) as (s & Es & Ls). destruct Lf as (g & Cg & _).
  assert (Ew : forward_slice b x w = Ok s) by (rewrite (proj1 (Cg x w Hx Hw)), <- (proj1 (Cg x y Hx Hy)); auto).
  destruct RT as [RT|RT].
  - rewrite Es. cbn [bind]. rewrite Ew. apply (RT s z w); auto.
  - rewrite (RT x y z) by auto. reflexivity.
Qed.

(** ** Space1 *)
Theorem C29_space1_applies_each_base_along_its_axis :
  forall P S T (VP : Vec R P) (VS : Vec R S) (VT : Vec R T) (b0 : base_ops P S T), usable P S T VP VS VT b0 ->
  forall (dP : Dflt P) (dS : Dflt S) (dT : Dflt T) zo, zip_ok zo ->
  let sp := mk_space1 b0 in
  (forall (a : arr P) (o : arr S), proper (s1_shape_physical sp) a -> proper (s1_shape_spectral sp) o ->
     exists r, s1_forward_inplace zo sp a o = Ok r /\ s1_forward zo sp a = Ok r /\ proper (s1_shape_spectral sp) r /\
       axis_op (forward_slice b0) (len_spec b0) 0 a r) /\
  (forall (a : arr S) (o : arr P), proper (s1_shape_spectral sp) a -> proper (s1_shape_physical sp) o ->
     exists r, s1_backward_inplace zo sp a o = Ok r /\ s1_backward zo sp a = Ok r /\ proper (s1_shape_physical sp) r /\
       axis_op (backward_slice b0) (len_phys b0) 0 a r) /\
  (forall (a : arr T) (o : arr T), proper (s1_shape_spectral sp) a -> proper (s1_shape_spectral_ortho sp) o ->
     exists r, s1_to_ortho_inplace zo sp a o = Ok r /\ s1_to_ortho zo sp a = Ok r /\ proper (s1_shape_spectral_ortho sp) r /\
       axis_op (to_ortho_slice b0) (len_orth b0) 0 a r) /\
  (forall (a : arr T) (o : arr T), proper (s1_shape_spectral_ortho sp) a -> proper (s1_shape_spectral sp) o ->
     exists r, s1_from_ortho_inplace zo sp a o = Ok r /\ s1_from_ortho zo sp a = Ok r /\ proper (s1_shape_spectral sp) r /\
       axis_op (from_ortho_slice b0) (len_spec b0) 0 a r).
Proof.
  intros P S T VP VS VT b0 U0 dP dS dT zo Hz sp.
  destruct (usable_facts _ _ _ _ _ _ b0 U0) as (F0 & B0 & O0 & Q0 & RO0 & RT0).
  split; [|split; [|split]].
  - intros a o (Sa & Ta & Wa) (So & To & Wo). unfold s1_forward. 
    assert (E : nth_error (shp a) 0 = Some (len_phys b0)) by (rewrite Sa; reflexivity).
    destruct (axop_runs (forward_slice b0) (len_phys b0) (len_spec b0) zo a 0 F0 Hz Ta E) as (r & Er & Ar).
    assert (K : forall o, proper (s1_shape_spectral sp) o -> s1_forward_inplace zo sp a o = Ok r).
    { intros o' (So' & To' & Wo'). rewrite <- Er. apply inplace_runs; auto. left; auto. rewrite So', Sa; reflexivity. rewrite Sa; cbn; lia. }
    exists r. split; [apply K; split; auto|]. split; [apply K; apply proper_zeros|]. split; auto.
    exact (proper_op _ _ _ _ _ _ _ Ar (Logic.conj Sa (Logic.conj Ta Wa)) eq_refl).
  - intros a o (Sa & Ta & Wa) (So & To & Wo). unfold s1_backward. 
    assert (E : nth_error (shp a) 0 = Some (len_spec b0)) by (rewrite Sa; reflexivity).
    destruct (axop_runs (backward_slice b0) (len_spec b0) (len_phys b0) zo a 0 B0 Hz Ta E) as (r & Er & Ar).
    assert (K : forall o, proper (s1_shape_physical sp) o -> s1_backward_inplace zo sp a o = Ok r).
    { intros o' (So' & To' & Wo'). rewrite <- Er. apply inplace_runs; auto. left; auto. rewrite So', Sa; reflexivity. rewrite Sa; cbn; lia. }
    exists r. split; [apply K; split; auto|]. split; [apply K; apply proper_zeros|]. split; auto.
    exact (proper_op _ _ _ _ _ _ _ Ar (Logic.conj Sa (Logic.conj Ta Wa)) eq_refl).
  - intros a o (Sa & Ta & Wa) (So & To & Wo). unfold s1_to_ortho. 
    assert (E : nth_error (shp a) 0 = Some (len_spec b0)) by (rewrite Sa; reflexivity).
    destruct (axop_runs (to_ortho_slice b0) (len_spec b0) (len_orth b0) zo a 0 O0 Hz Ta E) as (r & Er & Ar).
    assert (K : forall o, proper (s1_shape_spectral_ortho sp) o -> s1_to_ortho_inplace zo sp a o = Ok r).
    { intros o' (So' & To' & Wo'). rewrite <- Er. apply inplace_runs; auto. left; auto. rewrite So', Sa; reflexivity. rewrite Sa; cbn; lia. }
    exists r. split; [apply K; split; auto|]. split; [apply K; apply proper_zeros|]. split; auto.
    exact (proper_op _ _ _ _ _ _ _ Ar (Logic.conj Sa (Logic.conj Ta Wa)) eq_refl).
  - intros a o (Sa & Ta & Wa) (So & To & Wo). unfold s1_from_ortho. 
    assert (E : nth_error (shp a) 0 = Some (len_orth b0)) by (rewrite Sa; reflexivity).
    destruct (axop_runs (from_ortho_slice b0) (len_orth b0) (len_spec b0) zo a 0 Q0 Hz Ta E) as (r & Er & Ar).
    assert (K : forall o, proper (s1_shape_spectral sp) o -> s1_from_ortho_inplace zo sp a o = Ok r).
    { intros o' (So' & To' & Wo'). rewrite <- Er. apply inplace_runs; auto. left; auto. rewrite So', Sa; reflexivity. rewrite Sa; cbn; lia. }
    exists r. split; [apply K; split; auto|]. split; [apply K; apply proper_zeros|]. split; auto.
    exact (proper_op _ _ _ _ _ _ _ Ar (Logic.conj Sa (Logic.conj Ta Wa)) eq_refl).
Qed.
Print Assumptions C29_space1_applies_each_base_along_its_axis.

(** Any other shape or layout is rejected. *)
Theorem C29_space1_rejects_wrong_shapes :
  forall P S T (VP : Vec R P) (VS : Vec R S) (VT : Vec R T) (b0 : base_ops P S T), usable P S T VP VS VT b0 ->
  forall (dP : Dflt P) (dS : Dflt S) (dT : Dflt T) zo, zip_ok zo ->
  let sp := mk_space1 b0 in
  (forall (a : arr P) (o : arr S), ndim a = 1 -> ndim o = 1 -> wf a -> wf o -> ~ (proper (s1_shape_physical sp) a /\ proper (s1_shape_spectral sp) o) ->
     s1_forward_inplace zo sp a o = Panic) /\
  (forall (a : arr S) (o : arr P), ndim a = 1 -> ndim o = 1 -> wf a -> wf o -> ~ (proper (s1_shape_spectral sp) a /\ proper (s1_shape_physical sp) o) ->
     s1_backward_inplace zo sp a o = Panic) /\
  (forall (a : arr T) (o : arr T), ndim a = 1 -> ndim o = 1 -> wf a -> wf o -> ~ (proper (s1_shape_spectral sp) a /\ proper (s1_shape_spectral_ortho sp) o) ->
     s1_to_ortho_inplace zo sp a o = Panic) /\
  (forall (a : arr T) (o : arr T), ndim a = 1 -> ndim o = 1 -> wf a -> wf o -> ~ (proper (s1_shape_spectral_ortho sp) a /\ proper (s1_shape_spectral sp) o) ->
     s1_from_ortho_inplace zo sp a o = Panic).
Proof.
  intros P S T VP VS VT b0 U0 dP dS dT zo Hz sp.
  destruct (usable_facts _ _ _ _ _ _ b0 U0) as (F0 & B0 & O0 & Q0 & RO0 & RT0).
  split; [|split; [|split]].
  - intros a o Na No Wa Wo N. apply apply_no_fit. intros (Ta & To & E1 & E2 & _). apply N.
    destruct a as [[|x [|]] ? ?], o as [[|y [|]] ? ?]; cbn in *; try lia; inversion E1; inversion E2; subst. split; repeat split; auto.
  - intros a o Na No Wa Wo N. apply apply_no_fit. intros (Ta & To & E1 & E2 & _). apply N.
    destruct a as [[|x [|]] ? ?], o as [[|y [|]] ? ?]; cbn in *; try lia; inversion E1; inversion E2; subst. split; repeat split; auto.
  - intros a o Na No Wa Wo N. apply apply_no_fit. intros (Ta & To & E1 & E2 & _). apply N.
    destruct a as [[|x [|]] ? ?], o as [[|y [|]] ? ?]; cbn in *; try lia; inversion E1; inversion E2; subst. split; repeat split; auto.
  - intros a o Na No Wa Wo N. apply apply_no_fit. intros (Ta & To & E1 & E2 & _). apply N.
    destruct a as [[|x [|]] ? ?], o as [[|y [|]] ? ?]; cbn in *; try lia; inversion E1; inversion E2; subst. split; repeat split; auto.
Qed.
Print Assumptions C29_space1_rejects_wrong_shapes.

Theorem C29_space1_spectral_roundtrip :
  forall P S T (VP : Vec R P) (VS : Vec R S) (VT : Vec R T) (b0 : base_ops P S T), usable P S T VP VS VT b0 ->
  forall (dP : Dflt P) (dS : Dflt S) (dT : Dflt T) zo, zip_ok zo ->
  let sp := mk_space1 b0 in
  spectral_roundtrip b0 -> forall x, proper (s1_shape_spectral sp) x ->
    (let* u := s1_backward zo sp x in s1_forward zo sp u) = Ok x.
Proof.
  intros P S T VP VS VT b0 U0 dP dS dT zo Hz sp.
  destruct (usable_facts _ _ _ _ _ _ b0 U0) as (F0 & B0 & O0 & Q0 & RO0 & RT0).
  intros R0. intros x Hx.
  destruct (C29_space1_applies_each_base_along_its_axis P S T VP VS VT b0 U0 dP dS dT zo Hz) as (TF & TB & TO & TQ).
  destruct (TB x (azeros dflt (s1_shape_physical sp)) Hx (proper_zeros _ _)) as (u & _ & E & Pu & A0).
  destruct (TF u (azeros dflt (s1_shape_spectral sp)) Pu (proper_zeros _ _)) as (r & _ & E2 & _ & D0).
  unfold sp in *. rewrite E. cbn [bind]. rewrite E2. f_equal.
  assert (P0 : proper [len_spec b0] x) by exact Hx.
  assert (X : r = x) by (refine (axis_op_inv _ _ _ _ _ _ _ _ (R0) (proj2 (proj2 P0)) (proj1 (proj2 P0)) _ A0 D0); rewrite (proj1 P0); reflexivity). exact X.
Qed.
Print Assumptions C29_space1_spectral_roundtrip.

Theorem C29_space1_physical_roundtrip :
  forall P S T (VP : Vec R P) (VS : Vec R S) (VT : Vec R T) (b0 : base_ops P S T), usable P S T VP VS VT b0 ->
  forall (dP : Dflt P) (dS : Dflt S) (dT : Dflt T) zo, zip_ok zo ->
  let sp := mk_space1 b0 in
  physical_roundtrip b0 -> forall x, proper (s1_shape_physical sp) x ->
    (let* u := s1_forward zo sp x in s1_backward zo sp u) = Ok x.
Proof.
  intros P S T VP VS VT b0 U0 dP dS dT zo Hz sp.
  destruct (usable_facts _ _ _ _ _ _ b0 U0) as (F0 & B0 & O0 & Q0 & RO0 & RT0).
  intros R0. intros x Hx.
  destruct (C29_space1_applies_each_base_along_its_axis P S T VP VS VT b0 U0 dP dS dT zo Hz) as (TF & TB & TO & TQ).
  destruct (TF x (azeros dflt (s1_shape_spectral sp)) Hx (proper_zeros _ _)) as (u & _ & E & Pu & A0).
  destruct (TB u (azeros dflt (s1_shape_physical sp)) Pu (proper_zeros _ _)) as (r & _ & E2 & _ & D0).
  unfold sp in *. rewrite E. cbn [bind]. rewrite E2. f_equal.
  assert (P0 : proper [len_phys b0] x) by exact Hx.
  assert (X : r = x) by (refine (axis_op_inv _ _ _ _ _ _ _ _ (R0) (proj2 (proj2 P0)) (proj1 (proj2 P0)) _ A0 D0); rewrite (proj1 P0); reflexivity). exact X.
Qed.
Print Assumptions C29_space1_physical_roundtrip.

(** ** Space2 *)
Theorem C29_space2_applies_each_base_along_its_axis :
  forall P I S T (VP : Vec R P) (VI : Vec R I) (VS : Vec R S) (VT : Vec R T) (b0 : base_ops I S T) (b1 : base_ops P I T), usable I S T VI VS VT b0 -> usable P I T VP VI VT b1 ->
  forall (dP : Dflt P) (dI : Dflt I) (dS : Dflt S) (dT : Dflt T) zo, zip_ok zo ->
  let sp := mk_space2 b0 b1 in
  (forall (a : arr P) (o : arr S), proper (s2_shape_physical sp) a -> proper (s2_shape_spectral sp) o ->
     exists m r, s2_forward_inplace zo sp a o = Ok r /\ s2_forward zo sp a = Ok r /\ proper (s2_shape_spectral sp) r /\
       axis_op (forward_slice b1) (len_spec b1) 1 a m /\ axis_op (forward_slice b0) (len_spec b0) 0 m r) /\
  (forall (a : arr S) (o : arr P), proper (s2_shape_spectral sp) a -> proper (s2_shape_physical sp) o ->
     exists m r, s2_backward_inplace zo sp a o = Ok r /\ s2_backward zo sp a = Ok r /\ proper (s2_shape_physical sp) r /\
       axis_op (backward_slice b0) (len_phys b0) 0 a m /\ axis_op (backward_slice b1) (len_phys b1) 1 m r) /\
  (forall (a : arr T) (o : arr T), proper (s2_shape_spectral sp) a -> proper (s2_shape_spectral_ortho sp) o ->
     exists m r, s2_to_ortho_inplace zo sp a o = Ok r /\ s2_to_ortho zo sp a = Ok r /\ proper (s2_shape_spectral_ortho sp) r /\
       axis_op (to_ortho_slice b0) (len_orth b0) 0 a m /\ axis_op (to_ortho_slice b1) (len_orth b1) 1 m r) /\
  (forall (a : arr T) (o : arr T), proper (s2_shape_spectral_ortho sp) a -> proper (s2_shape_spectral sp) o ->
     exists m r, s2_from_ortho_inplace zo sp a o = Ok r /\ s2_from_ortho zo sp a = Ok r /\ proper (s2_shape_spectral sp) r /\
       axis_op (from_ortho_slice b0) (len_spec b0) 0 a m /\ axis_op (from_ortho_slice b1) (len_spec b1) 1 m r).
Proof.
  intros P I S T VP VI VS VT b0 b1 U0 U1 dP dI dS dT zo Hz sp.
  destruct (usable_facts _ _ _ _ _ _ b0 U0) as (F0 & B0 & O0 & Q0 & RO0 & RT0).
  destruct (usable_facts _ _ _ _ _ _ b1 U1) as (F1 & B1 & O1 & Q1 & RO1 & RT1).
  split; [|split; [|split]].
  - intros a o (Sa & Ta & Wa) (So & To & Wo). unfold s2_forward.
    assert (K : forall o, proper (s2_shape_spectral sp) o -> exists m r, s2_forward_inplace zo sp a o = Ok r /\ axis_op (forward_slice b1) (len_spec b1) 1 a m /\ axis_op (forward_slice b0) (len_spec b0) 0 m r).
    { intros o' (So' & To' & Wo'). apply (stage2_runs (forward_slice b1) (forward_slice b0) (len_phys b1) (len_spec b1) 1 (len_phys b0) (len_spec b0) 0 zo Hz ltac:(lia) a o' F1 F0 Ta);
        auto; rewrite ?Sa, ?So'; reflexivity. }
    destruct (K o) as (m & r & E & A0 & A1); [split; auto|].
    destruct (K (azeros dflt (s2_shape_spectral sp))) as (q0 & r' & E' & B0_ & B1_); [apply proper_zeros|].
    assert (X : m = q0) by (refine (axis_op_det _ _ _ _ _ _ _ A0 B0_); rewrite Sa; cbn; lia). destruct X. clear B0_.
    pose proof (proj1 A0) as S0.
    assert (X : r = r') by (refine (axis_op_det _ _ _ _ _ _ _ A1 B1_); rewrite S0, !upd_length, Sa; cbn; lia). destruct X. clear B1_.
    exists m, r. split; auto. split; auto. split; auto.
    exact (proper_op _ _ _ _ _ _ _ A1 (proper_op _ _ _ _ _ _ _ A0 (Logic.conj Sa (Logic.conj Ta Wa)) eq_refl) eq_refl).
  - intros a o (Sa & Ta & Wa) (So & To & Wo). unfold s2_backward.
    assert (K : forall o, proper (s2_shape_physical sp) o -> exists m r, s2_backward_inplace zo sp a o = Ok r /\ axis_op (backward_slice b0) (len_phys b0) 0 a m /\ axis_op (backward_slice b1) (len_phys b1) 1 m r).
    { intros o' (So' & To' & Wo'). apply (stage2_runs (backward_slice b0) (backward_slice b1) (len_spec b0) (len_phys b0) 0 (len_spec b1) (len_phys b1) 1 zo Hz ltac:(lia) a o' B0 B1 Ta);
        auto; rewrite ?Sa, ?So'; reflexivity. }
    destruct (K o) as (m & r & E & A0 & A1); [split; auto|].
    destruct (K (azeros dflt (s2_shape_physical sp))) as (q0 & r' & E' & B0_ & B1_); [apply proper_zeros|].
    assert (X : m = q0) by (refine (axis_op_det _ _ _ _ _ _ _ A0 B0_); rewrite Sa; cbn; lia). destruct X. clear B0_.
    pose proof (proj1 A0) as S0.
    assert (X : r = r') by (refine (axis_op_det _ _ _ _ _ _ _ A1 B1_); rewrite S0, !upd_length, Sa; cbn; lia). destruct X. clear B1_.
    exists m, r. split; auto. split; auto. split; auto.
    exact (proper_op _ _ _ _ _ _ _ A1 (proper_op _ _ _ _ _ _ _ A0 (Logic.conj Sa (Logic.conj Ta Wa)) eq_refl) eq_refl).
  - intros a o (Sa & Ta & Wa) (So & To & Wo). unfold s2_to_ortho.
    assert (K : forall o, proper (s2_shape_spectral_ortho sp) o -> exists m r, s2_to_ortho_inplace zo sp a o = Ok r /\ axis_op (to_ortho_slice b0) (len_orth b0) 0 a m /\ axis_op (to_ortho_slice b1) (len_orth b1) 1 m r).
    { intros o' (So' & To' & Wo'). apply (stage2_runs (to_ortho_slice b0) (to_ortho_slice b1) (len_spec b0) (len_orth b0) 0 (len_spec b1) (len_orth b1) 1 zo Hz ltac:(lia) a o' O0 O1 Ta);
        auto; rewrite ?Sa, ?So'; reflexivity. }
    destruct (K o) as (m & r & E & A0 & A1); [split; auto|].
    destruct (K (azeros dflt (s2_shape_spectral_ortho sp))) as (q0 & r' & E' & B0_ & B1_); [apply proper_zeros|].
    assert (X : m = q0) by (refine (axis_op_det _ _ _ _ _ _ _ A0 B0_); rewrite Sa; cbn; lia). destruct X. clear B0_.
    pose proof (proj1 A0) as S0.
    assert (X : r = r') by (refine (axis_op_det _ _ _ _ _ _ _ A1 B1_); rewrite S0, !upd_length, Sa; cbn; lia). destruct X. clear B1_.
    exists m, r. split; auto. split; auto. split; auto.
    exact (proper_op _ _ _ _ _ _ _ A1 (proper_op _ _ _ _ _ _ _ A0 (Logic.conj Sa (Logic.conj Ta Wa)) eq_refl) eq_refl).
  - intros a o (Sa & Ta & Wa) (So & To & Wo). unfold s2_from_ortho.
    assert (K : forall o, proper (s2_shape_spectral sp) o -> exists m r, s2_from_ortho_inplace zo sp a o = Ok r /\ axis_op (from_ortho_slice b0) (len_spec b0) 0 a m /\ axis_op (from_ortho_slice b1) (len_spec b1) 1 m r).
    { intros o' (So' & To' & Wo'). apply (stage2_runs (from_ortho_slice b0) (from_ortho_slice b1) (len_orth b0) (len_spec b0) 0 (len_orth b1) (len_spec b1) 1 zo Hz ltac:(lia) a o' Q0 Q1 Ta);
        auto; rewrite ?Sa, ?So'; reflexivity. }
    destruct (K o) as (m & r & E & A0 & A1); [split; auto|].
    destruct (K (azeros dflt (s2_shape_spectral sp))) as (q0 & r' & E' & B0_ & B1_); [apply proper_zeros|].
    assert (X : m = q0) by (refine (axis_op_det _ _ _ _ _ _ _ A0 B0_); rewrite Sa; cbn; lia). destruct X. clear B0_.
    pose proof (proj1 A0) as S0.
    assert (X : r = r') by (refine (axis_op_det _ _ _ _ _ _ _ A1 B1_); rewrite S0, !upd_length, Sa; cbn; lia). destruct X. clear B1_.
    exists m, r. split; auto. split; auto. split; auto.
    exact (proper_op _ _ _ _ _ _ _ A1 (proper_op _ _ _ _ _ _ _ A0 (Logic.conj Sa (Logic.conj Ta Wa)) eq_refl) eq_refl).
Qed.
Print Assumptions C29_space2_applies_each_base_along_its_axis.

(** Any other shape or layout is rejected. *)
Theorem C29_space2_rejects_wrong_shapes :
  forall P I S T (VP : Vec R P) (VI : Vec R I) (VS : Vec R S) (VT : Vec R T) (b0 : base_ops I S T) (b1 : base_ops P I T), usable I S T VI VS VT b0 -> usable P I T VP VI VT b1 ->
  forall (dP : Dflt P) (dI : Dflt I) (dS : Dflt S) (dT : Dflt T) zo, zip_ok zo ->
  let sp := mk_space2 b0 b1 in
  (forall (a : arr P) (o : arr S), ndim a = 2 -> ndim o = 2 -> wf a -> wf o -> ~ (proper (s2_shape_physical sp) a /\ proper (s2_shape_spectral sp) o) ->
     s2_forward_inplace zo sp a o = Panic) /\
  (forall (a : arr S) (o : arr P), ndim a = 2 -> ndim o = 2 -> wf a -> wf o -> ~ (proper (s2_shape_spectral sp) a /\ proper (s2_shape_physical sp) o) ->
     s2_backward_inplace zo sp a o = Panic) /\
  (forall (a : arr T) (o : arr T), ndim a = 2 -> ndim o = 2 -> wf a -> wf o -> ~ (proper (s2_shape_spectral sp) a /\ proper (s2_shape_spectral_ortho sp) o) ->
     s2_to_ortho_inplace zo sp a o = Panic) /\
  (forall (a : arr T) (o : arr T), ndim a = 2 -> ndim o = 2 -> wf a -> wf o -> ~ (proper (s2_shape_spectral_ortho sp) a /\ proper (s2_shape_spectral sp) o) ->
     s2_from_ortho_inplace zo sp a o = Panic).
Proof.
  intros P I S T VP VI VS VT b0 b1 U0 U1 dP dI dS dT zo Hz sp.
  destruct (usable_facts _ _ _ _ _ _ b0 U0) as (F0 & B0 & O0 & Q0 & RO0 & RT0).
  destruct (usable_facts _ _ _ _ _ _ b1 U1) as (F1 & B1 & O1 & Q1 & RO1 & RT1).
  split; [|split; [|split]].
  - intros a o Na No Wa Wo N. apply (stage2_panics (forward_slice b1) (forward_slice b0) (len_phys b1) (len_spec b1) 1 (len_phys b0) (len_spec b0) 0 zo Hz ltac:(lia) a o F1). intros (Ta & E0 & E1 & To & So). apply N.
    destruct a as [[|x0 [|x1 [|]]] ? ?], o as [[|y0 [|y1 [|]]] ? ?]; cbn in *; try lia; inversion E0; inversion E1; inversion So; subst. split; repeat split; auto.
  - intros a o Na No Wa Wo N. apply (stage2_panics (backward_slice b0) (backward_slice b1) (len_spec b0) (len_phys b0) 0 (len_spec b1) (len_phys b1) 1 zo Hz ltac:(lia) a o B0). intros (Ta & E0 & E1 & To & So). apply N.
    destruct a as [[|x0 [|x1 [|]]] ? ?], o as [[|y0 [|y1 [|]]] ? ?]; cbn in *; try lia; inversion E0; inversion E1; inversion So; subst. split; repeat split; auto.
  - intros a o Na No Wa Wo N. apply (stage2_panics (to_ortho_slice b0) (to_ortho_slice b1) (len_spec b0) (len_orth b0) 0 (len_spec b1) (len_orth b1) 1 zo Hz ltac:(lia) a o O0). intros (Ta & E0 & E1 & To & So). apply N.
    destruct a as [[|x0 [|x1 [|]]] ? ?], o as [[|y0 [|y1 [|]]] ? ?]; cbn in *; try lia; inversion E0; inversion E1; inversion So; subst. split; repeat split; auto.
  - intros a o Na No Wa Wo N. apply (stage2_panics (from_ortho_slice b0) (from_ortho_slice b1) (len_orth b0) (len_spec b0) 0 (len_orth b1) (len_spec b1) 1 zo Hz ltac:(lia) a o Q0). intros (Ta & E0 & E1 & To & So). apply N.
    destruct a as [[|x0 [|x1 [|]]] ? ?], o as [[|y0 [|y1 [|]]] ? ?]; cbn in *; try lia; inversion E0; inversion E1; inversion So; subst. split; repeat split; auto.
Qed.
Print Assumptions C29_space2_rejects_wrong_shapes.

Theorem C29_space2_spectral_roundtrip :
  forall P I S T (VP : Vec R P) (VI : Vec R I) (VS : Vec R S) (VT : Vec R T) (b0 : base_ops I S T) (b1 : base_ops P I T), usable I S T VI VS VT b0 -> usable P I T VP VI VT b1 ->
  forall (dP : Dflt P) (dI : Dflt I) (dS : Dflt S) (dT : Dflt T) zo, zip_ok zo ->
  let sp := mk_space2 b0 b1 in
  spectral_roundtrip b0 -> spectral_roundtrip b1 -> forall x, proper (s2_shape_spectral sp) x ->
    (let* u := s2_backward zo sp x in s2_forward zo sp u) = Ok x.
Proof.
  intros P I S T VP VI VS VT b0 b1 U0 U1 dP dI dS dT zo Hz sp.
  destruct (usable_facts _ _ _ _ _ _ b0 U0) as (F0 & B0 & O0 & Q0 & RO0 & RT0).
  destruct (usable_facts _ _ _ _ _ _ b1 U1) as (F1 & B1 & O1 & Q1 & RO1 & RT1).
  intros R0 R1. intros x Hx.
  destruct (C29_space2_applies_each_base_along_its_axis P I S T VP VI VS VT b0 b1 U0 U1 dP dI dS dT zo Hz) as (TF & TB & TO & TQ).
  destruct (TB x (azeros dflt (s2_shape_physical sp)) Hx (proper_zeros _ _)) as (c1 & u & _ & E & Pu & A0 & A1).
  destruct (TF u (azeros dflt (s2_shape_spectral sp)) Pu (proper_zeros _ _)) as (e1 & r & _ & E2 & _ & D0 & D1).
  unfold sp in *. rewrite E. cbn [bind]. rewrite E2. f_equal.
  assert (P0 : proper [len_spec b0; len_spec b1] x) by exact Hx.
  assert (P1 : proper [len_phys b0; len_spec b1] c1) by (exact (proper_op _ _ _ _ _ _ _ A0 P0 eq_refl)).
  assert (X : e1 = c1) by (refine (axis_op_inv _ _ _ _ _ _ _ _ (R1) (proj2 (proj2 P1)) (proj1 (proj2 P1)) _ A1 D0); rewrite (proj1 P1); reflexivity). subst e1.
  assert (X : r = x) by (refine (axis_op_inv _ _ _ _ _ _ _ _ (R0) (proj2 (proj2 P0)) (proj1 (proj2 P0)) _ A0 D1); rewrite (proj1 P0); reflexivity). exact X.
Qed.
Print Assumptions C29_space2_spectral_roundtrip.

Theorem C29_space2_physical_roundtrip :
  forall P I S T (VP : Vec R P) (VI : Vec R I) (VS : Vec R S) (VT : Vec R T) (b0 : base_ops I S T) (b1 : base_ops P I T), usable I S T VI VS VT b0 -> usable P I T VP VI VT b1 ->
  forall (dP : Dflt P) (dI : Dflt I) (dS : Dflt S) (dT : Dflt T) zo, zip_ok zo ->
  let sp := mk_space2 b0 b1 in
  physical_roundtrip b0 -> physical_roundtrip b1 -> forall x, proper (s2_shape_physical sp) x ->
    (let* u := s2_forward zo sp x in s2_backward zo sp u) = Ok x.
Proof.
  intros P I S T VP VI VS VT b0 b1 U0 U1 dP dI dS dT zo Hz sp.
  destruct (usable_facts _ _ _ _ _ _ b0 U0) as (F0 & B0 & O0 & Q0 & RO0 & RT0).
  destruct (usable_facts _ _ _ _ _ _ b1 U1) as (F1 & B1 & O1 & Q1 & RO1 & RT1).
  intros R0 R1. intros x Hx.
  destruct (C29_space2_applies_each_base_along_its_axis P I S T VP VI VS VT b0 b1 U0 U1 dP dI dS dT zo Hz) as (TF & TB & TO & TQ).
  destruct (TF x (azeros dflt (s2_shape_spectral sp)) Hx (proper_zeros _ _)) as (c1 & u & _ & E & Pu & A0 & A1).
  destruct (TB u (azeros dflt (s2_shape_physical sp)) Pu (proper_zeros _ _)) as (e1 & r & _ & E2 & _ & D0 & D1).
  unfold sp in *. rewrite E. cbn [bind]. rewrite E2. f_equal.
  assert (P0 : proper [len_phys b0; len_phys b1] x) by exact Hx.
  assert (P1 : proper [len_phys b0; len_spec b1] c1) by (exact (proper_op _ _ _ _ _ _ _ A0 P0 eq_refl)).
  assert (X : e1 = c1) by (refine (axis_op_inv _ _ _ _ _ _ _ _ (R0) (proj2 (proj2 P1)) (proj1 (proj2 P1)) _ A1 D0); rewrite (proj1 P1); reflexivity). subst e1.
  assert (X : r = x) by (refine (axis_op_inv _ _ _ _ _ _ _ _ (R1) (proj2 (proj2 P0)) (proj1 (proj2 P0)) _ A0 D1); rewrite (proj1 P0); reflexivity). exact X.
Qed.
Print Assumptions C29_space2_physical_roundtrip.

(** ** Space3 *)
Theorem C30_space3_applies_each_base_along_its_axis :
  forall P I J S T (VP : Vec R P) (VI : Vec R I) (VJ : Vec R J) (VS : Vec R S) (VT : Vec R T) (b0 : base_ops J S T) (b1 : base_ops I J T) (b2 : base_ops P I T), usable J S T VJ VS VT b0 -> usable I J T VI VJ VT b1 -> usable P I T VP VI VT b2 ->
  forall (dP : Dflt P) (dI : Dflt I) (dJ : Dflt J) (dS : Dflt S) (dT : Dflt T) zo, zip_ok zo ->
  let sp := mk_space3 b0 b1 b2 in
  (forall (a : arr P) (o : arr S), proper (s3_shape_physical sp) a -> proper (s3_shape_spectral sp) o ->
     exists m m' r, s3_forward_inplace zo sp a o = Ok r /\ s3_forward zo sp a = Ok r /\ proper (s3_shape_spectral sp) r /\
       axis_op (forward_slice b2) (len_spec b2) 2 a m /\ axis_op (forward_slice b1) (len_spec b1) 1 m m' /\ axis_op (forward_slice b0) (len_spec b0) 0 m' r) /\
  (forall (a : arr S) (o : arr P), proper (s3_shape_spectral sp) a -> proper (s3_shape_physical sp) o ->
     exists m m' r, s3_backward_inplace zo sp a o = Ok r /\ s3_backward zo sp a = Ok r /\ proper (s3_shape_physical sp) r /\
       axis_op (backward_slice b0) (len_phys b0) 0 a m /\ axis_op (backward_slice b1) (len_phys b1) 1 m m' /\ axis_op (backward_slice b2) (len_phys b2) 2 m' r) /\
  (forall (a : arr T) (o : arr T), proper (s3_shape_spectral sp) a -> proper (s3_shape_spectral_ortho sp) o ->
     exists m m' r, s3_to_ortho_inplace zo sp a o = Ok r /\ s3_to_ortho zo sp a = Ok r /\ proper (s3_shape_spectral_ortho sp) r /\
       axis_op (to_ortho_slice b0) (len_orth b0) 0 a m /\ axis_op (to_ortho_slice b1) (len_orth b1) 1 m m' /\ axis_op (to_ortho_slice b2) (len_orth b2) 2 m' r) /\
  (forall (a : arr T) (o : arr T), proper (s3_shape_spectral_ortho sp) a -> proper (s3_shape_spectral sp) o ->
     exists m m' r, s3_from_ortho_inplace zo sp a o = Ok r /\ s3_from_ortho zo sp a = Ok r /\ proper (s3_shape_spectral sp) r /\
       axis_op (from_ortho_slice b0) (len_spec b0) 0 a m /\ axis_op (from_ortho_slice b1) (len_spec b1) 1 m m' /\ axis_op (from_ortho_slice b2) (len_spec b2) 2 m' r).
Proof.
  intros P I J S T VP VI VJ VS VT b0 b1 b2 U0 U1 U2 dP dI dJ dS dT zo Hz sp.
  destruct (usable_facts _ _ _ _ _ _ b0 U0) as (F0 & B0 & O0 & Q0 & RO0 & RT0).
  destruct (usable_facts _ _ _ _ _ _ b1 U1) as (F1 & B1 & O1 & Q1 & RO1 & RT1).
  destruct (usable_facts _ _ _ _ _ _ b2 U2) as (F2 & B2 & O2 & Q2 & RO2 & RT2).
  split; [|split; [|split]].
  - intros a o (Sa & Ta & Wa) (So & To & Wo). unfold s3_forward.
    assert (K : forall o, proper (s3_shape_spectral sp) o -> exists m m' r, s3_forward_inplace zo sp a o = Ok r /\ axis_op (forward_slice b2) (len_spec b2) 2 a m /\ axis_op (forward_slice b1) (len_spec b1) 1 m m' /\ axis_op (forward_slice b0) (len_spec b0) 0 m' r).
    { intros o' (So' & To' & Wo'). apply (stage3_runs (forward_slice b2) (forward_slice b1) (forward_slice b0) (len_phys b2) (len_spec b2) 2 (len_phys b1) (len_spec b1) 1 (len_phys b0) (len_spec b0) 0 zo Hz ltac:(lia) ltac:(lia) ltac:(lia) a o' F2 F1 F0 Ta);
        auto; rewrite ?Sa, ?So'; reflexivity. }
    destruct (K o) as (m & m' & r & E & A0 & A1 & A2); [split; auto|].
    destruct (K (azeros dflt (s3_shape_spectral sp))) as (q0 & q1 & r' & E' & B0_ & B1_ & B2_); [apply proper_zeros|].
    assert (X : m = q0) by (refine (axis_op_det _ _ _ _ _ _ _ A0 B0_); rewrite Sa; cbn; lia). destruct X. clear B0_.
    pose proof (proj1 A0) as S0.
    pose proof (proj1 A1) as S1.
    assert (X : m' = q1) by (refine (axis_op_det _ _ _ _ _ _ _ A1 B1_); rewrite S0, !upd_length, Sa; cbn; lia). destruct X. clear B1_.
    assert (X : r = r') by (refine (axis_op_det _ _ _ _ _ _ _ A2 B2_); rewrite S1, S0, !upd_length, Sa; cbn; lia). destruct X. clear B2_.
    exists m, m', r. split; auto. split; auto. split; auto.
    exact (proper_op _ _ _ _ _ _ _ A2 (proper_op _ _ _ _ _ _ _ A1 (proper_op _ _ _ _ _ _ _ A0 (Logic.conj Sa (Logic.conj Ta Wa)) eq_refl) eq_refl) eq_refl).
  - intros a o (Sa & Ta & Wa) (So & To & Wo). unfold s3_backward.
    assert (K : forall o, proper (s3_shape_physical sp) o -> exists m m' r, s3_backward_inplace zo sp a o = Ok r /\ axis_op (backward_slice b0) (len_phys b0) 0 a m /\ axis_op (backward_slice b1) (len_phys b1) 1 m m' /\ axis_op (backward_slice b2) (len_phys b2) 2 m' r).
    { intros o' (So' & To' & Wo'). apply (stage3_runs (backward_slice b0) (backward_slice b1) (backward_slice b2) (len_spec b0) (len_phys b0) 0 (len_spec b1) (len_phys b1) 1 (len_spec b2) (len_phys b2) 2 zo Hz ltac:(lia) ltac:(lia) ltac:(lia) a o' B0 B1 B2 Ta);
        auto; rewrite ?Sa, ?So'; reflexivity. }
    destruct (K o) as (m & m' & r & E & A0 & A1 & A2); [split; auto|].
    destruct (K (azeros dflt (s3_shape_physical sp))) as (q0 & q1 & r' & E' & B0_ & B1_ & B2_); [apply proper_zeros|].
    assert (X : m = q0) by (refine (axis_op_det _ _ _ _ _ _ _ A0 B0_); rewrite Sa; cbn; lia). destruct X. clear B0_.
    pose proof (proj1 A0) as S0.
    pose proof (proj1 A1) as S1.
    assert (X : m' = q1) by (refine (axis_op_det _ _ _ _ _ _ _ A1 B1_); rewrite S0, !upd_length, Sa; cbn; lia). destruct X. clear B1_.
    assert (X : r = r') by (refine (axis_op_det _ _ _ _ _ _ _ A2 B2_); rewrite S1, S0, !upd_length, Sa; cbn; lia). destruct X. clear B2_.
    exists m, m', r. split; auto. split; auto. split; auto.
    exact (proper_op _ _ _ _ _ _ _ A2 (proper_op _ _ _ _ _ _ _ A1 (proper_op _ _ _ _ _ _ _ A0 (Logic.conj Sa (Logic.conj Ta Wa)) eq_refl) eq_refl) eq_refl).
  - intros a o (Sa & Ta & Wa) (So & To & Wo). unfold s3_to_ortho.
    assert (K : forall o, proper (s3_shape_spectral_ortho sp) o -> exists m m' r, s3_to_ortho_inplace zo sp a o = Ok r /\ axis_op (to_ortho_slice b0) (len_orth b0) 0 a m /\ axis_op (to_ortho_slice b1) (len_orth b1) 1 m m' /\ axis_op (to_ortho_slice b2) (len_orth b2) 2 m' r).
    { intros o' (So' & To' & Wo'). apply (stage3_runs (to_ortho_slice b0) (to_ortho_slice b1) (to_ortho_slice b2) (len_spec b0) (len_orth b0) 0 (len_spec b1) (len_orth b1) 1 (len_spec b2) (len_orth b2) 2 zo Hz ltac:(lia) ltac:(lia) ltac:(lia) a o' O0 O1 O2 Ta);
        auto; rewrite ?Sa, ?So'; reflexivity. }
    destruct (K o) as (m & m' & r & E & A0 & A1 & A2); [split; auto|].
    destruct (K (azeros dflt (s3_shape_spectral_ortho sp))) as (q0 & q1 & r' & E' & B0_ & B1_ & B2_); [apply proper_zeros|].
    assert (X : m = q0) by (refine (axis_op_det _ _ _ _ _ _ _ A0 B0_); rewrite Sa; cbn; lia). destruct X. clear B0_.
    pose proof (proj1 A0) as S0.
    pose proof (proj1 A1) as S1.
    assert (X : m' = q1) by (refine (axis_op_det _ _ _ _ _ _ _ A1 B1_); rewrite S0, !upd_length, Sa; cbn; lia). destruct X. clear B1_.
    assert (X : r = r') by (refine (axis_op_det _ _ _ _ _ _ _ A2 B2_); rewrite S1, S0, !upd_length, Sa; cbn; lia). destruct X. clear B2_.
    exists m, m', r. split; auto. split; auto. split; auto.
    exact (proper_op _ _ _ _ _ _ _ A2 (proper_op _ _ _ _ _ _ _ A1 (proper_op _ _ _ _ _ _ _ A0 (Logic.conj Sa (Logic.conj Ta Wa)) eq_refl) eq_refl) eq_refl).
  - intros a o (Sa & Ta & Wa) (So & To & Wo). unfold s3_from_ortho.
    assert (K : forall o, proper (s3_shape_spectral sp) o -> exists m m' r, s3_from_ortho_inplace zo sp a o = Ok r /\ axis_op (from_ortho_slice b0) (len_spec b0) 0 a m /\ axis_op (from_ortho_slice b1) (len_spec b1) 1 m m' /\ axis_op (from_ortho_slice b2) (len_spec b2) 2 m' r).
    { intros o' (So' & To' & Wo'). apply (stage3_runs (from_ortho_slice b0) (from_ortho_slice b1) (from_ortho_slice b2) (len_orth b0) (len_spec b0) 0 (len_orth b1) (len_spec b1) 1 (len_orth b2) (len_spec b2) 2 zo Hz ltac:(lia) ltac:(lia) ltac:(lia) a o' Q0 Q1 Q2 Ta);
        auto; rewrite ?Sa, ?So'; reflexivity. }
    destruct (K o) as (m & m' & r & E & A0 & A1 & A2); [split; auto|].
    destruct (K (azeros dflt (s3_shape_spectral sp))) as (q0 & q1 & r' & E' & B0_ & B1_ & B2_); [apply proper_zeros|].
    assert (X : m = q0) by (refine (axis_op_det _ _ _ _ _ _ _ A0 B0_); rewrite Sa; cbn; lia). destruct X. clear B0_.
    pose proof (proj1 A0) as S0.
    pose proof (proj1 A1) as S1.
    assert (X : m' = q1) by (refine (axis_op_det _ _ _ _ _ _ _ A1 B1_); rewrite S0, !upd_length, Sa; cbn; lia). destruct X. clear B1_.
    assert (X : r = r') by (refine (axis_op_det _ _ _ _ _ _ _ A2 B2_); rewrite S1, S0, !upd_length, Sa; cbn; lia). destruct X. clear B2_.
    exists m, m', r. split; auto. split; auto. split; auto.
    exact (proper_op _ _ _ _ _ _ _ A2 (proper_op _ _ _ _ _ _ _ A1 (proper_op _ _ _ _ _ _ _ A0 (Logic.conj Sa (Logic.conj Ta Wa)) eq_refl) eq_refl) eq_refl).
Qed.
Print Assumptions C30_space3_applies_each_base_along_its_axis.

(** Any other shape or layout is rejected. *)
Theorem C30_space3_rejects_wrong_shapes :
  forall P I J S T (VP : Vec R P) (VI : Vec R I) (VJ : Vec R J) (VS : Vec R S) (VT : Vec R T) (b0 : base_ops J S T) (b1 : base_ops I J T) (b2 : base_ops P I T), usable J S T VJ VS VT b0 -> usable I J T VI VJ VT b1 -> usable P I T VP VI VT b2 ->
  forall (dP : Dflt P) (dI : Dflt I) (dJ : Dflt J) (dS : Dflt S) (dT : Dflt T) zo, zip_ok zo ->
  let sp := mk_space3 b0 b1 b2 in
  (forall (a : arr P) (o : arr S), ndim a = 3 -> ndim o = 3 -> wf a -> wf o -> ~ (proper (s3_shape_physical sp) a /\ proper (s3_shape_spectral sp) o) ->
     s3_forward_inplace zo sp a o = Panic) /\
  (forall (a : arr S) (o : arr P), ndim a = 3 -> ndim o = 3 -> wf a -> wf o -> ~ (proper (s3_shape_spectral sp) a /\ proper (s3_shape_physical sp) o) ->
     s3_backward_inplace zo sp a o = Panic) /\
  (forall (a : arr T) (o : arr T), ndim a = 3 -> ndim o = 3 -> wf a -> wf o -> ~ (proper (s3_shape_spectral sp) a /\ proper (s3_shape_spectral_ortho sp) o) ->
     s3_to_ortho_inplace zo sp a o = Panic) /\
  (forall (a : arr T) (o : arr T), ndim a = 3 -> ndim o = 3 -> wf a -> wf o -> ~ (proper (s3_shape_spectral_ortho sp) a /\ proper (s3_shape_spectral sp) o) ->
     s3_from_ortho_inplace zo sp a o = Panic).
Proof.
  intros P I J S T VP VI VJ VS VT b0 b1 b2 U0 U1 U2 dP dI dJ dS dT zo Hz sp.
  destruct (usable_facts _ _ _ _ _ _ b0 U0) as (F0 & B0 & O0 & Q0 & RO0 & RT0).
  destruct (usable_facts _ _ _ _ _ _ b1 U1) as (F1 & B1 & O1 & Q1 & RO1 & RT1).
  destruct (usable_facts _ _ _ _ _ _ b2 U2) as (F2 & B2 & O2 & Q2 & RO2 & RT2).
  split; [|split; [|split]].
  - intros a o Na No Wa Wo N. apply (stage3_panics (forward_slice b2) (forward_slice b1) (forward_slice b0) (len_phys b2) (len_spec b2) 2 (len_phys b1) (len_spec b1) 1 (len_phys b0) (len_spec b0) 0 zo Hz ltac:(lia) ltac:(lia) ltac:(lia) a o F2 F1). intros (Ta & E0 & E1 & E2 & To & So). apply N.
    destruct a as [[|x0 [|x1 [|x2 [|]]]] ? ?], o as [[|y0 [|y1 [|y2 [|]]]] ? ?]; cbn in *; try lia; inversion E0; inversion E1; inversion E2; inversion So; subst. split; repeat split; auto.
  - intros a o Na No Wa Wo N. apply (stage3_panics (backward_slice b0) (backward_slice b1) (backward_slice b2) (len_spec b0) (len_phys b0) 0 (len_spec b1) (len_phys b1) 1 (len_spec b2) (len_phys b2) 2 zo Hz ltac:(lia) ltac:(lia) ltac:(lia) a o B0 B1). intros (Ta & E0 & E1 & E2 & To & So). apply N.
    destruct a as [[|x0 [|x1 [|x2 [|]]]] ? ?], o as [[|y0 [|y1 [|y2 [|]]]] ? ?]; cbn in *; try lia; inversion E0; inversion E1; inversion E2; inversion So; subst. split; repeat split; auto.
  - intros a o Na No Wa Wo N. apply (stage3_panics (to_ortho_slice b0) (to_ortho_slice b1) (to_ortho_slice b2) (len_spec b0) (len_orth b0) 0 (len_spec b1) (len_orth b1) 1 (len_spec b2) (len_orth b2) 2 zo Hz ltac:(lia) ltac:(lia) ltac:(lia) a o O0 O1). intros (Ta & E0 & E1 & E2 & To & So). apply N.
    destruct a as [[|x0 [|x1 [|x2 [|]]]] ? ?], o as [[|y0 [|y1 [|y2 [|]]]] ? ?]; cbn in *; try lia; inversion E0; inversion E1; inversion E2; inversion So; subst. split; repeat split; auto.
  - intros a o Na No Wa Wo N. apply (stage3_panics (from_ortho_slice b0) (from_ortho_slice b1) (from_ortho_slice b2) (len_orth b0) (len_spec b0) 0 (len_orth b1) (len_spec b1) 1 (len_orth b2) (len_spec b2) 2 zo Hz ltac:(lia) ltac:(lia) ltac:(lia) a o Q0 Q1). intros (Ta & E0 & E1 & E2 & To & So). apply N.
    destruct a as [[|x0 [|x1 [|x2 [|]]]] ? ?], o as [[|y0 [|y1 [|y2 [|]]]] ? ?]; cbn in *; try lia; inversion E0; inversion E1; inversion E2; inversion So; subst. split; repeat split; auto.
Qed.
Print Assumptions C30_space3_rejects_wrong_shapes.

Theorem C30_space3_spectral_roundtrip :
  forall P I J S T (VP : Vec R P) (VI : Vec R I) (VJ : Vec R J) (VS : Vec R S) (VT : Vec R T) (b0 : base_ops J S T) (b1 : base_ops I J T) (b2 : base_ops P I T), usable J S T VJ VS VT b0 -> usable I J T VI VJ VT b1 -> usable P I T VP VI VT b2 ->
  forall (dP : Dflt P) (dI : Dflt I) (dJ : Dflt J) (dS : Dflt S) (dT : Dflt T) zo, zip_ok zo ->
  let sp := mk_space3 b0 b1 b2 in
  spectral_roundtrip b0 -> spectral_roundtrip b1 -> spectral_roundtrip b2 -> forall x, proper (s3_shape_spectral sp) x ->
    (let* u := s3_backward zo sp x in s3_forward zo sp u) = Ok x.
Proof.
  intros P I J S T VP VI VJ VS VT b0 b1 b2 U0 U1 U2 dP dI dJ dS dT zo Hz sp.
  destruct (usable_facts _ _ _ _ _ _ b0 U0) as (F0 & B0 & O0 & Q0 & RO0 & RT0).
  destruct (usable_facts _ _ _ _ _ _ b1 U1) as (F1 & B1 & O1 & Q1 & RO1 & RT1).
  destruct (usable_facts _ _ _ _ _ _ b2 U2) as (F2 & B2 & O2 & Q2 & RO2 & RT2).
  intros R0 R1 R2. intros x Hx.
  destruct (C30_space3_applies_each_base_along_its_axis P I J S T VP VI VJ VS VT b0 b1 b2 U0 U1 U2 dP dI dJ dS dT zo Hz) as (TF & TB & TO & TQ).
  destruct (TB x (azeros dflt (s3_shape_physical sp)) Hx (proper_zeros _ _)) as (c1 & c2 & u & _ & E & Pu & A0 & A1 & A2).
  destruct (TF u (azeros dflt (s3_shape_spectral sp)) Pu (proper_zeros _ _)) as (e1 & e2 & r & _ & E2 & _ & D0 & D1 & D2).
  unfold sp in *. rewrite E. cbn [bind]. rewrite E2. f_equal.
  assert (P0 : proper [len_spec b0; len_spec b1; len_spec b2] x) by exact Hx.
  assert (P1 : proper [len_phys b0; len_spec b1; len_spec b2] c1) by (exact (proper_op _ _ _ _ _ _ _ A0 P0 eq_refl)).
  assert (P2 : proper [len_phys b0; len_phys b1; len_spec b2] c2) by (exact (proper_op _ _ _ _ _ _ _ A1 P1 eq_refl)).
  assert (X : e1 = c2) by (refine (axis_op_inv _ _ _ _ _ _ _ _ (R2) (proj2 (proj2 P2)) (proj1 (proj2 P2)) _ A2 D0); rewrite (proj1 P2); reflexivity). subst e1.
  assert (X : e2 = c1) by (refine (axis_op_inv _ _ _ _ _ _ _ _ (R1) (proj2 (proj2 P1)) (proj1 (proj2 P1)) _ A1 D1); rewrite (proj1 P1); reflexivity). subst e2.
  assert (X : r = x) by (refine (axis_op_inv _ _ _ _ _ _ _ _ (R0) (proj2 (proj2 P0)) (proj1 (proj2 P0)) _ A0 D2); rewrite (proj1 P0); reflexivity). exact X.
Qed.
Print Assumptions C30_space3_spectral_roundtrip.

Theorem C30_space3_physical_roundtrip :
  forall P I J S T (VP : Vec R P) (VI : Vec R I) (VJ : Vec R J) (VS : Vec R S) (VT : Vec R T) (b0 : base_ops J S T) (b1 : base_ops I J T) (b2 : base_ops P I T), usable J S T VJ VS VT b0 -> usable I J T VI VJ VT b1 -> usable P I T VP VI VT b2 ->
  forall (dP : Dflt P) (dI : Dflt I) (dJ : Dflt J) (dS : Dflt S) (dT : Dflt T) zo, zip_ok zo ->
  let sp := mk_space3 b0 b1 b2 in
  physical_roundtrip b0 -> physical_roundtrip b1 -> physical_roundtrip b2 -> forall x, proper (s3_shape_physical sp) x ->
    (let* u := s3_forward zo sp x in s3_backward zo sp u) = Ok x.
Proof.
  intros P I J S T VP VI VJ VS VT b0 b1 b2 U0 U1 U2 dP dI dJ dS dT zo Hz sp.
  destruct (usable_facts _ _ _ _ _ _ b0 U0) as (F0 & B0 & O0 & Q0 & RO0 & RT0).
  destruct (usable_facts _ _ _ _ _ _ b1 U1) as (F1 & B1 & O1 & Q1 & RO1 & RT1).
  destruct (usable_facts _ _ _ _ _ _ b2 U2) as (F2 & B2 & O2 & Q2 & RO2 & RT2).
  intros R0 R1 R2. intros x Hx.
  destruct (C30_space3_applies_each_base_along_its_axis P I J S T VP VI VJ VS VT b0 b1 b2 U0 U1 U2 dP dI dJ dS dT zo Hz) as (TF & TB & TO & TQ).
  destruct (TF x (azeros dflt (s3_shape_spectral sp)) Hx (proper_zeros _ _)) as (c1 & c2 & u & _ & E & Pu & A0 & A1 & A2).
  destruct (TB u (azeros dflt (s3_shape_physical sp)) Pu (proper_zeros _ _)) as (e1 & e2 & r & _ & E2 & _ & D0 & D1 & D2).
  unfold sp in *. rewrite E. cbn [bind]. rewrite E2. f_equal.
  assert (P0 : proper [len_phys b0; len_phys b1; len_phys b2] x) by exact Hx.
  assert (P1 : proper [len_phys b0; len_phys b1; len_spec b2] c1) by (exact (proper_op _ _ _ _ _ _ _ A0 P0 eq_refl)).
  assert (P2 : proper [len_phys b0; len_spec b1; len_spec b2] c2) by (exact (proper_op _ _ _ _ _ _ _ A1 P1 eq_refl)).
  assert (X : e1 = c2) by (refine (axis_op_inv _ _ _ _ _ _ _ _ (R0) (proj2 (proj2 P2)) (proj1 (proj2 P2)) _ A2 D0); rewrite (proj1 P2); reflexivity). subst e1.
  assert (X : e2 = c1) by (refine (axis_op_inv _ _ _ _ _ _ _ _ (R1) (proj2 (proj2 P1)) (proj1 (proj2 P1)) _ A1 D1); rewrite (proj1 P1); reflexivity). subst e2.
  assert (X : r = x) by (refine (axis_op_inv _ _ _ _ _ _ _ _ (R2) (proj2 (proj2 P0)) (proj1 (proj2 P0)) _ A0 D2); rewrite (proj1 P0); reflexivity). exact X.
Qed.
Print Assumptions C30_space3_physical_roundtrip.

(** The hypotheses are met: a Fourier x Chebyshev-Dirichlet space of physical
    shape [6; 7] and spectral shape [4; 5], a non-constant array, and round
    tripping base pairs. *)
Definition ramp (sh : list nat) : arr R := mk_arr sh true (map INR (seq 0 (size sh))).
Lemma ramp_proper sh : proper sh (ramp sh).
Proof. repeat split. unfold wf, ramp. cbn. rewrite map_length, seq_length. auto. Qed.
Example C29_hyps_met : exists f b, r2c_new 6 = Ok f /\ new_composite KDirichlet 7 = Ok b /\
  let b0 := r2c_ops (A := R) f in let b1 := r2r_ops (T := cplx R) b in let sp := mk_space2 b0 b1 in
  usable R (cplx R) (cplx R) vec_self vec_cplx vec_cplx b0 /\ usable R R (cplx R) vec_self vec_self vec_cplx b1 /\
  s2_shape_physical sp = [6; 7] /\ s2_shape_spectral sp = [4; 5] /\ s2_shape_spectral_ortho sp = [4; 7] /\
  proper (s2_shape_physical sp) (ramp [6; 7]) /\ zip_ok (fun si so ax => rev (seq 0 (nlanes so ax))) /\
  physical_roundtrip b0 /\ spectral_roundtrip b1.
Proof.
  destruct witness_r2c as (f & Hf & Uf & Pf & Sf & Of). destruct witness_dirichlet as (b & Hb & Ub & Uc & Lb).
  destruct (Lb (cplx R) vec_cplx) as (Pb & Sb & Ob).
  exists f, b. split; auto. split; auto. cbv zeta. unfold s2_shape_physical, s2_shape_spectral, s2_shape_spectral_ortho. cbn [s2_base0 s2_base1].
  rewrite Pf, Sf, Of, Pb, Sb, Ob. do 6 (split; [solve [auto using (ramp_proper [6; 7])]|]). split; [|split].

  - intros si so ax. apply Permutation_sym, Permutation_rev.
  - eapply rt_r2c; eauto.
  - eapply rt_composite; eauto.
Qed.
Example C29_roundtrip_hyps_met : exists c b, new_chebyshev (A := R) 9 = Ok c /\ new_composite KDirichlet 7 = Ok b /\
  let b0 := r2r_ops (T := R) c in let b1 := r2r_ops (T := R) b in
  spectral_roundtrip b0 /\ spectral_roundtrip b1 /\ physical_roundtrip b0 /\
  proper (s2_shape_spectral (mk_space2 b0 b1)) (ramp [9; 5]).
Proof.
  destruct witness_chebyshev as (c & Hc & _ & _ & Lc). destruct witness_dirichlet as (b & Hb & _ & _ & Lb).
  destruct (Lb R vec_self) as (_ & Sb & _). destruct (Lc R vec_self) as (_ & Sc).
  exists c, b. split; auto. split; auto. cbv zeta. unfold s2_shape_spectral. cbn [s2_base0 s2_base1]. rewrite Sb, Sc.
  destruct (rt_chebyshev (T := R) 9 c Hc). split; auto. split. eapply rt_composite; eauto. split; auto. apply (ramp_proper [9; 5]).
Qed.
Example C30_hyps_met : exists f c b, r2c_new 6 = Ok f /\ new_chebyshev (A := R) 9 = Ok c /\ new_composite KDirichlet 7 = Ok b /\
  let b0 := r2c_ops (A := R) f in let b1 := r2r_ops (T := cplx R) c in let b2 := r2r_ops (T := cplx R) b in let sp := mk_space3 b0 b1 b2 in
  usable R (cplx R) (cplx R) vec_self vec_cplx vec_cplx b0 /\ usable R R (cplx R) vec_self vec_self vec_cplx b1 /\ usable R R (cplx R) vec_self vec_self vec_cplx b2 /\
  s3_shape_spectral sp = [4; 9; 5] /\ proper (s3_shape_physical sp) (ramp [6; 9; 7]) /\ physical_roundtrip b0 /\ physical_roundtrip b1 /\ spectral_roundtrip b1 /\ spectral_roundtrip b2.
Proof.
  destruct witness_r2c as (f & Hf & Uf & Pf & Sf & Of). destruct witness_dirichlet as (b & Hb & Ub & Uc & Lb). destruct witness_chebyshev as (c & Hc & _ & Vc & Lc).
  destruct (Lb (cplx R) vec_cplx) as (Pb & Sb & Ob). destruct (Lc (cplx R) vec_cplx) as (Pc & Sc). destruct (rt_chebyshev (T := cplx R) 9 c Hc) as [RS RP].
  exists f, c, b. repeat (split; [assumption|]). cbv zeta. unfold s3_shape_physical, s3_shape_spectral. cbn [s3_base0 s3_base1 s3_base2].
  rewrite Pf, Sf, Pb, Sb, Pc, Sc. repeat (split; [assumption|]). split; auto. split. apply (ramp_proper [6; 9; 7]). split. eapply rt_r2c; eauto. repeat (split; [assumption|]). eapply rt_composite; eauto.
Qed.
