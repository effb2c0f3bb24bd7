(** C29, C30 continued: forward after backward after forward, order of the axes,
    to_ortho/from_ortho round trips, parallel variants. *)
From Coq Require Import List Arith Lia Bool ZArith Reals Lra Permutation.
From Verif Require Import Base Num Linalg Stencils Cheb Compo Fourier FourierFacts FourierProofs CompoProofs NdArray NdArrayFacts AxisFacts Bases BaseLin LibBase
  AxisProps PropAxis SpaceFacts SpaceBases SpaceStages Space MatOp SpaceOrder PropSpace Witness.
Import ListNotations.
Local Open Scope nat_scope.

Section Swap.
Context {T : Type} {V : Vec R T} {dT : Dflt T}.
Lemma some_zip : exists zo, zip_ok zo.
Proof. exists (fun si so ax => seq 0 (nlanes so ax)). intros si so ax. apply Permutation_refl. Qed.
Lemma op_exists {T1 T2} {V1 : Vec R T1} {V2 : Vec R T2} {d1 : Dflt T1} {d2 : Dflt T2} (f : list T1 -> list T2 -> res (list T2)) l1 l2 (a : arr T1) ax :
  linop f l1 l2 -> std a = true -> nth_error (shp a) ax = Some l1 -> exists b, axis_op f l2 ax a b.
Proof. intros L S E. destruct some_zip as [zo Hz]. destruct (axop_runs f l1 l2 zo a ax L Hz S E) as (b & _ & H). eauto. Qed.
Lemma axop_is {T1 T2} {V1 : Vec R T1} {V2 : Vec R T2} {d1 : Dflt T1} {d2 : Dflt T2} (f : list T1 -> list T2 -> res (list T2)) l1 l2 zo (a : arr T1) ax b :
  linop f l1 l2 -> zip_ok zo -> std a = true -> nth_error (shp a) ax = Some l1 -> axis_op f l2 ax a b -> axop f l1 l2 zo a ax = Ok b.
Proof.
  intros L Hz S E A. destruct (axop_runs f l1 l2 zo a ax L Hz S E) as (b' & Eb & A'). rewrite Eb. f_equal.
  refine (axis_op_det _ _ _ _ _ _ _ A' A). apply (nth_error_axlen _ _ _ E).
Qed.
Lemma swap (f : list T -> list T -> res (list T)) l1 l2 f' l1' l2' ax ax' a b c : commuting f l1 l2 f' l1' l2' -> linop f l1 l2 -> linop f' l1' l2' ->
  ax <> ax' -> std a = true -> nth_error (shp a) ax = Some l1 -> nth_error (shp a) ax' = Some l1' ->
  axis_op f l2 ax a b -> axis_op f' l2' ax' b c -> exists b', axis_op f' l2' ax' a b' /\ axis_op f l2 ax b' c.
Proof.
  intros C L L' N S E E' A B. destruct (op_exists f' l1' l2' a ax' L' S E') as [b' Ab'].
  pose proof Ab' as (Sb & Tb & _). destruct (op_exists f l1 l2 b' ax L Tb) as [c' Ac'].
  { rewrite Sb, nth_error_upd_other; auto. }
  exists b'. split; auto. rewrite (C dT ax ax' a b c b' c'); auto.
Qed.
End Swap.

Ltac ext := cbn [nth_error]; reflexivity.
Ltac shx := repeat match goal with H : proper _ _ |- _ => destruct H as (? & ? & ?) end.

(** ** Forward after backward after forward is forward *)
Theorem C29_space1_forward_backward_forward : forall P S T VP VS VT (b0 : base_ops P S T), usable P S T VP VS VT b0 ->
  forall (dP : Dflt P) (dS : Dflt S) (dT : Dflt T) zo, zip_ok zo -> let sp := mk_space1 b0 in
  forall a, proper (s1_shape_physical sp) a ->
  (let* x := s1_forward zo sp a in let* u := s1_backward zo sp x in s1_forward zo sp u) = s1_forward zo sp a.
Proof.
  intros P S T VP VS VT b0 U0 dP dS dT zo Hz sp a Ha.
  destruct (C29_space1_applies_each_base_along_its_axis P S T VP VS VT b0 U0 dP dS dT zo Hz) as (TF & TB & _).
  destruct (TF a (azeros dflt (s1_shape_spectral sp)) Ha (proper_zeros _ _)) as (x & _ & E & Px & A).
  destruct (TB x (azeros dflt (s1_shape_physical sp)) Px (proper_zeros _ _)) as (u & _ & E2 & Pu & B).
  destruct (TF u (azeros dflt (s1_shape_spectral sp)) Pu (proper_zeros _ _)) as (r & _ & E3 & _ & D).
  unfold sp in *. rewrite E. cbn [bind]. rewrite E2. cbn [bind]. rewrite E3. f_equal.
  assert (Ex : nth_error (shp a) 0 = Some (len_phys b0)) by (destruct Ha as [-> _]; reflexivity).
  assert (W : axis_op (forward_slice b0) (len_spec b0) 0 a r).
  { refine (axis_op_comp (fun x z => let* s := forward_slice b0 x (repeat dflt (len_spec b0)) in backward_slice b0 s z) (forward_slice b0) _
      (len_phys b0) (len_phys b0) _ 0 a u r _ Ex _ D).
    - intros x0 y z Hx Hy Hz0. apply (fbf VP VS VT b0 U0); auto. apply repeat_length.
    - refine (axis_op_comp _ _ _ (len_phys b0) (len_spec b0) _ 0 a x u _ Ex A B). intros x0 y z Hx Hy Hz0.
      destruct (usable_facts _ _ _ _ _ _ b0 U0) as ((g & Cg & _) & _).
      rewrite (proj1 (Cg x0 y Hx Hy)), (proj1 (Cg x0 _ Hx (repeat_length _ _))). reflexivity. }
  symmetry. refine (axis_op_det _ _ _ _ _ _ _ A W). apply (nth_error_axlen _ _ _ Ex).
Qed.
Print Assumptions C29_space1_forward_backward_forward.

(** one axis: F B F = F, as arrays *)
Lemma op_fbf {P S T} VP VS VT (b : base_ops P S T) {dP : Dflt P} {dS : Dflt S} ax (a : arr P) x u r : usable P S T VP VS VT b ->
  nth_error (shp a) ax = Some (len_phys b) ->
  axis_op (forward_slice b) (len_spec b) ax a x -> axis_op (backward_slice b) (len_phys b) ax x u ->
  axis_op (forward_slice b) (len_spec b) ax u r -> r = x.
Proof.
  intros U0 Ex A B D.
  assert (W : axis_op (forward_slice b) (len_spec b) ax a r).
  { refine (axis_op_comp (fun x z => let* s := forward_slice b x (repeat dflt (len_spec b)) in backward_slice b s z) (forward_slice b) _
      (len_phys b) (len_phys b) _ ax a u r _ Ex _ D).
    - intros x0 y z Hx Hy Hz0. apply (fbf VP VS VT b U0); auto. apply repeat_length.
    - refine (axis_op_comp _ _ _ (len_phys b) (len_spec b) _ ax a x u _ Ex A B). intros x0 y z Hx Hy Hz0.
      destruct (usable_facts _ _ _ _ _ _ b U0) as ((g & Cg & _) & _).
      rewrite (proj1 (Cg x0 y Hx Hy)), (proj1 (Cg x0 _ Hx (repeat_length _ _))). reflexivity. }
  refine (axis_op_det _ _ _ _ _ _ _ W A). apply (nth_error_axlen _ _ _ Ex).
Qed.

Theorem C29_space2_forward_backward_forward : forall P I S T VP VI VS VT b0 b1, admissible2 P I S T VP VI VS VT b0 b1 ->
  forall (dP : Dflt P) (dI : Dflt I) (dS : Dflt S) (dT : Dflt T) zo, zip_ok zo -> let sp := mk_space2 b0 b1 in
  forall a, proper (s2_shape_physical sp) a ->
  (let* x := s2_forward zo sp a in let* u := s2_backward zo sp x in s2_forward zo sp u) = s2_forward zo sp a.
Proof.
  intros P I S T VP VI VS VT b0 b1 Adm dP dI dS dT zo Hz sp a Ha.
  destruct (admissible2_usable _ _ _ _ _ _ _ _ _ _ Adm) as [U0 U1]. pose proof (admissible2_rt _ _ _ _ _ _ _ _ _ _ Adm) as RT.
  destruct (C29_space2_applies_each_base_along_its_axis P I S T VP VI VS VT b0 b1 U0 U1 dP dI dS dT zo Hz) as (TF & TB & _).
  destruct (TF a (azeros dflt (s2_shape_spectral sp)) Ha (proper_zeros _ _)) as (m & x & _ & E & Px & A1 & A0).
  destruct (TB x (azeros dflt (s2_shape_physical sp)) Px (proper_zeros _ _)) as (p & u & _ & E2 & Pu & B0 & B1).
  destruct (TF u (azeros dflt (s2_shape_spectral sp)) Pu (proper_zeros _ _)) as (q & r & _ & E3 & _ & D1 & D0).
  unfold sp in *. rewrite E. cbn [bind]. rewrite E2. cbn [bind]. rewrite E3. f_equal. clear E E2 E3.
  assert (Pm : proper [len_phys b0; len_spec b1] m) by exact (proper_op _ _ _ _ _ _ _ A1 Ha eq_refl).
  assert (Pp : proper [len_phys b0; len_spec b1] p) by exact (proper_op _ _ _ _ _ _ _ B0 Px eq_refl).
  assert (Ea : nth_error (shp a) 1 = Some (len_phys b1)) by (destruct Ha as [-> _]; reflexivity).
  assert (Em : nth_error (shp m) 0 = Some (len_phys b0)) by (destruct Pm as [-> _]; reflexivity).
  assert (Ep : nth_error (shp p) 1 = Some (len_spec b1)) by (destruct Pp as [-> _]; reflexivity).
  destruct RT as [RT|RT].
  - assert (q = p) by (destruct Pp as (_ & Tp & Wp); exact (axis_op_inv _ _ _ _ _ _ _ _ RT Wp Tp Ep B1 D1)). subst q.
    exact (op_fbf VI VS VT b0 0 m x p r U0 Em A0 B0 D0).
  - assert (p = m) by (destruct Pm as (_ & Tp & Wp); exact (axis_op_inv _ _ _ _ _ _ _ _ RT Wp Tp Em A0 B0)). subst p.
    assert (q = m) by exact (op_fbf VP VI VT b1 1 a m u q U1 Ea A1 B1 D1). subst q.
    refine (axis_op_det _ _ _ _ _ _ _ D0 A0). apply (nth_error_axlen _ _ _ Em).
Qed.
Print Assumptions C29_space2_forward_backward_forward.

Theorem C30_space3_forward_backward_forward : forall P I J S T VP VI VJ VS VT b0 b1 b2, admissible3 P I J S T VP VI VJ VS VT b0 b1 b2 ->
  forall (dP : Dflt P) (dI : Dflt I) (dJ : Dflt J) (dS : Dflt S) (dT : Dflt T) zo, zip_ok zo -> let sp := mk_space3 b0 b1 b2 in
  forall a, proper (s3_shape_physical sp) a ->
  (let* x := s3_forward zo sp a in let* u := s3_backward zo sp x in s3_forward zo sp u) = s3_forward zo sp a.
Proof.
  intros P I J S T VP VI VJ VS VT b0 b1 b2 Adm dP dI dJ dS dT zo Hz sp a Ha.
  destruct (admissible3_usable _ _ _ _ _ _ _ _ _ _ _ _ _ Adm) as (U0 & U1 & U2). pose proof (admissible3_rt _ _ _ _ _ _ _ _ _ _ _ _ _ Adm) as RT.
  destruct (C30_space3_applies_each_base_along_its_axis P I J S T VP VI VJ VS VT b0 b1 b2 U0 U1 U2 dP dI dJ dS dT zo Hz) as (TF & TB & _).
  destruct (TF a (azeros dflt (s3_shape_spectral sp)) Ha (proper_zeros _ _)) as (m & m' & x & _ & E & Px & A2 & A1 & A0).
  destruct (TB x (azeros dflt (s3_shape_physical sp)) Px (proper_zeros _ _)) as (p' & p & u & _ & E2 & Pu & B0 & B1 & B2).
  destruct (TF u (azeros dflt (s3_shape_spectral sp)) Pu (proper_zeros _ _)) as (q & q' & r & _ & E3 & _ & D2 & D1 & D0).
  unfold sp in *. rewrite E. cbn [bind]. rewrite E2. cbn [bind]. rewrite E3. f_equal. clear E E2 E3.
  assert (Pm : proper [len_phys b0; len_phys b1; len_spec b2] m) by exact (proper_op _ _ _ _ _ _ _ A2 Ha eq_refl).
  assert (Pm' : proper [len_phys b0; len_spec b1; len_spec b2] m') by exact (proper_op _ _ _ _ _ _ _ A1 Pm eq_refl).
  assert (Pp' : proper [len_phys b0; len_spec b1; len_spec b2] p') by exact (proper_op _ _ _ _ _ _ _ B0 Px eq_refl).
  assert (Pp : proper [len_phys b0; len_phys b1; len_spec b2] p) by exact (proper_op _ _ _ _ _ _ _ B1 Pp' eq_refl).
  assert (Ea : nth_error (shp a) 2 = Some (len_phys b2)) by (destruct Ha as [-> _]; reflexivity).
  assert (Em : nth_error (shp m) 1 = Some (len_phys b1)) by (destruct Pm as [-> _]; reflexivity).
  assert (Em' : nth_error (shp m') 0 = Some (len_phys b0)) by (destruct Pm' as [-> _]; reflexivity).
  assert (Ep : nth_error (shp p) 2 = Some (len_spec b2)) by (destruct Pp as [-> _]; reflexivity).
  assert (Ep' : nth_error (shp p') 1 = Some (len_spec b1)) by (destruct Pp' as [-> _]; reflexivity).
  assert (I2 : spectral_roundtrip b2 -> q = p)
    by (intros RT'; destruct Pp as (_ & Tp & Wp); exact (axis_op_inv _ _ _ _ _ _ _ _ RT' Wp Tp Ep B2 D2)).
  assert (J0 : physical_roundtrip b0 -> p' = m')
    by (intros RT'; destruct Pm' as (_ & Tp & Wp); exact (axis_op_inv _ _ _ _ _ _ _ _ RT' Wp Tp Em' A0 B0)).
  destruct RT as [[R1 R2]|[[R0 R2]|[R0 R1]]].
  - specialize (I2 R2). subst q.
    assert (q' = p') by (destruct Pp' as (_ & Tp & Wp); exact (axis_op_inv _ _ _ _ _ _ _ _ R1 Wp Tp Ep' B1 D1)). subst q'.
    exact (op_fbf VJ VS VT b0 0 m' x p' r U0 Em' A0 B0 D0).
  - specialize (I2 R2). specialize (J0 R0). subst q p'.
    assert (q' = m') by exact (op_fbf VI VJ VT b1 1 m m' p q' U1 Em A1 B1 D1). subst q'.
    refine (axis_op_det _ _ _ _ _ _ _ D0 A0). apply (nth_error_axlen _ _ _ Em').
  - specialize (J0 R0). subst p'.
    assert (p = m) by (destruct Pm as (_ & Tp & Wp); exact (axis_op_inv _ _ _ _ _ _ _ _ R1 Wp Tp Em A1 B1)). subst p.
    assert (q = m) by exact (op_fbf VP VI VT b2 2 a m u q U2 Ea A2 B2 D2). subst q.
    assert (q' = m'). { refine (axis_op_det _ _ _ _ _ _ _ D1 A1). apply (nth_error_axlen _ _ _ Em). } subst q'.
    refine (axis_op_det _ _ _ _ _ _ _ D0 A0). apply (nth_error_axlen _ _ _ Em').
Qed.
Print Assumptions C30_space3_forward_backward_forward.

(** Admissible spaces exist: Fourier x Dirichlet, Fourier x Chebyshev x Dirichlet. *)
Lemma witness_usable_r2r : exists c b, usable_r2r c /\ usable_r2r b /\ new_chebyshev (A := R) 9 = Ok c /\ new_composite KDirichlet 7 = Ok b.
Proof.
  destruct witness_dirichlet as (b & Hb & _). destruct witness_chebyshev as (c & Hc & _).
  exists c, b. split. eapply ur_chebyshev; eauto. split; auto. apply (ur_composite KDirichlet 7); auto.
Qed.
Example C29_admissible_spaces_exist : exists f c b, r2c_new 6 = Ok f /\ new_chebyshev (A := R) 9 = Ok c /\ new_composite KDirichlet 7 = Ok b /\
  admissible2 R R (cplx R) (cplx R) vec_self vec_self vec_cplx vec_cplx (r2c_ops f) (r2r_ops b) /\
  admissible3 R R R (cplx R) (cplx R) vec_self vec_self vec_self vec_cplx vec_cplx (r2c_ops f) (r2r_ops c) (r2r_ops b).
Proof.
  destruct witness_r2c as (f & Hf & _). destruct witness_usable_r2r as (c & b & Uc & Ub & Hc & Hb). exists f, c, b. repeat split; auto.
  eapply adm_r2c_r2r; eauto. eapply adm3_frr; eauto.
Qed.
