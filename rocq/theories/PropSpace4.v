(** C31: which base the gradients use along which axis; C32: scaling and
    stretched coordinates. *)
From Coq Require Import List Arith Lia Bool ZArith Reals Lra Permutation.
From Verif Require Import Base Num Linalg LinalgSpec Stencils StencilProofs StencilProofs2 Cheb Compo ChebPoly ChebGrad ChebMat ChebDct ChebFacts
  CompoProofs CompoFacts CompoFacts2 CompoFacts3
  Fourier FourierFacts FourierProofs FourierOps FourierSpec PropCheb PropCompo PropFourier NdArray NdArrayFacts AxisFacts Bases BaseLin LibBase AxisProps
  PropAxis SpaceFacts SpaceBases SpaceStages Space MatOp SpaceOrder PropSpace PropSpace2 PropSpace3 SpaceDeriv Witness.
Import ListNotations.
Local Open Scope nat_scope.

Notation grad b d := (fun x y => gradient_slice b x y d).

Lemma gradient_axop {P S T} {dT : Dflt T} zo (b : base_ops P S T) a d ax :
  gradient zo b a d ax = axop (grad b d) (len_spec b) (len_orth b) zo a ax.
Proof.
  unfold gradient, axop. destruct (array_resized_axis dflt a (len_orth b) ax) as [o| |]; auto. cbn [bind].
  unfold gradient_inplace. apply gradient_apply.
Qed.
Lemma usable_grad_linop P S T VP VS VT b d : usable P S T VP VS VT b -> Dflt T -> total_gradient b d -> linop (grad b d) (len_spec b) (len_orth b).
Proof. intros U dT Tt. apply (gradient_linop P S T VP VS VT b d); auto. apply usable_lib; auto. exists dT; auto. Qed.

(** Which derivatives are defined (C05, C16, C22): all of them, except d >= 1
    on the two-point Chebyshev base. *)
Theorem C31_defined_derivatives :
  (forall T (V : Vec R T) (L : VecR T) n b d, new_chebyshev n = Ok b -> 3 <= n \/ d = 0 -> total_gradient (r2r_ops (T := T) b) d) /\
  (forall T (V : Vec R T) (L : VecR T) k n b d, new_composite k n = Ok b -> biharmonic k = false -> total_gradient (r2r_ops (T := T) b) d) /\
  (forall n f d, r2c_new n = Ok f -> total_gradient (r2c_ops (A := R) f) d) /\
  (forall n f d, c2c_new n = Ok f -> total_gradient (c2c_ops (A := R) f) d).
Proof.
  split; [|split; [|split]].
  - intros T V L n b d H Hd x y Hx Hy. apply new_chebyshev_inv in H as [Hn ->].
    cbn [r2r_ops gradient_slice len_spec len_orth cheb_len_spec cheb_len_orth c_m] in *.
    destruct Hd as [H3| ->].
    + pose proof (C05_cheb_gradient_is_derivative T _ _ n (mk_cheb n n) x y d) as K.
      specialize (K ltac:(unfold cheb_new; destruct (Nat.leb_spec 2 n); auto; lia) H3 Hx Hy). apply wp_Ok in K as (g & Eg & _). eauto.
    + unfold cheb_gradient. cbn [c_m]. rewrite Hy, Nat.eqb_refl. cbn. eauto.
  - intros T V L k n b d H Hb x y Hx Hy. apply new_composite_inv in H as (c & Hc & ->).
    destruct (new_ortho k n c Hc) as (_ & El & _). cbn [r2r_ops gradient_slice len_spec len_orth] in *. rewrite El in *.
    pose proof (C05_compo_gradient_is_derivative T _ _ k n c x y d Hc Hb Hx Hy) as K. apply wp_Ok in K as (u & _ & _ & K).
    apply wp_Ok in K as (g & Eg & _). eauto.
  - intros n f d H x y Hx Hy. apply r2c_new_inv in H as [Hn ->]. cbn [r2c_ops gradient_slice len_spec len_orth r2c_len_spec r2c_len_orth r_m] in *.
    pose proof (r2c_gradient_val n x y d Hx Hy) as W. apply wp_Ok in W as (g & Eg & _). eauto.
  - intros n f d H x y Hx Hy. apply c2c_new_inv in H as [Hn ->]. cbn [c2c_ops gradient_slice len_spec len_orth c2c_len_spec c2c_len_orth cc_m] in *.
    pose proof (c2c_gradient_val n x y d Hn Hx Hy) as W. apply wp_Ok in W as (g & Eg & _). eauto.
Qed.
Print Assumptions C31_defined_derivatives.

(** ** Space1 and Space2: each base along its own axis *)
Theorem C31_space1_gradient : forall P S T VP VS VT (b0 : base_ops P S T), usable P S T VP VS VT b0 ->
  forall (dP : Dflt P) (dS : Dflt S) (dT : Dflt T) A (N : Num A) (D : DivInto A T) zo, zip_ok zo -> let sp := mk_space1 b0 in
  forall d, total_gradient b0 d -> forall a, proper (s1_shape_spectral sp) a ->
  exists r, s1_gradient zo sp a d (None (A := A)) = Ok r /\ proper (s1_shape_spectral_ortho sp) r /\ axis_op (grad b0 d) (len_orth b0) 0 a r.
Proof.
  intros P S T VP VS VT b0 U0 dP dS dT A N D zo Hz sp d Td a Ha. pose proof Ha as (Sa & Ta & Wa).
  pose proof (usable_grad_linop _ _ _ _ _ _ _ d U0 dT Td) as L.
  destruct (axop_runs (grad b0 d) (len_spec b0) (len_orth b0) zo a 0 L Hz Ta) as (r & E & Ar); [rewrite Sa; reflexivity|].
  exists r. unfold s1_gradient. cbn [sp s1_base0]. rewrite gradient_axop, E. split; auto. split; auto.
  exact (proper_op _ _ _ _ _ _ _ Ar Ha eq_refl).
Qed.
Print Assumptions C31_space1_gradient.

Theorem C31_space2_gradient_applies_each_base_along_its_axis :
  forall P I S T VP VI VS VT (b0 : base_ops I S T) (b1 : base_ops P I T), usable I S T VI VS VT b0 -> usable P I T VP VI VT b1 ->
  forall (dP : Dflt P) (dI : Dflt I) (dS : Dflt S) (dT : Dflt T) A (N : Num A) (D : DivInto A T) zo, zip_ok zo -> let sp := mk_space2 b0 b1 in
  forall d0 d1, total_gradient b0 d0 -> total_gradient b1 d1 -> forall a, proper (s2_shape_spectral sp) a ->
  exists m r, s2_gradient zo sp a d0 d1 (None (A := A * A)) = Ok r /\ proper (s2_shape_spectral_ortho sp) r /\
    axis_op (grad b0 d0) (len_orth b0) 0 a m /\ axis_op (grad b1 d1) (len_orth b1) 1 m r.
Proof.
  intros P I S T VP VI VS VT b0 b1 U0 U1 dP dI dS dT A N D zo Hz sp d0 d1 T0 T1 a Ha. pose proof Ha as (Sa & Ta & Wa).
  pose proof (usable_grad_linop _ _ _ _ _ _ _ d0 U0 dT T0) as L0. pose proof (usable_grad_linop _ _ _ _ _ _ _ d1 U1 dT T1) as L1.
  destruct (axop_runs (grad b0 d0) (len_spec b0) (len_orth b0) zo a 0 L0 Hz Ta) as (m & Em & Am); [rewrite Sa; reflexivity|].
  assert (Pm : proper [len_orth b0; len_spec b1] m) by exact (proper_op _ _ _ _ _ _ _ Am Ha eq_refl). pose proof Pm as (Sm & Tm & Wm).
  destruct (axop_runs (grad b1 d1) (len_spec b1) (len_orth b1) zo m 1 L1 Hz Tm) as (r & E & Ar); [rewrite Sm; reflexivity|].
  exists m, r. unfold s2_gradient. cbn [sp s2_base0 s2_base1]. rewrite gradient_axop, Em. cbn [bind]. rewrite gradient_axop, E. split; auto. split; auto.
  exact (proper_op _ _ _ _ _ _ _ Ar Pm eq_refl).
Qed.
Print Assumptions C31_space2_gradient_applies_each_base_along_its_axis.

Definition step2_gradient {P I S T} {dT : Dflt T} zo (sp : space2 P I S T) (d0 d1 ax : nat) (a : arr T) : res (arr T) :=
  match ax with 0 => gradient zo (s2_base0 sp) a d0 0 | _ => gradient zo (s2_base1 sp) a d1 1 end.
Theorem C31_space2_gradient_any_axis_order : forall P I S T VP VI VS VT b0 b1, admissible2 P I S T VP VI VS VT b0 b1 ->
  forall (dP : Dflt P) (dI : Dflt I) (dS : Dflt S) (dT : Dflt T) A (N : Num A) (D : DivInto A T) zo, zip_ok zo -> let sp := mk_space2 b0 b1 in
  forall d0 d1, total_gradient b0 d0 -> total_gradient b1 d1 -> forall order, Permutation order [0; 1] ->
  forall a, proper (s2_shape_spectral sp) a -> in_order (step2_gradient zo sp d0 d1) order a = s2_gradient zo sp a d0 d1 (None (A := A * A)).
Proof.
  intros P I S T VP VI VS VT b0 b1 Adm dP dI dS dT A N D zo Hz sp d0 d1 T0 T1 order Po a Ha.
  destruct (admissible2_usable _ _ _ _ _ _ _ _ _ _ Adm) as [U0 U1]. pose proof (admissible2_commute _ _ _ _ _ _ _ _ _ _ Adm) as BC.
  pose proof (usable_grad_linop _ _ _ _ _ _ _ d0 U0 dT T0) as L0. pose proof (usable_grad_linop _ _ _ _ _ _ _ d1 U1 dT T1) as L1_.
  destruct (C31_space2_gradient_applies_each_base_along_its_axis P I S T VP VI VS VT b0 b1 U0 U1 dP dI dS dT A N D zo Hz d0 d1 T0 T1 a Ha) as (m & r & E & _ & A0 & A1).
  unfold sp in *. rewrite E.
  set (F := fun i => match i with 0 => grad b0 d0 | _ => grad b1 d1 end).
  set (L1 := fun i => match i with 0 => len_spec b0 | _ => len_spec b1 end).
  set (L2 := fun i => match i with 0 => len_orth b0 | _ => len_orth b1 end).
  assert (HL : forall i, (i = 0 \/ i = 1) -> linop (F i) (L1 i) (L2 i)) by (intros i [->| ->]; auto).
  assert (HC : forall i j, (i = 0 \/ i = 1) -> (j = 0 \/ j = 1) -> i <> j -> commuting (F i) (L1 i) (L2 i) (F j) (L1 j) (L2 j)).
  { assert (K : commuting (F 0) (L1 0) (L2 0) (F 1) (L1 1) (L2 1)) by (apply BC; right; right; eexists; eauto).
    intros i j [->| ->] [->| ->] Nij; try lia; auto. apply commuting_sym; auto. }
  assert (Rd : ready L1 (fun i => i = 0 \/ i = 1) [0;1] a).
  { destruct Ha as (Sa & Ta & _). split; auto. intros i Hi. cbn in Hi. split. lia. rewrite Sa. destruct Hi as [<-|[<-|[]]]; reflexivity. }
  etransitivity; [|exact (in_order_chain F L1 L2 _ HL zo [0;1] a r Hz nd01 Rd ltac:(cbn; eauto))].
  etransitivity; [|exact (in_order_perm F L1 L2 _ HL HC zo [0;1] order a Hz nd01 Rd ltac:(symmetry; auto))].
  apply in_order_ext. intros i x Hi. destruct (perm01 _ Po i Hi) as [->| ->]; cbn [step2_gradient s2_base0 s2_base1]; rewrite gradient_axop; reflexivity.
Qed.
Print Assumptions C31_space2_gradient_any_axis_order.

(** ** Space3 *)
(** What the documentation promises: base i along axis i. *)
Definition s3_gradient_intended {P I J S T} {dT : Dflt T} zo (sp : space3 P I J S T) (a : arr T) (d0 d1 d2 : nat) : res (arr T) :=
  let* b1 := gradient zo (s3_base0 sp) a d0 0 in
  let* b2 := gradient zo (s3_base1 sp) b1 d1 1 in
  gradient zo (s3_base2 sp) b2 d2 2.

(** The result never depends on the third base ... *)
Theorem C31_space3_gradient_ignores_third_base : forall A P I J S T P' (N : Num A) (D : DivInto A T) (dT : Dflt T) zo
  (b0 : base_ops J S T) (b1 : base_ops I J T) (b2 : base_ops P I T) (b2' : base_ops P' I T) a d0 d1 d2 (s : option (A * A * A)),
  s3_gradient zo (mk_space3 b0 b1 b2) a d0 d1 d2 s = s3_gradient zo (mk_space3 b0 b1 b2') a d0 d1 d2 s.
Proof. reflexivity. Qed.
Print Assumptions C31_space3_gradient_ignores_third_base.

(** ... it applies the second base along the third axis, and panics on every
    correctly shaped array if the two extents differ. *)
Theorem C31_space3_gradient_uses_second_base_on_third_axis :
  forall P I J S T VP VI VJ VS VT (b0 : base_ops J S T) (b1 : base_ops I J T) (b2 : base_ops P I T),
  usable J S T VJ VS VT b0 -> usable I J T VI VJ VT b1 -> usable P I T VP VI VT b2 ->
  forall (dP : Dflt P) (dI : Dflt I) (dJ : Dflt J) (dS : Dflt S) (dT : Dflt T) A (N : Num A) (D : DivInto A T) zo, zip_ok zo -> let sp := mk_space3 b0 b1 b2 in
  forall d0 d1 d2, total_gradient b0 d0 -> total_gradient b1 d1 -> total_gradient b1 d2 ->
  forall a, proper (s3_shape_spectral sp) a ->
  (len_spec b2 <> len_spec b1 -> forall s : option (A * A * A), s3_gradient zo sp a d0 d1 d2 s = Panic) /\
  (len_spec b2 = len_spec b1 -> exists m m' r, s3_gradient zo sp a d0 d1 d2 (None (A := A * A * A)) = Ok r /\
    proper [len_orth b0; len_orth b1; len_orth b1] r /\
    axis_op (grad b0 d0) (len_orth b0) 0 a m /\ axis_op (grad b1 d1) (len_orth b1) 1 m m' /\ axis_op (grad b1 d2) (len_orth b1) 2 m' r).
Proof.
  intros P I J S T VP VI VJ VS VT b0 b1 b2 U0 U1 U2 dP dI dJ dS dT A N D zo Hz sp d0 d1 d2 T0 T1 T2 a Ha. pose proof Ha as (Sa & Ta & Wa).
  pose proof (usable_grad_linop _ _ _ _ _ _ _ d0 U0 dT T0) as L0. pose proof (usable_grad_linop _ _ _ _ _ _ _ d1 U1 dT T1) as L1.
  pose proof (usable_grad_linop _ _ _ _ _ _ _ d2 U1 dT T2) as L2.
  destruct (axop_runs (grad b0 d0) (len_spec b0) (len_orth b0) zo a 0 L0 Hz Ta) as (m & Em & Am); [rewrite Sa; reflexivity|].
  assert (Pm : proper [len_orth b0; len_spec b1; len_spec b2] m) by exact (proper_op _ _ _ _ _ _ _ Am Ha eq_refl). pose proof Pm as (Sm & Tm & Wm).
  destruct (axop_runs (grad b1 d1) (len_spec b1) (len_orth b1) zo m 1 L1 Hz Tm) as (m' & Em' & Am'); [rewrite Sm; reflexivity|].
  assert (Pm' : proper [len_orth b0; len_orth b1; len_spec b2] m') by exact (proper_op _ _ _ _ _ _ _ Am' Pm eq_refl). pose proof Pm' as (Sm' & Tm' & Wm').
  unfold s3_gradient. cbn [sp s3_base0 s3_base1]. rewrite gradient_axop, Em. cbn [bind]. rewrite gradient_axop, Em'. cbn [bind]. rewrite gradient_axop.
  split.
  - intros NE s. rewrite axop_no. reflexivity. left. rewrite Sm'. cbn. congruence.
  - intros EQ. destruct (axop_runs (grad b1 d2) (len_spec b1) (len_orth b1) zo m' 2 L2 Hz Tm') as (r & E & Ar); [rewrite Sm'; cbn; congruence|].
    rewrite E. cbn [bind]. exists m, m', r. split; auto. split; auto. exact (proper_op _ _ _ _ _ _ _ Ar Pm' eq_refl).
Qed.
Print Assumptions C31_space3_gradient_uses_second_base_on_third_axis.

(** The intended operation works on every correctly shaped array. *)
Theorem C31_space3_intended_gradient_is_total :
  forall P I J S T VP VI VJ VS VT (b0 : base_ops J S T) (b1 : base_ops I J T) (b2 : base_ops P I T),
  usable J S T VJ VS VT b0 -> usable I J T VI VJ VT b1 -> usable P I T VP VI VT b2 ->
  forall (dP : Dflt P) (dI : Dflt I) (dJ : Dflt J) (dS : Dflt S) (dT : Dflt T) zo, zip_ok zo -> let sp := mk_space3 b0 b1 b2 in
  forall d0 d1 d2, total_gradient b0 d0 -> total_gradient b1 d1 -> total_gradient b2 d2 ->
  forall a, proper (s3_shape_spectral sp) a ->
  exists m m' r, s3_gradient_intended zo sp a d0 d1 d2 = Ok r /\ proper (s3_shape_spectral_ortho sp) r /\
    axis_op (grad b0 d0) (len_orth b0) 0 a m /\ axis_op (grad b1 d1) (len_orth b1) 1 m m' /\ axis_op (grad b2 d2) (len_orth b2) 2 m' r.
Proof.
  intros P I J S T VP VI VJ VS VT b0 b1 b2 U0 U1 U2 dP dI dJ dS dT zo Hz sp d0 d1 d2 T0 T1 T2 a Ha. pose proof Ha as (Sa & Ta & Wa).
  pose proof (usable_grad_linop _ _ _ _ _ _ _ d0 U0 dT T0) as L0. pose proof (usable_grad_linop _ _ _ _ _ _ _ d1 U1 dT T1) as L1.
  pose proof (usable_grad_linop _ _ _ _ _ _ _ d2 U2 dT T2) as L2.
  destruct (axop_runs (grad b0 d0) (len_spec b0) (len_orth b0) zo a 0 L0 Hz Ta) as (m & Em & Am); [rewrite Sa; reflexivity|].
  assert (Pm : proper [len_orth b0; len_spec b1; len_spec b2] m) by exact (proper_op _ _ _ _ _ _ _ Am Ha eq_refl). pose proof Pm as (Sm & Tm & Wm).
  destruct (axop_runs (grad b1 d1) (len_spec b1) (len_orth b1) zo m 1 L1 Hz Tm) as (m' & Em' & Am'); [rewrite Sm; reflexivity|].
  assert (Pm' : proper [len_orth b0; len_orth b1; len_spec b2] m') by exact (proper_op _ _ _ _ _ _ _ Am' Pm eq_refl). pose proof Pm' as (Sm' & Tm' & Wm').
  destruct (axop_runs (grad b2 d2) (len_spec b2) (len_orth b2) zo m' 2 L2 Hz Tm') as (r & E & Ar); [rewrite Sm'; reflexivity|].
  unfold s3_gradient_intended. cbn [sp s3_base0 s3_base1 s3_base2]. rewrite gradient_axop, Em. cbn [bind]. rewrite gradient_axop, Em'. cbn [bind].
  rewrite gradient_axop, E. exists m, m', r. split; auto. split; auto. exact (proper_op _ _ _ _ _ _ _ Ar Pm' eq_refl).
Qed.
Print Assumptions C31_space3_intended_gradient_is_total.

(** Correct when the second and third bases have the same lengths and act alike. *)
Theorem C31_space3_gradient_correct_for_like_bases : forall A P I J S T (N : Num A) (D : DivInto A T) (dT : Dflt T) zo
  (b0 : base_ops J S T) (b1 : base_ops I J T) (b2 : base_ops P I T) a d0 d1 d2,
  len_spec b2 = len_spec b1 -> len_orth b2 = len_orth b1 -> gradient_slice b2 = gradient_slice b1 ->
  s3_gradient zo (mk_space3 b0 b1 b2) a d0 d1 d2 (None (A := A * A * A)) = s3_gradient_intended zo (mk_space3 b0 b1 b2) a d0 d1 d2.
Proof.
  intros A P I J S T N D dT zo b0 b1 b2 a d0 d1 d2 E1 E2 E3. unfold s3_gradient, s3_gradient_intended. cbn [s3_base0 s3_base1 s3_base2].
  destruct (gradient zo b0 a d0 0) as [m| |]; auto. cbn [bind]. destruct (gradient zo b1 m d1 1) as [m'| |]; auto. cbn [bind].
  rewrite !gradient_axop. rewrite E1, E2, E3. destruct (axop _ _ _ zo m' 2); reflexivity.
Qed.
Print Assumptions C31_space3_gradient_correct_for_like_bases.

(** Hence for unequal extents the gradient is unusable, although the operation
    it should perform is defined ... *)
Theorem C31_space3_gradient_unusable_for_unequal_extents :
  forall P I J S T VP VI VJ VS VT (b0 : base_ops J S T) (b1 : base_ops I J T) (b2 : base_ops P I T),
  usable J S T VJ VS VT b0 -> usable I J T VI VJ VT b1 -> usable P I T VP VI VT b2 -> len_spec b2 <> len_spec b1 ->
  forall (dP : Dflt P) (dI : Dflt I) (dJ : Dflt J) (dS : Dflt S) (dT : Dflt T) A (N : Num A) (D : DivInto A T) zo, zip_ok zo -> let sp := mk_space3 b0 b1 b2 in
  forall d0 d1 d2, total_gradient b0 d0 -> total_gradient b1 d1 -> total_gradient b1 d2 -> total_gradient b2 d2 ->
  forall a, proper (s3_shape_spectral sp) a ->
  (exists r, s3_gradient_intended zo sp a d0 d1 d2 = Ok r) /\ forall s : option (A * A * A), s3_gradient zo sp a d0 d1 d2 s = Panic.
Proof.
  intros P I J S T VP VI VJ VS VT b0 b1 b2 U0 U1 U2 NE dP dI dJ dS dT A N D zo Hz sp d0 d1 d2 T0 T1 T2 T2' a Ha. split.
  - destruct (C31_space3_intended_gradient_is_total P I J S T VP VI VJ VS VT b0 b1 b2 U0 U1 U2 dP dI dJ dS dT zo Hz d0 d1 d2 T0 T1 T2' a Ha) as (m & m' & r & E & _). eauto.
  - apply (C31_space3_gradient_uses_second_base_on_third_axis P I J S T VP VI VJ VS VT b0 b1 b2 U0 U1 U2 dP dI dJ dS dT A N D zo Hz d0 d1 d2 T0 T1 T2 a Ha); auto.
Qed.
Print Assumptions C31_space3_gradient_unusable_for_unequal_extents.

(** ... and for equal extents the values can be silently wrong, even without
    differentiating at all: second base Dirichlet, third base Neumann. *)
Lemma compo_grad0 k n c (v o : list R) : compo_new k n = Ok c -> biharmonic k = false -> length v = sdim k n -> length o = n ->
  exists g, compo_gradient c v o 0 = Ok g /\ is_matvec n (sdim k n) (smat k) v g.
Proof.
  intros Hc Hb Hv Ho. destruct (new_ortho k n c Hc) as (Eo & El & H4 & Hc').
  pose proof (to_ortho_ok k n c v (repeat v0 n) Hc Hb Hv (repeat_length _ _)) as W. apply wp_Ok in W as (u & Eu & Lu & Vu).
  exists u. unfold compo_gradient. rewrite El, Eu. cbn [bind]. unfold cheb_gradient. rewrite Eo. cbn [c_m]. rewrite Ho, Nat.eqb_refl. cbn.
  rewrite (zip_write_full o u) by congruence. split; auto. split; auto.
Qed.
Lemma cheb_grad0 n (v o : list R) : length v = n -> length o = n -> cheb_gradient (mk_cheb n n) v o 0 = Ok v.
Proof. intros Hv Ho. unfold cheb_gradient. cbn [c_m]. rewrite Ho, Nat.eqb_refl. cbn. rewrite (zip_write_full o v) by congruence. reflexivity. Qed.
Lemma smat_row0 k n (v : list R) : k = KDirichlet \/ k = KNeumann -> 4 <= n -> vsum (sdim k n) (fun j => vmul v.[j] (smat k 0 j)) = v.[0].
Proof.
  intros Hk Hn. unfold smat. etransitivity; [apply (scol_rowT (T := R) (V := vec_self) (sstep k) (sdim k n) (fun _ => 1%R) (slowa k) (slowb k) v 0); [destruct Hk as [-> | ->]; cbn; lia|destruct Hk as [-> | ->]; unfold sdim; cbn; lia]|].
  assert (E : sdim k n = n - 2) by (destruct Hk as [-> | ->]; reflexivity). rewrite E.
  destruct (Nat.ltb_spec 0 (n - 2)); [|lia]. transitivity (v.[0] * 1 + 0 + 0)%R; [destruct Hk as [-> | ->]; reflexivity|ring].
Qed.
Lemma smat_row2 k n (v : list R) : k = KDirichlet \/ k = KNeumann -> 6 <= n ->
  vsum (sdim k n) (fun j => vmul v.[j] (smat k 2 j)) = (v.[2] + v.[0] * (if match k with KDirichlet => true | _ => false end then -1 else 0))%R.
Proof.
  intros Hk Hn. unfold smat. etransitivity; [apply (scol_rowT (T := R) (V := vec_self) (sstep k) (sdim k n) (fun _ => 1%R) (slowa k) (slowb k) v 2); [destruct Hk as [-> | ->]; cbn; lia|destruct Hk as [-> | ->]; unfold sdim; cbn; lia]|].
  assert (E : sdim k n = n - 2) by (destruct Hk as [-> | ->]; reflexivity). rewrite E.
  destruct (Nat.ltb_spec 2 (n - 2)); [|lia]. assert (E1 : (2 - 1 <? n - 2) = true) by (apply Nat.ltb_lt; lia). assert (E0 : (0 <? n - 2) = true) by (apply Nat.ltb_lt; lia).
  destruct Hk as [-> | ->]; cbn [sstep Nat.mul Nat.add Nat.leb Nat.sub andb]; cbn [Nat.sub] in E1; rewrite ?E1, ?E0.
  - transitivity (v.[2] * 1 + v.[1] * 0 + v.[0] * dirichlet_low2 0)%R; [reflexivity|]. unfold dirichlet_low2. cbn. ring.
  - transitivity (v.[2] * 1 + v.[1] * 0 + v.[0] * neumann_low2 0)%R; [reflexivity|]. unfold neumann_low2. cbn. field.
Qed.

Lemma valid_nil2 n1 n2 i j : i < n1 -> j < n2 -> valid [n1; n2] [i; j].
Proof. intros. repeat constructor; auto. Qed.
Lemma line_at {T} {dT : Dflt T} (a : arr T) pre post k : k < axlen (shp a) (length pre) -> (line a pre post).[k] = get a (pre ++ k :: post).
Proof. intros. unfold line. rewrite at_map_seq by auto. f_equal. Qed.

Theorem C31_space3_gradient_wrong_values : forall n0 n b0 b1 b2 zo, new_chebyshev n0 = Ok b0 ->
  new_composite KDirichlet n = Ok b1 -> new_composite KNeumann n = Ok b2 -> 6 <= n -> zip_ok zo ->
  let sp := mk_space3 (r2r_ops (T := R) b0) (r2r_ops (T := R) b1) (r2r_ops (T := R) b2) in
  exists a r r', proper (s3_shape_spectral sp) a /\
    s3_gradient zo sp a 0 0 0 (None (A := R * R * R)) = Ok r /\ s3_gradient_intended zo sp a 0 0 0 = Ok r' /\
    shp r = shp r' /\ get r [0; 0; 2] = (-1)%R /\ get r' [0; 0; 2] = 0%R.
Proof.
  intros n0 n b0 b1 b2 zo H0 H1 H2 Hn Hz sp.
  assert (U0 : usable_r2r b0) by (eapply ur_chebyshev; eauto). assert (U1 : usable_r2r b1) by (eapply ur_composite; eauto; cbn; lia).
  assert (U2 : usable_r2r b2) by (eapply ur_composite; eauto; cbn; lia).
  apply (usable_r2r_base R vec_self _) in U0. apply (usable_r2r_base R vec_self _) in U1. apply (usable_r2r_base R vec_self _) in U2.
  destruct C31_defined_derivatives as (DD1 & DD2 & _).
  pose proof (DD1 R _ _ n0 b0 0 H0 (or_intror eq_refl)) as T0. pose proof (DD2 R _ _ _ _ _ 0 H1 eq_refl) as T1. pose proof (DD2 R _ _ _ _ _ 0 H2 eq_refl) as T2.
  apply new_chebyshev_inv in H0 as [Hn0 ->]. apply new_composite_inv in H1 as (c1 & Hc1 & ->). apply new_composite_inv in H2 as (c2 & Hc2 & ->).
  set (B0 := r2r_ops (T := R) (BChebyshev (mk_cheb n0 n0))) in *. set (B1 := r2r_ops (T := R) (BChebyshevComposite c1)) in *. set (B2 := r2r_ops (T := R) (BChebyshevComposite c2)) in *.
  assert (LS1 : len_spec B1 = n - 2) by (cbn; rewrite (len_spec_eq _ _ _ Hc1); reflexivity).
  assert (LS2 : len_spec B2 = n - 2) by (cbn; rewrite (len_spec_eq _ _ _ Hc2); reflexivity).
  assert (LO1 : len_orth B1 = n) by (cbn; apply (new_ortho _ _ _ Hc1)).
  assert (LO2 : len_orth B2 = n) by (cbn; apply (new_ortho _ _ _ Hc2)).
  set (sh := s3_shape_spectral sp).
  assert (Esh : sh = [n0; n - 2; n - 2]) by (unfold sh, s3_shape_spectral; cbn [sp s3_base0 s3_base1 s3_base2]; fold B0 B1 B2; rewrite LS1, LS2; reflexivity).
  set (a := mk_arr sh true (1%R :: repeat 0%R (size sh - 1))).
  assert (Sz : 1 <= size sh). { rewrite Esh. cbn. destruct n0; [lia|]. destruct n as [|[|[|]]]; try lia. }
  assert (Ha : proper sh a). { split; auto. split; auto. unfold wf, a. cbn [shp dat length]. rewrite repeat_length. lia. }
  assert (Ga : forall k, k < n - 2 -> get a [0; 0; k] = if k =? 0 then 1%R else 0%R).
  { intros k Hk. unfold get, a. cbn [shp dat]. rewrite Esh. cbn [ravel]. replace (_ + _) with k by (cbn; lia). destruct k as [|k]; auto.
    cbn [Nat.eqb]. unfold at_. cbn [nth]. exact (nth_repeat _ _ _). }
  destruct (proj2 (C31_space3_gradient_uses_second_base_on_third_axis _ _ _ _ _ _ _ _ _ _ B0 B1 B2 U0 U1 U2 _ _ _ _ _ R _ _ zo Hz 0 0 0 T0 T1 T1 a Ha))
    as (m & m' & r & E & Pr & A0 & A1 & A2); [congruence|].
  destruct (C31_space3_intended_gradient_is_total _ _ _ _ _ _ _ _ _ _ B0 B1 B2 U0 U1 U2 _ _ _ _ _ zo Hz 0 0 0 T0 T1 T2 a Ha)
    as (m2 & m2' & r' & E' & Pr' & A0' & A1' & A2').
  exists a, r, r'. split; auto. split; auto. split; auto.
  split. { destruct Pr as [-> _], Pr' as [-> _]. unfold s3_shape_spectral_ortho. cbn [sp s3_base0 s3_base1 s3_base2]. fold B0 B1 B2. rewrite LO1, LO2. reflexivity. }
  pose proof Ha as (Sa & _). rewrite Esh in Sa.
  assert (X : m2 = m) by (refine (axis_op_det _ _ _ _ _ _ _ A0' A0); rewrite Sa; cbn; lia). subst m2.
  assert (Sm : shp m = [n0; n - 2; n - 2]) by (destruct A0 as [-> _]; rewrite Sa; reflexivity).
  assert (X : m2' = m') by (refine (axis_op_det _ _ _ _ _ _ _ A1' A1); rewrite Sm; cbn; lia). subst m2'.
  assert (Sm' : shp m' = [n0; n; n - 2]) by (destruct A1 as [-> _]; rewrite Sm; cbn [upd]; rewrite LO1; reflexivity).
  clear E E' A0' A1'.
  assert (Gm : forall k, k < n - 2 -> get m [0; 0; k] = if k =? 0 then 1%R else 0%R).
  { intros k Hk. rewrite <- Ga by auto. destruct A0 as (_ & _ & _ & K). rewrite Sa in K.
    specialize (K [] [0; k] eq_refl (valid_nil2 (n - 2) (n - 2) 0 k ltac:(lia) Hk) (repeat 0%R n0) (repeat_length _ _)).
    cbn [B0 r2r_ops gradient_slice] in K. rewrite cheb_grad0 in K; [|rewrite line_length, Sa; reflexivity|apply repeat_length]. injection K as K.
    rewrite <- (line_at m [] [0; k] 0), <- (line_at a [] [0; k] 0), K; auto. rewrite Sa. cbn. lia. rewrite Sm. cbn. lia. }
  assert (Gm' : forall k, k < n - 2 -> get m' [0; 0; k] = if k =? 0 then 1%R else 0%R).
  { intros k Hk. rewrite <- Gm by auto. destruct A1 as (_ & _ & _ & K). rewrite Sm in K.
    specialize (K [0] [k] eq_refl (valid_nil2 n0 (n - 2) 0 k ltac:(lia) Hk) (repeat 0%R n)). rewrite LO1 in K. specialize (K (repeat_length _ _)).
    destruct (compo_grad0 KDirichlet n c1 (line m [0] [k]) (repeat 0%R n) Hc1 eq_refl) as (g & Eg & Lg & Vg); [rewrite line_length, Sm; reflexivity|apply repeat_length|].
    assert (Y : g = line m' [0] [k]) by (cbn [B1 r2r_ops gradient_slice] in K; congruence). subst g.
    specialize (Vg 0 ltac:(lia)). rewrite smat_row0 in Vg by (auto; lia).
    rewrite <- (line_at m' [0] [k] 0), <- (line_at m [0] [k] 0); [exact Vg|rewrite Sm; cbn; lia|rewrite Sm'; cbn; lia]. }
  assert (Lx : forall k, k < n - 2 -> (line m' [0; 0] []).[k] = if k =? 0 then 1%R else 0%R).
  { intros k Hk. rewrite line_at by (rewrite Sm'; cbn; lia). apply Gm'; auto. }
  split.
  - pose proof A2 as (_ & _ & _ & K). rewrite Sm' in K.
    specialize (K [0; 0] [] eq_refl (valid_nil2 n0 n 0 0 ltac:(lia) ltac:(lia)) (repeat 0%R n)). rewrite LO1 in K. specialize (K (repeat_length _ _)).
    destruct (compo_grad0 KDirichlet n c1 (line m' [0; 0] []) (repeat 0%R n) Hc1 eq_refl) as (g & Eg & Lg & Vg); [rewrite line_length, Sm'; reflexivity|apply repeat_length|].
    assert (Y : g = line r [0; 0] []) by (cbn [B1 r2r_ops gradient_slice] in K; congruence). subst g.
    specialize (Vg 2 ltac:(lia)). rewrite smat_row2 in Vg by (auto; lia). rewrite !Lx in Vg by lia. cbn in Vg.
    rewrite <- (line_at r [0; 0] [] 2); [etransitivity; [exact Vg|ring]|]. destruct Pr as [-> _]. rewrite LO1. cbn. lia.
  - pose proof A2' as (_ & _ & _ & K). rewrite Sm' in K.
    specialize (K [0; 0] [] eq_refl (valid_nil2 n0 n 0 0 ltac:(lia) ltac:(lia)) (repeat 0%R n)). rewrite LO2 in K. specialize (K (repeat_length _ _)).
    destruct (compo_grad0 KNeumann n c2 (line m' [0; 0] []) (repeat 0%R n) Hc2 eq_refl) as (g & Eg & Lg & Vg); [rewrite line_length, Sm'; reflexivity|apply repeat_length|].
    assert (Y : g = line r' [0; 0] []) by (cbn [B2 r2r_ops gradient_slice] in K; congruence). subst g.
    specialize (Vg 2 ltac:(lia)). rewrite smat_row2 in Vg by (auto; lia). rewrite !Lx in Vg by lia. cbn in Vg.
    rewrite <- (line_at r' [0; 0] [] 2); [etransitivity; [exact Vg|ring]|]. destruct Pr' as [-> _]. unfold s3_shape_spectral_ortho. cbn [s3_base0 s3_base1 s3_base2].
    rewrite LO2. cbn. lia.
Qed.
Print Assumptions C31_space3_gradient_wrong_values.

(** ** C32: scale *)
Local Open Scope R_scope.
Lemma npow_pow (x : R) d : npow x d = x ^ d.
Proof. induction d; cbn; auto. rewrite IHd. reflexivity. Qed.
Lemma as_i32_small d : (Z.of_nat d < 2147483648)%Z -> as_i32 d = Z.of_nat d.
Proof. intros H. unfold as_i32. rewrite Z.mod_small by lia. lia. Qed.
Lemma npowi_pow (s : R) d : (Z.of_nat d < 2147483648)%Z -> npowi s (as_i32 d) = s ^ d.
Proof. intros H. unfold npowi. rewrite as_i32_small by auto. destruct (Z.leb_spec 0 (Z.of_nat d)); [|lia]. rewrite Nat2Z.id. apply npow_pow. Qed.
Lemma cdiv_real (z : CR) q : q <> 0 -> cdiv z (q, n0) = (fst z / q, snd z / q).
Proof. intros H. unfold cdiv. cbn. f_equal; field; auto. Qed.

(** every element divided by q; shape and layout kept *)
Definition divided_R (q : R) (r : arr R) : arr R := mk_arr (shp r) (std r) (map (fun x => x / q) (dat r)).
Definition divided_C (q : R) (r : arr CR) : arr CR := mk_arr (shp r) (std r) (map (fun z => (fst z / q, snd z / q)) (dat r)).
Lemma scale_R q r : scale_arr r q = divided_R q r. Proof. reflexivity. Qed.
Lemma scale_C q (r : arr CR) : q <> 0 -> scale_arr r q = divided_C q r.
Proof. intros H. unfold scale_arr, divided_C. f_equal. apply map_ext. intros z. exact (cdiv_real z q H). Qed.

Theorem C32_scaled_gradient_is_divided_by_the_product_of_powers : forall d0 d1 d2 s0 s1 s2 zo,
  (Z.of_nat d0 < 2147483648)%Z -> (Z.of_nat d1 < 2147483648)%Z -> (Z.of_nat d2 < 2147483648)%Z ->
  s0 <> 0 -> s1 <> 0 -> s2 <> 0 ->
  (forall P S (sp : space1 P S R) a, s1_gradient zo sp a d0 (Some s0) =
     let* r := s1_gradient zo sp a d0 (None (A := R)) in Ok (divided_R (s0 ^ d0) r)) /\
  (forall P S (sp : space1 P S CR) a, s1_gradient zo sp a d0 (Some s0) =
     let* r := s1_gradient zo sp a d0 (None (A := R)) in Ok (divided_C (s0 ^ d0) r)) /\
  (forall P I S (sp : space2 P I S R) a, s2_gradient zo sp a d0 d1 (Some (s0, s1)) =
     let* r := s2_gradient zo sp a d0 d1 (None (A := R * R)) in Ok (divided_R (s0 ^ d0 * s1 ^ d1) r)) /\
  (forall P I S (sp : space2 P I S CR) a, s2_gradient zo sp a d0 d1 (Some (s0, s1)) =
     let* r := s2_gradient zo sp a d0 d1 (None (A := R * R)) in Ok (divided_C (s0 ^ d0 * s1 ^ d1) r)) /\
  (forall P I J S (sp : space3 P I J S R) a, s3_gradient zo sp a d0 d1 d2 (Some (s0, s1, s2)) =
     let* r := s3_gradient zo sp a d0 d1 d2 (None (A := R * R * R)) in Ok (divided_R (s0 ^ d0 * s1 ^ d1 * s2 ^ d2) r)) /\
  (forall P I J S (sp : space3 P I J S CR) a, s3_gradient zo sp a d0 d1 d2 (Some (s0, s1, s2)) =
     let* r := s3_gradient zo sp a d0 d1 d2 (None (A := R * R * R)) in Ok (divided_C (s0 ^ d0 * s1 ^ d1 * s2 ^ d2) r)).
Proof.
  intros d0 d1 d2 s0 s1 s2 zo H0 H1 H2 N0 N1 N2.
  pose proof (pow_nonzero s0 d0 N0) as Q0. pose proof (pow_nonzero s1 d1 N1) as Q1. pose proof (pow_nonzero s2 d2 N2) as Q2.
  split; [|split; [|split; [|split; [|split]]]].
  - intros. unfold s1_gradient. rewrite npowi_pow by auto. destruct (gradient _ _ _ _ _); reflexivity.
  - intros. unfold s1_gradient. rewrite npowi_pow by auto. destruct (gradient _ _ _ _ _); cbn [bind]; auto. rewrite scale_C; auto.
  - intros. unfold s2_gradient, s2_scale. rewrite !npowi_pow by auto. destruct (gradient _ _ a _ _) as [x| |]; cbn [bind]; auto. destruct (gradient _ _ x _ _); reflexivity.
  - intros. unfold s2_gradient, s2_scale. rewrite !npowi_pow by auto. destruct (gradient _ _ a _ _) as [x| |]; cbn [bind]; auto. destruct (gradient _ _ x _ _); cbn [bind]; auto.
    rewrite <- scale_C; auto.
  - intros. unfold s3_gradient, s3_scale. rewrite !npowi_pow by auto. destruct (gradient _ _ a _ _) as [x| |]; cbn [bind]; auto.
    destruct (gradient _ _ x _ _) as [y| |]; cbn [bind]; auto. destruct (gradient _ _ y _ _); reflexivity.
  - intros. unfold s3_gradient, s3_scale. rewrite !npowi_pow by auto. destruct (gradient _ _ a _ _) as [x| |]; cbn [bind]; auto.
    destruct (gradient _ _ x _ _) as [y| |]; cbn [bind]; auto. destruct (gradient _ _ y _ _); cbn [bind]; auto.
    rewrite <- scale_C; auto.
Qed.
Print Assumptions C32_scaled_gradient_is_divided_by_the_product_of_powers.

(** The exponent is the derivative count truncated to 32 bits: from 2^31 on the
    division is by another power. *)
Theorem C32_exponent_wraps : forall d, (-2147483648 <= as_i32 d < 2147483648)%Z /\ ((as_i32 d - Z.of_nat d) mod 4294967296 = 0)%Z.
Proof.
  intros d. unfold as_i32. pose proof (Z.mod_pos_bound (Z.of_nat d + 2147483648) 4294967296 ltac:(lia)). split. lia.
  rewrite Zminus_mod. replace ((_ - 2147483648) mod _)%Z with (Z.of_nat d mod 4294967296)%Z. rewrite Z.sub_diag; reflexivity.
  rewrite Zminus_mod_idemp_l. f_equal. lia.
Qed.
Print Assumptions C32_exponent_wraps.

Lemma get_divided_R q r idx : get (divided_R q r) idx = get r idx / q.
Proof.
  unfold get. cbn [divided_R shp dat]. unfold at_. change (dflt : R) with 0. rewrite <- (map_nth (fun x => x / q)). f_equal. unfold Rdiv. ring.
Qed.
Lemma get_divided_C q (r : arr CR) idx : get (divided_C q r) idx = (fst (get r idx) / q, snd (get r idx) / q).
Proof.
  unfold get. cbn [divided_C shp dat]. unfold at_. change (dflt : CR) with ((0, 0) : CR).
  rewrite <- (map_nth (fun z : CR => ((fst z / q, snd z / q) : CR))). f_equal. cbn. f_equal; unfold Rdiv; ring.
Qed.

(** *** One dimension: the derivative of X |-> f(X / s) *)
Definition cheb_series (u : arr R) (x : R) : R := rsum (axlen (shp u) 0) (fun i => get u [i] * TT i x).

Theorem C32_space1_derivative_in_stretched_coordinate : forall b0 zo, usable_r2r b0 -> zip_ok zo ->
  let sp := mk_space1 (r2r_ops (T := R) b0) in
  forall d s, (Z.of_nat d < 2147483648)%Z -> s <> 0 -> total_gradient (r2r_ops (T := R) b0) d ->
  forall a, proper (s1_shape_spectral sp) a ->
  exists u r, s1_to_ortho zo sp a = Ok u /\ s1_gradient zo sp a d (Some s) = Ok r /\
    nth_deriv d (fun X => cheb_series u (X / s)) (fun X => cheb_series r (X / s)).
Proof.
  intros b0 zo U0 Hz sp d s Hd Hs Tt a Ha. pose proof (usable_r2r_base R vec_self _ b0 U0) as UB.
  destruct (C29_space1_applies_each_base_along_its_axis _ _ _ _ _ _ _ UB _ _ _ zo Hz) as (_ & _ & TO & _).
  destruct (TO a (azeros dflt (s1_shape_spectral_ortho sp)) Ha (proper_zeros _ _)) as (u & _ & Eu & Pu & Au).
  destruct (C31_space1_gradient _ _ _ _ _ _ _ UB _ _ _ R _ _ zo Hz d Tt a Ha) as (r & Er & Pr & Ar).
  exists u, (divided_R (s ^ d) r). split; auto. split.
  { rewrite (proj1 (C32_scaled_gradient_is_divided_by_the_product_of_powers d 0 0 s 1 1 zo Hd ltac:(lia) ltac:(lia) Hs R1_neq_R0 R1_neq_R0)).
    unfold sp in *. rewrite Er. reflexivity. }
  set (b := r2r_ops (T := R) b0) in *. pose proof Pu as [Su _]. pose proof Pr as [Sr _]. pose proof Ha as [Sa _].
  destruct (r2r_differentiates_R b0 d U0 Tt (line a [] []) (repeat 0 (len_orth b)) (repeat 0 (len_orth b))) as (u' & g' & E1 & E2 & K); try apply repeat_length.
  { rewrite line_length, Sa. reflexivity. }
  destruct Au as (_ & _ & _ & Hu), Ar as (_ & _ & _ & Hr).
  assert (V0 : valid (rm_axis (shp a) 0) ([] ++ [])) by (rewrite Sa; constructor).
  specialize (Hu [] [] eq_refl V0 _ (repeat_length 0 (len_orth b))). specialize (Hr [] [] eq_refl V0 _ (repeat_length 0 (len_orth b))).
  assert (u' = line u [] []) by (fold b in E1; congruence). assert (g' = line r [] []) by (fold b in E2; cbv beta in Hr; congruence). subst u' g'.
  pose proof (nth_deriv_stretch d s _ _ Hs K) as K'.
  assert (Eu' : axlen (shp u) 0 = len_orth b) by (rewrite Su; reflexivity). assert (Er' : axlen (shp r) 0 = len_orth b) by (rewrite Sr; reflexivity).
  eapply nth_deriv_ext; [| |exact K']; intros X; unfold cheb_series, series; rewrite tsum_rsum.
  - rewrite Eu'. apply rsum_ext. intros i Hi. fold b in Hi. rewrite line_at by (cbn [length]; rewrite Eu'; auto). reflexivity.
  - cbn [divided_R shp]. rewrite Er'. unfold Rdiv at 1. rewrite <- rsum_scal_r. apply rsum_ext. intros i Hi. fold b in Hi. rewrite line_at by (cbn [length]; rewrite Er'; auto).
    rewrite get_divided_R. cbn [app]. unfold Rdiv. ring.
Qed.
Print Assumptions C32_space1_derivative_in_stretched_coordinate.

(** *** Two dimensions: mixed partial derivatives *)
(** f(x, y) = sum_ij u_ij T_i(x) T_j(y) *)
Definition cheb_field (u : arr R) (x y : R) : R :=
  rsum (axlen (shp u) 0) (fun i => rsum (axlen (shp u) 1) (fun j => get u [i; j] * (TT i x * TT j y))).
(** f(x, y) = sum_kj c_kj w_k e^{ikx} T_j(y) *)
Definition fourier_cheb_field (w : nat -> CR) (c : arr CR) (x y : R) : CR :=
  csum (axlen (shp c) 0) (fun k => csum (axlen (shp c) 1) (fun j => cmul (get c [k; j]) (cmul (cmul (w k) (cis (INR k * x))) (TT j y, 0)))).

Theorem C32_space2_mixed_derivative_in_stretched_coordinates : forall b0 b1 zo, usable_r2r b0 -> usable_r2r b1 -> zip_ok zo ->
  let sp := mk_space2 (r2r_ops (T := R) b0) (r2r_ops (T := R) b1) in
  forall d0 d1 s0 s1, (Z.of_nat d0 < 2147483648)%Z -> (Z.of_nat d1 < 2147483648)%Z -> s0 <> 0 -> s1 <> 0 ->
  total_gradient (r2r_ops (T := R) b0) d0 -> total_gradient (r2r_ops (T := R) b1) d1 ->
  forall a, proper (s2_shape_spectral sp) a ->
  exists u r, s2_to_ortho zo sp a = Ok u /\ s2_gradient zo sp a d0 d1 (Some (s0, s1)) = Ok r /\
    exists H : R -> R -> R,
      (forall Y, nth_deriv d0 (fun X => cheb_field u (X / s0) (Y / s1)) (fun X => H X Y)) /\
      (forall X, nth_deriv d1 (fun Y => H X Y) (fun Y => cheb_field r (X / s0) (Y / s1))).
Proof.
  intros b0 b1 zo U0 U1 Hz sp d0 d1 s0 s1 Hd0 Hd1 Hs0 Hs1 T0 T1 a Ha.
  pose proof (adm_r2r_r2r b0 b1 U0 U1) as Adm. destruct (admissible2_usable _ _ _ _ _ _ _ _ _ _ Adm) as [UB0 UB1]. pose proof (admissible2_commute _ _ _ _ _ _ _ _ _ _ Adm) as BC.
  destruct (usable_facts _ _ _ _ _ _ _ UB0) as (_ & _ & O0 & _). destruct (usable_facts _ _ _ _ _ _ _ UB1) as (_ & _ & O1 & _).
  destruct (C29_space2_applies_each_base_along_its_axis _ _ _ _ _ _ _ _ _ _ UB0 UB1 _ _ _ _ zo Hz) as (_ & _ & TO & _).
  destruct (TO a (azeros dflt (s2_shape_spectral_ortho sp)) Ha (proper_zeros _ _)) as (m & u & _ & Eu & Pu & Am & Au).
  destruct (C31_space2_gradient_applies_each_base_along_its_axis _ _ _ _ _ _ _ _ _ _ UB0 UB1 _ _ _ _ R _ _ zo Hz d0 d1 T0 T1 a Ha) as (p & r & Er & Pr & Ap & Ar).
  exists u, (divided_R (s0 ^ d0 * s1 ^ d1) r). split; auto. split.
  { destruct (C32_scaled_gradient_is_divided_by_the_product_of_powers d0 d1 0 s0 s1 1 zo Hd0 Hd1 ltac:(lia) Hs0 Hs1 R1_neq_R0) as (_ & _ & K & _).
    rewrite K. unfold sp in *. rewrite Er. reflexivity. }
  destruct (mixed 0 1 Rplus Rmult Rminus Ropp RTheory nth_deriv nth_deriv_0 nth_deriv_add nth_deriv_mul nth_deriv_ext
    _ _ d0 d1 TT TT a m u p r O0 O1 (usable_grad_linop _ _ _ _ _ _ _ d0 UB0 _ T0) T0 BC (r2r_differentiates_R b0 d0 U0 T0) (r2r_differentiates_R b1 d1 U1 T1) Ha Am Au Ap Ar)
    as (H & H0 & H1).
  assert (F : forall w, proper (s2_shape_spectral_ortho sp) w -> forall x y, cheb_field w x y =
     field 0 Rplus Rmult (len_orth (r2r_ops (T := R) b0)) (len_orth (r2r_ops (T := R) b1)) w TT TT x y).
  { intros w [Sw _] x y. unfold cheb_field, field. rewrite Sw. etransitivity; [|symmetry; apply tsum_rsum]. apply rsum_ext. intros i Hi. symmetry; apply tsum_rsum. }
  exists (fun X Y => H (X / s0) (Y / s1) / s0 ^ d0). split.
  - intros Y. eapply nth_deriv_ext; [| |exact (nth_deriv_stretch d0 s0 _ _ Hs0 (H0 (Y / s1)))]; intros X; cbv beta; auto. rewrite F by auto. reflexivity.
  - intros X. pose proof (nth_deriv_mul d1 (/ s0 ^ d0) _ _ (nth_deriv_stretch d1 s1 _ _ Hs1 (H1 (X / s0)))) as K.
    eapply nth_deriv_ext; [| |exact K]; intros Y; cbv beta.
    + unfold Rdiv. ring.
    + rewrite <- F by auto. unfold cheb_field. cbn [divided_R shp]. unfold Rdiv at 1. rewrite (Rmult_comm (/ s0 ^ d0)), Rmult_assoc, <- rsum_scal_r.
      apply rsum_ext. intros i Hi. rewrite <- rsum_scal_r. apply rsum_ext. intros j Hj. rewrite get_divided_R. field.
      split; apply pow_nonzero; auto.
Qed.
Print Assumptions C32_space2_mixed_derivative_in_stretched_coordinates.

Theorem C32_fourier_space2_mixed_derivative_in_stretched_coordinates : forall n f b1 zo w, r2c_new n = Ok f -> usable_r2r b1 -> zip_ok zo ->
  let sp := mk_space2 (r2c_ops (A := R) f) (r2r_ops (T := CR) b1) in
  forall d0 d1 s0 s1, (Z.of_nat d0 < 2147483648)%Z -> (Z.of_nat d1 < 2147483648)%Z -> s0 <> 0 -> s1 <> 0 ->
  total_gradient (r2r_ops (T := CR) b1) d1 ->
  forall a, proper (s2_shape_spectral sp) a ->
  exists u r, s2_to_ortho zo sp a = Ok u /\ s2_gradient zo sp a d0 d1 (Some (s0, s1)) = Ok r /\
    exists H : R -> R -> CR,
      (forall Y, cderiv d0 (fun X => fourier_cheb_field w u (X / s0) (Y / s1)) (fun X => H X Y)) /\
      (forall X, cderiv d1 (fun Y => H X Y) (fun Y => fourier_cheb_field w r (X / s0) (Y / s1))).
Proof.
  intros n f b1 zo w U0 U1 Hz sp d0 d1 s0 s1 Hd0 Hd1 Hs0 Hs1 T1 a Ha.
  pose proof (proj1 (proj2 (proj2 C31_defined_derivatives)) n f d0 U0) as T0.
  pose proof (adm_r2c_r2r n f b1 U0 U1) as Adm. destruct (admissible2_usable _ _ _ _ _ _ _ _ _ _ Adm) as [UB0 UB1]. pose proof (admissible2_commute _ _ _ _ _ _ _ _ _ _ Adm) as BC.
  destruct (usable_facts _ _ _ _ _ _ _ UB0) as (_ & _ & O0 & _). destruct (usable_facts _ _ _ _ _ _ _ UB1) as (_ & _ & O1 & _).
  destruct (C29_space2_applies_each_base_along_its_axis _ _ _ _ _ _ _ _ _ _ UB0 UB1 _ _ _ _ zo Hz) as (_ & _ & TO & _).
  destruct (TO a (azeros dflt (s2_shape_spectral_ortho sp)) Ha (proper_zeros _ _)) as (m & u & _ & Eu & Pu & Am & Au).
  destruct (C31_space2_gradient_applies_each_base_along_its_axis _ _ _ _ _ _ _ _ _ _ UB0 UB1 _ _ _ _ R _ _ zo Hz d0 d1 T0 T1 a Ha) as (p & r & Er & Pr & Ap & Ar).
  exists u, (divided_C (s0 ^ d0 * s1 ^ d1) r). split; auto. split.
  { destruct (C32_scaled_gradient_is_divided_by_the_product_of_powers d0 d1 0 s0 s1 1 zo Hd0 Hd1 ltac:(lia) Hs0 Hs1 R1_neq_R0) as (_ & _ & _ & K & _).
    rewrite K. unfold sp in *. rewrite Er. reflexivity. }
  destruct (mixed c0 c1 cadd cmul _ _ C_ring cderiv cderiv_0 cderiv_add cderiv_mul cderiv_ext
    _ _ d0 d1 (expw w) TTc a m u p r O0 O1 (usable_grad_linop _ _ _ _ _ _ _ d0 UB0 _ T0) T0 BC (r2c_differentiates n f d0 w U0) (r2r_differentiates_C b1 d1 U1 T1) Ha Am Au Ap Ar)
    as (H & H0 & H1).
  assert (F : forall v, proper (s2_shape_spectral_ortho sp) v -> forall x y, fourier_cheb_field w v x y =
     field c0 cadd cmul (len_orth (r2c_ops (A := R) f)) (len_orth (r2r_ops (T := CR) b1)) v (expw w) TTc x y).
  { intros v [Sv _] x y. unfold fourier_cheb_field, field. rewrite Sv. etransitivity; [|symmetry; apply tsum_csum]. apply csum_ext. intros i Hi. symmetry; apply tsum_csum. }
  exists (fun X Y => cmul (/ s0 ^ d0, 0) (H (X / s0) (Y / s1))). split.
  - intros Y. eapply cderiv_ext; [| |exact (cderiv_stretch d0 s0 _ _ Hs0 (H0 (Y / s1)))]; intros X; cbv beta.
    + rewrite F by auto. reflexivity.
    + apply pair_equal_spec. cbn. unfold Rdiv. split; ring.
  - intros X. pose proof (cderiv_mul d1 (/ s0 ^ d0, 0) _ _ (cderiv_stretch d1 s1 _ _ Hs1 (H1 (X / s0)))) as K.
    eapply cderiv_ext; [| |exact K]; intros Y; cbv beta; auto.
    rewrite <- F by auto.
    transitivity (cmul (/ (s0 ^ d0 * s1 ^ d1), 0) (fourier_cheb_field w r (X / s0) (Y / s1))).
    + generalize (fourier_cheb_field w r (X / s0) (Y / s1)). intros [zr zi]. pose proof (pow_nonzero s0 d0 Hs0). pose proof (pow_nonzero s1 d1 Hs1). apply pair_equal_spec; cbn; split; field; auto.
    + unfold fourier_cheb_field. cbn [divided_C shp]. rewrite <- csum_scal_l.
      apply csum_ext. intros i Hi. rewrite <- csum_scal_l. apply csum_ext. intros j Hj. rewrite get_divided_C. 
      set (g := get r [i; j]). set (v := cmul (cmul (w i) _) _). 
      assert (E : (fst g / (s0 ^ d0 * s1 ^ d1), snd g / (s0 ^ d0 * s1 ^ d1)) = cmul (/ (s0 ^ d0 * s1 ^ d1), 0) g) by (apply pair_equal_spec; cbn; unfold Rdiv; split; ring).
      rewrite E. exact (Rmul_assoc C_ring _ _ _).
Qed.
Print Assumptions C32_fourier_space2_mixed_derivative_in_stretched_coordinates.

(** The derivative theorems apply to Fourier x Chebyshev x Dirichlet spaces. *)
Example C31_hyps_met : exists f c b, r2c_new 6 = Ok f /\ new_chebyshev (A := R) 9 = Ok c /\ new_composite KDirichlet 7 = Ok b /\
  usable_r2r c /\ usable_r2r b /\
  (forall d, total_gradient (r2c_ops (A := R) f) d /\ total_gradient (r2r_ops (T := R) c) d /\ total_gradient (r2r_ops (T := cplx R) c) d /\
     total_gradient (r2r_ops (T := R) b) d /\ total_gradient (r2r_ops (T := cplx R) b) d) /\
  len_spec (r2r_ops (T := R) b) <> len_spec (r2r_ops (T := R) c) /\
  proper (s2_shape_spectral (mk_space2 (r2r_ops (T := R) c) (r2r_ops (T := R) b))) (ramp [9; 5]%nat).
Proof.
  destruct witness_r2c as (f & Hf & _). destruct witness_usable_r2r as (c & b & Uc & Ub & Hc & Hb). exists f, c, b. do 5 (split; [assumption|]).
  assert (Sc : len_spec (r2r_ops (T := R) c) = 9%nat) by (apply new_chebyshev_inv in Hc as [_ ->]; reflexivity).
  assert (Sb : len_spec (r2r_ops (T := R) b) = 5%nat).
  { apply new_composite_inv in Hb as (k & Hk & ->). apply (len_spec_eq KDirichlet 7 k Hk). }
  destruct C31_defined_derivatives as (D1 & D2 & D3 & _). split; [|split].
  - intros d. split. eapply D3; eauto. split. apply (D1 R _ _ 9%nat); auto. left; lia. split. apply (D1 (cplx R) _ _ 9%nat); auto. left; lia.
    split. apply (D2 R _ _ KDirichlet 7%nat); auto. apply (D2 (cplx R) _ _ KDirichlet 7%nat); auto.
  - rewrite Sb, Sc. lia.
  - unfold s2_shape_spectral. cbn [s2_base0 s2_base1]. rewrite Sb, Sc. apply (ramp_proper [9; 5]%nat).
Qed.
