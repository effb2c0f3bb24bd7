(** C51, continued: laplacian() and gradient in Space3 (base2 = base1, because
    Space3::gradient uses base1 on the third axis, C31). *)
From Coq Require Import List Arith Lia Bool ZArith Reals Lra Permutation Ring.
From Verif Require Import Base Num Linalg LinalgSpec Stencils StencilProofs StencilProofs2 Cheb Compo
  ChebPoly ChebGrad ChebMat ChebDct ChebFacts CompoProofs CompoFacts CompoFacts2 CompoFacts3
  Fourier FourierFacts FourierProofs FourierOps FourierSpec PropCheb PropCompo PropFourier NdArray NdArrayFacts AxisFacts Bases BaseLin LibBase AxisProps
  PropAxis SpaceFacts SpaceBases SpaceStages Space MatOp SpaceOrder PropSpace PropSpace2 PropSpace4 Elements ElemFacts PropElements PropElements2.
Import ListNotations.
Local Open Scope R_scope.

(** Operators with real matrices commute along different axes. *)
Lemma rmat_dflt_commuting {T} {V : Vec R T} {L : VecR T} f f' l1 l2 l1' l2' M M' :
  rmat M f l1 l2 -> rmat M' f' l1' l2' -> commuting f l1 l2 f' l1' l2'.
Proof.
  intros HM HM' dT ax ax' a b c b' c' N E E' A1 A2 A3 A4.
  destruct (nth_error_axlen _ _ _ E) as [Ha _]. destruct (nth_error_axlen _ _ _ E') as [Ha' _].
  pose proof A1 as (S1 & _). pose proof A2 as (S2 & T2 & W2 & _). pose proof A3 as (S3 & _). pose proof A4 as (S4 & T4 & W4 & _).
  assert (Eb : nth_error (shp b) ax' = Some l1') by (rewrite S1, nth_error_upd_other; auto).
  assert (Eb' : nth_error (shp b') ax = Some l1) by (rewrite S3, nth_error_upd_other; auto).
  pose proof (axis_op_rmat M f l1 l2 ax a b HM E A1) as G1. pose proof (axis_op_rmat M' f' l1' l2' ax' b c HM' Eb A2) as G2.
  pose proof (axis_op_rmat M' f' l1' l2' ax' a b' HM' E' A3) as G3. pose proof (axis_op_rmat M f l1 l2 ax b' c' HM Eb' A4) as G4.
  assert (Sc : shp c = shp c') by (rewrite S2, S1, S4, S3; apply upd_comm; auto).
  apply get_ext; auto; try congruence. intros idx Vi.
  assert (V' : valid (shp c') idx) by (rewrite <- Sc; auto).
  assert (Nth : forall i j k, i <> j -> nth i (upd idx j k) 0%nat = nth i idx 0%nat).
  { clear. intros i j k. revert idx i. induction j; intros [|x idx] [|i] H; cbn; auto; try lia. }
  rewrite G2 by auto. rewrite (G4 idx) by auto. apply vext. intros q. rewrite !vproj_vsum.
  rewrite (rsum_ext _ _ (fun j => rsum l1 (fun i => vproj q (get a (upd (upd idx ax' j) ax i)) * M (nth ax idx 0%nat) i * M' (nth ax' idx 0%nat) j))).
  2:{ intros j Hj. rewrite vproj_mul, G1, vproj_vsum, <- rsum_scal_r. apply rsum_ext. intros i Hi. rewrite vproj_mul, Nth by auto. ring.
      rewrite S2 in Vi. refine (valid_upd_in _ _ _ _ _ Vi _ Eb _ Hj). rewrite S1, upd_length; auto. }
  rewrite rsum_swap. apply rsum_ext. intros i Hi. rewrite vproj_mul, G3, vproj_vsum, <- rsum_scal_r.
  - apply rsum_ext. intros j Hj. rewrite vproj_mul, Nth by auto. rewrite (upd_comm idx ax ax') by auto. ring.
  - rewrite S4 in V'. refine (valid_upd_in _ _ _ _ _ V' _ Eb' _ Hi). rewrite S3, upd_length; auto.
Qed.

(** The second derivative is a real matrix, too: laplacian @ stencil. *)
Lemma made_lap_rmat bm k n P S T VP VS VT b e : made bm k n P S T VP VS VT b e -> ctor_usable k n -> lap_size k n -> k <> FourierC2c ->
  exists M, rmat M (fun x y => gradient_slice b x y 2) (len_spec b) (len_orth b).
Proof.
  intros H C Z X. destruct (made_vecR _ _ _ _ _ _ _ _ _ _ _ H) as [L _].
  destruct (made_lap _ _ _ _ _ _ _ _ _ _ _ H C Z X) as (Lm & _ & _ & HL).
  destruct (made_stencil _ _ _ _ _ _ _ _ _ _ _ H C) as (M1 & _ & _ & R1).
  exists (fun i j => rsum (len_orth b) (fun k => Lm.[i].[k] * M1.[k].[j])). intros x y Hx Hy.
  destruct (HL x (repeat v0 (len_orth b)) y Hx (repeat_length _ _) Hy) as (w & g & Ew & Eg & Lw & Lg & Vg).
  destruct (R1 x (repeat v0 (len_orth b)) Hx (repeat_length _ _)) as (w' & Ew' & Lw' & Vw'). assert (w' = w) by congruence; subst w'.
  exists g. split; auto. split; auto. intros i Hi. rewrite Vg by auto.
  apply vext. intros q. rewrite !vproj_vsum.
  rewrite (rsum_ext (len_orth b) _ (fun k => rsum (len_spec b) (fun j => vproj q x.[j] * M1.[k].[j] * Lm.[i].[k]))).
  2:{ intros k' Hk. rewrite vproj_mul, Vw', vproj_vsum, <- rsum_scal_r by auto. apply rsum_ext. intros. rewrite vproj_mul. ring. }
  rewrite rsum_swap. apply rsum_ext. intros j Hj. rewrite vproj_mul, <- rsum_scal_l. apply rsum_ext. intros. ring.
Qed.

(** Entries of the second derivative from the entries of to_ortho, along one axis *)
Lemma lap_entry bm k n P S T VP VS VT b e : made bm k n P S T VP VS VT b e -> ctor_usable k n -> lap_size k n -> k <> FourierC2c ->
  exists Lm, e_laplacian e = Ok Lm /\ mat_dims Lm (len_orth b) (len_orth b) /\
  forall (dT : Dflt T) ax a u g, nth_error (shp a) ax = Some (len_spec b) -> axis_op (to_ortho_slice b) (len_orth b) ax a u ->
    axis_op (fun x y => gradient_slice b x y 2) (len_orth b) ax a g ->
    forall idx, valid (shp g) idx -> get g idx = vsum (len_orth b) (fun k => vmul (get u (upd idx ax k)) Lm.[nth ax idx 0%nat].[k]).
Proof.
  intros H C Z X. destruct (made_lap _ _ _ _ _ _ _ _ _ _ _ H C Z X) as (Lm & EL & DL & HL). exists Lm. split; auto. split; auto.
  intros dT ax a u g Ea Au Ag idx Hv. destruct (nth_error_axlen _ _ _ Ea) as [Ha La].
  rewrite (axis_op_entry2 (to_ortho_slice b) (fun x y => gradient_slice b x y 2) (fun w i => vsum (len_orth b) (fun k => vmul w.[k] Lm.[i].[k]))
    (len_spec b) (len_orth b) (len_orth b) ax a u g); auto.
  - apply vsum_ext. intros j Hj. f_equal. apply (line_upd u (len_orth b) ax idx j); auto.
    + destruct Au as [-> _]. apply nth_error_upd_same. auto.
    + destruct Ag as (S' & _). rewrite S' in Hv. apply valid_len in Hv. rewrite upd_length in Hv. lia.
  - intros x y z Hx Hy Hz'. destruct (HL x y z Hx Hy Hz') as (w & g' & Ew & Eg' & Lw & Lg & Vg). exists w, g'. split; auto. split; auto. split; auto.
    intros i Hi. rewrite (at_indep dT dflt_vec) by lia. rewrite Vg by auto. apply vsum_ext. intros j Hj. f_equal. apply at_indep. lia.
Qed.

Theorem C51_space3_laplacian_is_gradient : forall bm k0 n0 k1 n1 J S T VJ VS VT b0 e0 b1 e1,
  made bm k0 n0 J S T VJ VS VT b0 e0 -> ctor_usable k0 n0 -> lap_size k0 n0 -> k0 <> FourierC2c ->
  made bm k1 n1 J J T VJ VJ VT b1 e1 -> ctor_usable k1 n1 -> lap_size k1 n1 -> k1 <> FourierC2c ->
  forall (dJ : Dflt J) (dS : Dflt S) (dT : Dflt T) A (N : Num A) (D : DivInto A T) zo, zip_ok zo -> let sp := mk_space3 b0 b1 b1 in
  exists L0 L1, s3_laplacian e0 e1 e1 0 = Ok L0 /\ s3_laplacian e0 e1 e1 1 = Ok L1 /\ s3_laplacian e0 e1 e1 2 = Ok L1 /\
    mat_dims L0 (len_orth b0) (len_orth b0) /\ mat_dims L1 (len_orth b1) (len_orth b1) /\
    forall a, proper (s3_shape_spectral sp) a -> exists u gx gy gz, s3_to_ortho zo sp a = Ok u /\
      s3_gradient zo sp a 2 0 0 (None (A := A * A * A)) = Ok gx /\ s3_gradient zo sp a 0 2 0 (None (A := A * A * A)) = Ok gy /\
      s3_gradient zo sp a 0 0 2 (None (A := A * A * A)) = Ok gz /\
      forall i j h, (i < len_orth b0)%nat -> (j < len_orth b1)%nat -> (h < len_orth b1)%nat ->
        get gx [i; j; h] = vsum (len_orth b0) (fun k => vmul (get u [k; j; h]) L0.[i].[k]) /\
        get gy [i; j; h] = vsum (len_orth b1) (fun k => vmul (get u [i; k; h]) L1.[j].[k]) /\
        get gz [i; j; h] = vsum (len_orth b1) (fun k => vmul (get u [i; j; k]) L1.[h].[k]).
Proof.
  intros bm k0 n0 k1 n1 J S T VJ VS VT b0 e0 b1 e1 H0 C0 Z0 X0 H1 C1 Z1 X1 dJ dS dT A N D zo Hz sp.
  destruct (lap_entry _ _ _ _ _ _ _ _ _ _ _ H0 C0 Z0 X0) as (L0 & EL0 & DL0 & HL0).
  destruct (lap_entry _ _ _ _ _ _ _ _ _ _ _ H1 C1 Z1 X1) as (L1 & EL1 & DL1 & HL1).
  exists L0, L1. split; [exact EL0|]. split; [exact EL1|]. split; [exact EL1|]. split; auto. split; auto.
  pose proof (made_usable _ _ _ _ _ _ _ _ _ _ _ H0 C0) as U0. pose proof (made_usable _ _ _ _ _ _ _ _ _ _ _ H1 C1) as U1. intros a Ha.
  assert (T0 : total_gradient b0 2). { eapply made_total; eauto. intros ->. left. apply Z0. }
  assert (T1 : total_gradient b1 2). { eapply made_total; eauto. intros ->. left. apply Z1. }
  assert (T0' : total_gradient b0 0) by (eapply made_total; eauto). assert (T1' : total_gradient b1 0) by (eapply made_total; eauto).
  destruct (made_vecR _ _ _ _ _ _ _ _ _ _ _ H0) as [L _].
  destruct (made_stencil _ _ _ _ _ _ _ _ _ _ _ H0 C0) as (M0 & _ & _ & R0). destruct (made_stencil _ _ _ _ _ _ _ _ _ _ _ H1 C1) as (M1 & _ & _ & R1).
  destruct (made_lap_rmat _ _ _ _ _ _ _ _ _ _ _ H0 C0 Z0 X0) as (Q0 & RQ0). destruct (made_lap_rmat _ _ _ _ _ _ _ _ _ _ _ H1 C1 Z1 X1) as (Q1 & RQ1).
  destruct (usable_facts _ _ _ _ _ _ _ U0) as (_ & _ & O0 & _). destruct (usable_facts _ _ _ _ _ _ _ U1) as (_ & _ & O1 & _).
  pose proof (usable_grad_linop _ _ _ _ _ _ _ 2 U0 _ T0) as LG0. pose proof (usable_grad_linop _ _ _ _ _ _ _ 2 U1 _ T1) as LG1.
  destruct (C30_space3_applies_each_base_along_its_axis _ _ _ _ _ _ _ _ _ _ _ _ _ U0 U1 U1 dJ dJ dJ dS dT zo Hz) as (_ & _ & TO & _).
  destruct (TO a (azeros dflt (s3_shape_spectral_ortho sp)) Ha (proper_zeros _ _)) as (m & m' & u & _ & E & Pu & A0 & A1 & A2).
  pose proof (fun d0 d1 d2 T0 T1 T2 => proj2 (C31_space3_gradient_uses_second_base_on_third_axis _ _ _ _ _ _ _ _ _ _ _ _ _ U0 U1 U1 dJ dJ dJ dS dT A N D zo Hz d0 d1 d2 T0 T1 T2 a Ha) eq_refl) as TG.
  destruct (TG 2 0 0 T0 T1' T1')%nat as (x1 & x2 & gx & Ex & Px & Ax1 & Ax2 & Ax3).
  destruct (TG 0 2 0 T0' T1 T1')%nat as (y1 & y2 & gy & Ey & Py & Ay1 & Ay2 & Ay3).
  destruct (TG 0 0 2 T0' T1' T1)%nat as (z1 & z2 & gz & Ez & Pz & Az1 & Az2 & Az3). clear TG TO.
  exists u, gx, gy, gz. split; [exact E|]. split; [exact Ex|]. split; [exact Ey|]. split; [exact Ez|]. clear E Ex Ey Ez.
  unfold sp in *. change (proper [len_spec b0; len_spec b1; len_spec b1] a) in Ha. clear sp. change (proper [len_orth b0; len_orth b1; len_orth b1] u) in Pu.
  pose proof Ha as (Sa & Ta & _).
  assert (ext0 : forall b c, shp b = [len_spec b0; len_spec b1; len_spec b1] -> axis_op (fun x y => gradient_slice b0 x y 0) (len_orth b0) 0 b c -> axis_op (to_ortho_slice b0) (len_orth b0) 0 b c).
  { intros b c Sb K. refine (axis_op_ext _ _ (len_spec b0) _ _ _ _ _ _ K). intros. eapply made_grad0; eauto. rewrite Sb; reflexivity. }
  assert (ext1 : forall b c p ax, shp b = p -> nth_error p ax = Some (len_spec b1) -> axis_op (fun x y => gradient_slice b1 x y 0) (len_orth b1) ax b c -> axis_op (to_ortho_slice b1) (len_orth b1) ax b c).
  { intros b c p ax Sb Hp K. refine (axis_op_ext _ _ (len_spec b1) _ _ _ _ _ _ K). intros. eapply made_grad0; eauto. rewrite Sb; auto. }
  assert (Pm : proper [len_orth b0; len_spec b1; len_spec b1] m) by exact (proper_op _ _ _ _ _ _ _ A0 Ha eq_refl).
  assert (Pm' : proper [len_orth b0; len_orth b1; len_spec b1] m') by exact (proper_op _ _ _ _ _ _ _ A1 Pm eq_refl).
  pose proof Pm as (Sm & Tm & _). pose proof Pm' as (Sm' & Tm' & _).
  apply (ext0 _ _ Sa) in Ay1. apply (ext0 _ _ Sa) in Az1.
  assert (y1 = m) by (refine (axis_op_det _ _ _ _ _ _ _ Ay1 A0); rewrite Sa; cbn; lia).
  assert (z1 = m) by (refine (axis_op_det _ _ _ _ _ _ _ Az1 A0); rewrite Sa; cbn; lia). subst y1 z1.
  apply (ext1 _ _ _ 1%nat Sm eq_refl) in Az2. assert (z2 = m') by (refine (axis_op_det _ _ _ _ _ _ _ Az2 A1); rewrite Sm; cbn; lia). subst z2.
  assert (Px1 : proper [len_orth b0; len_spec b1; len_spec b1] x1) by exact (proper_op _ _ _ _ _ _ _ Ax1 Ha eq_refl).
  apply (ext1 _ _ _ 1%nat (proj1 Px1) eq_refl) in Ax2.
  assert (Px2 : proper [len_orth b0; len_orth b1; len_spec b1] x2) by exact (proper_op _ _ _ _ _ _ _ Ax2 Px1 eq_refl).
  apply (ext1 _ _ _ 2%nat (proj1 Px2) eq_refl) in Ax3.
  assert (Py2 : proper [len_orth b0; len_orth b1; len_spec b1] y2) by exact (proper_op _ _ _ _ _ _ _ Ay2 Pm eq_refl).
  apply (ext1 _ _ _ 2%nat (proj1 Py2) eq_refl) in Ay3.
  (* axis 0: move the first operator to the end *)
  destruct (swap _ _ _ _ _ _ 0 1 a m m' (rmat_dflt_commuting _ _ _ _ _ _ _ _ R0 R1) O0 O1 ltac:(lia) Ta) as (w & W1 & W2); try (rewrite Sa; reflexivity); auto.
  destruct (swap _ _ _ _ _ _ 0 1 a x1 x2 (rmat_dflt_commuting _ _ _ _ _ _ _ _ RQ0 R1) LG0 O1 ltac:(lia) Ta) as (w0 & W1' & W2'); try (rewrite Sa; reflexivity); auto.
  assert (w0 = w) by (refine (axis_op_det _ _ _ _ _ _ _ W1' W1); rewrite Sa; cbn; lia). subst w0.
  assert (Pw : proper [len_spec b0; len_orth b1; len_spec b1] w) by exact (proper_op _ _ _ _ _ _ _ W1 Ha eq_refl). pose proof Pw as (Sw & Tw & _).
  destruct (swap _ _ _ _ _ _ 0 2 w m' u (rmat_dflt_commuting _ _ _ _ _ _ _ _ R0 R1) O0 O1 ltac:(lia) Tw) as (v & V1 & V2); try (rewrite Sw; reflexivity); auto.
  destruct (swap _ _ _ _ _ _ 0 2 w x2 gx (rmat_dflt_commuting _ _ _ _ _ _ _ _ RQ0 R1) LG0 O1 ltac:(lia) Tw) as (v' & V1' & V2'); try (rewrite Sw; reflexivity); auto.
  assert (v' = v) by (refine (axis_op_det _ _ _ _ _ _ _ V1' V1); rewrite Sw; cbn; lia). subst v'.
  (* axis 1 *)
  destruct (swap _ _ _ _ _ _ 1 2 m m' u (rmat_dflt_commuting _ _ _ _ _ _ _ _ R1 R1) O1 O1 ltac:(lia) Tm) as (t & Y1 & Y2); try (rewrite Sm; reflexivity); auto.
  destruct (swap _ _ _ _ _ _ 1 2 m y2 gy (rmat_dflt_commuting _ _ _ _ _ _ _ _ RQ1 R1) LG1 O1 ltac:(lia) Tm) as (t' & Y1' & Y2'); try (rewrite Sm; reflexivity); auto.
  assert (t' = t) by (refine (axis_op_det _ _ _ _ _ _ _ Y1' Y1); rewrite Sm; cbn; lia). subst t'.
  intros i j h Hi Hj Hh. split; [|split].
  - refine (HL0 dT 0%nat v u gx _ V2 V2' [i; j; h] _).
    + rewrite (proj1 V1), Sw. reflexivity. + rewrite (proj1 Px). vld.
  - refine (HL1 dT 1%nat t u gy _ Y2 Y2' [i; j; h] _).
    + rewrite (proj1 Y1), Sm. reflexivity. + rewrite (proj1 Py). vld.
  - refine (HL1 dT 2%nat m' u gz _ A2 Az3 [i; j; h] _).
    + rewrite Sm'. reflexivity. + rewrite (proj1 Pz). vld.
Qed.
Print Assumptions C51_space3_laplacian_is_gradient.
