(** C52, continued: derivatives at the grid points for Space1 and Space3. *)
From Coq Require Import List Arith Lia Bool ZArith Reals Lra Permutation Ring.
From Verif Require Import Base Num Linalg LinalgSpec Stencils StencilProofs StencilProofs2 Cheb Compo
  ChebPoly ChebGrad ChebMat ChebDct ChebFacts CompoProofs CompoFacts CompoFacts2 CompoFacts3
  Fourier FourierFacts FourierProofs FourierOps FourierSpec PropCheb PropCompo PropFourier NdArray NdArrayFacts AxisFacts Bases BaseLin LibBase AxisProps
  PropAxis SpaceFacts SpaceBases SpaceStages Space MatOp SpaceOrder PropSpace PropSpace2 SpaceDeriv PropSpace4 SpaceDeriv3 PropSpace5
  Elements ElemFacts PropElements PropElements2 PropElements3 PropElements4 PropElements5.
Import ListNotations.
Local Open Scope R_scope.

(** ** The orthogonal spaces evaluate the plain product series *)
Lemma cheb1_backward bm n0 c0 zo : new_chebyshev (A := R) n0 = Ok c0 -> zip_ok zo ->
  let sp := mk_space1 (r2r_ops (T := R) c0) in
  exists xs, s1_coords (r2r_elems bm c0) = Ok [xs] /\ is_grid Chebyshev n0 xs /\
  forall a, proper [n0] a -> exists v, s1_backward zo sp a = Ok v /\ proper [n0] v /\
    forall i, (i < n0)%nat -> get v [i] = cheb_series a xs.[i].
Proof.
  intros H0 Hz sp.
  destruct (C52_space1_backward_evaluates _ _ _ _ _ _ _ _ _ _ _ _ (fn_chebyshev bm R vec_self vecR_R n0 c0 H0) I dflt_num dflt_num dflt_num zo Hz)
    as (xs & E & G0 & V). exists xs. split; auto. split; auto. intros a Ha.
  destruct (new_chebyshev_inv _ _ H0) as [L0 ->].
  destruct (V a Ha) as (v & Ev & Pv & Vv). exists v. split; auto. split; auto. intros i Hi. rewrite Vv by auto.
  unfold cheb_series. rewrite (proj1 Ha). cbn [axlen nth]. 
  cbn [r2r_ops len_spec cheb_len_spec c_m]. apply rsum_ext. intros k Hk. rewrite map_seq_at by auto. reflexivity.
Qed.
Lemma r2c1_backward (bm : bmode) n f zo : r2c_new n = Ok f -> zip_ok zo ->
  let sp := mk_space1 (r2c_ops (A := R) f) in
  exists xs, s1_coords (r2c_elems f) = Ok [xs] /\ is_grid FourierR2c n xs /\
  forall a, proper [(n / 2 + 1)%nat] a -> exists v, s1_backward zo sp a = Ok v /\ proper [n] v /\
    forall i, (i < n)%nat -> get v [i] = fst (fourier_series (r2c_weight n) a xs.[i]).
Proof.
  intros H0 Hz sp.
  destruct (C52_space1_backward_evaluates _ _ _ _ _ _ _ _ _ _ _ _ (fn_fourier_r2c bm n f H0) I dflt_num dflt_vec dflt_vec zo Hz)
    as (xs & E & G0 & V). exists xs. split; auto. split; auto. intros a Ha.
  pose proof H0 as H0'. apply r2c_new_inv in H0' as [L0 Ef]. 
  assert (Es : len_spec (r2c_ops (A := R) f) = (n / 2 + 1)%nat) by (rewrite Ef; reflexivity).
  assert (Ep : len_phys (r2c_ops (A := R) f) = n) by (rewrite Ef; reflexivity).
  destruct (V a ltac:(unfold s1_shape_spectral; cbn [s1_base0]; rewrite Es; exact Ha)) as (v & Ev & Pv & Vv). exists v. split; auto. split.
  { revert Pv. unfold s1_shape_physical; cbn [s1_base0]. rewrite Ep. auto. }
  intros i Hi. rewrite Vv by auto. rewrite Es.
  unfold fourier_series, csum. cbn [fst]. rewrite (proj1 Ha). cbn [axlen nth]. unfold rinterp.
  unfold Rdiv at 1. rewrite <- !rsum_scal_r. apply rsum_ext. intros k Hk.
  rewrite map_seq_at by auto.
  generalize (get a [k]). intros [p q]. unfold r2c_weight, cis, cmul. cbn. unfold Rdiv. ring.
Qed.
Lemma cheb3_backward bm n0 n1 n2 c0 c1 c2 zo : new_chebyshev (A := R) n0 = Ok c0 -> new_chebyshev (A := R) n1 = Ok c1 -> new_chebyshev (A := R) n2 = Ok c2 -> zip_ok zo ->
  let sp := mk_space3 (r2r_ops (T := R) c0) (r2r_ops (T := R) c1) (r2r_ops (T := R) c2) in
  exists xs ys zs, s3_coords (r2r_elems bm c0) (r2r_elems bm c1) (r2r_elems bm c2) = Ok [xs; ys; zs] /\
  is_grid Chebyshev n0 xs /\ is_grid Chebyshev n1 ys /\ is_grid Chebyshev n2 zs /\
  forall a, proper [n0; n1; n2] a -> exists v, s3_backward zo sp a = Ok v /\ proper [n0; n1; n2] v /\
    forall i j h, (i < n0)%nat -> (j < n1)%nat -> (h < n2)%nat -> get v [i; j; h] = cheb_field3 a xs.[i] ys.[j] zs.[h].
Proof.
  intros H0 H1 H2 Hz sp.
  destruct (C52_space3_backward_evaluates _ _ _ _ _ _ _ _ _ _ _ _ _ _ _ _ _ _ _ _ _ _ _ _ _ _
    (fn_chebyshev bm R vec_self vecR_R n0 c0 H0) I (fn_chebyshev bm R vec_self vecR_R n1 c1 H1) I (fn_chebyshev bm R vec_self vecR_R n2 c2 H2) I
    dflt_num dflt_num dflt_num dflt_num dflt_num zo Hz)
    as (xs & ys & zs & E & G0 & G1 & G2 & V). exists xs, ys, zs. split; auto. split; auto. split; auto. split; auto. intros a Ha.
  destruct (new_chebyshev_inv _ _ H0) as [L0 ->]. destruct (new_chebyshev_inv _ _ H1) as [L1 ->]. destruct (new_chebyshev_inv _ _ H2) as [L2 ->].
  destruct (V a Ha) as (v & Ev & Pv & Vv). exists v. split; auto. split; auto. intros i j h Hi Hj Hh. rewrite Vv by auto.
  unfold cheb_field3. rewrite (proj1 Ha). cbn [axlen nth].
  cbn [r2r_ops len_spec cheb_len_spec c_m].
  transitivity (rsum n2 (fun l => rsum n1 (fun j' => rsum n0 (fun k => get a [k; j'; l] * (TT k xs.[i] * (TT j' ys.[j] * TT l zs.[h])))))).
  - apply rsum_ext. intros l Hl. rewrite map_seq_at by auto. rewrite <- rsum_scal_r. apply rsum_ext. intros j' Hj'.
    rewrite map_seq_at by auto. rewrite <- !rsum_scal_r. apply rsum_ext. intros k Hk. rewrite map_seq_at by auto. ring.
  - rewrite rsum_swap. rewrite (rsum_ext n1 _ (fun j' => rsum n0 (fun k => rsum n2 (fun l => get a [k; j'; l] * (TT k xs.[i] * (TT j' ys.[j] * TT l zs.[h]))))))
      by (intros; apply rsum_swap). apply rsum_swap.
Qed.
Lemma r2c_cheb3_backward bm n n1 n2 f c1 c2 zo : r2c_new n = Ok f -> new_chebyshev (A := R) n1 = Ok c1 -> new_chebyshev (A := R) n2 = Ok c2 -> zip_ok zo ->
  let sp := mk_space3 (r2c_ops (A := R) f) (r2r_ops (T := CR) c1) (r2r_ops (T := CR) c2) in
  exists xs ys zs, s3_coords (r2c_elems f) (r2r_elems bm c1) (r2r_elems bm c2) = Ok [xs; ys; zs] /\
  is_grid FourierR2c n xs /\ is_grid Chebyshev n1 ys /\ is_grid Chebyshev n2 zs /\
  forall a, proper [(n / 2 + 1)%nat; n1; n2] a -> exists v, s3_backward zo sp a = Ok v /\ proper [n; n1; n2] v /\
    forall i j h, (i < n)%nat -> (j < n1)%nat -> (h < n2)%nat -> get v [i; j; h] = fst (fourier_cheb_field3 (r2c_weight n) a xs.[i] ys.[j] zs.[h]).
Proof.
  intros H0 H1 H2 Hz sp.
  destruct (C52_space3_backward_evaluates _ _ _ _ _ _ _ _ _ _ _ _ _ _ _ _ _ _ _ _ _ _ _ _ _ _
    (fn_fourier_r2c bm n f H0) I (fn_chebyshev bm CR vec_cplx vecR_C n1 c1 H1) I (fn_chebyshev bm CR vec_cplx vecR_C n2 c2 H2) I
    dflt_num dflt_num dflt_num dflt_vec dflt_vec zo Hz)
    as (xs & ys & zs & E & G0 & G1 & G2 & V). exists xs, ys, zs. split; auto. split; auto. split; auto. split; auto. intros a Ha.
  pose proof H0 as H0'. apply r2c_new_inv in H0' as [L0 Ef]. destruct (new_chebyshev_inv _ _ H1) as [L1 Ec]. destruct (new_chebyshev_inv _ _ H2) as [L2 Ec2].
  assert (Es : len_spec (r2c_ops (A := R) f) = (n / 2 + 1)%nat) by (rewrite Ef; reflexivity).
  assert (Es1 : len_spec (r2r_ops (T := CR) c1) = n1) by (rewrite Ec; reflexivity).
  assert (Es2 : len_spec (r2r_ops (T := CR) c2) = n2) by (rewrite Ec2; reflexivity).
  assert (Ep : len_phys (r2c_ops (A := R) f) = n) by (rewrite Ef; reflexivity).
  assert (Ep1 : len_phys (r2r_ops (T := CR) c1) = n1) by (rewrite Ec; reflexivity).
  assert (Ep2 : len_phys (r2r_ops (T := CR) c2) = n2) by (rewrite Ec2; reflexivity).
  destruct (V a ltac:(unfold s3_shape_spectral; cbn [s3_base0 s3_base1 s3_base2]; rewrite Es, Es1, Es2; exact Ha)) as (v & Ev & Pv & Vv). exists v. split; auto. split.
  { revert Pv. unfold s3_shape_physical; cbn [s3_base0 s3_base1 s3_base2]. rewrite Ep, Ep1, Ep2. auto. }
  intros i j h Hi Hj Hh. rewrite Vv by auto. rewrite Es, Es1, Es2.
  unfold fourier_cheb_field3, csum. cbn [fst]. rewrite (proj1 Ha). cbn [axlen nth].
  set (g := fun k j' l => fst (cmul (get a [k; j'; l]) (cmul (cmul (r2c_weight n k) (cis (INR k * xs.[i]))) (cmul (TT j' ys.[j], 0) (TT l zs.[h], 0))))).
  transitivity (rsum n2 (fun l => rsum n1 (fun j' => rsum (n / 2 + 1) (fun k => g k j' l)))).
  - apply rsum_ext. intros l Hl. rewrite map_seq_at by auto. rewrite <- rsum_scal_r. apply rsum_ext. intros j' Hj'.
    rewrite map_seq_at by auto. unfold rinterp. unfold Rdiv at 1. rewrite <- !rsum_scal_r. apply rsum_ext. intros k Hk. rewrite map_seq_at by auto.
    unfold g. generalize (get a [k; j'; l]). intros [p q]. unfold r2c_weight, cis, cmul. cbn. unfold Rdiv. ring.
  - rewrite rsum_swap. rewrite (rsum_ext n1 _ (fun j' => rsum (n / 2 + 1) (fun k => rsum n2 (fun l => g k j' l))))
      by (intros; apply rsum_swap). apply rsum_swap.
Qed.

(** ** Differentiate, then evaluate on the (stretched) grid *)
Theorem C52_space1_derivatives_on_the_grid : forall bm b0 c0 zo, usable_r2r b0 -> zip_ok zo -> new_chebyshev (len_orth (r2r_ops (T := R) b0)) = Ok c0 ->
  let sp := mk_space1 (r2r_ops (T := R) b0) in let so := mk_space1 (r2r_ops (T := R) c0) in
  forall d s, (Z.of_nat d < 2147483648)%Z -> s <> 0 -> total_gradient (r2r_ops (T := R) b0) d ->
  forall a, proper (s1_shape_spectral sp) a ->
  exists xs u r v (F : R -> R), s1_coords (r2r_elems bm c0) = Ok [xs] /\
    s1_to_ortho zo sp a = Ok u /\ s1_gradient zo sp a d (Some s) = Ok r /\ s1_backward zo so r = Ok v /\
    nth_deriv d (fun X => cheb_series u (X / s)) F /\
    forall i, (i < len_orth (r2r_ops (T := R) b0))%nat -> get v [i] = F (s * xs.[i]).
Proof.
  intros bm b0 c0 zo U0 Hz H0 sp so d s Hd Hs T0 a Ha.
  destruct (C32_space1_derivative_in_stretched_coordinate b0 zo U0 Hz d s Hd Hs T0 a Ha) as (u & r & Eu & Er & K0).
  pose proof (usable_r2r_base R vec_self _ b0 U0) as UB0.
  destruct (C31_space1_gradient _ _ _ _ _ _ _ UB0 _ _ _ R _ _ zo Hz d T0 a Ha) as (r' & Er' & Pr & _).
  pose proof (proj1 (C32_scaled_gradient_is_divided_by_the_product_of_powers d 0 0 s 1 1 zo Hd ltac:(lia) ltac:(lia) Hs R1_neq_R0 R1_neq_R0)) as K.
  pose proof Er as Er2. rewrite K in Er2. unfold sp in Er2. rewrite Er' in Er2. cbn [bind] in Er2.
  assert (Pr2 : proper [len_orth (r2r_ops (T := R) b0)] r) by (injection Er2 as <-; apply proper_divided_R; exact Pr).
  destruct (cheb1_backward bm _ _ zo H0 Hz) as (xs & E & _ & V). destruct (V r Pr2) as (v & Ev & _ & Vv).
  exists xs, u, r, v, (fun X => cheb_series r (X / s)).
  split; auto. split; auto. split; auto. split; auto. split; auto.
  intros i Hi. rewrite Vv by auto. f_equal; field; auto.
Qed.
Print Assumptions C52_space1_derivatives_on_the_grid.

Theorem C52_fourier_space1_derivatives_on_the_grid : forall n f zo, r2c_new n = Ok f -> zip_ok zo ->
  let sp := mk_space1 (r2c_ops (A := R) f) in
  forall d s, (Z.of_nat d < 2147483648)%Z -> s <> 0 -> forall a, proper (s1_shape_spectral sp) a ->
  exists xs u r v (F : R -> CR), s1_coords (r2c_elems f) = Ok [xs] /\
    s1_to_ortho zo sp a = Ok u /\ s1_gradient zo sp a d (Some s) = Ok r /\ s1_backward zo sp r = Ok v /\
    cderiv d (fun X => fourier_series (r2c_weight n) u (X / s)) F /\
    forall i, (i < n)%nat -> get v [i] = fst (F (s * xs.[i])).
Proof.
  intros n f zo H0 Hz sp d s Hd Hs a Ha.
  destruct (C32_fourier_space1_derivative_in_stretched_coordinate n f zo (r2c_weight n) H0 Hz d s Hd Hs a Ha) as (u & r & Eu & Er & K0).
  pose proof (us_fourier_r2c n f H0) as UB0. pose proof (proj1 (proj2 (proj2 C31_defined_derivatives)) n f d H0) as T0.
  destruct (C31_space1_gradient _ _ _ _ _ _ _ UB0 _ _ _ R _ _ zo Hz d T0 a Ha) as (r' & Er' & Pr & _).
  pose proof (proj1 (proj2 (C32_scaled_gradient_is_divided_by_the_product_of_powers d 0 0 s 1 1 zo Hd ltac:(lia) ltac:(lia) Hs R1_neq_R0 R1_neq_R0))) as K.
  pose proof Er as Er2. rewrite K in Er2. unfold sp in Er2. rewrite Er' in Er2. cbn [bind] in Er2.
  assert (Es : len_orth (r2c_ops (A := R) f) = (n / 2 + 1)%nat) by (pose proof H0 as H0'; apply r2c_new_inv in H0' as [L0 Ef]; rewrite Ef; reflexivity).
  assert (Pr2 : proper [(n / 2 + 1)%nat] r).
  { injection Er2 as <-; apply proper_divided_C. revert Pr. unfold s1_shape_spectral_ortho; cbn [s1_base0]. rewrite Es. auto. }
  destruct (r2c1_backward Debug _ _ zo H0 Hz) as (xs & E & _ & V). destruct (V r Pr2) as (v & Ev & _ & Vv).
  exists xs, u, r, v, (fun X => fourier_series (r2c_weight n) r (X / s)).
  split; auto. split; auto. split; auto. split; auto. split; auto.
  intros i Hi. rewrite Vv by auto. do 2 f_equal; field; auto.
Qed.
Print Assumptions C52_fourier_space1_derivatives_on_the_grid.

(** Space3 with base2 = base1 (its gradient uses base1 on the third axis, C31) *)
Theorem C52_space3_derivatives_on_the_grid : forall bm b0 b1 c0 c1 zo, usable_r2r b0 -> usable_r2r b1 -> zip_ok zo ->
  new_chebyshev (len_orth (r2r_ops (T := R) b0)) = Ok c0 -> new_chebyshev (len_orth (r2r_ops (T := R) b1)) = Ok c1 ->
  let sp := mk_space3 (r2r_ops (T := R) b0) (r2r_ops (T := R) b1) (r2r_ops (T := R) b1) in
  let so := mk_space3 (r2r_ops (T := R) c0) (r2r_ops (T := R) c1) (r2r_ops (T := R) c1) in
  forall d0 d1 d2 s0 s1 s2, (Z.of_nat d0 < 2147483648)%Z -> (Z.of_nat d1 < 2147483648)%Z -> (Z.of_nat d2 < 2147483648)%Z -> s0 <> 0 -> s1 <> 0 -> s2 <> 0 ->
  total_gradient (r2r_ops (T := R) b0) d0 -> total_gradient (r2r_ops (T := R) b1) d1 -> total_gradient (r2r_ops (T := R) b1) d2 ->
  forall a, proper (s3_shape_spectral sp) a ->
  exists xs ys zs u r v (Fx Fxy Fxyz : R -> R -> R -> R),
    s3_coords (r2r_elems bm c0) (r2r_elems bm c1) (r2r_elems bm c1) = Ok [xs; ys; zs] /\
    s3_to_ortho zo sp a = Ok u /\ s3_gradient zo sp a d0 d1 d2 (Some (s0, s1, s2)) = Ok r /\ s3_backward zo so r = Ok v /\
    (forall Y Z, nth_deriv d0 (fun X => cheb_field3 u (X / s0) (Y / s1) (Z / s2)) (fun X => Fx X Y Z)) /\
    (forall X Z, nth_deriv d1 (fun Y => Fx X Y Z) (fun Y => Fxy X Y Z)) /\
    (forall X Y, nth_deriv d2 (fun Z => Fxy X Y Z) (fun Z => Fxyz X Y Z)) /\
    forall i j h, (i < len_orth (r2r_ops (T := R) b0))%nat -> (j < len_orth (r2r_ops (T := R) b1))%nat -> (h < len_orth (r2r_ops (T := R) b1))%nat ->
      get v [i; j; h] = Fxyz (s0 * xs.[i]) (s1 * ys.[j]) (s2 * zs.[h]).
Proof.
  intros bm b0 b1 c0 c1 zo U0 U1 Hz H0 H1 sp so d0 d1 d2 s0 s1 s2 Hd0 Hd1 Hd2 Hs0 Hs1 Hs2 T0 T1 T2 a Ha.
  destruct (C32_space3_mixed_derivative_in_stretched_coordinates b0 b1 zo U0 U1 Hz d0 d1 d2 s0 s1 s2 Hd0 Hd1 Hd2 Hs0 Hs1 Hs2 T0 T1 T2 a Ha)
    as (u & r & Eu & Er & Pu & Pr & H & K & K0 & K1 & K2).
  destruct (cheb3_backward bm _ _ _ _ _ _ zo H0 H1 H1 Hz) as (xs & ys & zs & E & _ & _ & _ & V). destruct (V r Pr) as (v & Ev & _ & Vv).
  exists xs, ys, zs, u, r, v, H, K, (fun X Y Z => cheb_field3 r (X / s0) (Y / s1) (Z / s2)).
  do 7 (split; auto). intros i j h Hi Hj Hh. rewrite Vv by auto. f_equal; field; auto.
Qed.
Print Assumptions C52_space3_derivatives_on_the_grid.

Theorem C52_fourier_space3_derivatives_on_the_grid : forall bm n f b1 c1 zo, r2c_new n = Ok f -> usable_r2r b1 -> zip_ok zo ->
  new_chebyshev (len_orth (r2r_ops (T := CR) b1)) = Ok c1 ->
  let sp := mk_space3 (r2c_ops (A := R) f) (r2r_ops (T := CR) b1) (r2r_ops (T := CR) b1) in
  let so := mk_space3 (r2c_ops (A := R) f) (r2r_ops (T := CR) c1) (r2r_ops (T := CR) c1) in
  forall d0 d1 d2 s0 s1 s2, (Z.of_nat d0 < 2147483648)%Z -> (Z.of_nat d1 < 2147483648)%Z -> (Z.of_nat d2 < 2147483648)%Z -> s0 <> 0 -> s1 <> 0 -> s2 <> 0 ->
  total_gradient (r2r_ops (T := CR) b1) d1 -> total_gradient (r2r_ops (T := CR) b1) d2 ->
  forall a, proper (s3_shape_spectral sp) a ->
  exists xs ys zs u r v (Fx Fxy Fxyz : R -> R -> R -> CR),
    s3_coords (r2c_elems f) (r2r_elems bm c1) (r2r_elems bm c1) = Ok [xs; ys; zs] /\
    s3_to_ortho zo sp a = Ok u /\ s3_gradient zo sp a d0 d1 d2 (Some (s0, s1, s2)) = Ok r /\ s3_backward zo so r = Ok v /\
    (forall Y Z, cderiv d0 (fun X => fourier_cheb_field3 (r2c_weight n) u (X / s0) (Y / s1) (Z / s2)) (fun X => Fx X Y Z)) /\
    (forall X Z, cderiv d1 (fun Y => Fx X Y Z) (fun Y => Fxy X Y Z)) /\
    (forall X Y, cderiv d2 (fun Z => Fxy X Y Z) (fun Z => Fxyz X Y Z)) /\
    forall i j h, (i < n)%nat -> (j < len_orth (r2r_ops (T := CR) b1))%nat -> (h < len_orth (r2r_ops (T := CR) b1))%nat ->
      get v [i; j; h] = fst (Fxyz (s0 * xs.[i]) (s1 * ys.[j]) (s2 * zs.[h])).
Proof.
  intros bm n f b1 c1 zo H0 U1 Hz H1 sp so d0 d1 d2 s0 s1 s2 Hd0 Hd1 Hd2 Hs0 Hs1 Hs2 T1 T2 a Ha.
  destruct (C32_fourier_space3_mixed_derivative_in_stretched_coordinates n f b1 zo (r2c_weight n) H0 U1 Hz d0 d1 d2 s0 s1 s2 Hd0 Hd1 Hd2 Hs0 Hs1 Hs2 T1 T2 a Ha)
    as (u & r & Eu & Er & Pu & Pr & H & K & K0 & K1 & K2).
  destruct (r2c_cheb3_backward bm _ _ _ _ _ _ zo H0 H1 H1 Hz) as (xs & ys & zs & E & _ & _ & _ & V).
  assert (Es : len_orth (r2c_ops (A := R) f) = (n / 2 + 1)%nat) by (pose proof H0 as H0'; apply r2c_new_inv in H0' as [L0 Ef]; rewrite Ef; reflexivity).
  destruct (V r ltac:(revert Pr; unfold s3_shape_spectral_ortho; cbn [s3_base0 s3_base1 s3_base2]; rewrite Es; auto)) as (v & Ev & _ & Vv).
  exists xs, ys, zs, u, r, v, H, K, (fun X Y Z => fourier_cheb_field3 (r2c_weight n) r (X / s0) (Y / s1) (Z / s2)).
  do 7 (split; auto). intros i j h Hi Hj Hh. rewrite Vv by auto. do 2 f_equal; field; auto.
Qed.
Print Assumptions C52_fourier_space3_derivatives_on_the_grid.
