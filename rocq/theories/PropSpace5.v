(** C32, continued: derivatives in stretched coordinates for Space3 and for the
    Fourier Space1.  Space3::gradient uses the second base on the third axis
    (C31), so it differentiates correctly when the two bases are the same: these
    theorems take base2 = base1. *)
From Coq Require Import List Arith Lia Bool ZArith Reals Lra Permutation Ring.
From Verif Require Import Base Num Linalg LinalgSpec Stencils StencilProofs StencilProofs2 Cheb Compo
  ChebPoly ChebGrad ChebMat ChebDct ChebFacts CompoProofs CompoFacts CompoFacts2 CompoFacts3
  Fourier FourierFacts FourierProofs FourierOps FourierSpec PropCheb PropCompo PropFourier NdArray NdArrayFacts AxisFacts Bases BaseLin LibBase AxisProps
  PropAxis SpaceFacts SpaceBases SpaceStages Space MatOp SpaceOrder PropSpace PropSpace2 SpaceDeriv PropSpace4 SpaceDeriv3.
Import ListNotations.
Local Open Scope R_scope.

(** f(x) = sum_k c_k w_k e^{ikx} *)
Definition fourier_series (w : nat -> CR) (c : arr CR) (x : R) : CR :=
  csum (axlen (shp c) 0) (fun k => cmul (get c [k]) (cmul (w k) (cis (INR k * x)))).
(** f(x, y, z) = sum_ijl u_ijl T_i(x) T_j(y) T_l(z) *)
Definition cheb_field3 (u : arr R) (x y z : R) : R :=
  rsum (axlen (shp u) 0) (fun i => rsum (axlen (shp u) 1) (fun j => rsum (axlen (shp u) 2) (fun l => get u [i; j; l] * (TT i x * (TT j y * TT l z))))).
(** f(x, y, z) = sum_kjl c_kjl w_k e^{ikx} T_j(y) T_l(z) *)
Definition fourier_cheb_field3 (w : nat -> CR) (c : arr CR) (x y z : R) : CR :=
  csum (axlen (shp c) 0) (fun k => csum (axlen (shp c) 1) (fun j => csum (axlen (shp c) 2) (fun l =>
    cmul (get c [k; j; l]) (cmul (cmul (w k) (cis (INR k * x))) (cmul (TT j y, 0) (TT l z, 0)))))).

Lemma cscale_div (g : CR) q : (fst g / q, snd g / q) = cmul (/ q, 0) g.
Proof. apply pair_equal_spec; cbn; unfold Rdiv; split; ring. Qed.

Theorem C32_fourier_space1_derivative_in_stretched_coordinate : forall n f zo w, r2c_new n = Ok f -> zip_ok zo ->
  let sp := mk_space1 (r2c_ops (A := R) f) in
  forall d s, (Z.of_nat d < 2147483648)%Z -> s <> 0 ->
  forall a, proper (s1_shape_spectral sp) a ->
  exists u r, s1_to_ortho zo sp a = Ok u /\ s1_gradient zo sp a d (Some s) = Ok r /\
    cderiv d (fun X => fourier_series w u (X / s)) (fun X => fourier_series w r (X / s)).
Proof.
  intros n f zo w U0 Hz sp d s Hd Hs a Ha. pose proof (us_fourier_r2c n f U0) as UB.
  pose proof (proj1 (proj2 (proj2 C31_defined_derivatives)) n f d U0) as Tt.
  destruct (C29_space1_applies_each_base_along_its_axis _ _ _ _ _ _ _ UB _ _ _ zo Hz) as (_ & _ & TO & _).
  destruct (TO a (azeros dflt (s1_shape_spectral_ortho sp)) Ha (proper_zeros _ _)) as (u & _ & Eu & Pu & Au).
  destruct (C31_space1_gradient _ _ _ _ _ _ _ UB _ _ _ R _ _ zo Hz d Tt a Ha) as (r & Er & Pr & Ar).
  exists u, (divided_C (s ^ d) r). split; auto. split.
  { rewrite (proj1 (proj2 (C32_scaled_gradient_is_divided_by_the_product_of_powers d 0 0 s 1 1 zo Hd ltac:(lia) ltac:(lia) Hs R1_neq_R0 R1_neq_R0))).
    unfold sp in *. rewrite Er. reflexivity. }
  set (b := r2c_ops (A := R) f) in *. pose proof Pu as [Su _]. pose proof Pr as [Sr _]. pose proof Ha as [Sa _].
  assert (K : cderiv d (fun x => tsum c0 cadd (len_orth b) (fun i => cmul (get u [i]) (expw w i x))) (fun x => tsum c0 cadd (len_orth b) (fun i => cmul (get r [i]) (expw w i x)))).
  { apply (line_series c0 cadd cmul cderiv cderiv_ext b d (expw w) a u r 0 [] []); auto.
    - apply (r2c_differentiates n f d w U0). - rewrite Sa; reflexivity. - rewrite Su; reflexivity. - rewrite Sr; reflexivity.
    - rewrite Sa. constructor. }
  assert (Eu' : axlen (shp u) 0 = len_orth b) by (rewrite Su; reflexivity). assert (Er' : axlen (shp r) 0 = len_orth b) by (rewrite Sr; reflexivity).
  eapply cderiv_ext; [| |exact (cderiv_stretch d s _ _ Hs K)]; intros X; cbv beta; unfold fourier_series.
  - rewrite Eu'. exact (tsum_csum _ _).
  - cbn [divided_C shp]. rewrite Er'. rewrite (tsum_csum (len_orth b)), cscale_div, <- csum_scal_l. apply csum_ext. intros i Hi.
    rewrite get_divided_C, cscale_div. unfold expw. exact (Rmul_assoc C_ring _ _ _).
Qed.
Print Assumptions C32_fourier_space1_derivative_in_stretched_coordinate.

Theorem C32_space3_mixed_derivative_in_stretched_coordinates : forall b0 b1 zo, usable_r2r b0 -> usable_r2r b1 -> zip_ok zo ->
  let sp := mk_space3 (r2r_ops (T := R) b0) (r2r_ops (T := R) b1) (r2r_ops (T := R) b1) in
  forall d0 d1 d2 s0 s1 s2, (Z.of_nat d0 < 2147483648)%Z -> (Z.of_nat d1 < 2147483648)%Z -> (Z.of_nat d2 < 2147483648)%Z -> s0 <> 0 -> s1 <> 0 -> s2 <> 0 ->
  total_gradient (r2r_ops (T := R) b0) d0 -> total_gradient (r2r_ops (T := R) b1) d1 -> total_gradient (r2r_ops (T := R) b1) d2 ->
  forall a, proper (s3_shape_spectral sp) a ->
  exists u r, s3_to_ortho zo sp a = Ok u /\ s3_gradient zo sp a d0 d1 d2 (Some (s0, s1, s2)) = Ok r /\
    proper (s3_shape_spectral_ortho sp) u /\ proper (s3_shape_spectral_ortho sp) r /\
    exists H K : R -> R -> R -> R,
      (forall Y Z, nth_deriv d0 (fun X => cheb_field3 u (X / s0) (Y / s1) (Z / s2)) (fun X => H X Y Z)) /\
      (forall X Z, nth_deriv d1 (fun Y => H X Y Z) (fun Y => K X Y Z)) /\
      (forall X Y, nth_deriv d2 (fun Z => K X Y Z) (fun Z => cheb_field3 r (X / s0) (Y / s1) (Z / s2))).
Proof.
  intros b0 b1 zo U0 U1 Hz sp d0 d1 d2 s0 s1 s2 Hd0 Hd1 Hd2 Hs0 Hs1 Hs2 T0 T1 T2 a Ha.
  pose proof (adm3_rrr b0 b1 b1 U0 U1 U1) as Adm. destruct (admissible3_usable _ _ _ _ _ _ _ _ _ _ _ _ _ Adm) as (UB0 & UB1 & _).
  destruct (admissible3_commute _ _ _ _ _ _ _ _ _ _ _ _ _ Adm) as (BC01 & BC02 & BC12).
  destruct (usable_facts _ _ _ _ _ _ _ UB0) as (_ & _ & O0 & _). destruct (usable_facts _ _ _ _ _ _ _ UB1) as (_ & _ & O1 & _).
  destruct (C30_space3_applies_each_base_along_its_axis _ _ _ _ _ _ _ _ _ _ _ _ _ UB0 UB1 UB1 _ _ _ _ _ zo Hz) as (_ & _ & TO & _).
  destruct (TO a (azeros dflt (s3_shape_spectral_ortho sp)) Ha (proper_zeros _ _)) as (m & m' & u & _ & Eu & Pu & Am & Am' & Au).
  destruct (C31_space3_gradient_uses_second_base_on_third_axis _ _ _ _ _ _ _ _ _ _ _ _ _ UB0 UB1 UB1 _ _ _ _ _ R _ _ zo Hz d0 d1 d2 T0 T1 T2 a Ha) as (_ & TG).
  destruct (TG eq_refl) as (p & p' & r & Er & Pr & Ap & Ap' & Ar). clear TG.
  exists u, (divided_R (s0 ^ d0 * s1 ^ d1 * s2 ^ d2) r). split; auto. split.
  { destruct (C32_scaled_gradient_is_divided_by_the_product_of_powers d0 d1 d2 s0 s1 s2 zo Hd0 Hd1 Hd2 Hs0 Hs1 Hs2) as (_ & _ & _ & _ & K & _).
    rewrite K. unfold sp in *. rewrite Er. reflexivity. }
  split; auto. split.
  { destruct Pr as [? ?]. split; auto. revert H0. unfold divided_R, wf. cbn [shp std dat]. rewrite ?map_length. auto. }
  destruct (mixed3 0 1 Rplus Rmult Rminus Ropp RTheory nth_deriv nth_deriv_0 nth_deriv_add nth_deriv_mul nth_deriv_ext
    _ _ _ d0 d1 d2 TT TT TT a m m' u p p' r O0 O1 O1 (usable_grad_linop _ _ _ _ _ _ _ d0 UB0 _ T0) (usable_grad_linop _ _ _ _ _ _ _ d1 UB1 _ T1) T0 T1 BC01 BC02 BC12
    (r2r_differentiates_R b0 d0 U0 T0) (r2r_differentiates_R b1 d1 U1 T1) (r2r_differentiates_R b1 d2 U1 T2) Ha Am Am' Au Ap Ap' Ar)
    as (H & K & H0 & H1 & H2).
  assert (F : forall w, proper (s3_shape_spectral_ortho sp) w -> forall x y z, cheb_field3 w x y z =
     field3 0 Rplus Rmult (len_orth (r2r_ops (T := R) b0)) (len_orth (r2r_ops (T := R) b1)) (len_orth (r2r_ops (T := R) b1)) w TT TT TT x y z).
  { intros w [Sw _] x y z. unfold cheb_field3, field3. rewrite Sw. etransitivity; [|symmetry; apply tsum_rsum]. apply rsum_ext. intros i Hi.
    etransitivity; [|symmetry; apply tsum_rsum]. apply rsum_ext. intros j Hj. symmetry; apply tsum_rsum. }
  exists (fun X Y Z => H (X / s0) (Y / s1) (Z / s2) / s0 ^ d0), (fun X Y Z => / s0 ^ d0 * (K (X / s0) (Y / s1) (Z / s2) / s1 ^ d1)).
  pose proof (pow_nonzero s0 d0 Hs0) as N0. pose proof (pow_nonzero s1 d1 Hs1) as N1. pose proof (pow_nonzero s2 d2 Hs2) as N2. split; [|split].
  - intros Y Z. eapply nth_deriv_ext; [| |exact (nth_deriv_stretch d0 s0 _ _ Hs0 (H0 (Y / s1) (Z / s2)))]; intros X; cbv beta; auto. rewrite F by auto. reflexivity.
  - intros X Z. pose proof (nth_deriv_mul d1 (/ s0 ^ d0) _ _ (nth_deriv_stretch d1 s1 _ _ Hs1 (H1 (X / s0) (Z / s2)))) as W.
    eapply nth_deriv_ext; [| |exact W]; intros Y; cbv beta; unfold Rdiv; ring.
  - intros X Y. pose proof (nth_deriv_mul d2 (/ s0 ^ d0 * / s1 ^ d1) _ _ (nth_deriv_stretch d2 s2 _ _ Hs2 (H2 (X / s0) (Y / s1)))) as W.
    eapply nth_deriv_ext; [| |exact W]; intros Z; cbv beta.
    + unfold Rdiv. ring.
    + rewrite <- F by auto. transitivity (cheb_field3 r (X / s0) (Y / s1) (Z / s2) * / (s0 ^ d0 * s1 ^ d1 * s2 ^ d2)); [field; auto|].
      unfold cheb_field3. cbn [divided_R shp]. rewrite <- rsum_scal_r.
      apply rsum_ext. intros i Hi. rewrite <- rsum_scal_r. apply rsum_ext. intros j Hj. rewrite <- rsum_scal_r. apply rsum_ext. intros l Hl. rewrite get_divided_R. unfold Rdiv. ring.
Qed.
Print Assumptions C32_space3_mixed_derivative_in_stretched_coordinates.

Theorem C32_fourier_space3_mixed_derivative_in_stretched_coordinates : forall n f b1 zo w, r2c_new n = Ok f -> usable_r2r b1 -> zip_ok zo ->
  let sp := mk_space3 (r2c_ops (A := R) f) (r2r_ops (T := CR) b1) (r2r_ops (T := CR) b1) in
  forall d0 d1 d2 s0 s1 s2, (Z.of_nat d0 < 2147483648)%Z -> (Z.of_nat d1 < 2147483648)%Z -> (Z.of_nat d2 < 2147483648)%Z -> s0 <> 0 -> s1 <> 0 -> s2 <> 0 ->
  total_gradient (r2r_ops (T := CR) b1) d1 -> total_gradient (r2r_ops (T := CR) b1) d2 ->
  forall a, proper (s3_shape_spectral sp) a ->
  exists u r, s3_to_ortho zo sp a = Ok u /\ s3_gradient zo sp a d0 d1 d2 (Some (s0, s1, s2)) = Ok r /\
    proper (s3_shape_spectral_ortho sp) u /\ proper (s3_shape_spectral_ortho sp) r /\
    exists H K : R -> R -> R -> CR,
      (forall Y Z, cderiv d0 (fun X => fourier_cheb_field3 w u (X / s0) (Y / s1) (Z / s2)) (fun X => H X Y Z)) /\
      (forall X Z, cderiv d1 (fun Y => H X Y Z) (fun Y => K X Y Z)) /\
      (forall X Y, cderiv d2 (fun Z => K X Y Z) (fun Z => fourier_cheb_field3 w r (X / s0) (Y / s1) (Z / s2))).
Proof.
  intros n f b1 zo w U0 U1 Hz sp d0 d1 d2 s0 s1 s2 Hd0 Hd1 Hd2 Hs0 Hs1 Hs2 T1 T2 a Ha.
  pose proof (proj1 (proj2 (proj2 C31_defined_derivatives)) n f d0 U0) as T0.
  pose proof (adm3_frr n f b1 b1 U0 U1 U1) as Adm. destruct (admissible3_usable _ _ _ _ _ _ _ _ _ _ _ _ _ Adm) as (UB0 & UB1 & _).
  destruct (admissible3_commute _ _ _ _ _ _ _ _ _ _ _ _ _ Adm) as (BC01 & BC02 & BC12).
  destruct (usable_facts _ _ _ _ _ _ _ UB0) as (_ & _ & O0 & _). destruct (usable_facts _ _ _ _ _ _ _ UB1) as (_ & _ & O1 & _).
  destruct (C30_space3_applies_each_base_along_its_axis _ _ _ _ _ _ _ _ _ _ _ _ _ UB0 UB1 UB1 _ _ _ _ _ zo Hz) as (_ & _ & TO & _).
  destruct (TO a (azeros dflt (s3_shape_spectral_ortho sp)) Ha (proper_zeros _ _)) as (m & m' & u & _ & Eu & Pu & Am & Am' & Au).
  destruct (C31_space3_gradient_uses_second_base_on_third_axis _ _ _ _ _ _ _ _ _ _ _ _ _ UB0 UB1 UB1 _ _ _ _ _ R _ _ zo Hz d0 d1 d2 T0 T1 T2 a Ha) as (_ & TG).
  destruct (TG eq_refl) as (p & p' & r & Er & Pr & Ap & Ap' & Ar). clear TG.
  exists u, (divided_C (s0 ^ d0 * s1 ^ d1 * s2 ^ d2) r). split; auto. split.
  { destruct (C32_scaled_gradient_is_divided_by_the_product_of_powers d0 d1 d2 s0 s1 s2 zo Hd0 Hd1 Hd2 Hs0 Hs1 Hs2) as (_ & _ & _ & _ & _ & K).
    rewrite K. unfold sp in *. rewrite Er. reflexivity. }
  split; auto. split.
  { destruct Pr as [? ?]. split; auto. revert H0. unfold divided_C, wf. cbn [shp std dat]. rewrite ?map_length. auto. }
  destruct (mixed3 c0 c1 cadd cmul _ _ C_ring cderiv cderiv_0 cderiv_add cderiv_mul cderiv_ext
    _ _ _ d0 d1 d2 (expw w) TTc TTc a m m' u p p' r O0 O1 O1 (usable_grad_linop _ _ _ _ _ _ _ d0 UB0 _ T0) (usable_grad_linop _ _ _ _ _ _ _ d1 UB1 _ T1) T0 T1 BC01 BC02 BC12
    (r2c_differentiates n f d0 w U0) (r2r_differentiates_C b1 d1 U1 T1) (r2r_differentiates_C b1 d2 U1 T2) Ha Am Am' Au Ap Ap' Ar)
    as (H & K & H0 & H1 & H2).
  assert (F : forall v, proper (s3_shape_spectral_ortho sp) v -> forall x y z, fourier_cheb_field3 w v x y z =
     field3 c0 cadd cmul (len_orth (r2c_ops (A := R) f)) (len_orth (r2r_ops (T := CR) b1)) (len_orth (r2r_ops (T := CR) b1)) v (expw w) TTc TTc x y z).
  { intros v [Sv _] x y z. unfold fourier_cheb_field3, field3. rewrite Sv. etransitivity; [|symmetry; apply tsum_csum]. apply csum_ext. intros i Hi.
    etransitivity; [|symmetry; apply tsum_csum]. apply csum_ext. intros j Hj. symmetry; apply tsum_csum. }
  exists (fun X Y Z => cmul (/ s0 ^ d0, 0) (H (X / s0) (Y / s1) (Z / s2))), (fun X Y Z => cmul (/ (s0 ^ d0 * s1 ^ d1), 0) (K (X / s0) (Y / s1) (Z / s2))).
  pose proof (pow_nonzero s0 d0 Hs0) as N0. pose proof (pow_nonzero s1 d1 Hs1) as N1. pose proof (pow_nonzero s2 d2 Hs2) as N2. split; [|split].
  - intros Y Z. eapply cderiv_ext; [| |exact (cderiv_stretch d0 s0 _ _ Hs0 (H0 (Y / s1) (Z / s2)))]; intros X; cbv beta.
    + rewrite F by auto. reflexivity.
    + apply pair_equal_spec. cbn. unfold Rdiv. split; ring.
  - intros X Z. pose proof (cderiv_mul d1 (/ s0 ^ d0, 0) _ _ (cderiv_stretch d1 s1 _ _ Hs1 (H1 (X / s0) (Z / s2)))) as W.
    eapply cderiv_ext; [| |exact W]; intros Y; cbv beta; auto. generalize (K (X / s0) (Y / s1) (Z / s2)). intros [zr zi]. apply pair_equal_spec; cbn; split; field; auto.
  - intros X Y. pose proof (cderiv_mul d2 (/ (s0 ^ d0 * s1 ^ d1), 0) _ _ (cderiv_stretch d2 s2 _ _ Hs2 (H2 (X / s0) (Y / s1)))) as W.
    eapply cderiv_ext; [| |exact W]; intros Z; cbv beta; auto.
    rewrite <- F by auto.
    transitivity (cmul (/ (s0 ^ d0 * s1 ^ d1 * s2 ^ d2), 0) (fourier_cheb_field3 w r (X / s0) (Y / s1) (Z / s2))).
    + generalize (fourier_cheb_field3 w r (X / s0) (Y / s1) (Z / s2)). intros [zr zi]. apply pair_equal_spec; cbn; split; field; auto.
    + unfold fourier_cheb_field3. cbn [divided_C shp]. rewrite <- csum_scal_l.
      apply csum_ext. intros i Hi. rewrite <- csum_scal_l. apply csum_ext. intros j Hj. rewrite <- csum_scal_l. apply csum_ext. intros l Hl.
      rewrite get_divided_C, cscale_div. exact (Rmul_assoc C_ring _ _ _).
Qed.
Print Assumptions C32_fourier_space3_mixed_derivative_in_stretched_coordinates.

(** The hypotheses are met by Fourier (6) x Dirichlet (7) x Dirichlet (7), and by
    Chebyshev (9) x Dirichlet (7) x Dirichlet (7), with non-constant arrays. *)
Example C32_space3_hyps_met : exists f c b, r2c_new 6 = Ok f /\ new_chebyshev (A := R) 9 = Ok c /\ new_composite KDirichlet 7 = Ok b /\
  usable_r2r c /\ usable_r2r b /\
  (forall d, total_gradient (r2r_ops (T := R) c) d /\ total_gradient (r2r_ops (T := R) b) d /\ total_gradient (r2r_ops (T := CR) b) d) /\
  proper (s3_shape_spectral (mk_space3 (r2r_ops (T := R) c) (r2r_ops (T := R) b) (r2r_ops (T := R) b))) (ramp [9; 5; 5]%nat).
Proof.
  destruct C31_hyps_met as (f & c & b & Hf & Hc & Hb & Uc & Ub & D & _). exists f, c, b. do 5 (split; [assumption|]). split.
  - intros d. destruct (D d) as (_ & ? & _ & ? & ?). auto.
  - assert (Sc : len_spec (r2r_ops (T := R) c) = 9%nat) by (apply new_chebyshev_inv in Hc as [_ ->]; reflexivity).
    assert (Sb : len_spec (r2r_ops (T := R) b) = 5%nat).
    { apply new_composite_inv in Hb as (k & Hk & ->). apply (len_spec_eq KDirichlet 7 k Hk). }
    unfold s3_shape_spectral. cbn [s3_base0 s3_base1 s3_base2]. rewrite Sb, Sc. apply (ramp_proper [9; 5; 5]%nat).
Qed.
