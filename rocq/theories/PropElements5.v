(** C52, continued: derivatives at the grid points, interpolation by forward. *)
From Coq Require Import List Arith Lia Bool ZArith Reals Lra Permutation Ring.
From Verif Require Import Base Num Linalg LinalgSpec Stencils StencilProofs StencilProofs2 Cheb Compo
  ChebPoly ChebGrad ChebMat ChebDct ChebFacts CompoProofs CompoFacts CompoFacts2 CompoFacts3
  Fourier FourierFacts FourierProofs FourierOps FourierSpec PropCheb PropCompo PropFourier NdArray NdArrayFacts AxisFacts Bases BaseLin LibBase AxisProps
  PropAxis SpaceFacts SpaceBases SpaceStages Space MatOp SpaceOrder PropSpace PropSpace2 SpaceDeriv PropSpace4 Elements ElemFacts PropElements PropElements2 PropElements3 PropElements4.
Import ListNotations.
Local Open Scope R_scope.

Lemma map_seq_at {A} {d : Dflt A} (f : nat -> A) n i : (i < n)%nat -> (map f (seq 0 n)).[i] = f i.
Proof.
  intros H. unfold at_. rewrite (nth_indep _ dflt (f 0%nat)) by (rewrite map_length, seq_length; auto).
  rewrite map_nth, seq_nth by auto. reflexivity.
Qed.

Lemma proper_divided_R q sh (r : arr R) : proper sh r -> proper sh (divided_R q r).
Proof. intros [A B]. split; auto. revert B. unfold divided_R, wf. cbn [shp std dat]. rewrite ?map_length. auto. Qed.
Lemma proper_divided_C q sh (r : arr CR) : proper sh r -> proper sh (divided_C q r).
Proof. intros [A B]. split; auto. revert B. unfold divided_C, wf. cbn [shp std dat]. rewrite ?map_length. auto. Qed.

(** The Chebyshev x Chebyshev space evaluates the plain product series. *)
Lemma cheb2_backward bm n0 n1 c0 c1 zo : new_chebyshev (A := R) n0 = Ok c0 -> new_chebyshev (A := R) n1 = Ok c1 -> zip_ok zo ->
  let sp := mk_space2 (r2r_ops (T := R) c0) (r2r_ops (T := R) c1) in
  exists xs ys, s2_coords (r2r_elems bm c0) (r2r_elems bm c1) = Ok [xs; ys] /\ is_grid Chebyshev n0 xs /\ is_grid Chebyshev n1 ys /\
  forall a, proper [n0; n1] a -> exists v, s2_backward zo sp a = Ok v /\ proper [n0; n1] v /\
    forall i j, (i < n0)%nat -> (j < n1)%nat -> get v [i; j] = cheb_field a xs.[i] ys.[j].
Proof.
  intros H0 H1 Hz sp.
  destruct (C52_space2_backward_evaluates _ _ _ _ _ _ _ _ _ _ _ _ _ _ _ _ _ _ _
    (fn_chebyshev bm R vec_self vecR_R n0 c0 H0) I (fn_chebyshev bm R vec_self vecR_R n1 c1 H1) I dflt_num dflt_num dflt_num dflt_num zo Hz)
    as (xs & ys & E & G0 & G1 & V). exists xs, ys. split; auto. split; auto. split; auto. intros a Ha.
  destruct (new_chebyshev_inv _ _ H0) as [L0 ->]. destruct (new_chebyshev_inv _ _ H1) as [L1 ->].
  destruct (V a Ha) as (v & Ev & Pv & Vv). exists v. split; auto. split; auto. intros i j Hi Hj. rewrite Vv by auto.
  unfold cheb_field. rewrite (proj1 Ha). cbn [axlen nth]. rewrite rsum_swap.
  cbn [r2r_ops len_spec cheb_len_spec c_m]. apply rsum_ext. intros l Hl. rewrite map_seq_at by auto. rewrite <- rsum_scal_r. apply rsum_ext. intros k Hk.
  rewrite map_seq_at by auto. ring.
Qed.

(** ** Differentiate, then evaluate on the grid
    a: coefficients in any real space (with stretching s0, s1); the array that
    gradient returns, taken back by the orthogonal Chebyshev space of the same
    sizes, holds at [i, j] the mixed derivative d^d0/dX^d0 d^d1/dY^d1 of the
    represented function F(X, Y) = f(X/s0, Y/s1) at X = s0 x_i, Y = s1 y_j. *)
Theorem C52_space2_derivatives_on_the_grid : forall bm b0 b1 c0 c1 zo, usable_r2r b0 -> usable_r2r b1 -> zip_ok zo ->
  new_chebyshev (len_orth (r2r_ops (T := R) b0)) = Ok c0 -> new_chebyshev (len_orth (r2r_ops (T := R) b1)) = Ok c1 ->
  let sp := mk_space2 (r2r_ops (T := R) b0) (r2r_ops (T := R) b1) in
  let so := mk_space2 (r2r_ops (T := R) c0) (r2r_ops (T := R) c1) in
  forall d0 d1 s0 s1, (Z.of_nat d0 < 2147483648)%Z -> (Z.of_nat d1 < 2147483648)%Z -> s0 <> 0 -> s1 <> 0 ->
  total_gradient (r2r_ops (T := R) b0) d0 -> total_gradient (r2r_ops (T := R) b1) d1 ->
  forall a, proper (s2_shape_spectral sp) a ->
  exists xs ys u r v (Fx Fxy : R -> R -> R),
    s2_coords (r2r_elems bm c0) (r2r_elems bm c1) = Ok [xs; ys] /\
    s2_to_ortho zo sp a = Ok u /\ s2_gradient zo sp a d0 d1 (Some (s0, s1)) = Ok r /\ s2_backward zo so r = Ok v /\
    (forall Y, nth_deriv d0 (fun X => cheb_field u (X / s0) (Y / s1)) (fun X => Fx X Y)) /\
    (forall X, nth_deriv d1 (fun Y => Fx X Y) (fun Y => Fxy X Y)) /\
    forall i j, (i < len_orth (r2r_ops (T := R) b0))%nat -> (j < len_orth (r2r_ops (T := R) b1))%nat ->
      get v [i; j] = Fxy (s0 * xs.[i]) (s1 * ys.[j]).
Proof.
  intros bm b0 b1 c0 c1 zo U0 U1 Hz H0 H1 sp so d0 d1 s0 s1 Hd0 Hd1 Hs0 Hs1 T0 T1 a Ha.
  destruct (C32_space2_mixed_derivative_in_stretched_coordinates b0 b1 zo U0 U1 Hz d0 d1 s0 s1 Hd0 Hd1 Hs0 Hs1 T0 T1 a Ha) as (u & r & Eu & Er & H & K0 & K1).
  pose proof (usable_r2r_base R vec_self _ b0 U0) as UB0. pose proof (usable_r2r_base R vec_self _ b1 U1) as UB1.
  destruct (C31_space2_gradient_applies_each_base_along_its_axis _ _ _ _ _ _ _ _ _ _ UB0 UB1 _ _ _ _ R _ _ zo Hz d0 d1 T0 T1 a Ha) as (p & r' & Er' & Pr & _).
  destruct (C32_scaled_gradient_is_divided_by_the_product_of_powers d0 d1 0 s0 s1 1 zo Hd0 Hd1 ltac:(lia) Hs0 Hs1 R1_neq_R0) as (_ & _ & K & _).
  pose proof Er as Er2. rewrite K in Er2. unfold sp in Er2. rewrite Er' in Er2. cbn [bind] in Er2.
  assert (Pr2 : proper [len_orth (r2r_ops (T := R) b0); len_orth (r2r_ops (T := R) b1)] r) by (injection Er2 as <-; apply proper_divided_R; exact Pr).
  destruct (cheb2_backward bm _ _ _ _ zo H0 H1 Hz) as (xs & ys & E & _ & _ & V). destruct (V r Pr2) as (v & Ev & _ & Vv).
  exists xs, ys, u, r, v, H, (fun X Y => cheb_field r (X / s0) (Y / s1)).
  split; auto. split; auto. split; auto. split; auto. split; auto. split; auto.
  intros i j Hi Hj. rewrite Vv by auto. f_equal; field; auto.
Qed.
Print Assumptions C52_space2_derivatives_on_the_grid.

(** ** forward interpolates
    For bases whose transform is invertible on grid values (Chebyshev, both
    Fourier bases), the function with coefficients forward(v) takes the values
    v[i, j] at the grid points. *)
Lemma ortho_roundtrip bm k n P S T VP VS VT b e f : made_fn bm k n P S T VP VS VT b e f -> (forall q, k <> ChebComposite q) -> physical_roundtrip b.
Proof.
  intros F0 K0.
  destruct C29_one_dimensional_roundtrips as (R1 & _ & R3 & R4). destruct F0 as [T' V' L n' b' H|T' V' L k' n' b' M m H HM HD|n' f H|n' f H].
  - eapply R1; eauto. - exfalso; eapply K0; eauto. - eapply R3; eauto. - eapply R4; eauto.
Qed.

Theorem C52_space1_forward_interpolates : forall bm k0 n0 P S T VP VS VT b0 e0 f0, made_fn bm k0 n0 P S T VP VS VT b0 e0 f0 -> ctor_usable k0 n0 ->
  (forall k, k0 <> ChebComposite k) ->
  forall (dP : Dflt P) (dS : Dflt S) (dT : Dflt T) zo, zip_ok zo -> let sp := mk_space1 b0 in
  forall v, proper (s1_shape_physical sp) v -> exists xs a, s1_coords e0 = Ok [xs] /\ is_grid k0 n0 xs /\
    s1_forward zo sp v = Ok a /\ proper (s1_shape_spectral sp) a /\
    forall i, (i < n0)%nat -> f0 (map (fun k => get a [k]) (seq 0 (len_spec b0))) xs.[i] = get v [i].
Proof.
  intros bm k0 n0 P S T VP VS VT b0 e0 f0 F0 C0 K0 dP dS dT zo Hz sp v Hv.
  pose proof (made_usable _ _ _ _ _ _ _ _ _ _ _ (made_fn_made _ _ _ _ _ _ _ _ _ _ _ _ F0) C0) as U0.
  destruct (C52_space1_backward_evaluates _ _ _ _ _ _ _ _ _ _ _ _ F0 C0 dP dS dT zo Hz) as (xs & Ex & Gx & V).
  destruct (C29_space1_applies_each_base_along_its_axis _ _ _ _ _ _ _ U0 dP dS dT zo Hz) as (TF & _).
  destruct (TF v (azeros dflt (s1_shape_spectral sp)) Hv (proper_zeros _ _)) as (a & _ & Ea & Pa & _).
  exists xs, a. split; auto. split; auto. split; auto. split; auto. intros i Hi. destruct (V a Pa) as (v' & Ev & _ & Vv).
  assert (PR : physical_roundtrip b0).
  { destruct C29_one_dimensional_roundtrips as (R1 & _ & R3 & R4). destruct F0 as [T' V' L n' b' H|T' V' L k' n' b' M m H HM HD|n' f H|n' f H].
    - eapply R1; eauto. - exfalso; eapply K0; eauto. - eapply R3; eauto. - eapply R4; eauto. }
  pose proof (C29_space1_physical_roundtrip _ _ _ _ _ _ _ U0 dP dS dT zo Hz PR v Hv) as RT. unfold sp in *. rewrite Ea in RT. cbn [bind] in RT.
  rewrite <- Vv by auto. congruence.
Qed.
Print Assumptions C52_space1_forward_interpolates.

Theorem C52_space2_forward_interpolates : forall bm k0 n0 k1 n1 P I S T VP VI VS VT b0 e0 f0 b1 e1 f1,
  made_fn bm k0 n0 I S T VI VS VT b0 e0 f0 -> ctor_usable k0 n0 -> made_fn bm k1 n1 P I T VP VI VT b1 e1 f1 -> ctor_usable k1 n1 ->
  (forall k, k0 <> ChebComposite k) -> (forall k, k1 <> ChebComposite k) ->
  forall (dP : Dflt P) (dI : Dflt I) (dS : Dflt S) (dT : Dflt T) zo, zip_ok zo -> let sp := mk_space2 b0 b1 in
  forall v, proper (s2_shape_physical sp) v -> exists xs ys a, s2_coords e0 e1 = Ok [xs; ys] /\ is_grid k0 n0 xs /\ is_grid k1 n1 ys /\
    s2_forward zo sp v = Ok a /\ proper (s2_shape_spectral sp) a /\
    forall i j, (i < n0)%nat -> (j < n1)%nat ->
      f1 (map (fun l => f0 (map (fun k => get a [k; l]) (seq 0 (len_spec b0))) xs.[i]) (seq 0 (len_spec b1))) ys.[j] = get v [i; j].
Proof.
  intros bm k0 n0 k1 n1 P I S T VP VI VS VT b0 e0 f0 b1 e1 f1 F0 C0 F1 C1 K0 K1 dP dI dS dT zo Hz sp v Hv.
  pose proof (made_usable _ _ _ _ _ _ _ _ _ _ _ (made_fn_made _ _ _ _ _ _ _ _ _ _ _ _ F0) C0) as U0.
  pose proof (made_usable _ _ _ _ _ _ _ _ _ _ _ (made_fn_made _ _ _ _ _ _ _ _ _ _ _ _ F1) C1) as U1.
  destruct (C52_space2_backward_evaluates _ _ _ _ _ _ _ _ _ _ _ _ _ _ _ _ _ _ _ F0 C0 F1 C1 dP dI dS dT zo Hz) as (xs & ys & Ex & Gx & Gy & V).
  destruct (C29_space2_applies_each_base_along_its_axis _ _ _ _ _ _ _ _ _ _ U0 U1 dP dI dS dT zo Hz) as (TF & _).
  destruct (TF v (azeros dflt (s2_shape_spectral sp)) Hv (proper_zeros _ _)) as (m & a & _ & Ea & Pa & _).
  exists xs, ys, a. split; auto. split; auto. split; auto. split; auto. split; auto. intros i j Hi Hj. destruct (V a Pa) as (v' & Ev & _ & Vv).
  assert (PR : forall k n P S T VP VS VT b e f, made_fn bm k n P S T VP VS VT b e f -> (forall q, k <> ChebComposite q) -> physical_roundtrip b).
  { clear. intros k n P S T VP VS VT b e f F0 K0.
    destruct C29_one_dimensional_roundtrips as (R1 & _ & R3 & R4). destruct F0 as [T' V' L n' b' H|T' V' L k' n' b' M m H HM HD|n' f H|n' f H].
    - eapply R1; eauto. - exfalso; eapply K0; eauto. - eapply R3; eauto. - eapply R4; eauto. }
  pose proof (C29_space2_physical_roundtrip _ _ _ _ _ _ _ _ _ _ U0 U1 dP dI dS dT zo Hz
    (PR _ _ _ _ _ _ _ _ _ _ _ F0 K0) (PR _ _ _ _ _ _ _ _ _ _ _ F1 K1) v Hv) as RT. unfold sp in *. rewrite Ea in RT. cbn [bind] in RT.
  rewrite <- Vv by auto. congruence.
Qed.
Print Assumptions C52_space2_forward_interpolates.

Theorem C52_space3_forward_interpolates : forall bm k0 n0 k1 n1 k2 n2 P I J S T VP VI VJ VS VT b0 e0 f0 b1 e1 f1 b2 e2 f2,
  made_fn bm k0 n0 J S T VJ VS VT b0 e0 f0 -> ctor_usable k0 n0 -> made_fn bm k1 n1 I J T VI VJ VT b1 e1 f1 -> ctor_usable k1 n1 ->
  made_fn bm k2 n2 P I T VP VI VT b2 e2 f2 -> ctor_usable k2 n2 ->
  (forall k, k0 <> ChebComposite k) -> (forall k, k1 <> ChebComposite k) -> (forall k, k2 <> ChebComposite k) ->
  forall (dP : Dflt P) (dI : Dflt I) (dJ : Dflt J) (dS : Dflt S) (dT : Dflt T) zo, zip_ok zo -> let sp := mk_space3 b0 b1 b2 in
  forall v, proper (s3_shape_physical sp) v -> exists xs ys zs a, s3_coords e0 e1 e2 = Ok [xs; ys; zs] /\
    is_grid k0 n0 xs /\ is_grid k1 n1 ys /\ is_grid k2 n2 zs /\
    s3_forward zo sp v = Ok a /\ proper (s3_shape_spectral sp) a /\
    forall i j h, (i < n0)%nat -> (j < n1)%nat -> (h < n2)%nat ->
      f2 (map (fun q => f1 (map (fun l => f0 (map (fun k => get a [k; l; q]) (seq 0 (len_spec b0))) xs.[i]) (seq 0 (len_spec b1))) ys.[j])
             (seq 0 (len_spec b2))) zs.[h] = get v [i; j; h].
Proof.
  intros bm k0 n0 k1 n1 k2 n2 P I J S T VP VI VJ VS VT b0 e0 f0 b1 e1 f1 b2 e2 f2 F0 C0 F1 C1 F2 C2 K0 K1 K2 dP dI dJ dS dT zo Hz sp v Hv.
  pose proof (made_usable _ _ _ _ _ _ _ _ _ _ _ (made_fn_made _ _ _ _ _ _ _ _ _ _ _ _ F0) C0) as U0.
  pose proof (made_usable _ _ _ _ _ _ _ _ _ _ _ (made_fn_made _ _ _ _ _ _ _ _ _ _ _ _ F1) C1) as U1.
  pose proof (made_usable _ _ _ _ _ _ _ _ _ _ _ (made_fn_made _ _ _ _ _ _ _ _ _ _ _ _ F2) C2) as U2.
  destruct (C52_space3_backward_evaluates _ _ _ _ _ _ _ _ _ _ _ _ _ _ _ _ _ _ _ _ _ _ _ _ _ _ F0 C0 F1 C1 F2 C2 dP dI dJ dS dT zo Hz) as (xs & ys & zs & Ex & Gx & Gy & Gz & V).
  destruct (C30_space3_applies_each_base_along_its_axis _ _ _ _ _ _ _ _ _ _ _ _ _ U0 U1 U2 dP dI dJ dS dT zo Hz) as (TF & _).
  destruct (TF v (azeros dflt (s3_shape_spectral sp)) Hv (proper_zeros _ _)) as (m & m' & a & _ & Ea & Pa & _).
  exists xs, ys, zs, a. split; auto. split; auto. split; auto. split; auto. split; auto. split; auto. intros i j h Hi Hj Hh. destruct (V a Pa) as (v' & Ev & _ & Vv).
  pose proof (C30_space3_physical_roundtrip _ _ _ _ _ _ _ _ _ _ _ _ _ U0 U1 U2 dP dI dJ dS dT zo Hz
    (ortho_roundtrip _ _ _ _ _ _ _ _ _ _ _ _ F0 K0) (ortho_roundtrip _ _ _ _ _ _ _ _ _ _ _ _ F1 K1) (ortho_roundtrip _ _ _ _ _ _ _ _ _ _ _ _ F2 K2) v Hv) as RT.
  unfold sp in *. rewrite Ea in RT. cbn [bind] in RT. rewrite <- Vv by auto. congruence.
Qed.
Print Assumptions C52_space3_forward_interpolates.

(** ** The same for Fourier x (Chebyshev family)
    weights of the real interpolant: 1/n for the mean and the Nyquist mode, 2/n otherwise *)
Definition r2c_weight (n k : nat) : CR := ((if (k =? 0)%nat || (2 * k =? n)%nat then 1 else 2) / INR n, 0).

Lemma r2c_cheb_backward bm n n1 f c1 zo : r2c_new n = Ok f -> new_chebyshev (A := R) n1 = Ok c1 -> zip_ok zo ->
  let sp := mk_space2 (r2c_ops (A := R) f) (r2r_ops (T := CR) c1) in
  exists xs ys, s2_coords (r2c_elems f) (r2r_elems bm c1) = Ok [xs; ys] /\ is_grid FourierR2c n xs /\ is_grid Chebyshev n1 ys /\
  forall a, proper [(n / 2 + 1)%nat; n1] a -> exists v, s2_backward zo sp a = Ok v /\ proper [n; n1] v /\
    forall i j, (i < n)%nat -> (j < n1)%nat -> get v [i; j] = fst (fourier_cheb_field (r2c_weight n) a xs.[i] ys.[j]).
Proof.
  intros H0 H1 Hz sp.
  destruct (C52_space2_backward_evaluates _ _ _ _ _ _ _ _ _ _ _ _ _ _ _ _ _ _ _
    (fn_fourier_r2c bm n f H0) I (fn_chebyshev bm CR vec_cplx vecR_C n1 c1 H1) I dflt_num dflt_num dflt_vec dflt_vec zo Hz)
    as (xs & ys & E & G0 & G1 & V). exists xs, ys. split; auto. split; auto. split; auto. intros a Ha.
  pose proof H0 as H0'. apply r2c_new_inv in H0' as [L0 Ef]. destruct (new_chebyshev_inv _ _ H1) as [L1 Ec]. 
  assert (Es : len_spec (r2c_ops (A := R) f) = (n / 2 + 1)%nat) by (rewrite Ef; reflexivity).
  assert (Es1 : len_spec (r2r_ops (T := CR) c1) = n1) by (rewrite Ec; reflexivity).
  assert (Ep : len_phys (r2c_ops (A := R) f) = n) by (rewrite Ef; reflexivity).
  assert (Ep1 : len_phys (r2r_ops (T := CR) c1) = n1) by (rewrite Ec; reflexivity).
  destruct (V a ltac:(unfold s2_shape_spectral; cbn [s2_base0 s2_base1]; rewrite Es, Es1; exact Ha)) as (v & Ev & Pv & Vv). exists v. split; auto. split.
  { revert Pv. unfold s2_shape_physical; cbn [s2_base0 s2_base1]. rewrite Ep, Ep1. auto. }
  intros i j Hi Hj. rewrite Vv by auto. rewrite Es, Es1.
  unfold fourier_cheb_field, csum. cbn [fst]. rewrite (proj1 Ha). cbn [axlen nth]. rewrite rsum_swap.
  apply rsum_ext. intros l Hl. rewrite map_seq_at by auto. unfold rinterp.
  unfold Rdiv at 1. rewrite <- !rsum_scal_r. apply rsum_ext. intros k Hk.
  idtac; rewrite map_seq_at by auto.
  generalize (get a [k; l]). intros [p q]. unfold r2c_weight, cis, cmul. cbn. unfold Rdiv. ring.
Qed.

Theorem C52_fourier_space2_derivatives_on_the_grid : forall bm n f b1 c1 zo, r2c_new n = Ok f -> usable_r2r b1 -> zip_ok zo ->
  new_chebyshev (len_orth (r2r_ops (T := CR) b1)) = Ok c1 ->
  let sp := mk_space2 (r2c_ops (A := R) f) (r2r_ops (T := CR) b1) in
  let so := mk_space2 (r2c_ops (A := R) f) (r2r_ops (T := CR) c1) in
  forall d0 d1 s0 s1, (Z.of_nat d0 < 2147483648)%Z -> (Z.of_nat d1 < 2147483648)%Z -> s0 <> 0 -> s1 <> 0 ->
  total_gradient (r2r_ops (T := CR) b1) d1 ->
  forall a, proper (s2_shape_spectral sp) a ->
  exists xs ys u r v (Fx Fxy : R -> R -> CR),
    s2_coords (r2c_elems f) (r2r_elems bm c1) = Ok [xs; ys] /\
    s2_to_ortho zo sp a = Ok u /\ s2_gradient zo sp a d0 d1 (Some (s0, s1)) = Ok r /\ s2_backward zo so r = Ok v /\
    (forall Y, cderiv d0 (fun X => fourier_cheb_field (r2c_weight n) u (X / s0) (Y / s1)) (fun X => Fx X Y)) /\
    (forall X, cderiv d1 (fun Y => Fx X Y) (fun Y => Fxy X Y)) /\
    forall i j, (i < n)%nat -> (j < len_orth (r2r_ops (T := CR) b1))%nat ->
      get v [i; j] = fst (Fxy (s0 * xs.[i]) (s1 * ys.[j])).
Proof.
  intros bm n f b1 c1 zo H0 U1 Hz H1 sp so d0 d1 s0 s1 Hd0 Hd1 Hs0 Hs1 T1 a Ha.
  destruct (C32_fourier_space2_mixed_derivative_in_stretched_coordinates n f b1 zo (r2c_weight n) H0 U1 Hz d0 d1 s0 s1 Hd0 Hd1 Hs0 Hs1 T1 a Ha) as (u & r & Eu & Er & H & K0 & K1).
  pose proof (proj1 (proj2 (proj2 C31_defined_derivatives)) n f d0 H0) as T0.
  pose proof (adm_r2c_r2r n f b1 H0 U1) as Adm. destruct (admissible2_usable _ _ _ _ _ _ _ _ _ _ Adm) as [UB0 UB1].
  destruct (C31_space2_gradient_applies_each_base_along_its_axis _ _ _ _ _ _ _ _ _ _ UB0 UB1 _ _ _ _ R _ _ zo Hz d0 d1 T0 T1 a Ha) as (p & r' & Er' & Pr & _).
  destruct (C32_scaled_gradient_is_divided_by_the_product_of_powers d0 d1 0 s0 s1 1 zo Hd0 Hd1 ltac:(lia) Hs0 Hs1 R1_neq_R0) as (_ & _ & _ & K & _).
  pose proof Er as Er2. rewrite K in Er2. unfold sp in Er2. rewrite Er' in Er2. cbn [bind] in Er2.
  assert (Es : len_orth (r2c_ops (A := R) f) = (n / 2 + 1)%nat) by (pose proof H0 as H0'; apply r2c_new_inv in H0' as [L0 Ef]; rewrite Ef; reflexivity).
  assert (Pr2 : proper [(n / 2 + 1)%nat; len_orth (r2r_ops (T := CR) b1)] r).
  { injection Er2 as <-; apply proper_divided_C. revert Pr. unfold s2_shape_spectral_ortho; cbn [s2_base0 s2_base1]. rewrite Es. auto. }
  destruct (r2c_cheb_backward bm _ _ _ _ zo H0 H1 Hz) as (xs & ys & E & _ & _ & V). destruct (V r Pr2) as (v & Ev & _ & Vv).
  exists xs, ys, u, r, v, H, (fun X Y => fourier_cheb_field (r2c_weight n) r (X / s0) (Y / s1)).
  split; auto. split; auto. split; auto. split; auto. split; auto. split; auto.
  intros i j Hi Hj. rewrite Vv by auto. do 2 f_equal; field; auto.
Qed.
Print Assumptions C52_fourier_space2_derivatives_on_the_grid.

(** ** The hypotheses of C49-C52 are met: Fourier (6) x Dirichlet (7), complex
    intermediate; Chebyshev (9) x Dirichlet (7), real. *)
Example C52_hyps_met : exists bm f c b e ef, r2c_new 6 = Ok f /\ new_chebyshev (A := R) 9 = Ok c /\ new_composite KDirichlet 7 = Ok b /\
  elems_new bm FourierR2c 6 = Ok ef /\ elems_new bm (ChebComposite KDirichlet) 7 = Ok e /\
  (exists f0 f1, made_fn bm FourierR2c 6 R (cplx R) (cplx R) vec_self vec_cplx vec_cplx (r2c_ops f) ef f0 /\
     made_fn bm (ChebComposite KDirichlet) 7 R R (cplx R) vec_self vec_self vec_cplx (r2r_ops b) e f1) /\
  (exists f0 f1, made_fn bm Chebyshev 9 R R R vec_self vec_self vec_self (r2r_ops c) (r2r_elems bm c) f0 /\
     made_fn bm (ChebComposite KDirichlet) 7 R R R vec_self vec_self vec_self (r2r_ops b) e f1) /\
  ctor_usable (ChebComposite KDirichlet) 7 /\ lap_size (ChebComposite KDirichlet) 7 /\ lap_size FourierR2c 6 /\
  usable_r2r c /\ usable_r2r b /\ (exists c0 c1, new_chebyshev (A := R) (len_orth (r2r_ops (T := R) c)) = Ok c0 /\ new_chebyshev (A := R) (len_orth (r2r_ops (T := R) b)) = Ok c1) /\
  (forall d, total_gradient (r2r_ops (T := R) c) d /\ total_gradient (r2r_ops (T := R) b) d /\ total_gradient (r2r_ops (T := CR) b) d) /\
  proper (s2_shape_spectral (mk_space2 (r2r_ops (T := R) c) (r2r_ops (T := R) b))) (ramp [9; 5]%nat).
Proof.
  destruct C31_hyps_met as (f & c & b & Hf & Hc & Hb & Uc & Ub & D & _ & P).
  exists Debug, f, c, b, (r2r_elems Debug b), (r2c_elems f).
  do 3 (split; [assumption|]). split; [cbn [elems_new]; rewrite Hf; reflexivity|]. split; [cbn [elems_new]; rewrite Hb; reflexivity|].
  split; [|split].
  1,2: edestruct C52_every_base_represents_functions as [g Hg]; [|edestruct C52_every_base_represents_functions as [h Hh]; [|exists h, g; split; [exact Hh|exact Hg]]].
  - apply made_composite; auto. typeclasses eauto.
  - apply made_fourier_r2c; auto.
  - apply made_composite; auto. typeclasses eauto.
  - apply made_chebyshev; auto. typeclasses eauto.
  - split; [cbn; split; auto; lia|]. split; [cbn; lia|]. split; [cbn; auto; lia|]. split; auto. split; auto. split; [|split; auto].
    + apply new_chebyshev_inv in Hc as [_ ->]. apply new_composite_inv in Hb as (k & Hk & ->). destruct (new_ortho _ _ _ Hk) as (_ & El & _).
      change (len_orth (r2r_ops (T := R) (BChebyshevComposite k))) with (compo_len_orth k). rewrite El. eexists; eexists; split; reflexivity.
    + intros d. destruct (D d) as (_ & ? & _ & ? & ?). auto.
Qed.
