(** C51: the Laplacian matrices of the bases and of the axes of a space, and
    their pseudo-inverses. *)
From Coq Require Import List Arith Lia Bool ZArith Reals Lra Permutation Ring.
From Verif Require Import Base Num Linalg LinalgSpec Stencils StencilProofs StencilProofs2 Cheb Compo
  ChebPoly ChebGrad ChebMat ChebDct ChebFacts CompoProofs CompoFacts CompoFacts2 CompoFacts3
  Fourier FourierFacts FourierProofs FourierOps FourierSpec PropCheb PropCompo PropFourier NdArray NdArrayFacts AxisFacts Bases BaseLin LibBase AxisProps
  PropAxis SpaceFacts SpaceBases SpaceStages Space MatOp SpaceOrder PropSpace PropSpace4 Elements ElemFacts PropElements.
Import ListNotations.
Local Open Scope R_scope.

(** Number of orthogonal coefficients of the base; of the wavenumbers/degrees
    that the second derivative kills; the sizes for which the second-derivative
    matrix is computed without overflow (C07). *)
Definition n_coeffs (k : ctor) (n : nat) : nat := match k with FourierR2c => n / 2 + 1 | _ => n end.
Definition n_killed (k : ctor) : nat := match k with Chebyshev | ChebComposite _ => 2 | _ => 1 end.
Definition lap_size (k : ctor) (n : nat) : Prop :=
  match k with Chebyshev | ChebComposite _ => (3 <= n)%nat /\ (Z.of_nat n <= 2642245)%Z | _ => True end.
Definition frequency (k : ctor) (n : nat) : nat -> R := match k with FourierC2c => freq n | _ => INR end.

(** ** C51: laplacian() @ u are the coefficients of the second derivative *)
Lemma new_cheb_ok n : (2 <= n)%nat -> cheb_new n = Ok (mk_cheb n n).
Proof. intros. unfold cheb_new. destruct (Nat.leb_spec 2 n); [reflexivity|lia]. Qed.
Lemma cheb_lap_l bm n : (3 <= n)%nat -> (Z.of_nat n <= 2642245)%Z ->
  wp (cheb_laplacian (A := R) bm (mk_cheb n n)) (fun Lm => mat_dims Lm n n /\
    forall T (V : Vec R T) (L : VecR T) (u o : list T), length u = n -> length o = n ->
      exists w, cheb_gradient (mk_cheb n n) u o 2 = Ok w /\ mat_mul Lm n n u w /\ forall p, nth_deriv 2 (peval u p) (peval w p)).
Proof.
  intros Hn Hb. pose proof (new_cheb_ok n ltac:(lia)) as Hc.
  pose proof (C06_cheb_laplacian_is_second_derivative R _ _ bm n _ (repeat 0 n) (repeat 0 n) Hc Hn Hb (repeat_length _ _) (repeat_length _ _)) as W.
  apply wp_Ok in W as (Lm & EL & DL & _). rewrite EL. cbn [wp]. split; auto. intros T V L u o Hu Ho.
  pose proof (C06_cheb_laplacian_is_second_derivative T _ _ bm n _ u o Hc Hn Hb Hu Ho) as W. rewrite EL in W. cbn [wp] in W.
  destruct W as (_ & W). apply wp_Ok in W as (w & Ew & Lw & Hw).
  exists w. split; auto. split; [split; auto|]. intros p.
  pose proof (C05_cheb_gradient_is_derivative T _ _ n _ u o 2 Hc Hn Hu Ho) as G. rewrite Ew in G. apply G.
Qed.

Theorem C51_chebyshev_laplacian : forall bm k n (e : elems R), elems_new bm k n = Ok e -> transform_of k = TkR2r -> lap_size k n ->
  wp (e_laplacian e) (fun Lm => mat_dims Lm n n /\
    forall T (V : Vec R T) (L : VecR T) (u w : list T), length u = n -> mat_mul Lm n n u w -> forall p, nth_deriv 2 (peval u p) (peval w p)).
Proof.
  intros bm k n e H Ht Hs.
  assert (G : (3 <= n)%nat -> (Z.of_nat n <= 2642245)%Z -> wp (cheb_laplacian (A := R) bm (mk_cheb n n)) (fun Lm => mat_dims Lm n n /\
    forall T (V : Vec R T) (L : VecR T) (u w : list T), length u = n -> mat_mul Lm n n u w -> forall p, nth_deriv 2 (peval u p) (peval w p))).
  { intros Hn Hb. eapply wp_mono; [apply (cheb_lap_l bm n Hn Hb)|]. intros Lm [D W]. split; auto. intros T V L u w Hu [Lw Hw] p.
    destruct (W T V L u u Hu Hu) as (w' & _ & [Lw' Hw'] & Hd).
    assert (w = w') as ->; auto. apply list_ext. congruence. intros i Hi. rewrite Hw, Hw' by lia. auto. }
  destruct k as [|k| |]; try discriminate; cbn [elems_new lap_size] in *.
  - destruct (new_chebyshev n) as [b| |] eqn:E; try discriminate. injection H as <-. apply new_chebyshev_inv in E as [Hn ->].
    apply G; apply Hs.
  - destruct (new_composite k n) as [b| |] eqn:E; try discriminate. injection H as <-. apply new_composite_inv in E as (c & Hc & ->).
    cbn [r2r_elems e_laplacian]. unfold compo_laplacian, compo_diffmat. destruct (new_ortho k n c Hc) as (Eo & _). rewrite Eo. apply G; apply Hs.
Qed.
Print Assumptions C51_chebyshev_laplacian.

Theorem C51_fourier_laplacian : forall bm k n (e : elems R), elems_new bm k n = Ok e -> transform_of k <> TkR2r ->
  wp (e_laplacian e) (fun Lm => mat_dims Lm (n_coeffs k n) (n_coeffs k n) /\
    forall u w : list CR, length u = n_coeffs k n -> mat_mul Lm (n_coeffs k n) (n_coeffs k n) u w ->
      cderiv 2 (fseries (frequency k n) u) (fseries (frequency k n) w)).
Proof.
  intros bm k n e H Ht.
  assert (G : forall m wr kk, wp wr (fun w => length w = m /\ forall k, (k < m)%nat -> w.[k] = iR (kk k)) ->
    wp (f_laplacian (A := R) m wr) (fun Lm => mat_dims Lm m m /\
      forall u w : list CR, length u = m -> mat_mul Lm m m u w -> cderiv 2 (fseries kk u) (fseries kk w))).
  { intros m wr kk Hw. eapply wp_mono; [apply (f_laplacian_val m wr kk Hw)|]. intros Lm [HL EL]. split; auto.
    intros u w Hu [Lw Ew]. apply fseries_deriv; [congruence|]. rewrite Hu. intros i Hi. rewrite Ew by auto. rewrite vsum_csum.
    rewrite (csum_delta m i); auto.
    - rewrite vmulC, EL by auto. rewrite Nat.eqb_refl. cbn [cpow]. unfold iR, cmul, c1; cbn. f_equal; ring.
    - intros j Hj Hne. rewrite vmulC, EL by auto. destruct (Nat.eqb_spec i j); [congruence|]. unfold cmul, c0; cbn. f_equal; ring. }
  destruct k as [|k| |]; try (exfalso; apply Ht; reflexivity); cbn [elems_new n_coeffs frequency] in *.
  - destruct (r2c_new n) as [f| |] eqn:E; try discriminate. injection H as <-. apply r2c_new_inv in E as [Hn ->].
    apply (G _ _ INR), r2c_wavenumber_val.
  - destruct (c2c_new n) as [f| |] eqn:E; try discriminate. injection H as <-. apply c2c_new_inv in E as [Hn ->].
    apply (G _ _ (freq n)). apply c2c_wavenumber_val; auto.
Qed.
Print Assumptions C51_fourier_laplacian.

(** ** C51: laplacian_pinv() undoes laplacian() on all but the first 2 (1) coefficients *)
Definition laplacian_inverse (p m : nat) (Lm P J : list (list R)) : Prop :=
  mat_dims Lm m m /\ mat_dims P m m /\ mat_dims J (m - p) m /\
  (forall i j, (i < m - p)%nat -> (j < m)%nat -> J.[i].[j] = if (p + i =? j)%nat then 1 else 0) /\
  (forall i j, (i < m - p)%nat -> (j < m)%nat -> rsum m (fun l => P.[p + i].[l] * Lm.[l].[j]) = J.[i].[j]).

Theorem C51_laplacian_pinv : forall bm k n (e : elems R), elems_new bm k n = Ok e -> lap_size k n -> (transform_of k = TkR2r -> (4 <= n)%nat) ->
  wp (e_laplacian e) (fun Lm => wp (e_laplacian_pinv e) (fun PJ =>
    laplacian_inverse (n_killed k) (n_coeffs k n) Lm (fst PJ) (snd PJ))).
Proof.
  intros bm k n e H Hs H4.
  assert (G : (4 <= n)%nat -> (Z.of_nat n <= 2642245)%Z -> wp (cheb_laplacian (A := R) bm (mk_cheb n n)) (fun Lm => wp (cheb_laplacian_pinv bm (mk_cheb n n)) (fun PJ =>
    laplacian_inverse 2 n Lm (fst PJ) (snd PJ)))).
  { intros Hn Hb. pose proof (new_cheb_ok n ltac:(lia)) as Hc.
    assert (Hd : (Z.of_nat n <= dsafe bm 2)%Z) by (destruct bm; cbn; lia).
    pose proof (C08_cheb_diffmat_pinv bm n _ 2 Hc ltac:(lia) ltac:(lia) Hd) as W.
    pose proof (C06_cheb_diffmat_is_gradient R _ _ bm n _ (repeat 0 n) (repeat 0 n) 2 Hc ltac:(lia) ltac:(lia) Hd (repeat_length _ _) (repeat_length _ _)) as W'.
    unfold cheb_laplacian, cheb_laplacian_pinv. apply wp_Ok in W as (Lm & EL & W). rewrite EL in *. cbn [wp] in W' |- *.
    apply wp_Ok in W as ([P J] & EP & W). rewrite EP. cbn [wp fst snd]. destruct W as (DP & DJ & _ & HP & HJ).
    split; [apply W'|]. split; auto. }
  assert (F : forall m Lm P J, rpinv m Lm P J -> laplacian_inverse 1 m Lm P J).
  { intros m Lm P J (DP & DL & DJ & EJ & EP & _). split; auto. }
  destruct k as [|k| |]; cbn [elems_new lap_size n_coeffs n_killed transform_of] in *.
  - destruct (new_chebyshev n) as [b| |] eqn:E; try discriminate. injection H as <-. apply new_chebyshev_inv in E as [Hn ->].
    apply G; [apply H4; auto|apply Hs].
  - destruct (new_composite k n) as [b| |] eqn:E; try discriminate. injection H as <-. apply new_composite_inv in E as (c & Hc & ->).
    cbn [r2r_elems e_laplacian e_laplacian_pinv]. unfold compo_laplacian, compo_diffmat, compo_laplacian_pinv, compo_diffmat_pinv.
    destruct (new_ortho k n c Hc) as (Eo & _). rewrite Eo. apply G; [apply H4; auto|apply Hs].
  - destruct (r2c_new n) as [f| |] eqn:E; try discriminate. injection H as <-.
    eapply wp_mono; [apply (C24_r2c_pinv n f E)|]. intros Lm W. eapply wp_mono; [apply W|]. intros [P J]. apply F.
  - destruct (c2c_new n) as [f| |] eqn:E; try discriminate. injection H as <-.
    eapply wp_mono; [apply (C24_c2c_pinv n f E)|]. intros Lm W. eapply wp_mono; [apply W|]. intros [P J]. apply F.
Qed.
Print Assumptions C51_laplacian_pinv.

(** Solving Laplace's equation: if f = laplacian() @ u, all coefficients of u but
    the first 2 (Chebyshev) or 1 (Fourier) are those of laplacian_pinv() @ f. *)
Theorem C51_pinv_solves : forall bm k n (e : elems R), elems_new bm k n = Ok e -> lap_size k n -> (transform_of k = TkR2r -> (4 <= n)%nat) ->
  wp (e_laplacian e) (fun Lm => wp (e_laplacian_pinv e) (fun PJ =>
    forall T (V : Vec R T) (L : VecR T) (u f v : list T), length u = n_coeffs k n ->
      mat_mul Lm (n_coeffs k n) (n_coeffs k n) u f -> mat_mul (fst PJ) (n_coeffs k n) (n_coeffs k n) f v ->
      forall i, (n_killed k <= i < n_coeffs k n)%nat -> v.[i] = u.[i])).
Proof.
  intros bm k n e H Hs H4. eapply wp_mono; [apply (C51_laplacian_pinv bm k n e H Hs H4)|]. intros Lm W. eapply wp_mono; [apply W|].
  intros [P J] (DL & DP & DJ & EJ & EP) T V L u f v Hu [Lf Ef] [Lv Ev] i Hi. cbn [fst snd] in *.
  set (m := n_coeffs k n) in *. set (p := n_killed k) in *.
  rewrite Ev by lia. apply vext. intros q. rewrite vproj_vsum.
  rewrite (rsum_ext m _ (fun l => rsum m (fun j => P.[p + (i - p)].[l] * Lm.[l].[j] * vproj q u.[j]))).
  2:{ intros l Hl. rewrite vproj_mul, Ef, vproj_vsum by auto. rewrite <- rsum_scal_r. apply rsum_ext. intros j Hj. rewrite vproj_mul.
      replace (p + (i - p))%nat with i by lia. ring. }
  rewrite rsum_swap, (rsum_delta m i); try lia.
  - rewrite rsum_scal_r, EP, EJ by lia. replace (p + (i - p))%nat with i by lia. rewrite Nat.eqb_refl. ring.
  - intros j Hj Hne. rewrite rsum_scal_r, EP, EJ by lia. destruct (Nat.eqb_spec (p + (i - p)) j); [lia|ring].
Qed.
Print Assumptions C51_pinv_solves.

(** ** C51 in a space: laplacian(axis) along the axis of to_ortho(a) is gradient(a, 2 on that axis) *)
Lemma made_grad0 bm k n P S T VP VS VT b e : made bm k n P S T VP VS VT b e -> ctor_usable k n ->
  forall x y, length x = len_spec b -> length y = len_orth b -> gradient_slice b x y 0 = to_ortho_slice b x y.
Proof.
  intros [T' V L n' b' H|T' V L k' n' b' H|n' f H|n' f H] U x y Hx Hy.
  - apply new_chebyshev_inv in H as [Hn ->]. cbn [r2r_ops gradient_slice to_ortho_slice len_spec len_orth cheb_len_spec cheb_len_orth c_m] in *.
    unfold cheb_gradient, cheb_to_ortho. cbn [c_m]. rewrite Hy, Nat.eqb_refl. cbn. rewrite zip_write_full by congruence. reflexivity.
  - apply new_composite_inv in H as (c & Hc & ->). destruct U as [Hb Hs]. destruct (new_ortho k' n' c Hc) as (Eo & El & H4 & Hc').
    cbn [r2r_ops gradient_slice to_ortho_slice len_spec len_orth] in *. rewrite (len_spec_eq k' n' c Hc) in Hx. rewrite El in Hy.
    pose proof (to_ortho_ok k' n' c x y Hc Hb Hx Hy) as W. apply wp_Ok in W as (z & Ez & Lz & Vz). rewrite Ez.
    unfold compo_gradient. rewrite El.
    pose proof (to_ortho_ok k' n' c x (repeat v0 n') Hc Hb Hx (repeat_length _ _)) as W. apply wp_Ok in W as (z' & Ez' & Lz' & Vz'). rewrite Ez'. cbn [bind].
    assert (z' = z) as ->. { apply list_ext; [congruence|]. intros i Hi. rewrite Vz, Vz' by lia. auto. }
    rewrite Eo. unfold cheb_gradient. cbn [c_m]. rewrite Hy, Nat.eqb_refl. cbn. rewrite zip_write_full by congruence. reflexivity.
  - apply r2c_new_inv in H as [Hn ->]. cbn [r2c_ops gradient_slice to_ortho_slice len_spec len_orth r2c_len_spec r2c_len_orth r_m] in *.
    pose proof (r2c_gradient_val n' x y 0 Hx Hy) as W. apply wp_Ok in W as (g & Eg & Lg & Vg). rewrite Eg. unfold f_to_ortho.
    rewrite zip_write_full by congruence. f_equal. apply list_ext; [congruence|]. intros i Hi. rewrite Vg by lia. cbn [cpow]. unfold cmul, c1; cbn.
    destruct x.[i]; cbn. f_equal; ring.
  - apply c2c_new_inv in H as [Hn ->]. cbn [c2c_ops gradient_slice to_ortho_slice len_spec len_orth c2c_len_spec c2c_len_orth cc_m] in *.
    pose proof (c2c_gradient_val n' x y 0 Hn Hx Hy) as W. apply wp_Ok in W as (g & Eg & Lg & Vg). rewrite Eg. unfold f_to_ortho.
    rewrite zip_write_full by congruence. f_equal. apply list_ext; [congruence|]. intros i Hi. rewrite Vg by lia. cbn [cpow]. unfold cmul, c1; cbn.
    destruct x.[i]; cbn. f_equal; ring.
Qed.
Lemma made_lap bm k n P S T VP VS VT b e : made bm k n P S T VP VS VT b e -> ctor_usable k n -> lap_size k n -> k <> FourierC2c ->
  exists Lm, e_laplacian e = Ok Lm /\ mat_dims Lm (len_orth b) (len_orth b) /\
    forall x y z, length x = len_spec b -> length y = len_orth b -> length z = len_orth b ->
      exists w g, to_ortho_slice b x y = Ok w /\ gradient_slice b x z 2 = Ok g /\ length w = len_orth b /\ mat_mul Lm (len_orth b) (len_orth b) w g.
Proof.
  intros [T' V L n' b' H|T' V L k' n' b' H|n' f H|n' f H] U Sz Nc.
  - apply new_chebyshev_inv in H as [Hn ->]. destruct Sz as [H3 Hb].
    pose proof (cheb_lap_l bm n' H3 Hb) as W. apply wp_Ok in W as (Lm & EL & DL & W). exists Lm. split; [exact EL|]. split; [exact DL|].
    intros x y z Hx Hy Hz. cbn [r2r_ops gradient_slice to_ortho_slice len_spec len_orth cheb_len_spec cheb_len_orth c_m] in *.
    destruct (W T' V L x z Hx Hz) as (g & Eg & Mg & _). exists x, g. unfold cheb_to_ortho. rewrite zip_write_full by congruence. auto.
  - apply new_composite_inv in H as (c & Hc & ->). destruct U as [Hbi Hs]. destruct (new_ortho k' n' c Hc) as (Eo & El & H4 & Hc').
    destruct Sz as [H3 Hb]. pose proof (cheb_lap_l bm n' H3 Hb) as W. apply wp_Ok in W as (Lm & EL & DL & W).
    cbn [r2r_ops r2r_elems e_laplacian gradient_slice to_ortho_slice len_spec len_orth]. unfold compo_laplacian, compo_diffmat. rewrite Eo, El.
    exists Lm. split; [exact EL|]. split; [exact DL|]. rewrite (len_spec_eq k' n' c Hc). intros x y z Hx Hy Hz.
    pose proof (to_ortho_ok k' n' c x y Hc Hbi Hx Hy) as W1. apply wp_Ok in W1 as (w & Ew & Lw & Vw). rewrite Ew.
    pose proof (to_ortho_ok k' n' c x (repeat v0 n') Hc Hbi Hx (repeat_length _ _)) as W1. apply wp_Ok in W1 as (w' & Ew' & Lw' & Vw').
    assert (w' = w) as ->. { apply list_ext; [congruence|]. intros i Hi. rewrite Vw, Vw' by lia. auto. }
    destruct (W T' V L w z Lw Hz) as (g & Eg & Mg & _). exists w, g. split; auto. split; auto.
    unfold compo_gradient. rewrite El, Ew'. cbn [bind]. rewrite Eo. exact Eg.
  - pose proof H as H'. apply r2c_new_inv in H' as [Hn ->].
    destruct (C24_laplacian_is_diffmat2 n') as [W _]. specialize (W _ H). apply wp_Ok in W as (Lm & EL & W). apply wp_Ok in W as (D & ED & DL & DD & HD).
    exists Lm. split; [exact EL|]. split; [exact DL|].
    intros x y z Hx Hy Hz. cbn [r2c_ops gradient_slice to_ortho_slice len_spec len_orth r2c_len_spec r2c_len_orth r_m] in *.
    pose proof (C22_r2c_diffmat_is_gradient n' _ x z 2 H Hx Hz ltac:(lia) ltac:(cbn; lia)) as W. rewrite ED in W. cbn [wp] in W. destruct W as (_ & W).
    pose proof (C22_r2c_gradient_is_derivative n' _ x z 2 H Hx Hz) as W'.
    apply wp_Ok in W as (g & Eg & Vg). rewrite Eg in W'. cbn [wp] in W'. destruct W' as (Lg & _).
    exists x, g. unfold f_to_ortho. rewrite zip_write_full by congruence. split; auto. split; auto. split; auto. split; auto.
    intros i Hi. etransitivity; [apply Vg; auto|]. unfold cmatvec. rewrite vsum_csum. apply csum_ext. intros j Hj. rewrite vmulC, HD by auto.
    apply (Rmul_comm C_ring).
  - congruence.
Qed.
Lemma made_total bm k n P S T VP VS VT b e d : made bm k n P S T VP VS VT b e -> ctor_usable k n -> (k = Chebyshev -> (3 <= n)%nat \/ d = 0%nat) -> total_gradient b d.
Proof.
  destruct C31_defined_derivatives as (D1 & D2 & D3 & D4).
  intros [T' V L n' b' H|T' V L k' n' b' H|n' f H|n' f H] U Hd; [eapply D1|eapply D2|eapply D3|eapply D4]; eauto. apply U.
Qed.

(** Space1 and Space2.  (Not for the complex Fourier base, whose gradient loses
    the negative frequencies: C23.) *)
Theorem C51_space1_laplacian_is_gradient : forall bm k0 n0 P S T VP VS VT b0 e0,
  made bm k0 n0 P S T VP VS VT b0 e0 -> ctor_usable k0 n0 -> lap_size k0 n0 -> k0 <> FourierC2c ->
  forall (dP : Dflt P) (dS : Dflt S) (dT : Dflt T) A (N : Num A) (D : DivInto A T) zo, zip_ok zo -> let sp := mk_space1 b0 in
  exists L0, s1_laplacian e0 0 = Ok L0 /\ mat_dims L0 (len_orth b0) (len_orth b0) /\
    forall a, proper (s1_shape_spectral sp) a -> exists u g, s1_to_ortho zo sp a = Ok u /\ s1_gradient zo sp a 2 (None (A := A)) = Ok g /\
      forall i, (i < len_orth b0)%nat -> get g [i] = vsum (len_orth b0) (fun k => vmul (get u [k]) L0.[i].[k]).
Proof.
  intros bm k0 n0 P S T VP VS VT b0 e0 H0 C0 Z0 X0 dP dS dT A N D zo Hz sp.
  destruct (made_lap _ _ _ _ _ _ _ _ _ _ _ H0 C0 Z0 X0) as (L0 & EL & DL & HL). exists L0. split; [exact EL|]. split; auto.
  pose proof (made_usable _ _ _ _ _ _ _ _ _ _ _ H0 C0) as U0. intros a Ha.
  assert (T0 : total_gradient b0 2). { eapply made_total; eauto. intros ->. left. apply Z0. }
  destruct (C29_space1_applies_each_base_along_its_axis P S T VP VS VT b0 U0 dP dS dT zo Hz) as (_ & _ & TO & _).
  destruct (TO a (azeros dflt (s1_shape_spectral_ortho sp)) Ha (proper_zeros _ _)) as (u & _ & E & Pu & A0).
  destruct (C31_space1_gradient P S T VP VS VT b0 U0 dP dS dT A N D zo Hz 2 T0 a Ha) as (g & Eg & Pg & Ag).
  exists u, g. split; [exact E|]. split; [exact Eg|]. intros i Hi.
  pose proof (axis_op_entry2 (to_ortho_slice b0) (fun x y => gradient_slice b0 x y 2) (fun w i => vsum (len_orth b0) (fun k => vmul w.[k] L0.[i].[k]))
    (len_spec b0) (len_orth b0) (len_orth b0) 0 a u g) as K.
  rewrite K; auto.
  - apply vsum_ext. intros k Hk. f_equal. apply (line_upd u (len_orth b0) 0 [i] k); auto. rewrite (proj1 Pu); reflexivity.
  - intros x y z Hx Hy Hz'. destruct (HL x y z Hx Hy Hz') as (w & g' & Ew & Eg' & Lw & Lg & Vg). exists w, g'. split; auto. split; auto. split; auto.
    intros k Hk. rewrite (at_indep dT dflt_vec) by lia. rewrite Vg by auto. apply vsum_ext. intros j Hj. f_equal. apply at_indep. lia.
  - rewrite (proj1 Ha); reflexivity.
  - rewrite (proj1 Pg). vld.
Qed.
Print Assumptions C51_space1_laplacian_is_gradient.

Theorem C51_space2_laplacian_is_gradient : forall bm k0 n0 k1 n1 P I S T VP VI VS VT b0 e0 b1 e1,
  made bm k0 n0 I S T VI VS VT b0 e0 -> ctor_usable k0 n0 -> lap_size k0 n0 -> k0 <> FourierC2c ->
  made bm k1 n1 P I T VP VI VT b1 e1 -> ctor_usable k1 n1 -> lap_size k1 n1 -> k1 <> FourierC2c ->
  forall (dP : Dflt P) (dI : Dflt I) (dS : Dflt S) (dT : Dflt T) A (N : Num A) (D : DivInto A T) zo, zip_ok zo -> let sp := mk_space2 b0 b1 in
  exists L0 L1, s2_laplacian e0 e1 0 = Ok L0 /\ s2_laplacian e0 e1 1 = Ok L1 /\
    mat_dims L0 (len_orth b0) (len_orth b0) /\ mat_dims L1 (len_orth b1) (len_orth b1) /\
    forall a, proper (s2_shape_spectral sp) a -> exists u gx gy, s2_to_ortho zo sp a = Ok u /\
      s2_gradient zo sp a 2 0 (None (A := A * A)) = Ok gx /\ s2_gradient zo sp a 0 2 (None (A := A * A)) = Ok gy /\
      forall i j, (i < len_orth b0)%nat -> (j < len_orth b1)%nat ->
        get gx [i; j] = vsum (len_orth b0) (fun k => vmul (get u [k; j]) L0.[i].[k]) /\
        get gy [i; j] = vsum (len_orth b1) (fun l => vmul (get u [i; l]) L1.[j].[l]).
Proof.
  intros bm k0 n0 k1 n1 P I S T VP VI VS VT b0 e0 b1 e1 H0 C0 Z0 X0 H1 C1 Z1 X1 dP dI dS dT A N D zo Hz sp.
  destruct (made_lap _ _ _ _ _ _ _ _ _ _ _ H0 C0 Z0 X0) as (L0 & EL0 & DL0 & HL0).
  destruct (made_lap _ _ _ _ _ _ _ _ _ _ _ H1 C1 Z1 X1) as (L1 & EL1 & DL1 & HL1). exists L0, L1. split; [exact EL0|]. split; [exact EL1|]. split; auto. split; auto.
  pose proof (made_usable _ _ _ _ _ _ _ _ _ _ _ H0 C0) as U0. pose proof (made_usable _ _ _ _ _ _ _ _ _ _ _ H1 C1) as U1. intros a Ha.
  assert (T0 : total_gradient b0 2). { eapply made_total; eauto. intros ->. left. apply Z0. }
  assert (T1 : total_gradient b1 2). { eapply made_total; eauto. intros ->. left. apply Z1. }
  assert (T0' : total_gradient b0 0) by (eapply made_total; eauto). assert (T1' : total_gradient b1 0) by (eapply made_total; eauto).
  destruct (made_vecR _ _ _ _ _ _ _ _ _ _ _ H0) as [L _].
  destruct (made_stencil _ _ _ _ _ _ _ _ _ _ _ H1 C1) as (M1 & _ & _ & R1).
  destruct (C29_space2_applies_each_base_along_its_axis P I S T VP VI VS VT b0 b1 U0 U1 dP dI dS dT zo Hz) as (_ & _ & TO & _).
  destruct (TO a (azeros dflt (s2_shape_spectral_ortho sp)) Ha (proper_zeros _ _)) as (m & u & _ & E & Pu & A0 & A1).
  destruct (C31_space2_gradient_applies_each_base_along_its_axis P I S T VP VI VS VT b0 b1 U0 U1 dP dI dS dT A N D zo Hz 2 0 T0 T1' a Ha) as (p & gx & Egx & Pgx & Ap & Agx).
  destruct (C31_space2_gradient_applies_each_base_along_its_axis P I S T VP VI VS VT b0 b1 U0 U1 dP dI dS dT A N D zo Hz 0 2 T0' T1 a Ha) as (m' & gy & Egy & Pgy & Am' & Agy).
  assert (Pm : proper [len_orth b0; len_spec b1] m) by (exact (proper_op _ _ _ _ _ _ _ A0 Ha eq_refl)).
  assert (Pp : proper [len_orth b0; len_spec b1] p) by (exact (proper_op _ _ _ _ _ _ _ Ap Ha eq_refl)).
  assert (m' = m) as ->.
  { apply (axis_op_det (to_ortho_slice b0) (len_orth b0) 0 a); auto. rewrite (proj1 Ha); cbn; lia.
    refine (axis_op_ext _ _ (len_spec b0) _ _ _ _ _ _ Am'). intros. eapply made_grad0; eauto. rewrite (proj1 Ha); reflexivity. }
  exists u, gx, gy. split; [exact E|]. split; [exact Egx|]. split; [exact Egy|]. intros i j Hi Hj. split.
  - assert (Kp : forall l, (l < len_spec b1)%nat -> get p [i; l] = vsum (len_orth b0) (fun k => vmul (get m [k; l]) L0.[i].[k])).
    { intros l Hl. pose proof (axis_op_entry2 (to_ortho_slice b0) (fun x y => gradient_slice b0 x y 2) (fun w i => vsum (len_orth b0) (fun k => vmul w.[k] L0.[i].[k]))
        (len_spec b0) (len_orth b0) (len_orth b0) 0 a m p) as K.
      rewrite K; auto.
      - apply vsum_ext. intros k Hk. f_equal. apply (line_upd m (len_orth b0) 0 [i; l] k); auto. rewrite (proj1 Pm); reflexivity. cbn; lia.
      - intros x y z Hx Hy Hz'. destruct (HL0 x y z Hx Hy Hz') as (w & g' & Ew & Eg' & Lw & Lg & Vg). exists w, g'. split; auto. split; auto. split; auto.
        intros k Hk. rewrite (at_indep dT dflt_vec) by lia. rewrite Vg by auto. apply vsum_ext. intros q Hq. f_equal. apply at_indep. lia.
      - rewrite (proj1 Ha); reflexivity.
      - rewrite (proj1 Pp). vld. }
    assert (Agx' : axis_op (to_ortho_slice b1) (len_orth b1) 1 p gx).
    { refine (axis_op_ext _ _ (len_spec b1) _ _ _ _ _ _ Agx). intros. eapply made_grad0; eauto. rewrite (proj1 Pp); reflexivity. }
    pose proof (axis_op_rmat _ _ _ _ 1 p gx R1) as K. rewrite (K ltac:(rewrite (proj1 Pp); reflexivity) Agx') by (rewrite (proj1 Pgx); vld). cbn [nth upd].
    assert (Ku : forall k, (k < len_orth b0)%nat -> get u [k; j] = vsum (len_spec b1) (fun l => vmul (get m [k; l]) M1.[j].[l])).
    { intros k Hk. pose proof (axis_op_rmat _ _ _ _ 1 m u R1) as K'. rewrite (K' ltac:(rewrite (proj1 Pm); reflexivity) A1) by (rewrite (proj1 Pu); vld). reflexivity. }
    rewrite (vsum_ext _ _ (fun l => vmul (vsum (len_orth b0) (fun k => vmul (get m [k; l]) L0.[i].[k])) M1.[j].[l])) by (intros l Hl; rewrite Kp; auto).
    rewrite (vsum_ext (len_orth b0) _ (fun k => vmul (vsum (len_spec b1) (fun l => vmul (get m [k; l]) M1.[j].[l])) L0.[i].[k])) by (intros k Hk; rewrite Ku; auto).
    apply vext. intros q. rewrite !vproj_vsum.
    rewrite (rsum_ext (len_spec b1) _ (fun l => rsum (len_orth b0) (fun k => vproj q (get m [k; l]) * L0.[i].[k] * M1.[j].[l]))).
    2:{ intros l Hl. rewrite vproj_mul, vproj_vsum, <- rsum_scal_r. apply rsum_ext. intros. rewrite vproj_mul. ring. }
    rewrite rsum_swap. apply rsum_ext. intros k Hk. rewrite vproj_mul, vproj_vsum, <- rsum_scal_r. apply rsum_ext. intros. rewrite vproj_mul. ring.
  - pose proof (axis_op_entry2 (to_ortho_slice b1) (fun x y => gradient_slice b1 x y 2) (fun w i => vsum (len_orth b1) (fun k => vmul w.[k] L1.[i].[k]))
        (len_spec b1) (len_orth b1) (len_orth b1) 1 m u gy) as K.
    rewrite K; auto.
    + apply vsum_ext. intros k Hk. f_equal. apply (line_upd u (len_orth b1) 1 [i; j] k); auto. rewrite (proj1 Pu); reflexivity.
    + intros x y z Hx Hy Hz'. destruct (HL1 x y z Hx Hy Hz') as (w & g' & Ew & Eg' & Lw & Lg & Vg). exists w, g'. split; auto. split; auto. split; auto.
      intros k Hk. rewrite (at_indep dT dflt_vec) by lia. rewrite Vg by auto. apply vsum_ext. intros q Hq. f_equal. apply at_indep. lia.
    + rewrite (proj1 Pm); reflexivity.
    + rewrite (proj1 Pgy). vld.
Qed.
Print Assumptions C51_space2_laplacian_is_gradient.
