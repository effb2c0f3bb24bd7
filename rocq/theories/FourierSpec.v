(** FourierSpec: trigonometric series and their derivatives; assembled facts. *)
From Coq Require Import List Arith ZArith Reals Bool Lra Lia Ring.
From Verif Require Import Base Num Linalg Cheb ChebPoly ChebGrad Fourier FourierFacts FourierProofs FourierOps.
Import ListNotations.
Local Open Scope R_scope.

(** e^{it} *)
Definition cis (t : R) : CR := (cos t, sin t).
(** x |-> sum_k c_k e^{i kappa_k x} *)
Definition fseries (kappa : nat -> R) (c : list CR) (x : R) : CR :=
  csum (length c) (fun k => cmul c.[k] (cis (kappa k * x))).
(** G is the d-th derivative of the complex function F of a real variable *)
Definition cderiv (d : nat) (F G : R -> CR) : Prop :=
  nth_deriv d (fun x => fst (F x)) (fun x => fst (G x)) /\
  nth_deriv d (fun x => snd (F x)) (fun x => snd (G x)).

Lemma deriv_rsum n (f g : nat -> R -> R) x :
  (forall k, (k < n)%nat -> derivable_pt_lim (f k) x (g k x)) ->
  derivable_pt_lim (fun y => rsum n (fun k => f k y)) x (rsum n (fun k => g k x)).
Proof.
  induction n; intros H; simpl.
  - apply derivable_pt_lim_const.
  - apply (derivable_pt_lim_plus (fun y => rsum n (fun k => f k y)) (f n)); auto.
Qed.

Lemma deriv_lin k x : derivable_pt_lim (fun y => k * y) x k.
Proof.
  assert (H : derivable_pt_lim (fun y => k * y) x (k * 1)) by (apply (derivable_pt_lim_scal id k), derivable_pt_lim_id).
  rewrite Rmult_1_r in H. exact H.
Qed.
Lemma deriv_cos_k k x : derivable_pt_lim (fun y => cos (k * y)) x (- sin (k * x) * k).
Proof.
  apply (derivable_pt_lim_comp (fun y => k * y) cos).
  - apply deriv_lin.
  - apply derivable_pt_lim_cos.
Qed.
Lemma deriv_sin_k k x : derivable_pt_lim (fun y => sin (k * y)) x (cos (k * x) * k).
Proof.
  apply (derivable_pt_lim_comp (fun y => k * y) sin).
  - apply deriv_lin.
  - apply derivable_pt_lim_sin.
Qed.

(** real part with weights *)
Definition wre (w : nat -> R) kappa m (c : nat -> CR) x : R :=
  rsum m (fun k => w k * (fst (c k) * cos (kappa k * x) - snd (c k) * sin (kappa k * x))).
Definition wim (w : nat -> R) kappa m (c : nat -> CR) x : R :=
  rsum m (fun k => w k * (fst (c k) * sin (kappa k * x) + snd (c k) * cos (kappa k * x))).

Lemma wre_deriv w kappa m c x :
  derivable_pt_lim (wre w kappa m c) x (wre w kappa m (fun k => cmul (c k) (iR (kappa k))) x).
Proof.
  apply deriv_rsum with (f := fun k x => w k * (fst (c k) * cos (kappa k * x) - snd (c k) * sin (kappa k * x)))
   (g := fun k x => w k * (fst (cmul (c k) (iR (kappa k))) * cos (kappa k * x) - snd (cmul (c k) (iR (kappa k))) * sin (kappa k * x))).
  intros k _.
  match goal with |- derivable_pt_lim _ _ ?l =>
    replace l with (w k * (fst (c k) * (- sin (kappa k * x) * kappa k) - snd (c k) * (cos (kappa k * x) * kappa k)))
      by (unfold cmul, iR; cbn; ring) end.
  apply (derivable_pt_lim_scal (fun x => fst (c k) * cos (kappa k * x) - snd (c k) * sin (kappa k * x)) (w k)).
  apply (derivable_pt_lim_minus (fun x => fst (c k) * cos (kappa k * x)) (fun x => snd (c k) * sin (kappa k * x))).
  - apply (derivable_pt_lim_scal (fun x => cos (kappa k * x))), deriv_cos_k.
  - apply (derivable_pt_lim_scal (fun x => sin (kappa k * x))), deriv_sin_k.
Qed.
Lemma wim_deriv w kappa m c x :
  derivable_pt_lim (wim w kappa m c) x (wim w kappa m (fun k => cmul (c k) (iR (kappa k))) x).
Proof.
  apply deriv_rsum with (f := fun k x => w k * (fst (c k) * sin (kappa k * x) + snd (c k) * cos (kappa k * x)))
   (g := fun k x => w k * (fst (cmul (c k) (iR (kappa k))) * sin (kappa k * x) + snd (cmul (c k) (iR (kappa k))) * cos (kappa k * x))).
  intros k _.
  match goal with |- derivable_pt_lim _ _ ?l =>
    replace l with (w k * (fst (c k) * (cos (kappa k * x) * kappa k) + snd (c k) * (- sin (kappa k * x) * kappa k)))
      by (unfold cmul, iR; cbn; ring) end.
  apply (derivable_pt_lim_scal (fun x => fst (c k) * sin (kappa k * x) + snd (c k) * cos (kappa k * x)) (w k)).
  apply (derivable_pt_lim_plus (fun x => fst (c k) * sin (kappa k * x)) (fun x => snd (c k) * cos (kappa k * x))).
  - apply (derivable_pt_lim_scal (fun x => sin (kappa k * x))), deriv_sin_k.
  - apply (derivable_pt_lim_scal (fun x => cos (kappa k * x))), deriv_cos_k.
Qed.

Lemma wre_ext w kappa m c c' x : (forall k, (k < m)%nat -> c k = c' k) -> wre w kappa m c x = wre w kappa m c' x.
Proof. intros. apply rsum_ext. intros. rewrite H; auto. Qed.
Lemma wim_ext w kappa m c c' x : (forall k, (k < m)%nat -> c k = c' k) -> wim w kappa m c x = wim w kappa m c' x.
Proof. intros. apply rsum_ext. intros. rewrite H; auto. Qed.

Lemma wre_nth w kappa m d : forall c c',
  (forall k, (k < m)%nat -> c' k = cmul (c k) (cpow (iR (kappa k)) d)) ->
  nth_deriv d (wre w kappa m c) (wre w kappa m c').
Proof.
  induction d; intros c c' H; cbn [nth_deriv].
  - intros. apply wre_ext. intros. rewrite H by auto. cbn [cpow]. ring.
  - exists (wre w kappa m (fun k => cmul (c k) (iR (kappa k)))). split.
    + intros. apply wre_deriv.
    + apply IHd. intros. rewrite H by auto. cbn [cpow]. ring.
Qed.
Lemma wim_nth w kappa m d : forall c c',
  (forall k, (k < m)%nat -> c' k = cmul (c k) (cpow (iR (kappa k)) d)) ->
  nth_deriv d (wim w kappa m c) (wim w kappa m c').
Proof.
  induction d; intros c c' H; cbn [nth_deriv].
  - intros. apply wim_ext. intros. rewrite H by auto. cbn [cpow]. ring.
  - exists (wim w kappa m (fun k => cmul (c k) (iR (kappa k)))). split.
    + intros. apply wim_deriv.
    + apply IHd. intros. rewrite H by auto. cbn [cpow]. ring.
Qed.

Lemma nth_deriv_ext d : forall f f' g g', (forall x, f x = f' x) -> (forall x, g x = g' x) ->
  nth_deriv d f g -> nth_deriv d f' g'.
Proof.
  induction d; cbn; intros f f' g g' Hf Hg H.
  - intros. rewrite <- Hf, <- Hg. auto.
  - destruct H as (h & H1 & H2). exists h. split.
    + intros x. intros e He. destruct (H1 x e He) as [dl Hd]. exists dl. intros. rewrite <- !Hf. auto.
    + eapply IHd; eauto.
Qed.

Lemma fseries_fst kappa c x : fst (fseries kappa c x) = wre (fun _ => 1) kappa (length c) (fun k => c.[k]) x.
Proof. unfold fseries, wre, csum. cbn [fst]. apply rsum_ext. intros. cbn. ring. Qed.
Lemma fseries_snd kappa c x : snd (fseries kappa c x) = wim (fun _ => 1) kappa (length c) (fun k => c.[k]) x.
Proof. unfold fseries, wim, csum. cbn [snd]. apply rsum_ext. intros. cbn. ring. Qed.

Lemma fseries_deriv kappa (c b : list CR) d :
  length b = length c -> (forall k, (k < length c)%nat -> b.[k] = cmul c.[k] (cpow (iR (kappa k)) d)) ->
  cderiv d (fseries kappa c) (fseries kappa b).
Proof.
  intros L H. split.
  - eapply nth_deriv_ext; [symmetry; apply fseries_fst|symmetry; apply fseries_fst|].
    rewrite L. apply wre_nth. auto.
  - eapply nth_deriv_ext; [symmetry; apply fseries_snd|symmetry; apply fseries_snd|].
    rewrite L. apply wim_nth. auto.
Qed.

(** The real interpolant of an r2c spectrum:
    (1/n) Re( sum_k w_k c_k e^{ikx} ), w = 1 for the mean and the Nyquist mode, 2 otherwise. *)
Definition rinterp (n : nat) (c : list CR) (x : R) : R :=
  rsum (n / 2 + 1) (fun k =>
    (if (k =? 0)%nat || (2 * k =? n)%nat then 1 else 2) *
    (fst c.[k] * cos (INR k * x) - snd c.[k] * sin (INR k * x))) / INR n.

Definition grid (n j : nat) : R := 2 * PI * INR j / INR n.

Lemma E_cis n (k j : nat) : (1 <= n)%nat -> E n (Z.of_nat k * Z.of_nat j) = cis (INR k * grid n j).
Proof.
  intros. unfold E, cis, arg, grid. rewrite mult_IZR, <- !INR_IZR_INZ.
  assert (INR n <> 0) by (apply not_0_INR; lia).
  replace (2 * PI * (INR k * INR j) / INR n) with (INR k * (2 * PI * INR j / INR n)) by (field; auto). auto.
Qed.

Lemma rinterp_backward n (c : list CR) j : (1 <= n)%nat -> length c = (n / 2 + 1)%nat -> (j < n)%nat ->
  (map fst (fft true n (hermitian n (rin n c)))).[j] = rinterp n c (grid n j).
Proof.
  intros. rewrite r2c_backward_at by auto. unfold rinterp. f_equal. apply rsum_ext. intros.
  rewrite E_cis by auto. unfold cis, wgt, selfc. cbn. ring.
Qed.

Lemma rinterp_deriv n (c b : list CR) d :
  (forall k, (k < n / 2 + 1)%nat -> b.[k] = cmul c.[k] (cpow (iR (INR k)) d)) ->
  nth_deriv d (rinterp n c) (rinterp n b).
Proof.
  intros H.
  eapply nth_deriv_ext with (f := wre (fun k => (if (k =? 0)%nat || (2 * k =? n)%nat then 1 else 2) / INR n) INR (n / 2 + 1) (fun k => c.[k]))
    (g := wre (fun k => (if (k =? 0)%nat || (2 * k =? n)%nat then 1 else 2) / INR n) INR (n / 2 + 1) (fun k => b.[k])).
  1, 2: intros; unfold wre, rinterp, Rdiv; rewrite <- rsum_scal_r; apply rsum_ext; intros; ring.
  apply wre_nth. auto.
Qed.

(** Matrix-vector product. *)
Definition cmatvec (m : nat) (D : list (list CR)) (c : list CR) (i : nat) : CR :=
  csum m (fun j => cmul D.[i].[j] c.[j]).

Lemma diag_matvec m D g c i : is_diag m D (c0 : CR) g -> (i < m)%nat -> cmatvec m D c i = cmul c.[i] (g i).
Proof.
  intros [HD ED] Hi. unfold cmatvec. rewrite (csum_delta m i); auto.
  - rewrite ED by auto. rewrite Nat.eqb_refl. ring.
  - intros. rewrite ED by auto. destruct (Nat.eqb_spec i k); [lia|]. ring.
Qed.

(** ** powers of i*a *)
Definition nrm (x : CR) : R := fst x * fst x + snd x * snd x.
Lemma nrm_mul x y : nrm (cmul x y) = nrm x * nrm y.
Proof. destruct x, y. unfold nrm, cmul. cbn. ring. Qed.
Lemma nrm_pow x d : nrm (cpow x d) = nrm x ^ d.
Proof. induction d; cbn [cpow pow]. unfold nrm, c1. cbn. ring. rewrite nrm_mul, IHd. auto. Qed.
Lemma nrm_iR a : nrm (iR a) = a * a.
Proof. unfold nrm, iR. cbn. ring. Qed.
Lemma nrm_0 x : nrm x = 0 -> x = c0.
Proof. destruct x as [a b]. unfold nrm, c0. cbn. intros. assert (a = 0) by nra. assert (b = 0) by nra. subst; auto. Qed.
Lemma nrm_pos x : 0 <= nrm x.
Proof. unfold nrm. nra. Qed.
Lemma cpow_nz a d : a <> 0 -> cpow (iR a) d <> c0.
Proof.
  intros H E0. apply (f_equal nrm) in E0. rewrite nrm_pow, nrm_iR in E0.
  assert (a * a <> 0) by nra. apply (pow_nonzero _ d) in H0. rewrite E0 in H0. unfold nrm, c0 in H0. cbn in H0. lra.
Qed.
Lemma pow_lt_base a b d : 0 <= a < b -> (1 <= d)%nat -> a ^ d < b ^ d.
Proof.
  intros. induction d; [lia|]. destruct d. simpl; lra.
  assert (a ^ S d < b ^ S d) by (apply IHd; lia).
  change (a * a ^ S d < b * b ^ S d).
  assert (0 <= a ^ S d) by (apply pow_le; lra). nra.
Qed.
Lemma cdiv_inv (y : CR) : y <> c0 -> cmul (cdiv c1 y) y = c1.
Proof.
  intros H. assert (nrm y <> 0) by (intros E0; apply H, nrm_0; auto).
  destruct y as [a b]. unfold nrm in H0. cbn in H0. cx; field; auto.
Qed.

(** the c2c gradient is wrong on every non-zero negative-frequency coefficient *)
Lemma gmul_wrong n k (c : CR) d : (1 <= d)%nat -> (npos n <= k < n)%nat -> c <> c0 ->
  cmul c (cpow (iR (gmul n k)) d) <> cmul c (cpow (iR (kap n k)) d).
Proof.
  intros Hd Hk Hc He. apply (f_equal nrm) in He. rewrite !nrm_mul, !nrm_pow, !nrm_iR in He.
  assert (nrm c <> 0) by (intros E0; apply Hc, nrm_0; auto).
  apply Rmult_eq_reg_l in He; auto. unfold gmul, kap in He.
  destruct (Nat.ltb_spec k (npos n)); [lia|].
  rewrite !minus_INR in He by lia. simpl (INR 1) in He.
  assert (INR k + 1 <= INR n) by (rewrite <- S_INR; apply le_INR; lia).
  assert ((INR n - 1 - INR k) * (INR n - 1 - INR k) < (INR k - INR n) * (INR k - INR n)) by nra.
  pose proof (pow_lt_base ((INR n - 1 - INR k) * (INR n - 1 - INR k)) ((INR k - INR n) * (INR k - INR n)) d ltac:(split; [apply Rle_0_sqr|auto]) Hd). lra.
Qed.
Lemma gmul_right n k : (k < npos n)%nat -> gmul n k = kap n k.
Proof. intros. unfold gmul, kap. destruct (Nat.ltb_spec k (npos n)); auto; lia. Qed.

Lemma kap_nz n k : (1 <= k < n)%nat -> kap n k <> 0.
Proof.
  intros. unfold kap. destruct (k <? npos n)%nat. apply not_0_INR; lia.
  assert (INR k < INR n) by (apply lt_INR; lia). lra.
Qed.

(** pseudo-inverse *)
Lemma at_skipn {T} {d : Dflt T} (l : list T) m i : (skipn m l).[i] = l.[m + i].
Proof.
  unfold at_. revert m. induction l; intros; destruct m; simpl; auto. destruct i; auto.
Qed.

Lemma f_diffmat_pinv_val m wr (kk : nat -> R) d : (1 <= m)%nat ->
  wp wr (fun w => length w = m /\ forall k, (k < m)%nat -> w.[k] = iR (kk k)) ->
  (1 <= d)%nat -> (Z.of_nat d < i32max)%Z ->
  wp (f_diffmat_pinv m wr d) (fun PE =>
    is_diag m (fst PE) (c0 : CR) (fun k => if (k =? 0)%nat then cpow (iR (kk k)) d else cdiv c1 (cpow (iR (kk k)) d)) /\
    mat_dims (snd PE) (m - 1) m /\
    forall i j, (i < m - 1)%nat -> (j < m)%nat -> (snd PE).[i].[j] = if (S i =? j)%nat then c1 else c0).
Proof.
  intros Hm Hw H1 H2. unfold f_diffmat_pinv.
  rewrite assert_ok by (apply Nat.ltb_lt; lia). rewrite assert_ok by (apply Nat.leb_le; lia). cbv zeta.
  apply wp_bind. eapply wp_mono; [apply (f_diffmat_val m wr kk d); auto|]. intros D HD.
  apply wp_bind. eapply wp_mono; [apply (diag1_map_val m D c0 _ (cdiv c1) Hm HD)|]. intros P HP. cbn [wp fst snd].
  split; auto.
  split; [split|].
  - rewrite skipn_length. unfold eye. rewrite map_length, seq_length. auto.
  - intros i Hi. rewrite at_skipn. unfold eye. rewrite (at_map_seq (d := dflt_list)) by lia. rewrite map_length, seq_length. auto.
  - intros i j Hi Hj. rewrite at_skipn. assert (Hi' : (1 + i < m)%nat) by lia. pose proof (eye_at (NB := num_cplx (A := R)) m (1 + i) j Hi' Hj) as H. exact H.
Qed.

Lemma f_laplacian_val m wr (kk : nat -> R) :
  wp wr (fun w => length w = m /\ forall k, (k < m)%nat -> w.[k] = iR (kk k)) ->
  wp (f_laplacian m wr) (fun D => is_diag m D 0 (fun k => - (kk k * kk k))).
Proof.
  intros Hw. unfold f_laplacian.
  apply wp_bind. eapply wp_mono; [exact Hw|]. cbv beta. intros w [L I].
  eapply wp_mono; [apply (diag_zip_val m (fun k : CR => - snd k * snd k)); auto|].
  intros D [HD ED]. split; auto. intros. rewrite ED by auto. rewrite I by auto.
  destruct (i =? j)%nat; auto. cbn. ring.
Qed.

Lemma f_laplacian_pinv_val m wr (kk : nat -> R) : (1 <= m)%nat ->
  wp wr (fun w => length w = m /\ forall k, (k < m)%nat -> w.[k] = iR (kk k)) ->
  wp (f_laplacian_pinv m wr) (fun PE =>
    is_diag m (fst PE) 0 (fun k => if (k =? 0)%nat then - (kk k * kk k) else 1 / - (kk k * kk k)) /\
    mat_dims (snd PE) (m - 1) m /\
    forall i j, (i < m - 1)%nat -> (j < m)%nat -> (snd PE).[i].[j] = if (S i =? j)%nat then 1 else 0).
Proof.
  intros Hm Hw. unfold f_laplacian_pinv.
  apply wp_bind. eapply wp_mono; [apply (f_laplacian_val m wr kk); auto|]. intros D HD.
  apply wp_bind. eapply wp_mono; [apply (diag1_map_val m D 0 _ (fun x => 1 / x) Hm HD)|]. intros P HP. cbn [wp fst snd].
  split; auto.
  split; [split|].
  - rewrite skipn_length. unfold eye. rewrite map_length, seq_length. auto.
  - intros i Hi. rewrite at_skipn. unfold eye. rewrite (at_map_seq (d := dflt_list)) by lia. rewrite map_length, seq_length. auto.
  - intros i j Hi Hj. rewrite at_skipn. assert (Hi' : (1 + i < m)%nat) by lia. pose proof (eye_at (NB := num_R) m (1 + i) j Hi' Hj) as H. exact H.
Qed.
