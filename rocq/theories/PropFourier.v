(** C19-C24, C47 and the exact-arithmetic half of C43: the Fourier bases.

    Vocabulary: [wp m Q]: the call [m] returns normally with a result satisfying
    [Q].  A complex number is a pair (re, im) of reals; [cmul], [cpow] are the
    product and power, [cis t] = (cos t, sin t) = e^{it}, [csum n f] the sum of n
    complex numbers, [fseries kappa c x] = sum_k c_k e^{i kappa_k x},
    [cderiv d F G]: G is the d-th derivative of F at every real point (both
    components), [cmatvec m D c i] = sum_{j<m} D_ij c_j.  The last list argument of
    a call is the previous content of the output slice. *)
From Coq Require Import List Arith ZArith Reals Bool Lra Lia.
From Verif Require Import Base Num Linalg Cheb ChebPoly ChebGrad Fourier FourierFacts FourierProofs FourierOps FourierSpec.
Import ListNotations.
Local Open Scope R_scope.

(** ** C19, C20: r2c round trips *)
Theorem C19_r2c_backward_of_forward : forall n f (x : list R) o1 o2,
  r2c_new n = Ok f -> length x = n -> length o1 = (n / 2 + 1)%nat -> length o2 = n ->
  wp (let* c := r2c_forward f x o1 in r2c_backward f c o2) (fun y => y = x).
Proof.
  intros n f x o1 o2 Hf Hx H1 H2. apply r2c_new_inv in Hf as [Hn ->].
  rewrite r2c_forward_val by auto. cbn [bind].
  rewrite r2c_backward_val; auto. apply r2c_fb; auto.
  rewrite firstn_length, fft_length. pose proof (div2_lt1 n Hn). lia.
Qed.
Print Assumptions C19_r2c_backward_of_forward.

Theorem C20_r2c_forward_of_backward : forall n f (c : list CR) o1 o2,
  r2c_new n = Ok f -> length c = (n / 2 + 1)%nat -> length o1 = n -> length o2 = (n / 2 + 1)%nat ->
  wp (let* y := r2c_backward f c o1 in r2c_forward f y o2) (fun c' => length c' = (n / 2 + 1)%nat /\
    forall k, (k < n / 2 + 1)%nat ->
      c'.[k] = if (k =? 0)%nat || (2 * k =? n)%nat then (fst c.[k], 0) else c.[k]).
Proof.
  intros n f c o1 o2 Hf Hc H1 H2. apply r2c_new_inv in Hf as [Hn ->].
  rewrite r2c_backward_val by auto. cbn [bind].
  rewrite r2c_forward_val; auto. 2: rewrite map_length, fft_length; auto.
  rewrite r2c_bf by auto. cbn [wp]. split. rewrite map_length, seq_length; auto.
  intros. etransitivity; [apply at_map_seq; auto|]. cbn [Nat.add]. unfold realed, selfc.
  destruct (_ || _); auto. destruct c.[k]; auto.
Qed.
Print Assumptions C20_r2c_forward_of_backward.

(** Exactly the spectra of real signals are reproduced. *)
Theorem C20_r2c_identity_iff_real : forall n f (c : list CR) o1 o2,
  r2c_new n = Ok f -> length c = (n / 2 + 1)%nat -> length o1 = n -> length o2 = (n / 2 + 1)%nat ->
  ((let* y := r2c_backward f c o1 in r2c_forward f y o2) = Ok c <->
   (forall k, (k < n / 2 + 1)%nat -> (k = 0 \/ 2 * k = n)%nat -> snd c.[k] = 0)) /\
  ((exists x, length x = n /\ r2c_forward f x o2 = Ok c) <->
   (forall k, (k < n / 2 + 1)%nat -> (k = 0 \/ 2 * k = n)%nat -> snd c.[k] = 0)).
Proof.
  intros n f c o1 o2 Hf Hc H1 H2.
  pose proof (C20_r2c_forward_of_backward n f c o1 o2 Hf Hc H1 H2) as T.
  apply wp_Ok in T as (c' & E' & L' & V'). apply r2c_new_inv in Hf as [Hn ->].
  assert (Iff : c' = c <-> (forall k, (k < n / 2 + 1)%nat -> (k = 0 \/ 2 * k = n)%nat -> snd c.[k] = 0)).
  { split.
    - intros -> k Hk Hs. specialize (V' k Hk).
      assert (S : ((k =? 0)%nat || (2 * k =? n)%nat) = true).
      { apply orb_true_iff. rewrite !Nat.eqb_eq. auto. }
      rewrite S in V'. destruct c.[k]. cbn in *. congruence.
    - intros H. apply list_ext. congruence. intros k Hk. rewrite V' by lia.
      destruct ((k =? 0)%nat || (2 * k =? n)%nat) eqn:S; auto.
      apply orb_true_iff in S. rewrite !Nat.eqb_eq in S.
      rewrite <- (H k) by (auto; lia). destruct c.[k]; auto. }
  split.
  - rewrite E'. rewrite <- Iff. split; [injection 1; auto|intros ->; auto].
  - split.
    + intros (x & Lx & Ex) k Hk Hs. rewrite r2c_forward_val in Ex by auto. injection Ex as <-.
      rewrite at_firstn by auto. pose proof (div2_lt1 n Hn). rewrite X_fft by lia.
      apply X_self; auto. unfold selfc. apply orb_true_iff. rewrite !Nat.eqb_eq. auto.
    + intros H. apply Iff in H as ->.
      rewrite r2c_backward_val in E' by auto. cbn [bind] in E'. eexists. split; [|exact E'].
      rewrite map_length, fft_length. auto.
Qed.
Print Assumptions C20_r2c_identity_iff_real.

(** ** C21: c2c round trips *)
Theorem C21_c2c_backward_of_forward : forall n f (x o1 o2 : list CR),
  c2c_new n = Ok f -> length x = n -> length o1 = n -> length o2 = n ->
  wp (let* c := c2c_forward f x o1 in c2c_backward f c o2) (fun y => y = x).
Proof.
  intros n f x o1 o2 Hf Hx H1 H2. apply c2c_new_inv in Hf as [Hn ->].
  rewrite c2c_forward_val by auto. cbn [bind]. rewrite c2c_backward_val; auto. apply c2c_fb; auto.
  apply fft_length.
Qed.
Print Assumptions C21_c2c_backward_of_forward.

Theorem C21_c2c_forward_of_backward : forall n f (c o1 o2 : list CR),
  c2c_new n = Ok f -> length c = n -> length o1 = n -> length o2 = n ->
  wp (let* x := c2c_backward f c o1 in c2c_forward f x o2) (fun c' => c' = c).
Proof.
  intros n f x o1 o2 Hf Hx H1 H2. apply c2c_new_inv in Hf as [Hn ->].
  rewrite c2c_backward_val by auto. cbn [bind]. rewrite c2c_forward_val; auto. apply c2c_bf; auto.
  apply fft_length.
Qed.
Print Assumptions C21_c2c_forward_of_backward.

(** ** C22: r2c gradient *)
Theorem C22_r2c_gradient_is_derivative : forall n f (c o : list CR) d,
  r2c_new n = Ok f -> length c = (n / 2 + 1)%nat -> length o = (n / 2 + 1)%nat ->
  wp (r2c_gradient f c o d) (fun b => length b = (n / 2 + 1)%nat /\
    (forall k, (k < n / 2 + 1)%nat -> b.[k] = cmul c.[k] (cpow (0, INR k) d)) /\
    cderiv d (fseries INR c) (fseries INR b)).
Proof.
  intros n f c o d Hf Hc Ho. apply r2c_new_inv in Hf as [Hn ->].
  eapply wp_mono; [apply r2c_gradient_val; auto|]. intros b [L V]. split; [auto|split; auto].
  apply fseries_deriv. congruence. rewrite Hc. exact V.
Qed.
Print Assumptions C22_r2c_gradient_is_derivative.

Theorem C22_r2c_diffmat_is_gradient : forall n f (c o : list CR) d,
  r2c_new n = Ok f -> length c = (n / 2 + 1)%nat -> length o = (n / 2 + 1)%nat ->
  (1 <= d)%nat -> (Z.of_nat d < 2 ^ 31)%Z ->
  wp (r2c_diffmat f d) (fun D => mat_dims D (n / 2 + 1) (n / 2 + 1) /\
    wp (r2c_gradient f c o d) (fun b =>
      forall k, (k < n / 2 + 1)%nat -> b.[k] = cmatvec (n / 2 + 1) D c k)).
Proof.
  intros n f c o d Hf Hc Ho H1 H2. apply r2c_new_inv in Hf as [Hn ->]. unfold r2c_diffmat, r2c_len_spec, r2c_len_phys.
  cbn [r_n r_m]. eapply wp_mono; [apply (f_diffmat_val _ _ INR d); auto; apply r2c_wavenumber_val|].
  intros D HD. split. apply HD. eapply wp_mono; [apply r2c_gradient_val; auto|].
  intros b [L V] k Hk. rewrite V by auto. symmetry. apply (diag_matvec _ _ _ _ _ HD Hk).
Qed.
Print Assumptions C22_r2c_diffmat_is_gradient.

(** [diffmat(0)] and [diffmat(d >= 2^31)] panic. *)
Theorem C22_diffmat_panics : forall n d,
  d = 0%nat \/ (2 ^ 31 <= Z.of_nat d)%Z ->
  (forall f, r2c_new n = Ok f -> r2c_diffmat (A := R) f d = Panic) /\
  (forall f, c2c_new n = Ok f -> c2c_diffmat (A := R) f d = Panic).
Proof.
  intros n d [->|H]; split; intros f Hf; try reflexivity.
  - apply r2c_new_inv in Hf as [Hn ->]. apply f_diffmat_big; auto. cbn; lia.
    cbn [r2c_len_spec r_m]. rewrite map_length, seq_length. auto.
  - apply c2c_new_inv in Hf as [Hn ->]. unfold c2c_diffmat, c2c_len_spec, c2c_len_phys. cbn [cc_n cc_m].
    pose proof (c2c_wavenumber_val n Hn) as W. apply wp_Ok in W as (w & -> & L & _).
    apply f_diffmat_big; auto.
Qed.
Print Assumptions C22_diffmat_panics.

(** ** C23: c2c differentiation: [diffmat] is right, [gradient] only on the
    non-negative frequencies.  [freq n k] is the frequency of entry k: 0,1,2,..,-2,-1. *)
Definition n_nonneg (n : nat) : nat := ((n - 1) / 2 + 1)%nat.
Definition freq (n k : nat) : R := if (k <? n_nonneg n)%nat then INR k else INR k - INR n.

Theorem C23_c2c_diffmat_is_derivative : forall n f d,
  c2c_new n = Ok f -> (1 <= d)%nat -> (Z.of_nat d < 2 ^ 31)%Z ->
  wp (c2c_diffmat f d) (fun D => mat_dims D n n /\
    (forall (c b : list CR), length c = n -> length b = n ->
       (forall k, (k < n)%nat -> b.[k] = cmatvec n D c k) ->
       cderiv d (fseries (freq n) c) (fseries (freq n) b))).
Proof.
  intros n f d Hf H1 H2. apply c2c_new_inv in Hf as [Hn ->]. unfold c2c_diffmat, c2c_len_spec, c2c_len_phys.
  cbn [cc_n cc_m]. eapply wp_mono; [apply (f_diffmat_val _ _ (kap n) d); auto; apply c2c_wavenumber_val; auto|].
  intros D HD. split. apply HD. intros c b Lc Lb H. apply fseries_deriv. congruence. rewrite Lc. intros.
  rewrite H by auto. apply (diag_matvec _ _ _ _ _ HD); auto.
Qed.
Print Assumptions C23_c2c_diffmat_is_derivative.

(** Entry k of [gradient(c, d)], d >= 1, agrees with [diffmat(d) @ c] exactly if
    k is a non-negative frequency or c_k = 0. *)
Theorem C23_c2c_gradient_right_iff : forall n f (c o : list CR) d,
  c2c_new n = Ok f -> length c = n -> length o = n -> (1 <= d)%nat -> (Z.of_nat d < 2 ^ 31)%Z ->
  wp (c2c_diffmat f d) (fun D => wp (c2c_gradient f c o d) (fun b => length b = n /\
    forall k, (k < n)%nat -> (b.[k] = cmatvec n D c k <-> ((k < n_nonneg n)%nat \/ c.[k] = (0, 0))))).
Proof.
  intros n f c o d Hf Hc Ho H1 H2. apply c2c_new_inv in Hf as [Hn ->]. unfold c2c_diffmat, c2c_len_spec, c2c_len_phys.
  cbn [cc_n cc_m]. eapply wp_mono; [apply (f_diffmat_val _ _ (kap n) d); auto; apply c2c_wavenumber_val; auto|].
  intros D HD. eapply wp_mono; [apply c2c_gradient_val; auto|].
  intros b [L V]. split; auto. intros k Hk. rewrite (diag_matvec _ _ _ _ _ HD Hk), V by auto.
  change (n_nonneg n) with (npos n). split.
  - intros He. destruct (Nat.lt_ge_cases k (npos n)); auto. right.
    destruct (Req_dec (nrm c.[k]) 0) as [Z|Z]. apply nrm_0; auto.
    exfalso. apply (gmul_wrong n k c.[k] d H1) in He; auto. intros E0. apply Z. rewrite E0. unfold nrm, c0; cbn; ring.
  - intros [Hp|Hz]. rewrite gmul_right; auto.
    rewrite Hz. unfold cmul; cbn. f_equal; ring.
Qed.
Print Assumptions C23_c2c_gradient_right_iff.

(** What the gradient does instead, and that for every n >= 2 and d >= 1 it is
    wrong: e^{-ix} (entry n-1) is mapped to 0. *)
Theorem C23_c2c_gradient_loses_mode : forall n f (c o : list CR) d,
  c2c_new n = Ok f -> length c = n -> length o = n -> (2 <= n)%nat -> (1 <= d)%nat ->
  wp (c2c_gradient f c o d) (fun b => b.[n - 1] = (0, 0) /\
    forall k, (n_nonneg n <= k < n)%nat -> b.[k] = cmul c.[k] (cpow (0, INR (n - 1 - k)) d)).
Proof.
  intros n f c o d Hf Hc Ho Hn2 Hd. apply c2c_new_inv in Hf as [Hn ->].
  eapply wp_mono; [apply c2c_gradient_val; auto|]. intros b [L V].
  assert (P : (npos n <= n - 1)%nat).
  { pose proof (npos_split n Hn). assert (1 <= n / 2)%nat by (apply Nat.div_le_lower_bound; lia). lia. }
  assert (W : forall k, (n_nonneg n <= k < n)%nat -> b.[k] = cmul c.[k] (cpow (0, INR (n - 1 - k)) d)).
  { intros k Hk. rewrite V by lia. unfold gmul. change (npos n) with (n_nonneg n).
    destruct (Nat.ltb_spec k (n_nonneg n)); [lia|]. auto. }
  split; auto. rewrite W by (change (n_nonneg n) with (npos n); lia).
  rewrite Nat.sub_diag. destruct d; [lia|]. cbn [cpow]. change (INR 0) with 0.
  destruct (cpow (0, 0) d), c.[n - 1]. unfold cmul; cbn. f_equal; ring.
Qed.
Print Assumptions C23_c2c_gradient_loses_mode.

(** ** C24: Laplacian and pseudo-inverses *)
Theorem C24_laplacian_is_diffmat2 : forall n,
  (forall f, r2c_new n = Ok f -> wp (r2c_laplacian f) (fun L => wp (r2c_diffmat f 2) (fun D =>
     mat_dims L (n / 2 + 1) (n / 2 + 1) /\ mat_dims D (n / 2 + 1) (n / 2 + 1) /\
     forall i j, (i < n / 2 + 1)%nat -> (j < n / 2 + 1)%nat -> D.[i].[j] = (L.[i].[j], 0)))) /\
  (forall f, c2c_new n = Ok f -> wp (c2c_laplacian f) (fun L => wp (c2c_diffmat f 2) (fun D =>
     mat_dims L n n /\ mat_dims D n n /\
     forall i j, (i < n)%nat -> (j < n)%nat -> D.[i].[j] = (L.[i].[j], 0)))).
Proof.
  assert (G : forall m wr kk,
    wp wr (fun w => length w = m /\ forall k, (k < m)%nat -> w.[k] = iR (kk k)) ->
    wp (f_laplacian m wr) (fun L => wp (f_diffmat m wr 2) (fun D =>
      mat_dims L m m /\ mat_dims D m m /\ forall i j, (i < m)%nat -> (j < m)%nat -> D.[i].[j] = (L.[i].[j], 0)))).
  { intros m wr kk Hw. eapply wp_mono; [apply (f_laplacian_val m wr kk Hw)|]. intros L [HL EL].
    eapply wp_mono; [apply (f_diffmat_val m wr kk 2 Hw); auto; cbn; lia|]. intros D [HD ED]. split; [|split]; auto.
    intros. rewrite ED, EL by auto. destruct (i =? j)%nat; auto. cbn. unfold iR, cmul; cbn. f_equal; ring. }
  intros n. split; intros f Hf.
  - apply r2c_new_inv in Hf as [Hn ->]. apply (G _ _ INR), r2c_wavenumber_val.
  - apply c2c_new_inv in Hf as [Hn ->]. apply (G _ _ (kap n)), c2c_wavenumber_val; auto.
Qed.
Print Assumptions C24_laplacian_is_diffmat2.

(** [cpinv m D P J]: rows 1.. of P @ D are J, J is rows 1.. of the identity; row 0 of P @ D is 0. *)
Definition cpinv (m : nat) (D P J : list (list CR)) : Prop :=
  mat_dims P m m /\ mat_dims D m m /\ mat_dims J (m - 1) m /\
  (forall i j, (i < m - 1)%nat -> (j < m)%nat -> J.[i].[j] = if (S i =? j)%nat then (1, 0) else (0, 0)) /\
  (forall i j, (i < m - 1)%nat -> (j < m)%nat -> csum m (fun l => cmul P.[S i].[l] D.[l].[j]) = J.[i].[j]) /\
  (forall j, (j < m)%nat -> csum m (fun l => cmul P.[0].[l] D.[l].[j]) = (0, 0)).
Definition rpinv (m : nat) (D P J : list (list R)) : Prop :=
  mat_dims P m m /\ mat_dims D m m /\ mat_dims J (m - 1) m /\
  (forall i j, (i < m - 1)%nat -> (j < m)%nat -> J.[i].[j] = if (S i =? j)%nat then 1 else 0) /\
  (forall i j, (i < m - 1)%nat -> (j < m)%nat -> rsum m (fun l => P.[S i].[l] * D.[l].[j]) = J.[i].[j]) /\
  (forall j, (j < m)%nat -> rsum m (fun l => P.[0].[l] * D.[l].[j]) = 0).

Lemma cpinv_l m wr kk d : (1 <= m)%nat ->
  wp wr (fun w => length w = m /\ forall k, (k < m)%nat -> w.[k] = iR (kk k)) ->
  kk 0%nat = 0 -> (forall k, (1 <= k < m)%nat -> kk k <> 0) -> (1 <= d)%nat -> (Z.of_nat d < 2 ^ 31)%Z ->
  wp (f_diffmat m wr d) (fun D => wp (f_diffmat_pinv m wr d) (fun PJ => cpinv m D (fst PJ) (snd PJ))).
Proof.
  intros Hm Hw K0 K1 H1 H2.
  eapply wp_mono; [apply (f_diffmat_val m wr kk d); auto|]. intros D [HD ED].
  eapply wp_mono; [apply (f_diffmat_pinv_val m wr kk d); auto|]. intros [P J] ([HP EP] & HJ & EJ). cbn [fst snd] in *.
  split; [exact HP|]. split; [exact HD|]. split; [exact HJ|]. split; [exact EJ|]. split.
  - intros i j Hi Hj. rewrite EJ by auto. rewrite (csum_delta m (S i)); try lia.
    + rewrite EP, ED by lia. rewrite Nat.eqb_refl. change (S i =? 0)%nat with false. cbv iota.
      destruct (Nat.eqb_spec (S i) j). rewrite cdiv_inv; auto. apply cpow_nz, K1. lia.
      unfold cmul, c0; cbn. f_equal; ring.
    + intros k Hk Hne. rewrite EP by lia. destruct (Nat.eqb_spec (S i) k); [lia|]. unfold cmul, c0; cbn. f_equal; ring.
  - intros j Hj. rewrite (csum_delta m 0); try lia.
    + rewrite EP, ED by lia. cbn [Nat.eqb]. rewrite K0. destruct d; [lia|].
      destruct (Nat.eqb_spec 0 j); cbn [cpow]; unfold cmul, iR, c0; cbn; f_equal; ring.
    + intros k Hk Hne. rewrite EP by lia. destruct (Nat.eqb_spec 0 k); [lia|]. unfold cmul, c0; cbn. f_equal; ring.
Qed.

Lemma rpinv_l m wr kk : (1 <= m)%nat ->
  wp wr (fun w => length w = m /\ forall k, (k < m)%nat -> w.[k] = iR (kk k)) ->
  kk 0%nat = 0 -> (forall k, (1 <= k < m)%nat -> kk k <> 0) ->
  wp (f_laplacian m wr) (fun D => wp (f_laplacian_pinv m wr) (fun PJ => rpinv m D (fst PJ) (snd PJ))).
Proof.
  intros Hm Hw K0 K1.
  eapply wp_mono; [apply (f_laplacian_val m wr kk); auto|]. intros D [HD ED].
  eapply wp_mono; [apply (f_laplacian_pinv_val m wr kk); auto|]. intros [P J] ([HP EP] & HJ & EJ). cbn [fst snd] in *.
  split; [exact HP|]. split; [exact HD|]. split; [exact HJ|]. split; [exact EJ|]. split.
  - intros i j Hi Hj. rewrite EJ by auto. rewrite (rsum_delta m (S i)); try lia.
    + rewrite EP, ED by lia. rewrite Nat.eqb_refl. change (S i =? 0)%nat with false. cbv iota.
      destruct (Nat.eqb_spec (S i) j); [|ring]. field. apply K1. lia.
    + intros k Hk Hne. rewrite EP by lia. destruct (Nat.eqb_spec (S i) k); [lia|]. ring.
  - intros j Hj. rewrite (rsum_delta m 0); try lia.
    + rewrite EP, ED by lia. cbn [Nat.eqb]. rewrite K0. destruct (Nat.eqb_spec 0 j); ring.
    + intros k Hk Hne. rewrite EP by lia. destruct (Nat.eqb_spec 0 k); [lia|]. ring.
Qed.

Lemma kap_0 n : kap n 0 = 0. Proof. unfold kap, npos. destruct (Nat.ltb_spec 0 ((n - 1) / 2 + 1)); auto. lia. Qed.
Lemma INR_nz k : (1 <= k)%nat -> INR k <> 0. Proof. intros. apply not_0_INR. lia. Qed.

Theorem C24_r2c_pinv : forall n f, r2c_new n = Ok f ->
  (forall d, (1 <= d)%nat -> (Z.of_nat d < 2 ^ 31)%Z ->
    wp (r2c_diffmat f d) (fun D => wp (r2c_diffmat_pinv f d) (fun PJ => cpinv (n / 2 + 1) D (fst PJ) (snd PJ)))) /\
  wp (r2c_laplacian f) (fun D => wp (r2c_laplacian_pinv f) (fun PJ => rpinv (n / 2 + 1) D (fst PJ) (snd PJ))).
Proof.
  intros n f Hf. apply r2c_new_inv in Hf as [Hn ->]. split.
  - intros. apply (cpinv_l _ _ INR); auto. cbn [r2c_len_spec r_m]; lia. apply r2c_wavenumber_val. intros; apply INR_nz; lia.
  - apply (rpinv_l _ _ INR); auto. cbn [r2c_len_spec r_m]; lia. apply r2c_wavenumber_val. intros; apply INR_nz; lia.
Qed.
Print Assumptions C24_r2c_pinv.

Theorem C24_c2c_pinv : forall n f, c2c_new n = Ok f ->
  (forall d, (1 <= d)%nat -> (Z.of_nat d < 2 ^ 31)%Z ->
    wp (c2c_diffmat f d) (fun D => wp (c2c_diffmat_pinv f d) (fun PJ => cpinv n D (fst PJ) (snd PJ)))) /\
  wp (c2c_laplacian f) (fun D => wp (c2c_laplacian_pinv f) (fun PJ => rpinv n D (fst PJ) (snd PJ))).
Proof.
  intros n f Hf. apply c2c_new_inv in Hf as [Hn ->]. split.
  - intros. apply (cpinv_l _ _ (kap n)); auto. apply c2c_wavenumber_val; auto. apply kap_0. intros; apply kap_nz; auto.
  - apply (rpinv_l _ _ (kap n)); auto. apply c2c_wavenumber_val; auto. apply kap_0. intros; apply kap_nz; auto.
Qed.
Print Assumptions C24_c2c_pinv.

(** ** C47: the transforms evaluate/interpolate trigonometric series.
    [rinterp n c x] = (1/n) sum_{k<=n/2} w_k Re(c_k e^{ikx}), w_0 = 1, w_{n/2} = 1
    (n even), other w_k = 2.  [grid n j] = 2 pi j/n. *)
Theorem C47_r2c_backward_evaluates : forall n f (c : list CR) o,
  r2c_new n = Ok f -> length c = (n / 2 + 1)%nat -> length o = n ->
  wp (r2c_backward f c o) (fun y => length y = n /\
    forall j, (j < n)%nat -> y.[j] = rinterp n c (2 * PI * INR j / INR n)).
Proof.
  intros n f c o Hf Hc Ho. apply r2c_new_inv in Hf as [Hn ->].
  rewrite r2c_backward_val by auto. cbn [wp]. split. rewrite map_length, fft_length; auto.
  intros. apply rinterp_backward; auto.
Qed.
Print Assumptions C47_r2c_backward_evaluates.

(** Differentiating in spectral space and transforming back gives the derivative at the grid points. *)
Theorem C47_r2c_backward_of_gradient : forall n f (c o : list CR) o2 d,
  r2c_new n = Ok f -> length c = (n / 2 + 1)%nat -> length o = (n / 2 + 1)%nat -> length o2 = n ->
  exists g, nth_deriv d (rinterp n c) g /\
  wp (let* b := r2c_gradient f c o d in r2c_backward f b o2) (fun y => length y = n /\
    forall j, (j < n)%nat -> y.[j] = g (2 * PI * INR j / INR n)).
Proof.
  intros n f c o o2 d Hf Hc Ho Ho2. apply r2c_new_inv in Hf as [Hn ->].
  pose proof (r2c_gradient_val n c o d Hc Ho) as W. apply wp_Ok in W as (b & -> & L & V). cbn [bind].
  exists (rinterp n b). split. apply rinterp_deriv; auto.
  rewrite r2c_backward_val by auto. cbn [wp]. split. rewrite map_length, fft_length; auto.
  intros. apply rinterp_backward; auto.
Qed.
Print Assumptions C47_r2c_backward_of_gradient.

(** c2c: value at the grid points of (1/n) sum_k c_k e^{i freq_k x}. *)
Lemma freq_cis n k j : (1 <= n)%nat -> cis (freq n k * (2 * PI * INR j / INR n)) = E n (Z.of_nat k * Z.of_nat j).
Proof.
  intros Hn. unfold freq. destruct (k <? n_nonneg n)%nat.
  - symmetry. apply E_cis; auto.
  - rewrite <- (E_mod n _ (- Z.of_nat j)) by lia. unfold E, cis, arg.
    rewrite plus_IZR, !mult_IZR, opp_IZR, <- !INR_IZR_INZ.
    assert (INR n <> 0) by (apply not_0_INR; lia).
    replace ((INR k - INR n) * (2 * PI * INR j / INR n)) with (2 * PI * (INR k * INR j + INR n * - INR j) / INR n) by (field; auto). auto.
Qed.

Theorem C47_c2c_backward_evaluates : forall n f (c o : list CR),
  c2c_new n = Ok f -> length c = n -> length o = n ->
  wp (c2c_backward f c o) (fun y => length y = n /\
    forall j, (j < n)%nat -> cmul (INR n, 0) y.[j] = fseries (freq n) c (2 * PI * INR j / INR n)).
Proof.
  intros n f c o Hf Hc Ho. apply c2c_new_inv in Hf as [Hn ->].
  rewrite c2c_backward_val by auto. cbn [wp]. split. apply fft_length.
  intros j Hj. rewrite fft_at by auto. rewrite <- csum_scal_l. unfold fseries. rewrite Hc. apply csum_ext.
  intros k Hk. rewrite freq_cis by auto. rewrite at_map_c by lia. unfold sgn.
  rewrite <- (sc_inv n c.[k]) at 2 by auto. unfold sc.
  generalize (E n (Z.of_nat k * Z.of_nat j)). intros e. destruct c.[k], e. unfold cmul; cbn. f_equal; ring.
Qed.
Print Assumptions C47_c2c_backward_evaluates.

(** forward gives the coefficients of the interpolating series. *)
Theorem C47_c2c_forward_interpolates : forall n f (x o : list CR),
  c2c_new n = Ok f -> length x = n -> length o = n ->
  wp (c2c_forward f x o) (fun c => length c = n /\
    (forall j, (j < n)%nat -> fseries (freq n) c (2 * PI * INR j / INR n) = cmul (INR n, 0) x.[j]) /\
    (forall b, length b = n ->
       (forall j, (j < n)%nat -> fseries (freq n) b (2 * PI * INR j / INR n) = cmul (INR n, 0) x.[j]) -> b = c)).
Proof.
  intros n f x o Hf Hx Ho. pose proof Hf as Hf'. apply c2c_new_inv in Hf as [Hn ->].
  rewrite c2c_forward_val by auto. cbn [wp].
  assert (Ev : forall c, length c = n -> forall j, (j < n)%nat ->
    cmul (INR n, 0) (fft true n (map (sc n) c)).[j] = fseries (freq n) c (2 * PI * INR j / INR n)).
  { intros c Lc j Hj. pose proof (C47_c2c_backward_evaluates n _ c o Hf' Lc Ho) as W.
    rewrite c2c_backward_val in W by auto. apply W; auto. }
  split. apply fft_length. split.
  - intros j Hj. rewrite <- Ev by (auto; apply fft_length). rewrite c2c_fb; auto.
  - intros b Lb Hb. rewrite <- (c2c_bf n b) by auto. f_equal.
    apply list_ext. rewrite fft_length; auto. rewrite fft_length. intros j Hj.
    rewrite <- (sc_inv n x.[j]) by auto. rewrite <- Hb by auto. rewrite <- Ev by auto. rewrite sc_inv; auto.
Qed.
Print Assumptions C47_c2c_forward_interpolates.

Theorem C47_r2c_forward_interpolates : forall n f (x : list R) o,
  r2c_new n = Ok f -> length x = n -> length o = (n / 2 + 1)%nat ->
  wp (r2c_forward f x o) (fun c => length c = (n / 2 + 1)%nat /\
    forall j, (j < n)%nat -> rinterp n c (2 * PI * INR j / INR n) = x.[j]).
Proof.
  intros n f x o Hf Hx Ho. apply r2c_new_inv in Hf as [Hn ->].
  rewrite r2c_forward_val by auto. cbn [wp]. pose proof (div2_lt1 n Hn).
  assert (L : length (firstn (n / 2 + 1) (fft false n (map (fun a : R => (a, 0)) x))) = (n / 2 + 1)%nat)
    by (rewrite firstn_length, fft_length; lia).
  split; auto. intros j Hj. change (2 * PI * INR j / INR n) with (grid n j).
  rewrite <- rinterp_backward by auto. rewrite r2c_fb; auto.
Qed.
Print Assumptions C47_r2c_forward_interpolates.

(** ** C43, exact arithmetic: coords() is the grid 2 pi j/n, j < n. *)
Lemma ceil_INR n : nceil (A := R) (INR n) = n.
Proof.
  unfold nceil, ceil_R, Zceil_R. rewrite INR_IZR_INZ.
  assert (up (- IZR (Z.of_nat n)) = (- Z.of_nat n + 1)%Z) as ->.
  { symmetry. apply tech_up; rewrite plus_IZR, opp_IZR; lra. }
  replace (1 - (- Z.of_nat n + 1))%Z with (Z.of_nat n) by ring. apply Nat2Z.id.
Qed.

Theorem C43_exact_coords : forall n, 
  (forall f, r2c_new n = Ok f -> length (r2c_coords (A := R) f) = n /\
     forall j, (j < n)%nat -> (r2c_coords (A := R) f).[j] = 2 * PI * INR j / INR n) /\
  (forall f, c2c_new n = Ok f -> length (c2c_coords (A := R) f) = n /\
     forall j, (j < n)%nat -> (c2c_coords (A := R) f).[j] = 2 * PI * INR j / INR n).
Proof.
  assert (G : forall n, (1 <= n)%nat -> length (fourier_nodes (A := R) n) = n /\
     forall j, (j < n)%nat -> (fourier_nodes (A := R) n).[j] = 2 * PI * INR j / INR n).
  { intros n Hn. unfold fourier_nodes, nodes_with, nd_range. cbn [n0 nmul nofZ tpi ndiv nsub num_R trig_R nadd].
    unfold nofN. cbn [nofZ num_R].
    assert (INR n <> 0) by (apply not_0_INR; lia). pose proof PI_neq0.
    replace ((2 * PI - 0) / (2 * PI / IZR (Z.of_nat n))) with (INR n).
    2:{ rewrite <- INR_IZR_INZ. field. auto. }
    rewrite ceil_INR. rewrite map_length, seq_length. split; auto.
    intros j Hj. etransitivity; [apply at_map_seq; auto|]. cbn [Nat.add]. rewrite <- !INR_IZR_INZ. field. auto. }
  intros n. split; intros f Hf.
  - apply r2c_new_inv in Hf as [Hn ->]. apply G; auto.
  - apply c2c_new_inv in Hf as [Hn ->]. apply G; auto.
Qed.
Print Assumptions C43_exact_coords.

(** ** The hypotheses are met: n = 6 and n = 5. *)
Example fourier_bases_exist :
  r2c_new 6 = Ok (mk_r2c 6 4) /\ r2c_new 5 = Ok (mk_r2c 5 3) /\ c2c_new 5 = Ok (mk_c2c 5 5) /\
  n_nonneg 5 = 3%nat /\ n_nonneg 6 = 3%nat.
Proof. repeat split. Qed.
