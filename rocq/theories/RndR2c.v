(** Rounding errors of the real-to-complex transforms on top of accurate
    libraries (C55). *)
From Coq Require Import List Arith ZArith Reals Bool Lra Lia.
From Verif Require Import Base Num Linalg LinalgProofs StencilProofs Cheb ChebGrad Fourier FourierFacts FourierProofs CompoProofs ExtLib Rounding RndTdma RndDirichlet RndCheb RndFft LibAcc PropRound.
Import ListNotations.
Local Open Scope R_scope.

(** ** The exact transforms as functions of the values *)
Definition RF (n : nat) (f : nat -> R) (k : nat) : CR := Dft n false (fun j => (f j, 0)) k.
Definition RB (n : nat) (c : nat -> CR) (j : nat) : R :=
  rsum (n / 2 + 1) (fun k => FourierProofs.wgt n k * fst (cmul (c k) (E n (Z.of_nat k * Z.of_nat j)))) / INR n.
Definition clist (n : nat) (f : nat -> CR) : list CR := map f (seq 0 n).
Lemma clist_len n f : length (clist n f) = n.
Proof. unfold clist. rewrite map_length, seq_length. auto. Qed.
Lemma clist_at n f k : (k < n)%nat -> (clist n f).[k] = f k.
Proof. intros. unfold clist. etransitivity; [apply at_map_seq; auto|]. auto. Qed.
Lemma RB_ext n c d j : (forall k, (k < n / 2 + 1)%nat -> c k = d k) -> RB n c j = RB n d j.
Proof. intros H. unfold RB. f_equal. apply rsum_ext. intros k Hk. rewrite H by auto. auto. Qed.
Lemma RF_ext n f g k : (forall j, (j < n)%nat -> f j = g j) -> RF n f k = RF n g k.
Proof. intros H. apply Dft_ext. intros j Hj. rewrite H; auto. Qed.
Lemma RB_RF n f j : (1 <= n)%nat -> (j < n)%nat -> RB n (RF n f) j = f j.
Proof.
  intros Hn Hj. pose proof (div2_lt1 n Hn) as D. pose proof (r2c_fb n (tolist n f) Hn (tolist_len n f)) as H. rewrite <- (tolist_at n f j Hj), <- H at 1.
  rewrite r2c_backward_at; auto. 2: rewrite firstn_length, fft_length; lia.
  apply RB_ext. intros k Hk. rewrite at_firstn by auto. rewrite X_fft by lia. unfold X, RF, Dft. apply csum_ext. intros i Hi. rewrite tolist_at by auto. auto.
Qed.
Lemma RF_RB n c k : (1 <= n)%nat -> (k < n / 2 + 1)%nat -> RF n (RB n c) k = realed n k (c k).
Proof.
  intros Hn Hk. pose proof (div2_lt1 n Hn) as D. pose proof (r2c_bf n (clist (n / 2 + 1) c) Hn (clist_len _ _)) as H.
  assert (G : forall i, (firstn (n / 2 + 1) (fft false n (map (fun a : R => (a, 0)) (map fst (fft true n (hermitian n (rin n (clist (n / 2 + 1) c)))))))).[i] =
    (map (fun k : nat => realed n k (clist (n / 2 + 1) c).[k]) (seq 0 (n / 2 + 1)) : list CR).[i]) by (intros; rewrite H; auto). specialize (G k). clear H.
  rewrite at_firstn in G by auto. rewrite X_fft in G by lia.
  assert (R1 : (map (fun k : nat => realed n k (clist (n / 2 + 1) c).[k]) (seq 0 (n / 2 + 1)) : list CR).[k] = realed n k (c k)).
  { etransitivity; [apply at_map_seq; auto|]. cbn [Nat.add]. rewrite clist_at by auto. auto. }
  rewrite R1 in G. rewrite <- G. unfold X, RF, Dft. apply csum_ext. intros j Hj. rewrite r2c_backward_at; auto. 2: apply clist_len. cbn [sgn]. f_equal. f_equal.
  apply RB_ext. intros i Hi. rewrite clist_at; auto.
Qed.
Lemma RF_abs n f k : Rabs (fst (RF n f k)) <= rsum n (fun j => Rabs (f j)) /\ Rabs (snd (RF n f k)) <= rsum n (fun j => Rabs (f j)).
Proof.
  unfold RF. destruct (Dft_abs n false (fun j => (f j, 0)) k) as [A B].
  rewrite (rsum_ext n (fun j => cn (f j, 0)) (fun j => Rabs (f j))) in A, B by (intros; unfold cn; cbn [fst snd]; rewrite Rabs_R0; ring). auto.
Qed.
Lemma RF_sub n f g k : RF n (fun j => f j - g j) k = csub (RF n f k) (RF n g k).
Proof. unfold RF. rewrite <- Dft_sub. apply Dft_ext. intros. apply ceq; unc; ring. Qed.
Lemma fwgt_12 n k : 1 <= FourierProofs.wgt n k <= 2.
Proof. unfold FourierProofs.wgt. destruct (selfc n k); lra. Qed.
Lemma wE_abs n c k j : Rabs (FourierProofs.wgt n k * fst (cmul c (E n (Z.of_nat k * Z.of_nat j)))) <= 2 * cn c.
Proof.
  rewrite Rabs_mult. pose proof (fwgt_12 n k). rewrite (Rabs_pos_eq (FourierProofs.wgt n k)) by lra. apply Rmult_le_compat; try lra. apply Rabs_pos. apply cmulE_abs.
Qed.
Lemma RB_abs n c j : (1 <= n)%nat -> Rabs (RB n c j) <= 2 * rsum (n / 2 + 1) (fun k => cn (c k)) / INR n.
Proof.
  intros Hn. pose proof (INR_1 n Hn). assert (0 < / INR n) by (apply Rinv_0_lt_compat; lra). unfold RB, Rdiv. rewrite Rabs_mult, (Rabs_pos_eq (/ INR n)) by lra.
  apply Rmult_le_compat_r. lra. eapply Rle_trans; [apply rsum_abs|]. rewrite <- rsum_scal_l. apply rsum_le. intros. apply wE_abs.
Qed.
Lemma RB_sub n c d j : RB n (fun k => csub (c k) (d k)) j = RB n c j - RB n d j.
Proof.
  unfold RB, Rdiv. rewrite <- Rmult_minus_distr_r, <- rsum_sub. f_equal. apply rsum_ext. intros k Hk. destruct (c k), (d k), (E n (Z.of_nat k * Z.of_nat j)); unc; ring.
Qed.
(** the imaginary parts that backward drops do not matter *)
Lemma selfc_sin n k j : (1 <= n)%nat -> selfc n k = true -> snd (E n (Z.of_nat k * Z.of_nat j)) = 0.
Proof.
  intros Hn S. apply orb_true_iff in S as [S|S]; apply Nat.eqb_eq in S.
  - subst. simpl Z.mul. rewrite E_0. auto.
  - rewrite Z.mul_comm. apply E_half_sin; auto.
Qed.
Lemma RB_realed n c j : (1 <= n)%nat -> RB n (fun k => realed n k (c k)) j = RB n c j.
Proof.
  intros Hn. unfold RB. f_equal. apply rsum_ext. intros k Hk. f_equal. unfold realed. destruct (selfc n k) eqn:S; [|destruct (c k); auto].
  pose proof (selfc_sin n k j Hn S) as S2. destruct (E n (Z.of_nat k * Z.of_nat j)) as [e1 e2]. cbn [snd] in S2. subst e2. unc. ring.
Qed.

Section Fl.
Context {A : Type} {N : Num A} {Z0 : EqZ A} {u eta : R} {rnd : R -> R} {zmax : Z} {inr : R -> Prop} {fin : A -> Prop} {val : A -> R}
  (FA : float_arith N u eta rnd zmax inr fin val) (X : ext A).
Let RN := fa_rnd _ _ _ _ _ _ _ _ FA.
Notation cv := (cv (val := val)).
Notation V_ l := (fun j => val l.[j]).

Lemma r2c_acc n dl zt x : r2c_accurate X fin val n dl zt -> length x = n -> (forall k, (k < n / 2 + 1)%nat -> cfin fin (x_r2c X n x).[k]) ->
  length (x_r2c X n x) = (n / 2 + 1)%nat /\ (forall j, (j < n)%nat -> fin x.[j]) /\
  forall k, (k < n / 2 + 1)%nat -> let e := dl * rsum n (fun j => Rabs (val x.[j])) + zt in
    Rabs (fst (cv (x_r2c X n x) k) - fst (RF n (V_ x) k)) <= e /\ Rabs (snd (cv (x_r2c X n x) k) - snd (RF n (V_ x) k)) <= e.
Proof.
  intros H Lx F. destruct (H x Lx) as [L G]. split; auto. destruct (G F) as [G1 G2]. split; auto. intros k Hk e. specialize (G2 k Hk).
  assert (E1 : RF n (V_ x) k = (rsum n (fun j => val x.[j] * cos (2 * PI * INR (j * k) / INR n)), - rsum n (fun j => val x.[j] * sin (2 * PI * INR (j * k) / INR n)))).
  { unfold RF, Dft, csum. rewrite <- rsum_opp. f_equal; apply rsum_ext; intros j _; cbn [sgn]; rewrite E_opp, E_at; unc; ring. }
  rewrite E1. cbn [fst snd]. unfold RndFft.cv. cbn [fst snd]. fold e in G2. destruct G2 as [G2 G3]. split; auto.
  unfold Rminus. rewrite Ropp_involutive. exact G3.
Qed.
Lemma c2r_acc n dl zt (c : list (cplx A)) : c2r_accurate X fin val n dl zt -> length c = (n / 2 + 1)%nat -> (forall k, (k < n / 2 + 1)%nat -> selfc n k = true -> snd c.[k] = n0) -> (forall k, (k < n)%nat -> fin (x_c2r X n c).[k]) ->
  length (x_c2r X n c) = n /\ (forall j, (j < n / 2 + 1)%nat -> cfin fin c.[j]) /\
  forall j, (j < n)%nat -> (1 <= n)%nat -> Rabs (val (x_c2r X n c).[j] - INR n * RB n (cv c) j) <= dl * rsum (n / 2 + 1) (fun k => cn (cv c k)) + zt.
Proof.
  intros H Lx Hr F. destruct (H c Lx Hr) as [L G]. split; auto. destruct (G F) as [G1 G2]. split; auto. intros j Hj Hn. specialize (G2 j Hj).
  assert (E1 : INR n * RB n (cv c) j = rsum (n / 2 + 1) (fun k => c2r_weight n k * (val (fst c.[k]) * cos (2 * PI * INR (j * k) / INR n) - val (snd c.[k]) * sin (2 * PI * INR (j * k) / INR n)))).
  { unfold RB. pose proof (INR_1 n Hn). replace (INR n * (rsum (n / 2 + 1) (fun k => FourierProofs.wgt n k * fst (cmul (cv c k) (E n (Z.of_nat k * Z.of_nat j)))) / INR n))
      with (rsum (n / 2 + 1) (fun k => FourierProofs.wgt n k * fst (cmul (cv c k) (E n (Z.of_nat k * Z.of_nat j))))) by (field; lra).
    apply rsum_ext. intros k Hk. rewrite E_at, (Nat.mul_comm k j). unfold RndFft.cv, c2r_weight, FourierProofs.wgt, selfc. unc. auto. }
  rewrite E1. exact G2.
Qed.

Definition rbwd_e (n : nat) (dl zt S : R) : R := (11 / 10 * dl + 8 * u) * (S / INR n) + 6 * INR n * eta + zt.
Lemma r2c_backward_err n dl zt (c : list (cplx A)) (o y : list A) : (1 <= n)%nat -> (Z.of_nat n <= zmax)%Z -> INR n * eta <= u -> 0 <= dl <= 1 -> 0 <= zt ->
  c2r_accurate X fin val n dl zt -> length c = (n / 2 + 1)%nat -> length o = n -> r2c_backward_x X (mk_r2c n (n / 2 + 1)) c o = Ok y ->
  (forall k, (k < n)%nat -> fin y.[k]) ->
  length y = n /\ (forall k, (k < n / 2 + 1)%nat -> fin (fst c.[k]) /\ (selfc n k = false -> fin (snd c.[k]))) /\
  forall j, (j < n)%nat -> Rabs (val y.[j] - RB n (cv c) j) <= rbwd_e n dl zt (rsum (n / 2 + 1) (fun k => cn (cv c k))).
Proof.
  intros Hn Hz Hs Hd Hzt HE Lc Lo Ey Fy. destruct (r2c_backward_x_steps X n c o y Hn Lc Lo Ey) as (b & Lb & -> & Hb).
  assert (Hr : forall k, (k < n / 2 + 1)%nat -> selfc n k = true -> snd b.[k] = n0) by (intros k Hk Sk; rewrite (Hb k Hk), Sk; auto).
  destruct (c2r_acc n dl zt b HE Lb Hr Fy) as (Ly & Fb & HA). clear Hr. split; auto. set (m := (n / 2 + 1)%nat) in *.
  pose proof (rn_u _ _ _ RN) as [U U1]. pose proof (rn_eta _ _ _ RN) as H0. pose proof (INR_1 n Hn) as N1. assert (IP : 0 < / INR n) by (apply Rinv_0_lt_compat; lra).
  assert (EB : forall k, (k < m)%nat -> (fin (fst c.[k]) /\ (selfc n k = false -> fin (snd c.[k]))) /\ cn (csub (cv b k) (over n (realed n k (cv c k)))) <= 4 * u * (cn (cv c k) / INR n) + 2 * eta).
  { intros k Hk. specialize (Fb k Hk). unfold RndFft.cv. rewrite (Hb k Hk) in *. destruct Fb as [F1 F2]. cbn [fst snd] in *. destruct (bwd_mul_err FA n _ Hn Hz Hs F1) as [G1 E1].
    assert (P2 : 0 <= u * (Rabs (val (snd c.[k])) * / INR n)). { apply Rmult_le_pos; auto. apply Rmult_le_pos; [apply Rabs_pos|lra]. }
    unfold cn, realed. cbn [fst snd]. destruct (selfc n k).
    - split. split; auto; discriminate. unc. rewrite (proj2 (fa_0 _ _ _ _ _ _ _ _ FA)). replace (0 - 0 * / INR n) with 0 by ring. rewrite Rabs_R0, Rmult_plus_distr_r, Rmult_plus_distr_l. unfold Rdiv in E1. lra.
    - destruct (bwd_mul_err FA n _ Hn Hz Hs F2) as [G2 E2]. split. split; auto. unc. rewrite Rmult_plus_distr_r, Rmult_plus_distr_l. unfold Rdiv in *. lra. }
  split. { intros k Hk. apply EB; auto. }
  intros j Hj. specialize (HA j Hj Hn).
  set (S := rsum m (fun k => cn (cv c k))) in *. assert (S0 : 0 <= S) by (apply rsum_pos; intros; apply cn_pos). set (Q := S / INR n). assert (Q0 : 0 <= Q) by (unfold Q, Rdiv; apply Rmult_le_pos; lra).
  assert (MN : INR m <= INR n) by (apply le_INR; unfold m; apply div2_lt1; auto). assert (ME : INR m * eta <= INR n * eta) by (apply Rmult_le_compat_r; auto).
  assert (SD : rsum m (fun k => cn (csub (cv b k) (over n (realed n k (cv c k))))) <= 4 * u * Q + 2 * (INR n * eta)).
  { eapply Rle_trans. apply rsum_le. intros k Hk. apply (EB k Hk). rewrite rsum_add, rsum_const, rsum_scal_l. unfold Rdiv. rewrite rsum_scal_r. fold S. change (S * / INR n) with Q. lra. }
  assert (SB : rsum m (fun k => cn (cv b k)) <= (1 + 4 * u) * Q + 2 * (INR n * eta)).
  { eapply Rle_trans. apply rsum_le. intros k Hk. apply (cn_split _ (over n (realed n k (cv c k)))). rewrite rsum_add.
    assert (rsum m (fun k => cn (over n (realed n k (cv c k)))) <= Q).
    { unfold Q, Rdiv, S. rewrite <- rsum_scal_r. apply rsum_le. intros k Hk. rewrite cn_over by auto. unfold Rdiv. apply Rmult_le_compat_r. lra. unfold cn, realed. cbn [fst snd].
      pose proof (Rabs_pos (snd (cv c k))). destruct (selfc n k); rewrite ?Rabs_R0; lra. }
    lra. }
  assert (DD : INR n * RB n (cv b) j - RB n (cv c) j = INR n * RB n (fun k => csub (cv b k) (over n (realed n k (cv c k)))) j).
  { rewrite RB_sub. rewrite <- (RB_realed n (cv c) j Hn).
    replace (RB n (fun k => over n (realed n k (cv c k))) j) with (RB n (fun k => realed n k (cv c k)) j / INR n). field; lra.
    unfold RB, Rdiv. f_equal. rewrite <- rsum_scal_r. apply rsum_ext. intros k Hk. rewrite cmul_over. cbn [over fst]. unfold Rdiv. ring. }
  assert (B2 : Rabs (INR n * RB n (cv b) j - RB n (cv c) j) <= 2 * (4 * u * Q + 2 * (INR n * eta))).
  { rewrite DD, Rabs_mult, (Rabs_pos_eq (INR n)) by lra. eapply Rle_trans; [apply Rmult_le_compat_l; [lra|apply RB_abs; auto]|]. fold m.
    apply (Rmult_le_compat_l 2) in SD; [|lra]. eapply Rle_trans; [|exact SD]. right. field. lra. }
  apply (Rmult_le_compat_l dl) in SB; [|lra].
  assert (NN : 0 <= INR n * eta) by (apply Rmult_le_pos; lra).
  assert (DQ : 0 <= dl * Q) by (apply Rmult_le_pos; lra). assert (UD : u * (dl * Q) <= / 64 * (dl * Q)) by (apply Rmult_le_compat_r; lra).
  assert (DN : 0 <= dl * (INR n * eta) <= INR n * eta). { split. apply Rmult_le_pos; lra. rewrite <- (Rmult_1_l (INR n * eta)) at 2. apply Rmult_le_compat_r; lra. }
  replace (val (x_c2r X n b).[j] - RB n (cv c) j) with ((val (x_c2r X n b).[j] - INR n * RB n (cv b) j) + (INR n * RB n (cv b) j - RB n (cv c) j)) by ring.
  eapply Rle_trans; [apply Rabs_triang|]. unfold rbwd_e. fold Q. lra.
Qed.

Lemma r2c_bwd_fwd_err n dl zt (x o2 y : list A) (o1 c : list (cplx A)) : (1 <= n)%nat -> (Z.of_nat n <= zmax)%Z -> INR n * eta <= u -> 0 <= dl <= / 16 -> 0 <= zt ->
  r2c_accurate X fin val n dl zt -> c2r_accurate X fin val n dl zt -> length x = n -> length o1 = (n / 2 + 1)%nat -> length o2 = n ->
  r2c_forward_x X (mk_r2c n (n / 2 + 1)) x o1 = Ok c -> r2c_backward_x X (mk_r2c n (n / 2 + 1)) c o2 = Ok y -> (forall k, (k < n / 2 + 1)%nat -> cfin fin c.[k]) -> (forall k, (k < n)%nat -> fin y.[k]) ->
  (forall j, (j < n)%nat -> fin x.[j]) /\
  forall j, (j < n)%nat -> Rabs (val y.[j] - val x.[j]) <= (7 * dl + 17 * u) * rsum n (fun k => Rabs (val x.[k])) + 6 * INR n * eta + 6 * zt.
Proof.
  intros Hn Hz Hs Hd Hzt HF' HB' Lx L1 L2 Ec Ey Fc Fy. rewrite r2c_forward_x_eq in Ec by auto. injection Ec as <-. set (c := x_r2c X n x) in *.
  assert (Lc : length c = (n / 2 + 1)%nat) by (apply (HF' x Lx)).
  destruct (r2c_backward_err n dl zt c o2 y Hn Hz Hs ltac:(lra) Hzt HB' Lc L2 Ey Fy) as (_ & _ & HB).
  destruct (r2c_acc n dl zt x HF' Lx Fc) as (_ & Fx & HF). fold c in HF. split; auto. intros j Hj. specialize (HB j Hj). set (m := (n / 2 + 1)%nat) in *.
  pose proof (rn_u _ _ _ RN) as [U U1]. pose proof (rn_eta _ _ _ RN) as H0. pose proof (INR_1 n Hn) as N1. assert (IP : 0 < / INR n) by (apply Rinv_0_lt_compat; lra).
  assert (MN : INR m <= INR n) by (apply le_INR; unfold m; apply div2_lt1; auto). pose proof (pos_INR m) as M0.
  set (S := rsum n (fun k => Rabs (val x.[k]))) in *. assert (S0 : 0 <= S) by (apply rsum_pos; intros; apply Rabs_pos).
  assert (DS : 0 <= dl * S) by (apply Rmult_le_pos; lra). assert (NN : 0 <= INR n * eta) by (apply Rmult_le_pos; lra).
  cbv zeta in HF. set (ef := dl * S + zt) in *. assert (ef0 : 0 <= ef) by (unfold ef; lra).
  assert (CD : forall k, (k < m)%nat -> cn (csub (cv c k) (RF n (fun j => val x.[j]) k)) <= 2 * ef). { intros k Hk. apply cn_le2; apply (HF k Hk). }
  assert (MM : forall t, 0 <= t -> INR m * t / INR n <= t).
  { intros t Ht. apply Rmult_le_reg_r with (INR n). lra. unfold Rdiv. rewrite Rmult_assoc, Rinv_l, Rmult_1_r, (Rmult_comm t) by lra. apply Rmult_le_compat_r; auto. }
  assert (QC : rsum m (fun k => cn (cv c k)) / INR n <= 2 * S + 2 * ef).
  { apply Rle_trans with (INR m * (2 * S + 2 * ef) / INR n); [|apply MM; lra]. apply Rmult_le_compat_r. lra. rewrite <- rsum_const. apply rsum_le. intros k Hk.
    eapply Rle_trans; [apply (cn_split _ (RF n (fun j => val x.[j]) k))|]. specialize (CD k Hk). destruct (RF_abs n (fun j => val x.[j]) k) as [A1 A2]. cbv beta in A1, A2. fold S in A1, A2.
    pose proof (cn_le2 _ _ A1 A2). lra. }
  assert (BD : Rabs (RB n (cv c) j - val x.[j]) <= 4 * ef).
  { rewrite <- (RB_RF n (fun j => val x.[j]) j Hn Hj) at 1. rewrite <- RB_sub. eapply Rle_trans; [apply RB_abs; auto|]. fold m.
    apply Rle_trans with (INR m * (4 * ef) / INR n); [|apply MM; lra]. apply Rmult_le_compat_r. lra.
    replace (INR m * (4 * ef)) with (2 * (INR m * (2 * ef))) by ring. apply Rmult_le_compat_l. lra. rewrite <- rsum_const. apply rsum_le. exact CD. }
  unfold rbwd_e in HB. set (Qc := rsum m (fun k => cn (cv c k)) / INR n) in *.
  assert (M : (11 / 10 * dl + 8 * u) * Qc <= (11 / 10 * dl + 8 * u) * (2 * S + 2 * ef)) by (apply Rmult_le_compat_l; lra).
  assert (M2 : (11 / 10 * dl + 8 * u) * ef <= 194 / 1000 * ef) by (apply Rmult_le_compat_r; lra).
  assert (US : 0 <= u * S) by (apply Rmult_le_pos; lra).
  replace (val y.[j] - val x.[j]) with ((val y.[j] - RB n (cv c) j) + (RB n (cv c) j - val x.[j])) by ring. eapply Rle_trans; [apply Rabs_triang|]. unfold ef in *. lra.
Qed.

Lemma r2c_fwd_bwd_err n dl zt (c o2 d : list (cplx A)) (o1 y : list A) : (1 <= n)%nat -> (Z.of_nat n <= zmax)%Z -> INR n * eta <= u -> 0 <= dl <= / 16 -> 0 <= zt ->
  r2c_accurate X fin val n dl zt -> c2r_accurate X fin val n dl zt -> length c = (n / 2 + 1)%nat -> length o1 = n -> length o2 = (n / 2 + 1)%nat ->
  r2c_backward_x X (mk_r2c n (n / 2 + 1)) c o1 = Ok y -> r2c_forward_x X (mk_r2c n (n / 2 + 1)) y o2 = Ok d -> (forall k, (k < n / 2 + 1)%nat -> cfin fin d.[k]) ->
  forall k, (k < n / 2 + 1)%nat -> let e := (4 * dl + 9 * u) * rsum (n / 2 + 1) (fun k => cn (cv c k)) + 7 * (INR n * INR n) * eta + 3 * INR n * zt in
    Rabs (fst (cv d k) - fst (cv c k)) <= e /\ Rabs (snd (cv d k) - (if selfc n k then 0 else snd (cv c k))) <= e.
Proof.
  intros Hn Hz Hs Hd Hzt HF' HB' Lc L1 L2 Ey Ed Fd.
  assert (Ly : length y = n). { destruct (r2c_backward_x_steps X n c o1 y Hn Lc L1 Ey) as (b & Lb & -> & Hb). apply (HB' b Lb). intros k Hk Sk. rewrite (Hb k Hk). unfold selfc. rewrite Sk. auto. }
  rewrite r2c_forward_x_eq in Ed by auto. injection Ed as <-. set (d := x_r2c X n y) in *.
  destruct (r2c_acc n dl zt y HF' Ly Fd) as (_ & Fy & HF). fold d in HF.
  destruct (r2c_backward_err n dl zt c o1 y Hn Hz Hs ltac:(lra) Hzt HB' Lc L1 Ey Fy) as (_ & _ & HB).
  intros k Hk e. specialize (HF k Hk). cbv zeta in HF. set (m := (n / 2 + 1)%nat) in *.
  pose proof (rn_u _ _ _ RN) as [U U1]. pose proof (rn_eta _ _ _ RN) as H0. pose proof (INR_1 n Hn) as N1. assert (IP : 0 < / INR n) by (apply Rinv_0_lt_compat; lra).
  set (S := rsum m (fun k => cn (cv c k))) in *. assert (S0 : 0 <= S) by (apply rsum_pos; intros; apply cn_pos). set (eb := rbwd_e n dl zt S) in *.
  assert (SY : rsum n (fun j => Rabs (val y.[j])) <= INR n * (2 * S / INR n + eb)).
  { rewrite <- rsum_const. apply rsum_le. intros j Hj. specialize (HB j Hj). pose proof (RB_abs n (cv c) j Hn) as A1. fold m in A1. fold S in A1.
    replace (val y.[j]) with (RB n (cv c) j + (val y.[j] - RB n (cv c) j)) by ring. eapply Rle_trans; [apply Rabs_triang|]. lra. }
  assert (BD : Rabs (fst (RF n (fun j => val y.[j]) k) - fst (realed n k (cv c k))) <= INR n * eb /\ Rabs (snd (RF n (fun j => val y.[j]) k) - snd (realed n k (cv c k))) <= INR n * eb).
  { rewrite <- (RF_RB n (cv c) k Hn Hk). destruct (RF_abs n (fun j => val y.[j] - RB n (cv c) j) k) as [A1 A2]. rewrite RF_sub in A1, A2. cbn [csub fst snd nsub num_R] in A1, A2.
    assert (B : rsum n (fun j => Rabs (val y.[j] - RB n (cv c) j)) <= INR n * eb). { rewrite <- rsum_const. apply rsum_le. exact HB. }
    split; lra. }
  assert (NE : INR n * eb = (11 / 10 * dl + 8 * u) * S + 6 * (INR n * INR n * eta) + INR n * zt). { unfold eb, rbwd_e. field. lra. }
  assert (NY : INR n * (2 * S / INR n + eb) = 2 * S + INR n * eb) by (field; lra). rewrite NY in SY. apply (Rmult_le_compat_l dl) in SY; [|lra].
  assert (DS : 0 <= dl * S) by (apply Rmult_le_pos; lra). assert (US : 0 <= u * S) by (apply Rmult_le_pos; lra).
  assert (NN : 0 <= INR n * INR n * eta) by (repeat apply Rmult_le_pos; lra). assert (ZN : zt <= INR n * zt) by (rewrite <- (Rmult_1_l zt) at 1; apply Rmult_le_compat_r; lra).
  assert (NE0 : 0 <= INR n * eb) by (rewrite NE; lra).
  assert (M2 : dl * (INR n * eb) <= / 16 * (INR n * eb)) by (apply Rmult_le_compat_r; lra).
  assert (TOT : dl * (2 * S + INR n * eb) + zt + INR n * eb <= e) by (unfold e; rewrite NE in *; lra).
  destruct HF as [F1 F2], BD as [D1 D2]. change (if selfc n k then 0 else snd (cv c k)) with (snd (realed n k (cv c k))). change (fst (cv c k)) with (fst (realed n k (cv c k))). set (r := realed n k (cv c k)) in *. split.
  - replace (fst (cv d k) - fst r) with ((fst (cv d k) - fst (RF n (fun j => val y.[j]) k)) + (fst (RF n (fun j => val y.[j]) k) - fst r)) by ring. eapply Rle_trans; [apply Rabs_triang|]. lra.
  - replace (snd (cv d k) - snd r) with ((snd (cv d k) - snd (RF n (fun j => val y.[j]) k)) + (snd (RF n (fun j => val y.[j]) k) - snd r)) by ring. eapply Rle_trans; [apply Rabs_triang|]. lra.
Qed.
End Fl.
