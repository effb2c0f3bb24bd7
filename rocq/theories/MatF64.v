(** Entries of matrices in f64: integers converted, quotients, halves and doubles. *)
From Coq Require Import List Arith Lia Bool ZArith Reals Lra.
From Flocq Require Import Core BinarySingleNaN Relative Mult_error.
From Verif Require Import Base Num Fourier FourierF64 Rounding MatRel.
Import ListNotations.
Local Open Scope R_scope.
#[local] Instance P53m : Prec_gt_0 53 := eq_refl.
#[local] Instance L53m : Prec_lt_emax 53 1024 := eq_refl.

Notation u64 := (bpow radix2 (-53)).
Notation rnd64 := (ieee_rnd 53 1024).

Lemma u64_eq : u64 = / IZR (2 ^ 53).
Proof. reflexivity. Qed.
Lemma u64_small : 0 < u64 <= / 1000000000.
Proof. rewrite u64_eq. cbv [Z.pow Z.pow_pos Pos.iter Z.mul Pos.mul]. lra. Qed.

Lemma rnd64_rel x : bpow radix2 (-1000) <= Rabs x -> Rabs (rnd64 x - x) <= u64 * Rabs x.
Proof.
  intros H. unfold ieee_rnd. eapply Rle_trans. apply (relative_error_N_FLT radix2 (3 - 1024 - 53) 53 eq_refl (fun z => negb (Z.even z)) x).
  eapply Rle_trans. 2: exact H. apply bpow_le. lia.
  replace (/ 2 * bpow radix2 (- (53) + 1)) with u64. lra.
  rewrite bpow_plus. change (bpow radix2 1) with 2. change (- (53))%Z with (-53)%Z. lra.
Qed.
Lemma rnd64_0 : rnd64 0 = 0.
Proof. apply round_0; auto with typeclass_instances. Qed.

(** [z as f64], also for integers with more than 53 bits *)
Lemma nofZ_rnd z : (Z.abs z <= 2 ^ 64)%Z ->
  f64_fin (nofZ z) /\ f64_val (nofZ z) = rnd64 (IZR z) /\ Rabs (f64_val (nofZ z) - IZR z) <= u64 * Rabs (IZR z).
Proof.
  intros Hz. assert (E : Rabs (rnd64 (IZR z) - IZR z) <= u64 * Rabs (IZR z)).
  { destruct (Z.eq_dec z 0) as [->|Nz]. rewrite rnd64_0, Rminus_0_r, Rabs_R0. lra.
    apply rnd64_rel. apply Rle_trans with 1. change 1 with (bpow radix2 0). apply bpow_le. lia.
    rewrite <- abs_IZR. apply IZR_le. lia. }
  assert (B : Rabs (rnd64 (IZR z)) < bpow radix2 1024).
  { assert (Hz' : Rabs (IZR z) <= bpow radix2 64).
    { rewrite <- abs_IZR. change (bpow radix2 64) with (IZR (2 ^ 64)). apply IZR_le. exact Hz. }
    pose proof u64_small.
    assert (Rabs (rnd64 (IZR z)) <= 2 * Rabs (IZR z)).
    { replace (rnd64 (IZR z)) with ((rnd64 (IZR z) - IZR z) + IZR z) by ring.
      eapply Rle_trans. apply Rabs_triang. pose proof (Rabs_pos (IZR z)). nra. }
    apply Rle_lt_trans with (bpow radix2 65).
    replace (bpow radix2 65) with (2 * bpow radix2 64). lra. change 2 with (bpow radix2 1). rewrite <- bpow_plus. reflexivity.
    apply bpow_lt. lia. }
  pose proof (binary_normalize_correct 53 1024 eq_refl eq_refl mode_NE z 0 false) as H. cbv zeta in H.
  assert (F : F2R (Float radix2 z 0) = IZR z) by (unfold F2R; cbn; ring). rewrite F in H.
  change (round radix2 (SpecFloat.fexp 53 1024) (round_mode mode_NE) (IZR z)) with (rnd64 (IZR z)) in H.
  rewrite Rlt_bool_true in H by exact B. destruct H as (H1 & H2 & _).
  split. exact H2. split. exact H1. change (f64_val (nofZ z)) with (B2R (binary_normalize 53 1024 eq_refl eq_refl mode_NE z 0 false)). rewrite H1. exact E.
Qed.

Lemma Rabs_eq_0 x : Rabs x = 0 -> x = 0.
Proof. intros H. destruct (Req_dec x 0); auto. apply Rabs_no_R0 in H0. lra. Qed.

Lemma Rabs_div x y : y <> 0 -> Rabs (x / y) = Rabs x / Rabs y.
Proof. intros H. unfold Rdiv. rewrite Rabs_mult, Rabs_inv. reflexivity. Qed.

Lemma val_format (x : f64) : generic_format radix2 (FLT_exp (3 - 1024 - 53) 53) (f64_val x).
Proof. apply generic_format_B2R. Qed.

(** Scaling by a power of two is exact away from the ends of the range. *)
Lemma scale_exact (x : f64) e : (-500 <= e <= 500)%Z -> f64_val x = 0 \/ bpow radix2 (-500) <= Rabs (f64_val x) ->
  rnd64 (f64_val x * bpow radix2 e) = f64_val x * bpow radix2 e.
Proof.
  intros He Hx. apply (format_rnd 53 1024). reflexivity. destruct Hx as [Hx|Hx].
  - rewrite Hx, Rmult_0_l. apply generic_format_0.
  - apply mult_bpow_exact_FLT. apply val_format. change (-500)%Z with (-499 - 1)%Z in Hx. apply mag_ge_bpow in Hx. lia.
Qed.

(** An entry: finite, within 3 * 2^-53 of the exact one, relatively; and the
    exact one is 0 or of moderate size. *)
Definition moderate (x : R) : Prop := x = 0 \/ bpow radix2 (-120) <= Rabs x <= bpow radix2 120.
Definition ent (a : f64) (x : R) : Prop :=
  f64_fin a /\ Rabs (f64_val a - x) <= 3 * u64 * Rabs x /\ moderate x.

Lemma ent_0 : ent n0 0.
Proof. split; [reflexivity|]. split. cbn. rewrite Rminus_0_r, Rabs_R0. lra. left; auto. Qed.

Lemma ent_size a x : ent a x -> f64_val a = 0 \/ bpow radix2 (-121) <= Rabs (f64_val a) <= bpow radix2 121.
Proof.
  intros (F & E & M). pose proof u64_small. destruct M as [->|[M1 M2]].
  - left. rewrite Rabs_R0, Rmult_0_r, Rminus_0_r in E. apply Rabs_eq_0. pose proof (Rabs_pos (f64_val a)). lra.
  - right. assert (Rabs x <= Rabs (f64_val a) + Rabs (f64_val a - x)).
    { replace x with (f64_val a - (f64_val a - x)) at 1 by ring. unfold Rminus at 1; eapply Rle_trans; [apply Rabs_triang|rewrite Rabs_Ropp; lra]. }
    assert (Rabs (f64_val a) <= Rabs x + Rabs (f64_val a - x)).
    { replace (f64_val a) with ((f64_val a - x) + x) at 1 by ring. eapply Rle_trans; [apply Rabs_triang|lra]. }
    assert (bpow radix2 (-120) = 2 * bpow radix2 (-121)) by (change 2 with (bpow radix2 1); rewrite <- bpow_plus; reflexivity).
    assert (bpow radix2 121 = 2 * bpow radix2 120) by (change 2 with (bpow radix2 1); rewrite <- bpow_plus; reflexivity).
    pose proof (Rabs_pos x). nra.
Qed.

Lemma ent_scale a x (b : f64) e : ent a x -> f64_fin b -> f64_val b = bpow radix2 e -> (-2 <= e <= 2)%Z ->
  moderate (x * bpow radix2 e) -> ent (nmul a b) (x * bpow radix2 e).
Proof.
  intros Ha Fb Vb He M. pose proof f64_float_arith as FA. pose proof (ent_size a x Ha) as S. destruct Ha as (F & E & _).
  assert (X : rnd64 (f64_val a * f64_val b) = f64_val a * f64_val b).
  { rewrite Vb. apply scale_exact. lia. destruct S as [S|[S _]]; auto. right. eapply Rle_trans. 2: exact S. apply bpow_le. lia. }
  assert (Fab : f64_fin (nmul a b)).
  { apply (fa_mulF _ _ _ _ _ _ _ _ FA); auto. rewrite X, Vb. unfold ieee_inr. rewrite Rabs_mult, (Rabs_pos_eq (bpow radix2 e)) by apply bpow_ge_0.
    destruct S as [S|[_ S]]. rewrite S, Rabs_R0, Rmult_0_l. apply bpow_gt_0.
    apply Rle_lt_trans with (bpow radix2 121 * bpow radix2 2).
    apply Rmult_le_compat; auto using Rabs_pos, bpow_ge_0. apply bpow_le; lia. rewrite <- bpow_plus. apply bpow_lt. lia. }
  split; auto. split; auto. destruct (fa_mul _ _ _ _ _ _ _ _ FA a b Fab) as (_ & _ & V). rewrite V, X, Vb.
  replace (f64_val a * bpow radix2 e - x * bpow radix2 e) with ((f64_val a - x) * bpow radix2 e) by ring.
  rewrite !Rabs_mult. pose proof (Rabs_pos (bpow radix2 e)). nra.
Qed.

(** A quotient with one operand exact and the other within 2^-53. *)
Lemma ent_quot (a b : f64) (x y : R) : f64_fin a -> f64_fin b -> y <> 0 ->
  (f64_val a = x /\ Rabs (f64_val b - y) <= u64 * Rabs y) \/ (Rabs (f64_val a - x) <= u64 * Rabs x /\ f64_val b = y) ->
  moderate (x / y) -> ent (ndiv a b) (x / y).
Proof.
  intros Fa Fb Hy H M. pose proof u64_small as Hu. pose proof f64_float_arith as FA. pose proof (Rabs_pos_lt y Hy) as Py. pose proof (Rabs_pos x) as Px.
  assert (Vb : f64_val b <> 0).
  { intros Z. destruct H as [[_ H]|[_ H]]; [|congruence]. rewrite Z, Rminus_0_l, Rabs_Ropp in H. nra. }
  assert (Q : Rabs (f64_val a / f64_val b - x / y) <= (u64 + 2 * u64 * u64) * Rabs (x / y)).
  { destruct H as [[Va H]|[H Vb']].
    - rewrite Va. pose proof (Rabs_pos_lt _ Vb) as Pb.
      replace (x / f64_val b - x / y) with ((x / y) * ((y - f64_val b) / f64_val b)) by (field; auto).
      rewrite Rabs_mult, Rmult_comm. apply Rmult_le_compat_r. apply Rabs_pos.
      rewrite Rabs_div by auto. rewrite Rabs_minus_sym. 
      apply Rmult_le_reg_r with (Rabs (f64_val b)); auto. unfold Rdiv. rewrite Rmult_assoc, Rinv_l, Rmult_1_r by lra.
      assert (Rabs y - u64 * Rabs y <= Rabs (f64_val b)).
      { replace y with (f64_val b - (f64_val b - y)) at 1 by ring. unfold Rminus at 2.
        assert (Rabs (f64_val b - (f64_val b - y)) <= Rabs (f64_val b) + Rabs (f64_val b - y)) by
          (unfold Rminus at 1; eapply Rle_trans; [apply Rabs_triang|rewrite Rabs_Ropp; lra]). unfold Rminus in *. lra. }
      eapply Rle_trans. exact H.
      apply Rle_trans with ((u64 + 2 * u64 * u64) * (Rabs y - u64 * Rabs y)). 
      + replace ((u64 + 2 * u64 * u64) * (Rabs y - u64 * Rabs y)) with (u64 * Rabs y + u64 * u64 * (1 - 2 * u64) * Rabs y) by ring.
        assert (0 <= u64 * u64 * (1 - 2 * u64) * Rabs y) by (repeat apply Rmult_le_pos; lra). lra.
      + apply Rmult_le_compat_l; auto. nra.
    - rewrite Vb'. replace (f64_val a / y - x / y) with ((f64_val a - x) / y) by (field; auto).
      rewrite !Rabs_div by auto. unfold Rdiv. rewrite <- Rmult_assoc. apply Rmult_le_compat_r. left; apply Rinv_0_lt_compat; auto. nra. }
  assert (QB : Rabs (f64_val a / f64_val b) <= 2 * Rabs (x / y) /\ Rabs (x / y) <= 2 * Rabs (f64_val a / f64_val b)).
  { pose proof (Rabs_pos (x / y)).
    assert ((u64 + 2 * u64 * u64) * Rabs (x / y) <= / 2 * Rabs (x / y)) by (apply Rmult_le_compat_r; auto; nra).
    split.
    - replace (f64_val a / f64_val b) with ((f64_val a / f64_val b - x / y) + x / y) by ring. eapply Rle_trans; [apply Rabs_triang|]. lra.
    - assert (Rabs (x / y) <= Rabs (f64_val a / f64_val b) + Rabs (f64_val a / f64_val b - x / y)).
      { replace (x / y) with (f64_val a / f64_val b - (f64_val a / f64_val b - x / y)) at 1 by ring. unfold Rminus at 1.
        eapply Rle_trans; [apply Rabs_triang|rewrite Rabs_Ropp; lra]. } lra. }
  assert (E : Rabs (rnd64 (f64_val a / f64_val b) - x / y) <= 3 * u64 * Rabs (x / y) /\ Rabs (rnd64 (f64_val a / f64_val b)) <= 4 * Rabs (x / y)).
  { destruct M as [M|[M1 M2]].
    - rewrite M, Rabs_R0 in *. assert (Z : f64_val a / f64_val b = 0).
      { apply Rabs_eq_0. pose proof (Rabs_pos (f64_val a / f64_val b)). lra. }
      rewrite Z, rnd64_0, Rminus_0_r, Rabs_R0. lra.
    - assert (X : Rabs (rnd64 (f64_val a / f64_val b) - f64_val a / f64_val b) <= u64 * Rabs (f64_val a / f64_val b)).
      { apply rnd64_rel. assert (bpow radix2 (-120) = 2 * bpow radix2 (-121)) by (change 2 with (bpow radix2 1); rewrite <- bpow_plus; reflexivity).
        apply Rle_trans with (bpow radix2 (-121)). apply bpow_le; lia. lra. }
      set (q := f64_val a / f64_val b) in *. set (t := x / y) in *. pose proof (Rabs_pos t).
      assert (Y : Rabs q <= (1 + u64 + 2 * u64 * u64) * Rabs t).
      { replace q with ((q - t) + t) by ring. eapply Rle_trans; [apply Rabs_triang|]. lra. }
      assert (W : Rabs (rnd64 q - t) <= 3 * u64 * Rabs t).
      { replace (rnd64 q - t) with ((rnd64 q - q) + (q - t)) by ring. eapply Rle_trans; [apply Rabs_triang|].
        apply Rle_trans with (u64 * ((1 + u64 + 2 * u64 * u64) * Rabs t) + (u64 + 2 * u64 * u64) * Rabs t).
        apply Rplus_le_compat; auto. eapply Rle_trans. exact X. apply Rmult_le_compat_l; lra.
        replace (u64 * ((1 + u64 + 2 * u64 * u64) * Rabs t) + (u64 + 2 * u64 * u64) * Rabs t)
          with ((u64 * (2 + 3 * u64 + 2 * (u64 * u64))) * Rabs t) by ring.
        apply Rmult_le_compat_r; auto. rewrite (Rmult_comm 3). apply Rmult_le_compat_l. lra. nra. }
      split; auto. replace (rnd64 q) with ((rnd64 q - t) + t) by ring. eapply Rle_trans; [apply Rabs_triang|]. nra. }
  destruct E as [E1 E2].
  assert (Fq : f64_fin (ndiv a b)).
  { apply (fa_divF _ _ _ _ _ _ _ _ FA); auto. unfold ieee_inr. eapply Rle_lt_trans. exact E2.
    apply Rle_lt_trans with (bpow radix2 2 * bpow radix2 120).
    - change (bpow radix2 2) with 4. destruct M as [M|[_ M]]. rewrite M, Rabs_R0. pose proof (bpow_ge_0 radix2 120). lra. lra.
    - rewrite <- bpow_plus. apply bpow_lt. lia. }
  split; auto. destruct (fa_div _ _ _ _ _ _ _ _ FA a b Fq Fb Vb) as [_ V]. rewrite V. auto.
Qed.

Lemma moderate_quot a b : (Z.abs a <= 2 ^ 64)%Z -> (0 < Z.abs b <= 2 ^ 65)%Z -> moderate (IZR a / IZR b).
Proof.
  intros Ha Hb. destruct (Z.eq_dec a 0) as [->|Na]. left. unfold Rdiv. ring. right.
  assert (Bz : IZR b <> 0) by (apply not_0_IZR; lia). rewrite Rabs_div by auto. rewrite <- !abs_IZR.
  assert (1 <= IZR (Z.abs a) <= IZR (2 ^ 64)) by (split; apply IZR_le; lia).
  assert (1 <= IZR (Z.abs b) <= IZR (2 ^ 65)) by (split; apply IZR_le; lia).
  split.
  - apply Rle_trans with (/ IZR (2 ^ 65)). change (/ IZR (2 ^ 65)) with (bpow radix2 (-65)). apply bpow_le; lia.
    unfold Rdiv. rewrite <- (Rmult_1_l (/ IZR (2 ^ 65))). apply Rmult_le_compat; try lra.
    all: first [apply Rinv_le; lra | apply Rlt_le, Rinv_0_lt_compat; lra].
  - apply Rle_trans with (IZR (2 ^ 64)). 2: change (IZR (2 ^ 64)) with (bpow radix2 64); apply bpow_le; lia.
    unfold Rdiv. rewrite <- (Rmult_1_r (IZR (2 ^ 64))). apply Rmult_le_compat; try lra.
    apply Rlt_le, Rinv_0_lt_compat; lra. rewrite <- Rinv_1. apply Rinv_le; lra.
Qed.

Lemma ent_ints a b : (Z.abs a <= 2 ^ 64)%Z -> (0 < Z.abs b <= 2 ^ 64)%Z -> (Z.abs a <= 2 ^ 53 \/ Z.abs b <= 2 ^ 53)%Z ->
  ent (ndiv (nofZ a) (nofZ b)) (ndiv (nofZ a) (nofZ b)).
Proof.
  intros Ha Hb H. destruct (nofZ_rnd a Ha) as (Fa & _ & Ea). destruct (nofZ_rnd b ltac:(lia)) as (Fb & _ & Eb).
  change (ent (ndiv (nofZ a) (nofZ b)) (IZR a / IZR b)).
  apply ent_quot; auto. apply not_0_IZR; lia. 2: apply moderate_quot; lia.
  destruct H as [H|H]; [left|right]; destruct (fa_int _ _ _ _ _ _ _ _ f64_float_arith _ H) as [_ V]; auto.
Qed.
