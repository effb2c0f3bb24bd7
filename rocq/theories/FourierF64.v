(** FourierF64: the Fourier grid in IEEE binary64 arithmetic (Flocq). *)
From Coq Require Import List Arith ZArith Reals Bool Lra Lia.
From Flocq Require Import Core BinarySingleNaN Relative.
From Verif Require Import Base Num Fourier.
Import ListNotations.
Local Open Scope R_scope.

(** Rust's f64: binary64, round to nearest even. *)
Definition f64 := binary_float 53 1024.
(** precision of binary64 *)
#[local] Instance P53 : Prec_gt_0 53 := eq_refl.
(** exponent range of binary64 *)
#[local] Instance L53 : Prec_lt_emax 53 1024 := eq_refl.
(** f64: IEEE-754 binary64, rounding to nearest, ties to even *)
#[export] Instance num_f64 : Num f64 :=
  {| n0 := B754_zero false;
     n1 := binary_normalize 53 1024 P53 L53 mode_NE 1 0 false;
     nadd := Bplus mode_NE; nsub := Bminus mode_NE; nmul := Bmult mode_NE; ndiv := Bdiv mode_NE;
     nopp := Bopp;
     nofZ z := binary_normalize 53 1024 P53 L53 mode_NE z 0 false |}.

(** std::f64::consts::PI = 0x400921FB54442D18 = 7074237752028440 * 2^-51 *)
Definition pi64 : f64 := binary_normalize 53 1024 P53 L53 mode_NE 7074237752028440 (-51) false.

(** [x.ceil().to_usize()] for finite x >= 0 (other x do not occur here) *)
#[export] Instance ceil_f64 : Ceil f64 := fun x =>
  match x with
  | B754_finite false m e _ =>
      Z.to_nat (if (0 <=? e)%Z then Z.pos m * 2 ^ e else - (- Z.pos m / 2 ^ (- e)))%Z
  | _ => 0%nat
  end.

(** fourier/r2c.rs:49-54, fourier/c2c.rs:48-53, in f64 *)
Definition nodes64 (n : nat) : list f64 := nodes_with pi64 n.

(** ** Rounding *)
Definition RN (x : R) : R := round radix2 (FLT_exp (-1074) 53) ZnearestE x.
(** 2 * PI of f64, exactly *)
Definition tp : R := F2R (Float radix2 7074237752028440 (-50)).

Lemma tp_bounds : 6 < tp < 7.
Proof. unfold tp, F2R; simpl. lra. Qed.

Lemma twopi_val : let x := nmul (nofZ 2%Z) pi64 in B2R x = tp /\ is_finite x = true.
Proof.
  cbv zeta. assert (H : B2SF (nmul (nofZ 2%Z) pi64) = SpecFloat.S754_finite false 7074237752028440 (-50)) by (vm_compute; reflexivity).
  split. rewrite <- SF2R_B2SF, H. reflexivity.
  rewrite <- is_finite_SF_B2SF, H. reflexivity.
Qed.

Lemma bp a : bpow radix2 a = powerRZ 2 a.
Proof. rewrite bpow_powerRZ. reflexivity. Qed.

Lemma RN_rel x : bpow radix2 (-1022) <= Rabs x ->
  exists e, Rabs e <= / 2 * bpow radix2 (-52) /\ RN x = x * (1 + e).
Proof. intros. apply (relative_error_N_FLT_ex radix2 (-1074) 53 P53 (fun x => negb (Z.even x)) x). exact H. Qed.

Lemma u_val : / 2 * bpow radix2 (-52) = / 9007199254740992.
Proof. simpl. lra. Qed.

Lemma big_bpow x : Rabs x < 2 ^ 60 -> Rlt_bool (Rabs x) (bpow radix2 1024) = true.
Proof.
  intros. apply Rlt_bool_true. apply Rlt_trans with (1 := H).
  replace (2 ^ 60) with (bpow radix2 60) by (simpl; lra). apply bpow_lt. lia.
Qed.

Lemma nof_val z : (0 <= z < 2 ^ 53)%Z -> B2R (nofZ z : f64) = IZR z /\ is_finite (nofZ z : f64) = true.
Proof.
  intros Hz. cbn [nofZ num_f64].
  pose proof (binary_normalize_correct 53 1024 P53 L53 mode_NE z 0 false) as H. cbv zeta in H.
  assert (F : F2R (Float radix2 z 0) = IZR z) by (unfold F2R; simpl; ring). rewrite F in H.
  assert (G : round radix2 (SpecFloat.fexp 53 1024) (round_mode mode_NE) (IZR z) = IZR z).
  { apply round_generic; auto with typeclass_instances.
    change (generic_format radix2 (FLT_exp (-1074) 53) (IZR z)). apply generic_format_FLT.
    exists (Float radix2 z 0); auto. simpl Fnum. rewrite Z.abs_eq by lia. apply Hz. simpl; lia. }
  rewrite G in H. rewrite big_bpow in H. destruct H as (H1 & H2 & _). auto.
  rewrite Rabs_pos_eq by (apply IZR_le; lia).
  apply Rlt_trans with (IZR (2 ^ 53)). apply IZR_lt. lia. simpl. lra.
Qed.

Lemma div_val (x y : f64) : is_finite x = true -> B2R y <> 0 -> Rabs (RN (B2R x / B2R y)) < 2 ^ 60 ->
  B2R (ndiv x y) = RN (B2R x / B2R y) /\ is_finite (ndiv x y) = true.
Proof.
  intros Fx Hy Hb. pose proof (Bdiv_correct 53 1024 P53 L53 mode_NE x y Hy) as H.
  change (round radix2 (SpecFloat.fexp 53 1024) (round_mode mode_NE) (B2R x / B2R y)) with (RN (B2R x / B2R y)) in H.
  rewrite big_bpow in H by auto. destruct H as (H1 & H2 & _). rewrite Fx in H2. auto.
Qed.

Lemma ceil_val (x : f64) : is_finite x = true -> 0 < B2R x -> nceil x = Z.to_nat (Zceil (B2R x)).
Proof.
  intros F H. destruct x as [s|s| |s m e b]; try discriminate.
  { cbn in H. lra. }
  destruct s.
  { exfalso. cbn [B2R] in H. unfold F2R in H. cbn [Fnum Fexp cond_Zopp] in H.
    pose proof (bpow_gt_0 radix2 e). assert (IZR (Z.neg m) < 0) by (apply IZR_lt; lia).
    assert (IZR (Z.neg m) * bpow radix2 e < 0) by (apply Ropp_lt_cancel; rewrite Ropp_0, Ropp_mult_distr_l; apply Rmult_lt_0_compat; lra).
    change (Z.opp (Z.pos m)) with (Z.neg m) in H. lra. }
  unfold nceil, ceil_f64. f_equal. cbn [B2R]. unfold F2R. cbn [Fnum Fexp cond_Zopp].
  destruct (Z.leb_spec 0 e).
  - rewrite <- IZR_Zpower by auto. rewrite <- mult_IZR. rewrite Zceil_IZR. auto.
  - symmetry. unfold Zceil. f_equal.
    replace (- (IZR (Z.pos m) * bpow radix2 e)) with (IZR (- Z.pos m) / IZR (2 ^ (- e))).
    apply Zfloor_div. intros E0. assert (0 < 2 ^ (- e))%Z by (apply Z.pow_pos_nonneg; lia). lia.
    rewrite opp_IZR. change (2 ^ (- e))%Z with (radix2 ^ (- e))%Z. rewrite IZR_Zpower by lia. rewrite bpow_opp.
    unfold Rdiv. rewrite Rinv_inv. ring.
Qed.

(** the two roundings *)
Definition step64 (n : nat) : R := RN (tp / INR n).
(** the argument of [ceil] in [Array1::range], rounded (used by the proofs) *)
Definition quot64 (n : nat) : R := RN (tp / step64 n).

Lemma step_pos n : (1 <= n)%nat -> (Z.of_nat n <= 2 ^ 51)%Z ->
  exists e1, Rabs e1 <= / 9007199254740992 /\ step64 n = tp / INR n * (1 + e1) /\ 0 < tp / INR n.
Proof.
  intros Hn H51. unfold step64. pose proof tp_bounds.
  assert (1 <= INR n) by (change 1 with (INR 1); apply le_INR; auto).
  assert (INR n <= 2251799813685248) by (rewrite INR_IZR_INZ; apply IZR_le; exact H51).
  assert (6 / 2251799813685248 <= tp / INR n).
  { apply Rmult_le_reg_r with (INR n); [lra|]. unfold Rdiv. rewrite (Rmult_assoc tp), Rinv_l, Rmult_1_r by lra. nra. }
  assert (0 < tp / INR n) by lra.
  destruct (RN_rel (tp / INR n)) as (e & He & Ee).
  - rewrite Rabs_pos_eq by lra. apply Rle_trans with (bpow radix2 (-50)). apply bpow_le; lia. simpl. lra.
  - exists e. rewrite u_val in He. auto.
Qed.

Lemma quot_bounds n : (1 <= n)%nat -> (Z.of_nat n <= 2 ^ 51)%Z ->
  0 < step64 n /\ step64 n < 8 /\ INR n - 0.6 < quot64 n < INR n + 1.
Proof.
  intros Hn H51. destruct (step_pos n Hn H51) as (e1 & H1 & E1 & Pq).
  pose proof tp_bounds. apply Rabs_le_inv in H1.
  assert (N1 : 1 <= INR n) by (change 1 with (INR 1); apply le_INR; auto).
  assert (N2 : INR n <= 2251799813685248) by (rewrite INR_IZR_INZ; apply IZR_le; exact H51).
  assert (tp / INR n <= 7).
  { apply Rmult_le_reg_r with (INR n); [lra|]. unfold Rdiv. rewrite (Rmult_assoc tp), Rinv_l, Rmult_1_r by lra. nra. }
  assert (S0 : 0 < step64 n) by (rewrite E1; apply Rmult_lt_0_compat; lra).
  split; auto. split. rewrite E1; nra.
  unfold quot64.
  assert (Q : tp / step64 n = INR n / (1 + e1)) by (rewrite E1; field; repeat split; lra).
  rewrite Q.
  assert (A1 : INR n * (1 - 1.1 / 9007199254740992) <= INR n / (1 + e1)).
  { apply Rmult_le_reg_r with (1 + e1); [lra|]. unfold Rdiv. rewrite (Rmult_assoc (INR n) (/ _)), Rinv_l, Rmult_1_r by lra. nra. }
  assert (A2 : INR n / (1 + e1) <= INR n * (1 + 1.1 / 9007199254740992)).
  { apply Rmult_le_reg_r with (1 + e1); [lra|]. unfold Rdiv. rewrite (Rmult_assoc (INR n) (/ _)), Rinv_l, Rmult_1_r by lra. nra. }
  destruct (RN_rel (INR n / (1 + e1))) as (e2 & H2 & ->).
  - rewrite Rabs_pos_eq by nra. apply Rle_trans with (bpow radix2 (-1)). apply bpow_le; lia. simpl. nra.
  - rewrite u_val in H2. apply Rabs_le_inv in H2. set (z := INR n / (1 + e1)) in *. nra.
Qed.

Lemma nodes64_len n : (1 <= n)%nat -> (Z.of_nat n <= 2 ^ 51)%Z ->
  length (nodes64 n) = Z.to_nat (Zceil (quot64 n)).
Proof.
  intros Hn H51. unfold nodes64, nodes_with, nd_range. rewrite map_length, seq_length.
  destruct twopi_val as [V1 F1]. cbv zeta in *. set (x := nmul (nofZ 2%Z) pi64) in *. clearbody x.
  destruct (nof_val (Z.of_nat n)) as [V2 F2]. { change (2 ^ 53)%Z with (4 * 2 ^ 51)%Z. lia. }
  unfold nofN. set (y := nofZ (Z.of_nat n) : f64) in *. clearbody y. rewrite <- INR_IZR_INZ in V2.
  destruct (quot_bounds n Hn H51) as (S0 & S1 & B).
  assert (N1 : 1 <= INR n) by (change 1 with (INR 1); apply le_INR; auto).
  assert (N2 : INR n <= 2251799813685248) by (rewrite INR_IZR_INZ; apply IZR_le; exact H51).
  destruct (div_val x y F1) as [V3 F3]. { rewrite V2. lra. }
  { rewrite V1, V2. fold (step64 n). rewrite Rabs_pos_eq by lra. simpl; lra. }
  rewrite V1, V2 in V3. fold (step64 n) in V3. set (q := ndiv x y) in *. clearbody q.
  assert (HM : B2R (nsub x (n0 : f64)) = tp /\ is_finite (nsub x (n0 : f64)) = true).
  { pose proof (Bminus_correct 53 1024 P53 L53 mode_NE x (n0 : f64) F1 eq_refl) as M.
    change (B2R (n0 : f64)) with 0 in M. rewrite Rminus_0_r in M.
    rewrite round_generic in M; auto with typeclass_instances.
    2:{ apply generic_format_B2R. }
    rewrite big_bpow in M. destruct M as (M1 & M2 & _). rewrite V1 in M1. auto.
    rewrite V1. pose proof tp_bounds. rewrite Rabs_pos_eq by lra. simpl; lra. }
  destruct HM as [V4 F4]. set (w := nsub x n0) in *. clearbody w.
  destruct (div_val w q F4) as [V5 F5]. { rewrite V3. lra. }
  { rewrite V4, V3. fold (quot64 n). rewrite Rabs_pos_eq by lra. simpl; lra. }
  rewrite V4, V3 in V5. fold (quot64 n) in V5.
  rewrite ceil_val; auto. rewrite V5. auto.
  rewrite V5. lra.
Qed.

(** ** Scaling by powers of two *)
Lemma RN_FLX x : bpow radix2 (-1022) <= Rabs x -> RN x = round radix2 (FLX_exp 53) ZnearestE x.
Proof. intros. unfold RN. apply round_FLT_FLX. exact H. Qed.

Lemma FLX_scale x k : round radix2 (FLX_exp 53) ZnearestE (x * bpow radix2 k) =
  round radix2 (FLX_exp 53) ZnearestE x * bpow radix2 k.
Proof.
  destruct (Req_dec x 0) as [->|Hx]. { rewrite Rmult_0_l, round_0; auto with typeclass_instances. ring. }
  assert (C : cexp radix2 (FLX_exp 53) (x * bpow radix2 k) = (cexp radix2 (FLX_exp 53) x + k)%Z).
  { unfold cexp, FLX_exp. rewrite mag_mult_bpow by auto. lia. }
  unfold round, F2R, scaled_mantissa. cbn [Fnum Fexp]. rewrite C.
  replace (x * bpow radix2 k * bpow radix2 (- (cexp radix2 (FLX_exp 53) x + k)))
    with (x * bpow radix2 (- cexp radix2 (FLX_exp 53) x)).
  rewrite bpow_plus. ring.
  rewrite Rmult_assoc, <- bpow_plus. do 2 f_equal. lia.
Qed.

Lemma pow2_INR k : INR (2 ^ k) = bpow radix2 (Z.of_nat k).
Proof.
  rewrite INR_IZR_INZ, Nat2Z.inj_pow. change (Z.of_nat 2) with (radix_val radix2). apply IZR_Zpower. lia.
Qed.

Lemma quot_scale m k : (1 <= m)%nat -> (Z.of_nat (m * 2 ^ k) <= 2 ^ 51)%Z ->
  quot64 (m * 2 ^ k) = quot64 m * bpow radix2 (Z.of_nat k).
Proof.
  intros Hm H51.
  assert (P2 : (1 <= 2 ^ k)%nat) by (clear; induction k; simpl; lia).
  assert (Hm51 : (Z.of_nat m <= 2 ^ 51)%Z) by nia.
  assert (Hmk : (1 <= m * 2 ^ k)%nat) by nia.
  assert (M1 : 1 <= INR m) by (change 1 with (INR 1); apply le_INR; auto).
  pose proof tp_bounds. pose proof (bpow_gt_0 radix2 (Z.of_nat k)) as PB.
  assert (Big : forall n, (1 <= n)%nat -> (Z.of_nat n <= 2 ^ 51)%Z -> bpow radix2 (-1022) <= Rabs (tp / INR n)).
  { intros n Hn Hn51. assert (1 <= INR n) by (change 1 with (INR 1); apply le_INR; auto).
    assert (INR n <= 2251799813685248) by (rewrite INR_IZR_INZ; apply IZR_le; exact Hn51).
    assert (6 / 2251799813685248 <= tp / INR n).
    { apply Rmult_le_reg_r with (INR n); [lra|]. unfold Rdiv. rewrite (Rmult_assoc tp), Rinv_l, Rmult_1_r by lra. nra. }
    rewrite Rabs_pos_eq by lra. apply Rle_trans with (bpow radix2 (-50)). apply bpow_le; lia. simpl. lra. }
  assert (S : step64 (m * 2 ^ k) = step64 m * bpow radix2 (- Z.of_nat k)).
  { unfold step64. rewrite !RN_FLX by (apply Big; auto). rewrite <- FLX_scale. f_equal.
    rewrite mult_INR, pow2_INR, bpow_opp. field. split; lra. }
  destruct (quot_bounds m Hm Hm51) as (S0 & S1 & _).
  assert (T : tp / step64 (m * 2 ^ k) = tp / step64 m * bpow radix2 (Z.of_nat k)).
  { rewrite S, bpow_opp. field. split; lra. }
  unfold quot64. rewrite T.
  assert (B8 : 1 / 2 <= tp / step64 m).
  { apply Rmult_le_reg_r with (step64 m); [lra|]. unfold Rdiv. rewrite (Rmult_assoc tp), Rinv_l, Rmult_1_r by lra. lra. }
  assert (K1 : 1 <= bpow radix2 (Z.of_nat k)) by (change 1 with (bpow radix2 0); apply bpow_le; lia).
  rewrite !RN_FLX. apply FLX_scale.
  - rewrite Rabs_pos_eq by lra. apply Rle_trans with (bpow radix2 (-1)). apply bpow_le; lia. simpl. lra.
  - rewrite Rabs_pos_eq by nra. apply Rle_trans with (bpow radix2 (-1)). apply bpow_le; lia. simpl. nra.
Qed.

Lemma nodes64_cases n : (1 <= n)%nat -> (Z.of_nat n <= 2 ^ 51)%Z ->
  (quot64 n <= INR n -> length (nodes64 n) = n) /\ (INR n < quot64 n -> length (nodes64 n) = (n + 1)%nat).
Proof.
  intros Hn H51. rewrite nodes64_len by auto. destruct (quot_bounds n Hn H51) as (_ & _ & B).
  rewrite INR_IZR_INZ in *. split; intros H.
  - rewrite (Zceil_imp (Z.of_nat n)). apply Nat2Z.id. rewrite minus_IZR. lra.
  - rewrite (Zceil_imp (Z.of_nat n + 1)). lia. rewrite minus_IZR, plus_IZR. lra.
Qed.

Lemma quot_1 : quot64 1 = 1.
Proof.
  assert (S : step64 1 = tp).
  { unfold step64. simpl (INR 1). unfold Rdiv. rewrite Rinv_1, Rmult_1_r. unfold RN.
    apply round_generic; auto with typeclass_instances. apply generic_format_FLT.
    exists (Float radix2 7074237752028440 (-50)); auto; simpl; lia. }
  unfold quot64. rewrite S. unfold Rdiv. rewrite Rinv_r by (pose proof tp_bounds; lra).
  unfold RN. apply round_generic; auto with typeclass_instances. apply generic_format_FLT.
  exists (Float radix2 1 0); auto; try (simpl; lia). unfold F2R; simpl; ring.
Qed.

Lemma quot_61 : INR 61 < quot64 61.
Proof.
  destruct (Rlt_or_le (INR 61) (quot64 61)); auto. exfalso.
  destruct (nodes64_cases 61) as [C _]; [lia|simpl; lia|].
  specialize (C H). vm_compute in C. discriminate.
Qed.

