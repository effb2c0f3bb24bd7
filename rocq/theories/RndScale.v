(** Dividing a gradient by the power of a scale in f64 (space1.rs:212-217,
    space2.rs, space3.rs): powers, products of powers, quotients. *)
From Coq Require Import List Arith ZArith Reals Bool Lra Lia.
From Flocq Require Import Core BinarySingleNaN Relative.
From Verif Require Import Base Num Fourier FourierF64 FourierFacts NdArray NdArrayFacts AxisFacts PropSpace Space Rounding MatF64 RndFft RndAxis SpaceAcc RndVal.
Import ListNotations.
Local Open Scope R_scope.
#[local] Instance P53s : Prec_gt_0 53 := eq_refl.
#[local] Instance L53s : Prec_lt_emax 53 1024 := eq_refl.
Local Notation FA := f64_float_arith.

(** [q] is [Q] after at most [k] roundings *)
Definition pw (q : f64) (Q : R) (k : nat) : Prop := f64_fin q /\ Rabs (f64_val q - Q) <= ((1 + u64) ^ k - 1) * Rabs Q.

Lemma pow_ge_1 k : 1 <= (1 + u64) ^ k.
Proof. pose proof u64_small. apply pow_R1_Rle. lra. Qed.
(** (1+u)^k - 1 is close to k u *)
Lemma pow_lin k : INR k * u64 <= / 100 -> (1 + u64) ^ k - 1 <= 51 / 50 * INR k * u64.
Proof.
  intros H. pose proof u64_small as U.
  assert (G : forall j, INR j * u64 <= / 100 -> (1 + u64) ^ j <= 1 + 51 / 50 * (INR j * u64)).
  { induction j as [|j IH]; intros Hj. cbn. lra. rewrite S_INR in *. pose proof (pos_INR j). assert (Hj' : INR j * u64 <= / 100) by lra. specialize (IH Hj'). cbn [pow].
    assert (0 <= INR j * u64) by (apply Rmult_le_pos; lra).
    apply Rle_trans with ((1 + u64) * (1 + 51 / 50 * (INR j * u64))). apply Rmult_le_compat_l; lra.
    assert (u64 * (51 / 50 * (INR j * u64)) <= u64 * / 50). apply Rmult_le_compat_l; lra. lra. }
  specialize (G k H). lra.
Qed.

(** relative form *)
Lemma rel_ex v Q e : Rabs (v - Q) <= e * Rabs Q -> exists t, v = Q * (1 + t) /\ Rabs t <= Rmax e 0.
Proof.
  intros H. destruct (Req_dec Q 0) as [->|N].
  - exists 0. rewrite Rabs_R0, Rmult_0_r, Rminus_0_r in H. pose proof (Rabs_pos v). split. rewrite Rmult_0_l. apply Rabs_eq_0. lra. rewrite Rabs_R0. apply Rmax_r.
  - exists ((v - Q) / Q). split. field; auto. rewrite Rabs_div by auto. pose proof (Rabs_pos_lt _ N). apply Rle_trans with e; [|apply Rmax_l].
    apply Rmult_le_reg_r with (Rabs Q); auto. unfold Rdiv. rewrite Rmult_assoc, Rinv_l, Rmult_1_r by lra. auto.
Qed.
Lemma pw_ex q Q k : pw q Q k -> exists t, f64_val q = Q * (1 + t) /\ Rabs t <= (1 + u64) ^ k - 1.
Proof.
  intros [_ H]. destruct (rel_ex _ _ _ H) as (t & E & B). exists t. split; auto. rewrite Rmax_left in B; auto. pose proof (pow_ge_1 k). lra.
Qed.

Definition tame (Q : R) : Prop := bpow radix2 (-300) <= Rabs Q <= bpow radix2 300.
Lemma tame_nz Q : tame Q -> Q <> 0.
Proof. intros [H _] E. rewrite E, Rabs_R0 in H. pose proof (bpow_gt_0 radix2 (-300)). lra. Qed.

(** rounding, relative and absolute *)
Lemma rnd_split x : exists d e, rnd64 x = x * (1 + d) + e /\ Rabs d <= u64 /\ Rabs e <= bpow radix2 (-1075).
Proof.
  destruct (error_N_FLT radix2 (3 - 1024 - 53) 53 eq_refl (fun z => negb (Z.even z)) x) as (d & e & Hd & He & _ & E).
  exists d, e. split. exact E. split; (eapply Rle_trans; [eassumption|right]).
  - change (- (53) + 1)%Z with (-52)%Z. replace (bpow radix2 (-52)) with (2 * bpow radix2 (-53)). field. change 2 with (bpow radix2 1). rewrite <- bpow_plus. reflexivity.
  - change (3 - 1024 - 53)%Z with (-1074)%Z. replace (bpow radix2 (-1074)) with (2 * bpow radix2 (-1075)). field. change 2 with (bpow radix2 1). rewrite <- bpow_plus. reflexivity.
Qed.
Lemma rnd_rel_ex x : bpow radix2 (-1000) <= Rabs x -> exists d, rnd64 x = x * (1 + d) /\ Rabs d <= u64.
Proof. intros H. apply rnd64_rel in H. destruct (rel_ex _ _ _ H) as (t & E & B). exists t. split; auto. pose proof u64_small. rewrite Rmax_left in B; lra. Qed.

Lemma bp a b : bpow radix2 a * bpow radix2 b = bpow radix2 (a + b).
Proof. rewrite bpow_plus. reflexivity. Qed.
Lemma two_bp a : 2 * bpow radix2 a = bpow radix2 (a + 1).
Proof. rewrite bpow_plus. change (bpow radix2 1) with 2. ring. Qed.
Lemma Rabs_1p t : Rabs t <= / 2 -> / 2 <= Rabs (1 + t) <= 2.
Proof. intros H. apply Rabs_le_inv in H. rewrite Rabs_pos_eq by lra. lra. Qed.

Lemma pw_mul a b X Y k l : pw a X k -> pw b Y l -> tame (X * Y) -> INR (k + l + 1) * u64 <= / 100 -> pw (nmul a b) (X * Y) (k + l + 1).
Proof.
  intros Ha Hb HT HK. pose proof u64_small as U. destruct (pw_ex _ _ _ Ha) as (s & Es & Bs). destruct (pw_ex _ _ _ Hb) as (t & Et & Bt).
  set (A := (1 + u64) ^ k) in *. set (B := (1 + u64) ^ l) in *. assert (A1 : 1 <= A) by apply pow_ge_1. assert (B1 : 1 <= B) by apply pow_ge_1.
  assert (KL : A * B * (1 + u64) <= 1 + / 50). { unfold A, B. rewrite <- pow_add, <- (pow_1 (1 + u64)) at 1. rewrite pow_1. pose proof (pow_lin _ HK) as P. rewrite !pow_add, pow_1 in P. rewrite pow_add. lra. }
  set (g := s + t + s * t). assert (EG : f64_val a * f64_val b = X * Y * (1 + g)) by (rewrite Es, Et; unfold g; ring).
  assert (BG : Rabs g <= A * B - 1).
  { unfold g. eapply Rle_trans; [apply Rabs_triang|]. eapply Rle_trans; [apply Rplus_le_compat_r, Rabs_triang|]. rewrite Rabs_mult.
    assert (Rabs s * Rabs t <= (A - 1) * (B - 1)). apply Rmult_le_compat; auto using Rabs_pos. lra. }
  assert (AB : 1 <= A * B). { replace 1 with (1 * 1) by ring. apply Rmult_le_compat; lra. }
  assert (AB2 : A * B <= 1 + / 50) by nra.
  assert (G2 : / 2 <= Rabs (1 + g) <= 2) by (apply Rabs_1p; lra). destruct HT as [T1 T2].
  assert (SZ : bpow radix2 (-301) <= Rabs (f64_val a * f64_val b) <= bpow radix2 301).
  { rewrite EG, Rabs_mult. pose proof (bpow_gt_0 radix2 (-300)). split.
    - replace (bpow radix2 (-301)) with (bpow radix2 (-300) * / 2). 2: { change (-300)%Z with (-301 + 1)%Z. rewrite <- two_bp. field. } apply Rmult_le_compat; lra.
    - change 301%Z with (300 + 1)%Z. rewrite <- two_bp, Rmult_comm. apply Rmult_le_compat; auto using Rabs_pos; lra. }
  destruct (rnd_rel_ex (f64_val a * f64_val b)) as (d & Ed & Bd). { eapply Rle_trans; [|apply SZ]. apply bpow_le; lia. }
  assert (D2 : / 2 <= Rabs (1 + d) <= 2) by (apply Rabs_1p; lra).
  assert (Fm : f64_fin (nmul a b)).
  { apply (fa_mulF _ _ _ _ _ _ _ _ FA); try apply Ha; try apply Hb. rewrite Ed. unfold ieee_inr. rewrite Rabs_mult. apply Rle_lt_trans with (bpow radix2 301 * 2). apply Rmult_le_compat; auto using Rabs_pos; lra.
    rewrite Rmult_comm, two_bp. apply bpow_lt. lia. }
  split; auto. destruct (fa_mul _ _ _ _ _ _ _ _ FA a b Fm) as (_ & _ & V). rewrite V, Ed, EG.
  replace (X * Y * (1 + g) * (1 + d) - X * Y) with (X * Y * (g + d + g * d)) by ring. rewrite Rabs_mult, Rmult_comm. apply Rmult_le_compat_r; [apply Rabs_pos|].
  eapply Rle_trans; [apply Rabs_triang|]. eapply Rle_trans; [apply Rplus_le_compat_r, Rabs_triang|]. rewrite Rabs_mult.
  assert (Rabs g * Rabs d <= (A * B - 1) * u64). apply Rmult_le_compat; auto using Rabs_pos.
  rewrite !pow_add, pow_1. fold A B. lra.
Qed.

(** [s.powi(d)] *)
Definition scale_ok (s : f64) (d : nat) : Prop :=
  f64_fin s /\ (Z.of_nat d < 2 ^ 31)%Z /\ bpow radix2 (-100) <= Rabs (f64_val s ^ d) <= bpow radix2 100.
Lemma between_pow s d j : (j <= d)%nat -> bpow radix2 (-100) <= Rabs (s ^ d) <= bpow radix2 100 -> bpow radix2 (-100) <= Rabs (s ^ j) <= bpow radix2 100.
Proof.
  intros Hj. rewrite <- !RPow_abs. assert (P : 0 <= Rabs s) by apply Rabs_pos. generalize dependent (Rabs s). intros r P [H1 H2].
  assert (O1 : bpow radix2 (-100) <= 1) by (change 1 with (bpow radix2 0); apply bpow_le; lia). assert (O2 : 1 <= bpow radix2 100) by (change 1 with (bpow radix2 0); apply bpow_le; lia).
  destruct (Rle_dec 1 r) as [G|G].
  - split. apply Rle_trans with 1; auto. apply pow_R1_Rle; auto. apply Rle_trans with (r ^ d); auto. apply Rle_pow; auto.
  - replace d with (j + (d - j))%nat in H1 by lia. rewrite pow_add in H1. assert (L : forall i, 0 <= r ^ i <= 1).
    { induction i; cbn; [lra|]. split. apply Rmult_le_pos; lra. replace 1 with (1 * 1) by ring. apply Rmult_le_compat; lra. }
    split; [|apply Rle_trans with 1; auto; apply L]. eapply Rle_trans; [exact H1|]. rewrite <- (Rmult_1_r (r ^ j)) at 2. apply Rmult_le_compat_l; apply L.
Qed.
Lemma small_n k : (Z.of_nat k <= 2 ^ 33)%Z -> INR k * u64 <= / 100.
Proof. intros H. apply IZR_le in H. rewrite <- INR_IZR_INZ in H. rewrite u64_eq. cbv [Z.pow Z.pow_pos Pos.iter Z.mul Pos.mul] in *. lra. Qed.
Lemma npow_pw s d : scale_ok s d -> pw (npowi s (as_i32 d)) (f64_val s ^ d) d.
Proof.
  intros (Fs & Hd & R). assert (E : as_i32 d = Z.of_nat d). { unfold as_i32. rewrite Z.mod_small by lia. lia. }
  rewrite E. unfold npowi. destruct (Z.leb_spec 0 (Z.of_nat d)); [|lia]. rewrite Nat2Z.id. clear E H.
  assert (G : forall j, (j <= d)%nat -> pw (npow s j) (f64_val s ^ j) j).
  { induction j as [|j IH]; intros Hj.
    - cbn [npow pow]. destruct (fa_1 _ _ _ _ _ _ _ _ FA) as [F1 V1]. split; auto. rewrite V1. rewrite Rminus_diag_eq, Rabs_R0 by auto. lra.
    - cbn [npow]. replace (S j) with (0 + j + 1)%nat by lia. replace (f64_val s ^ (0 + j + 1)) with (f64_val s * f64_val s ^ j) by (replace (0 + j + 1)%nat with (S j) by lia; reflexivity). apply pw_mul.
      + split; auto. rewrite Rminus_diag_eq, Rabs_R0 by auto. cbn. lra.
      + apply IH; lia.
      + change (f64_val s * f64_val s ^ j) with (f64_val s ^ S j). pose proof (between_pow _ _ (S j) Hj R) as [B1 B2]. split; [eapply Rle_trans; [|exact B1]|eapply Rle_trans; [exact B2|]]; apply bpow_le; lia.
      + apply small_n. lia. }
  apply G. auto.
Qed.

(** ** One quotient *)
(** real elements: one rounding; complex elements: [(a + bi)/(q + 0i)] of num-complex *)
Lemma quot_core v w Q c : w = Q * (1 + c) -> tame Q -> Rabs c <= / 50 ->
  w <> 0 /\ bpow radix2 (-301) <= Rabs w <= bpow radix2 301 /\ Rabs (v / w - v / Q) <= 26 / 25 * Rabs c * Rabs (v / Q).
Proof.
  intros E HT Hc. pose proof (tame_nz _ HT) as NQ. destruct HT as [T1 T2]. assert (C2 : / 2 <= Rabs (1 + c) <= 2) by (apply Rabs_1p; lra).
  assert (NC : 1 + c <> 0) by (intros Z; rewrite Z, Rabs_R0 in C2; lra). assert (NW : w <> 0) by (rewrite E; apply Rmult_integral_contrapositive; auto).
  pose proof (bpow_gt_0 radix2 (-300)). split; auto. split.
  - rewrite E, Rabs_mult. split.
    + replace (bpow radix2 (-301)) with (bpow radix2 (-300) * / 2). 2: { change (-300)%Z with (-301 + 1)%Z. rewrite <- two_bp. field. } apply Rmult_le_compat; lra.
    + change 301%Z with (300 + 1)%Z. rewrite <- two_bp, Rmult_comm. apply Rmult_le_compat; auto using Rabs_pos; lra.
  - replace (v / w - v / Q) with (v / Q * (- c / (1 + c))) by (rewrite E; field; auto). rewrite Rabs_mult, Rmult_comm. apply Rmult_le_compat_r; [apply Rabs_pos|].
    rewrite Rabs_div, Rabs_Ropp by auto. apply Rabs_le_inv in Hc. rewrite (Rabs_pos_eq (1 + c)) by lra. pose proof (Rabs_pos c).
    apply Rmult_le_reg_r with (1 + c); [lra|]. unfold Rdiv. rewrite Rmult_assoc, Rinv_l, Rmult_1_r by lra. nra.
Qed.

Definition tiny : R := bpow radix2 (-450).
Definition lam (k : nat) : R := 11 / 10 * (INR k + 4) * u64.

Lemma Rabs3 a b : Rabs a <= Rabs b + Rabs (a - b).
Proof. replace a with (b + (a - b)) at 1 by ring. apply Rabs_triang. Qed.
Lemma fin_of x : Rabs x <= bpow radix2 1023 -> ieee_inr 1024 x.
Proof. intros H. unfold ieee_inr. eapply Rle_lt_trans; [exact H|]. apply bpow_lt. lia. Qed.
Lemma rnd_le64 x k : (0 <= k <= 1022)%Z -> Rabs x <= bpow radix2 k -> Rabs (rnd64 x) <= bpow radix2 1023.
Proof.
  intros Hk H. destruct (rnd_split x) as (d & e & -> & Bd & Be). pose proof u64_small. eapply Rle_trans; [apply Rabs_triang|]. rewrite Rabs_mult.
  assert (Rabs (1 + d) <= 1 + / 2). { eapply Rle_trans; [apply Rabs_triang|]. rewrite Rabs_R1. lra. }
  assert (bpow radix2 (-1075) <= / 2). { change (/ 2) with (bpow radix2 (-1)). apply bpow_le; lia. }
  assert (bpow radix2 k <= bpow radix2 1022) by (apply bpow_le; lia). assert (1 <= bpow radix2 1022) by (change 1 with (bpow radix2 0); apply bpow_le; lia).
  change 1023%Z with (1022 + 1)%Z. rewrite <- two_bp. assert (Rabs x * Rabs (1 + d) <= bpow radix2 1022 * (1 + / 2)). apply Rmult_le_compat; auto using Rabs_pos; lra. lra.
Qed.


Section Quot.
Variables (w : f64) (Q : R) (k : nat).
Hypothesis HW : pw w Q k.
Hypothesis HT : tame Q.
Hypothesis HK : (Z.of_nat k <= 2 ^ 33)%Z.
Lemma wfact : exists c, f64_val w = Q * (1 + c) /\ Rabs c <= 51 / 50 * INR k * u64 /\ Rabs c <= / 50.
Proof.
  destruct (pw_ex _ _ _ HW) as (c & E & B). pose proof (small_n _ HK) as S. pose proof (pow_lin _ S) as P. exists c. split; auto. split. lra. lra.
Qed.
Lemma near_Q v r : Rabs (r - v / f64_val w) <= 4 * u64 * Rabs (v / f64_val w) + tiny / 2 -> Rabs (r - v / Q) <= lam k * Rabs (v / Q) + tiny / 2.
Proof.
  intros H. destruct wfact as (c & E & B1 & B2). destruct (quot_core v _ _ _ E HT B2) as (NW & SW & QC). pose proof u64_small as U.
  set (X := Rabs (v / Q)) in *. assert (X0 : 0 <= X) by apply Rabs_pos. pose proof (Rabs3 (v / f64_val w) (v / Q)) as V. fold X in V.
  assert (V1 : Rabs (v / f64_val w) <= X * (11 / 10)). { assert (26 / 25 * Rabs c * X <= / 20 * X) by (apply Rmult_le_compat_r; lra). lra. }
  replace (r - v / Q) with ((r - v / f64_val w) + (v / f64_val w - v / Q)) by ring. eapply Rle_trans; [apply Rabs_triang|].
  assert (26 / 25 * Rabs c * X <= 11 / 10 * (INR k * u64) * X). { apply Rmult_le_compat_r; auto. pose proof (pos_INR k). assert (0 <= INR k * u64) by (apply Rmult_le_pos; lra). lra. }
  assert (4 * u64 * Rabs (v / f64_val w) <= 4 * u64 * (X * (11 / 10))) by (apply Rmult_le_compat_l; lra). unfold lam.
  replace (11 / 10 * (INR k + 4) * u64 * X) with (11 / 10 * (INR k * u64) * X + 4 * u64 * (X * (11 / 10))) by field. lra.
Qed.
Lemma quot_size v : Rabs v <= bpow radix2 701 -> Rabs (v / f64_val w) <= bpow radix2 1002.
Proof.
  intros Hv. destruct wfact as (c & E & B1 & B2). destruct (quot_core v _ _ _ E HT B2) as (NW & SW & _). rewrite Rabs_div by auto. unfold Rdiv.
  change 1002%Z with (701 + 301)%Z. rewrite bpow_plus. apply Rmult_le_compat; auto using Rabs_pos. left. apply Rinv_0_lt_compat, Rabs_pos_lt; auto.
  replace (bpow radix2 301) with (/ bpow radix2 (-301)) by (rewrite <- bpow_opp; reflexivity). apply Rinv_le; [apply bpow_gt_0|apply SW].
Qed.
Lemma quot_real (x : f64) : f64_fin x -> Rabs (f64_val x) <= bpow radix2 701 ->
  f64_fin (ndiv x w) /\ Rabs (f64_val (ndiv x w) - f64_val x / Q) <= lam k * Rabs (f64_val x / Q) + tiny / 2.
Proof.
  intros Fx Sx. destruct wfact as (c & E & B1 & B2). destruct (quot_core (f64_val x) _ _ _ E HT B2) as (NW & SW & _). pose proof (quot_size _ Sx) as QS. pose proof u64_small.
  assert (Fq : f64_fin (ndiv x w)). { apply (fa_divF _ _ _ _ _ _ _ _ FA); auto. apply HW. apply fin_of. eapply rnd_le64; [|exact QS]. lia. }
  split; auto. destruct (fa_div _ _ _ _ _ _ _ _ FA x w Fq (proj1 HW) NW) as [_ V]. apply near_Q. rewrite V. destruct (rnd_split (f64_val x / f64_val w)) as (d & e & -> & Bd & Be).
  set (y := f64_val x / f64_val w) in *. replace (y * (1 + d) + e - y) with (y * d + e) by ring. eapply Rle_trans; [apply Rabs_triang|]. rewrite Rabs_mult. pose proof (Rabs_pos y).
  apply Rplus_le_compat. rewrite Rmult_comm. apply Rmult_le_compat_r; lra. eapply Rle_trans; [exact Be|]. unfold tiny. replace (bpow radix2 (-450) / 2) with (bpow radix2 (-451)). apply bpow_le; lia.
  change (-450)%Z with (-451 + 1)%Z. rewrite <- two_bp. field.
Qed.
Lemma sum0 (y : f64) (z : f64) : f64_fin y -> f64_fin z -> f64_val z = 0 ->
  (f64_fin (nadd y z) /\ f64_val (nadd y z) = f64_val y) /\ (f64_fin (nsub y z) /\ f64_val (nsub y z) = f64_val y).
Proof.
  intros Fy Fz Vz. assert (RY : rnd64 (f64_val y) = f64_val y) by apply (fa_float _ _ _ _ _ _ _ _ FA y Fy).
  assert (IN : ieee_inr 1024 (f64_val y)). { unfold ieee_inr. apply abs_B2R_lt_emax. }
  assert (F1 : f64_fin (nadd y z)) by (apply (fa_addF _ _ _ _ _ _ _ _ FA); auto; rewrite Vz, Rplus_0_r, RY; auto).
  assert (F2 : f64_fin (nsub y z)) by (apply (fa_subF _ _ _ _ _ _ _ _ FA); auto; rewrite Vz, Rminus_0_r, RY; auto).
  split; (split; [assumption|]). destruct (fa_add _ _ _ _ _ _ _ _ FA y z F1) as (_ & _ & V). rewrite V, Vz, Rplus_0_r. auto.
  destruct (fa_sub _ _ _ _ _ _ _ _ FA y z F2) as (_ & _ & V). rewrite V, Vz, Rminus_0_r. auto.
Qed.
Lemma times0 (y : f64) : f64_fin y -> f64_fin (nmul y n0) /\ f64_val (nmul y n0) = 0.
Proof.
  intros Fy. destruct (fa_0 _ _ _ _ _ _ _ _ FA) as [F0 V0]. assert (F : f64_fin (nmul y n0)). { apply (fa_mulF _ _ _ _ _ _ _ _ FA); auto. rewrite V0, Rmult_0_r, rnd64_0. unfold ieee_inr. rewrite Rabs_R0. apply bpow_gt_0. }
  split; auto. destruct (fa_mul _ _ _ _ _ _ _ _ FA y n0 F) as (_ & _ & V). rewrite V, V0, Rmult_0_r. apply rnd64_0.
Qed.
(** the numerator [x q] over [q q], three roundings *)
Lemma quot_3 (x p n : f64) : f64_fin x -> Rabs (f64_val x) <= bpow radix2 701 -> f64_fin p -> f64_val p = rnd64 (f64_val x * f64_val w) ->
  f64_fin n -> f64_val n = rnd64 (f64_val w * f64_val w) ->
  f64_fin (ndiv p n) /\ Rabs (f64_val (ndiv p n) - f64_val x / Q) <= lam k * Rabs (f64_val x / Q) + tiny / 2.
Proof.
  intros Fx Sx Fp Vp Fn Vn. destruct wfact as (c & E & B1 & B2). destruct (quot_core (f64_val x) _ _ _ E HT B2) as (NW & [SW1 SW2] & _). pose proof (quot_size _ Sx) as QS. pose proof u64_small as U.
  set (v := f64_val x) in *. set (q := f64_val w) in *.
  assert (Sq : bpow radix2 (-602) <= Rabs (q * q)). { rewrite Rabs_mult. change (-602)%Z with (-301 + -301)%Z. rewrite bpow_plus. apply Rmult_le_compat; auto; apply bpow_ge_0. }
  destruct (rnd_rel_ex (q * q)) as (d2 & E2 & D2). { eapply Rle_trans; [|exact Sq]. apply bpow_le; lia. }
  destruct (rnd_split (v * q)) as (d1 & e1 & E1 & D1 & H1). rewrite E1 in Vp. rewrite E2 in Vn.
  assert (N2 : 1 + d2 <> 0). { assert (/ 2 <= Rabs (1 + d2) <= 2) as Z by (apply Rabs_1p; lra). intros Y. rewrite Y, Rabs_R0 in Z. lra. }
  assert (NN : f64_val n <> 0). { rewrite Vn. apply Rmult_integral_contrapositive. split; auto. }
  set (X := Rabs (v / q)) in *. assert (X0 : 0 <= X) by apply Rabs_pos.
  (* the exact quotient of p and n *)
  assert (A : Rabs (f64_val p / f64_val n - v / q) <= 21 / 10 * u64 * X + bpow radix2 (-470)).
  { replace (f64_val p / f64_val n - v / q) with (v / q * ((d1 - d2) / (1 + d2)) + e1 / (q * q * (1 + d2))) by (rewrite Vp, Vn; field; auto).
    eapply Rle_trans; [apply Rabs_triang|]. apply Rabs_le_inv in D2. apply Rplus_le_compat.
    - rewrite Rabs_mult. fold X. rewrite Rmult_comm. apply Rmult_le_compat_r; auto. rewrite Rabs_div by auto. rewrite (Rabs_pos_eq (1 + d2)) by lra.
      assert (Rabs (d1 - d2) <= 2 * u64). { apply Rabs_le_inv in D1. apply Rabs_le. lra. }
      apply Rmult_le_reg_r with (1 + d2); [lra|]. unfold Rdiv. rewrite Rmult_assoc, Rinv_l, Rmult_1_r by lra. apply Rle_trans with (2 * u64); auto. assert (u64 * (1 - / 1000000000) <= u64 * (1 + d2)) by (apply Rmult_le_compat_l; lra). lra.
    - rewrite Rabs_div. 2: { apply Rmult_integral_contrapositive. split; auto. } unfold Rdiv.
      apply Rle_trans with (bpow radix2 (-1075) * bpow radix2 603). 2: { rewrite bp. apply bpow_le. lia. }
      apply Rmult_le_compat; auto using Rabs_pos. left. apply Rinv_0_lt_compat. apply Rabs_pos_lt. apply Rmult_integral_contrapositive. split; auto.
      replace (bpow radix2 603) with (/ bpow radix2 (-603)) by (rewrite <- bpow_opp; reflexivity). apply Rinv_le; [apply bpow_gt_0|].
      rewrite Rabs_mult, (Rabs_pos_eq (1 + d2)) by lra. pose proof (bpow_gt_0 radix2 (-602)). replace (bpow radix2 (-603)) with (bpow radix2 (-602) * / 2). 2: { change (-602)%Z with (-603 + 1)%Z. rewrite <- two_bp. field. } apply Rmult_le_compat; lra. }
  set (z := f64_val p / f64_val n) in *. pose proof (Rabs3 z (v / q)) as Z. fold X in Z.
  assert (T : bpow radix2 (-470) <= 1) by (change 1 with (bpow radix2 0); apply bpow_le; lia).
  assert (ZX : Rabs z <= 3 / 2 * X + bpow radix2 (-470)). { assert (21 / 10 * u64 * X <= / 2 * X) by (apply Rmult_le_compat_r; lra). lra. }
  assert (SZ : Rabs z <= bpow radix2 1003). { change 1003%Z with (1002 + 1)%Z. rewrite <- two_bp. assert (2 <= bpow radix2 1002) by (change 2 with (bpow radix2 1); apply bpow_le; lia). lra. }
  assert (Fq : f64_fin (ndiv p n)). { apply (fa_divF _ _ _ _ _ _ _ _ FA); auto. apply fin_of. eapply rnd_le64; [|exact SZ]. lia. }
  split; auto. destruct (fa_div _ _ _ _ _ _ _ _ FA p n Fq Fn NN) as [_ V]. apply near_Q. fold q v. rewrite V. fold z. fold X. destruct (rnd_split z) as (d & e & -> & Bd & Be).
  replace (z * (1 + d) + e - v / q) with (z * d + (e + (z - v / q))) by ring. eapply Rle_trans; [apply Rabs_triang|]. eapply Rle_trans; [apply Rplus_le_compat_l, Rabs_triang|]. rewrite Rabs_mult.
  assert (Rabs z * Rabs d <= (3 / 2 * X + bpow radix2 (-470)) * u64) by (apply Rmult_le_compat; auto using Rabs_pos).
  assert (bpow radix2 (-470) * u64 <= bpow radix2 (-470)). { pose proof (bpow_gt_0 radix2 (-470)). rewrite <- (Rmult_1_r (bpow radix2 (-470))) at 2. apply Rmult_le_compat_l; lra. }
  assert (bpow radix2 (-1075) <= bpow radix2 (-470)) by (apply bpow_le; lia).
  assert (TT : tiny / 2 = 524288 * bpow radix2 (-470)). { unfold tiny. change (-450)%Z with (19 + -470 + 1)%Z. rewrite <- two_bp, bpow_plus. change (bpow radix2 19) with 524288. field. }
  rewrite TT. pose proof (bpow_gt_0 radix2 (-470)). assert (0 <= u64 * X) by (apply Rmult_le_pos; lra). lra.
Qed.
End Quot.
