(** Floating-point arithmetic, as an instance of the scalars of the model (C54).

    [float_arith] says what the error analysis uses of an arithmetic: each
    operation returns the correctly rounded exact result unless it overflows.
    It is proved here for IEEE binary formats (f32 and f64: Flocq's
    binary_float, round to nearest even, with subnormals), so nothing is assumed
    about the hardware beyond IEEE 754 arithmetic. *)
From Coq Require Import List Arith ZArith Reals Bool Lra Lia.
From Flocq Require Import Core BinarySingleNaN Relative Plus_error.
From Verif Require Import Base Num FourierF64.
Import ListNotations.
Local Open Scope R_scope.

(** A rounding function with relative error [u] and absolute error [eta] (the
    latter only where results may be subnormal: products and quotients). *)
Record rounding (u eta : R) (rnd : R -> R) : Prop := {
  rn_u : 0 <= u <= / 64;
  rn_eta : 0 <= eta;
  rn_idem : forall x, rnd (rnd x) = rnd x;
  rn_mono : forall x y, x <= y -> rnd x <= rnd y;
  rn_opp : forall x, rnd (- x) = - rnd x;
  rn_err : forall x, Rabs (rnd x - x) <= u * Rabs x + eta;
  rn_err' : forall x, Rabs (rnd x - x) <= u * Rabs (rnd x) + eta;
  rn_sum : forall x y, rnd x = x -> rnd y = y -> Rabs (rnd (x + y) - (x + y)) <= u * Rabs (x + y);
  rn_sum' : forall x y, rnd x = x -> rnd y = y -> Rabs (rnd (x + y) - (x + y)) <= u * Rabs (rnd (x + y))
}.

(** The scalars [A] are floating-point numbers: [fin x] x is finite (neither
    infinite nor NaN), [val x] its value, [inr] the range in which rounded
    results do not overflow, [zmax] the largest integer up to which conversions
    are exact.  A finite result has finite operands (of a quotient: a finite
    dividend, when the divisor is finite and non-zero) and is the rounded exact
    result. *)
Record float_arith {A} (N : Num A) (u eta : R) (rnd : R -> R) (zmax : Z) (inr : R -> Prop) (fin : A -> Prop) (val : A -> R) : Prop := {
  fa_rnd : rounding u eta rnd;
  fa_float : forall x, fin x -> rnd (val x) = val x;
  fa_0 : fin n0 /\ val n0 = 0;
  fa_1 : fin n1 /\ val n1 = 1;
  fa_opp : forall x, (fin (nopp x) <-> fin x) /\ val (nopp x) = - val x;
  fa_add : forall x y, fin (nadd x y) -> fin x /\ fin y /\ val (nadd x y) = rnd (val x + val y);
  fa_sub : forall x y, fin (nsub x y) -> fin x /\ fin y /\ val (nsub x y) = rnd (val x - val y);
  fa_mul : forall x y, fin (nmul x y) -> fin x /\ fin y /\ val (nmul x y) = rnd (val x * val y);
  fa_div : forall x y, fin (ndiv x y) -> fin y -> val y <> 0 -> fin x /\ val (ndiv x y) = rnd (val x / val y);
  fa_addF : forall x y, fin x -> fin y -> inr (rnd (val x + val y)) -> fin (nadd x y);
  fa_subF : forall x y, fin x -> fin y -> inr (rnd (val x - val y)) -> fin (nsub x y);
  fa_mulF : forall x y, fin x -> fin y -> inr (rnd (val x * val y)) -> fin (nmul x y);
  fa_divF : forall x y, fin x -> fin y -> val y <> 0 -> inr (rnd (val x / val y)) -> fin (ndiv x y);
  fa_zmax : (1024 <= zmax)%Z;
  fa_int : forall z, (Z.abs z <= zmax)%Z -> fin (nofZ z) /\ val (nofZ z) = IZR z;
  fa_inr : forall x y, Rabs x <= Rabs y -> inr y -> inr x;
  fa_inrz : forall z, (Z.abs z <= zmax)%Z -> inr (IZR z)
}.

(** ** IEEE binary formats *)
Section Ieee.
Variables prec emax : Z.
Context (HP : Prec_gt_0 prec) (HL : Prec_lt_emax prec emax).
Hypothesis Hprec : (10 <= prec)%Z.
Hypothesis Hemax : (prec + 3 <= emax)%Z.
Definition ieee_rnd : R -> R := round radix2 (FLT_exp (3 - emax - prec) prec) ZnearestE.
Definition ieee_u : R := bpow radix2 (- prec).
Definition ieee_eta : R := bpow radix2 (2 - emax - prec).
Definition ieee_num : Num (binary_float prec emax) :=
  {| n0 := B754_zero false;
     n1 := binary_normalize prec emax HP HL mode_NE 1 0 false;
     nadd := Bplus mode_NE; nsub := Bminus mode_NE; nmul := Bmult mode_NE; ndiv := Bdiv mode_NE;
     nopp := Bopp;
     nofZ z := binary_normalize prec emax HP HL mode_NE z 0 false |}.

Lemma half_bpow e : / 2 * bpow radix2 (e + 1) = bpow radix2 e.
Proof. rewrite bpow_plus. change (bpow radix2 1) with 2. lra. Qed.

Lemma ulp_le x : ulp radix2 (FLT_exp (3 - emax - prec) prec) x <= bpow radix2 (1 - prec) * Rabs x + bpow radix2 (3 - emax - prec).
Proof.
  pose proof (bpow_gt_0 radix2 (1 - prec)). pose proof (bpow_gt_0 radix2 (3 - emax - prec)). pose proof (Rabs_pos x).
  destruct (Rle_or_lt (bpow radix2 ((3 - emax - prec) + prec - 1)) (Rabs x)) as [H2|H2].
  - apply (ulp_FLT_le radix2 (3 - emax - prec) prec) in H2. lra.
  - rewrite ulp_FLT_small; auto. nra. apply Rlt_trans with (1 := H2). apply bpow_lt. lia.
Qed.
Lemma format_rnd x : ieee_rnd x = x <-> generic_format radix2 (FLT_exp (3 - emax - prec) prec) x.
Proof.
  unfold ieee_rnd. split; intros H.
  - rewrite <- H. apply generic_format_round; auto with typeclass_instances.
  - apply round_generic; auto with typeclass_instances.
Qed.

Lemma ieee_rounding : rounding ieee_u ieee_eta ieee_rnd.
Proof.
  assert (E1 : forall x, Rabs (ieee_rnd x - x) <= ieee_u * Rabs x + ieee_eta).
  { intros x. unfold ieee_rnd, ieee_u, ieee_eta. eapply Rle_trans. apply error_le_half_ulp; auto with typeclass_instances.
    pose proof (ulp_le x). rewrite <- (half_bpow (- prec)), <- (half_bpow (2 - emax - prec)).
    replace (- prec + 1)%Z with (1 - prec)%Z by lia. replace (2 - emax - prec + 1)%Z with (3 - emax - prec)%Z by lia. lra. }
  assert (E2 : forall x, Rabs (ieee_rnd x - x) <= ieee_u * Rabs (ieee_rnd x) + ieee_eta).
  { intros x. unfold ieee_rnd, ieee_u, ieee_eta. eapply Rle_trans. apply error_le_half_ulp_round; auto with typeclass_instances.
    set (y := round _ _ _ x). pose proof (ulp_le y). rewrite <- (half_bpow (- prec)), <- (half_bpow (2 - emax - prec)).
    replace (- prec + 1)%Z with (1 - prec)%Z by lia. replace (2 - emax - prec + 1)%Z with (3 - emax - prec)%Z by lia. lra. }
  assert (U : 0 < ieee_u <= / 64).
  { unfold ieee_u. split. apply bpow_gt_0. change (/ 64) with (bpow radix2 (-6)). apply bpow_le. lia. }
  assert (UR : u_ro radix2 prec = ieee_u).
  { unfold u_ro, ieee_u. apply half_bpow. }
  constructor.
  - lra.
  - unfold ieee_eta. apply bpow_ge_0.
  - intros x. apply format_rnd. unfold ieee_rnd. apply generic_format_round; auto with typeclass_instances.
  - intros. unfold ieee_rnd. apply round_le; auto with typeclass_instances.
  - intros. apply round_NE_opp.
  - exact E1.
  - exact E2.
  - intros x y Fx Fy. apply format_rnd in Fx. apply format_rnd in Fy.
    destruct (FLT_plus_error_N_ex radix2 (3 - emax - prec) prec (fun x => negb (Z.even x)) x y Fx Fy) as (e & He & Hr).
    change (round radix2 (FLT_exp (3 - emax - prec) prec) (Znearest (fun t => negb (Z.even t)))) with ieee_rnd in Hr. rewrite Hr.
    replace ((x + y) * (1 + e) - (x + y)) with ((x + y) * e) by ring. rewrite Rabs_mult.
    rewrite UR in He. assert (ieee_u / (1 + ieee_u) <= ieee_u). { apply Rmult_le_reg_r with (1 + ieee_u). lra. unfold Rdiv. rewrite Rmult_assoc, Rinv_l by lra. nra. }
    pose proof (Rabs_pos (x + y)). nra.
  - intros x y Fx Fy. apply format_rnd in Fx. apply format_rnd in Fy.
    destruct (FLT_plus_error_N_round_ex radix2 (3 - emax - prec) prec (fun x => negb (Z.even x)) x y Fx Fy) as (e & He & Hr).
    change (round radix2 (FLT_exp (3 - emax - prec) prec) (Znearest (fun t => negb (Z.even t)))) with ieee_rnd in Hr. set (r := ieee_rnd (x + y)) in *. rewrite Hr.
    replace (r - r * (1 + e)) with (- (r * e)) by ring. rewrite Rabs_Ropp, Rabs_mult. rewrite UR in He. pose proof (Rabs_pos r). nra.
Qed.

(** [float_arith] for the IEEE operations. *)
Let fexp_eq : SpecFloat.fexp prec emax = FLT_exp (3 - emax - prec) prec := eq_refl.
Let rm_eq : round_mode mode_NE = ZnearestE := eq_refl.
Definition ieee_inr (x : R) : Prop := Rabs x < bpow radix2 emax.
Definition ieee_fin (x : binary_float prec emax) : Prop := is_finite x = true.

Lemma overflow_inf (x : binary_float prec emax) s : B2SF x = binary_overflow prec emax mode_NE s -> is_finite x = false.
Proof. intros H. rewrite <- is_finite_SF_B2SF, H. reflexivity. Qed.
Lemma int_format z : (Z.abs z <= 2 ^ prec)%Z -> ieee_rnd (IZR z) = IZR z.
Proof.
  intros Hz. apply format_rnd. destruct (Z.eq_dec (Z.abs z) (2 ^ prec)) as [E|E].
  - assert (Hb : generic_format radix2 (FLT_exp (3 - emax - prec) prec) (bpow radix2 prec)).
    { apply generic_format_bpow. unfold FLT_exp. lia. }
    rewrite <- (IZR_Zpower radix2) in Hb by lia. change (radix2 ^ prec)%Z with (2 ^ prec)%Z in Hb.
    destruct (Z.abs_eq_or_opp z) as [A|A]; rewrite A in E.
    + rewrite E. exact Hb.
    + replace z with (- (2 ^ prec))%Z by lia. rewrite opp_IZR. apply generic_format_opp. exact Hb.
  - apply generic_format_FLT. exists (Float radix2 z 0); auto. unfold F2R; cbn; ring. cbn [Fnum]. change (radix2 ^ prec)%Z with (2 ^ prec)%Z. lia.
    cbn [Fexp]. lia.
Qed.
Lemma int_small z : (Z.abs z <= 2 ^ prec)%Z -> Rabs (IZR z) < bpow radix2 emax.
Proof.
  intros Hz. rewrite <- abs_IZR. apply Rle_lt_trans with (bpow radix2 prec).
  - rewrite <- (IZR_Zpower radix2) by lia. apply IZR_le. exact Hz.
  - apply bpow_lt. lia.
Qed.
Lemma int_ok z : (Z.abs z <= 2 ^ prec)%Z ->
  ieee_fin (binary_normalize prec emax HP HL mode_NE z 0 false) /\ B2R (binary_normalize prec emax HP HL mode_NE z 0 false) = IZR z.
Proof.
  intros Hz. pose proof (binary_normalize_correct prec emax HP HL mode_NE z 0 false) as H. cbv zeta in H.
  assert (F : F2R (Float radix2 z 0) = IZR z) by (unfold F2R; cbn; ring). rewrite F in H. rewrite fexp_eq, rm_eq in H.
  fold ieee_rnd in H. rewrite (int_format z Hz) in H. rewrite Rlt_bool_true in H by (apply int_small; auto).
  destruct H as (H1 & H2 & _). split; auto.
Qed.
Lemma pow_ge : (1024 <= 2 ^ prec)%Z.
Proof. change 1024%Z with (2 ^ 10)%Z. apply Z.pow_le_mono_r; lia. Qed.

Theorem ieee_float_arith : float_arith ieee_num ieee_u ieee_eta ieee_rnd (2 ^ prec) ieee_inr ieee_fin B2R.
Proof.
  pose proof pow_ge as PG. constructor.
  - apply ieee_rounding.
  - intros x _. apply format_rnd. apply (generic_format_B2R prec emax).
  - split; reflexivity.
  - change 1 with (IZR 1). apply (int_ok 1). cbn. lia.
  - intros x. cbn. unfold ieee_fin. rewrite is_finite_Bopp, B2R_Bopp. split; tauto.
  - intros x y H. cbn [nadd ieee_num] in *. unfold ieee_fin in *.
    assert (Fx : is_finite x = true) by (destruct x, y; try reflexivity; cbn in H; try discriminate; destruct s, s0; discriminate).
    assert (Fy : is_finite y = true) by (destruct x, y; try reflexivity; cbn in H; try discriminate; destruct s, s0; discriminate).
    split; auto. split; auto. pose proof (Bplus_correct prec emax HP HL mode_NE x y Fx Fy) as C. rewrite fexp_eq, rm_eq in C. fold ieee_rnd in C.
    destruct (Rlt_bool _ _). apply C. destruct C as [C _]. apply overflow_inf in C. congruence.
  - intros x y H. cbn [nsub ieee_num] in *. unfold ieee_fin in *.
    assert (Fx : is_finite x = true) by (destruct x, y; try reflexivity; cbn in H; try discriminate; destruct s, s0; discriminate).
    assert (Fy : is_finite y = true) by (destruct x, y; try reflexivity; cbn in H; try discriminate; destruct s, s0; discriminate).
    split; auto. split; auto. pose proof (Bminus_correct prec emax HP HL mode_NE x y Fx Fy) as C. rewrite fexp_eq, rm_eq in C. fold ieee_rnd in C.
    destruct (Rlt_bool _ _). apply C. destruct C as [C _]. apply overflow_inf in C. congruence.
  - intros x y H. cbn [nmul ieee_num] in *. unfold ieee_fin in *.
    pose proof (Bmult_correct prec emax HP HL mode_NE x y) as C. rewrite fexp_eq, rm_eq in C. fold ieee_rnd in C.
    destruct (Rlt_bool _ _). 2: { apply overflow_inf in C. congruence. }
    destruct C as (C1 & C2 & _). rewrite H in C2. symmetry in C2. apply andb_true_iff in C2 as [Fx Fy]. auto.
  - intros x y H Fy Hy. cbn [ndiv ieee_num] in *. unfold ieee_fin in *.
    pose proof (Bdiv_correct prec emax HP HL mode_NE x y Hy) as C. rewrite fexp_eq, rm_eq in C. fold ieee_rnd in C.
    destruct (Rlt_bool _ _). 2: { apply overflow_inf in C. congruence. }
    destruct C as (C1 & C2 & _). split; congruence.
  - intros x y Fx Fy H. cbn [nadd ieee_num]. pose proof (Bplus_correct prec emax HP HL mode_NE x y Fx Fy) as C. rewrite fexp_eq, rm_eq in C. fold ieee_rnd in C.
    rewrite Rlt_bool_true in C by exact H. apply C.
  - intros x y Fx Fy H. cbn [nsub ieee_num]. pose proof (Bminus_correct prec emax HP HL mode_NE x y Fx Fy) as C. rewrite fexp_eq, rm_eq in C. fold ieee_rnd in C.
    rewrite Rlt_bool_true in C by exact H. apply C.
  - intros x y Fx Fy H. cbn [nmul ieee_num]. pose proof (Bmult_correct prec emax HP HL mode_NE x y) as C. rewrite fexp_eq, rm_eq in C. fold ieee_rnd in C.
    rewrite Rlt_bool_true in C by exact H. unfold ieee_fin in *. destruct C as (_ & C & _). rewrite C, Fx, Fy. reflexivity.
  - intros x y Fx Fy Hy H. cbn [ndiv ieee_num]. pose proof (Bdiv_correct prec emax HP HL mode_NE x y Hy) as C. rewrite fexp_eq, rm_eq in C. fold ieee_rnd in C.
    rewrite Rlt_bool_true in C by exact H. unfold ieee_fin in *. destruct C as (_ & C & _). congruence.
  - exact PG.
  - intros z Hz. apply int_ok; auto.
  - intros x y H. unfold ieee_inr. lra.
  - intros z Hz. apply int_small; auto.
Qed.
End Ieee.
Arguments ieee_num prec emax {HP HL}.

(** f64 and f32 *)
#[local] Instance P53' : Prec_gt_0 53 := eq_refl.
#[local] Instance L53' : Prec_lt_emax 53 1024 := eq_refl.
#[local] Instance P24 : Prec_gt_0 24 := eq_refl.
#[local] Instance L24 : Prec_lt_emax 24 128 := eq_refl.
Definition f32 := binary_float 24 128.
#[export] Instance num_f32 : Num f32 := ieee_num 24 128.
Definition f64_fin (x : f64) : Prop := is_finite x = true.
Definition f64_val (x : f64) : R := B2R x.
Definition f32_fin (x : f32) : Prop := is_finite x = true.
Definition f32_val (x : f32) : R := B2R x.

Theorem f64_float_arith :
  float_arith num_f64 (bpow radix2 (-53)) (bpow radix2 (-1075)) (ieee_rnd 53 1024) (2 ^ 53) (ieee_inr 1024) f64_fin f64_val.
Proof. apply (ieee_float_arith 53 1024 P53' L53'); lia. Qed.
Theorem f32_float_arith :
  float_arith num_f32 (bpow radix2 (-24)) (bpow radix2 (-150)) (ieee_rnd 24 128) (2 ^ 24) (ieee_inr 128) f32_fin f32_val.
Proof. apply (ieee_float_arith 24 128 P24 L24); lia. Qed.

(** Exact arithmetic is the case without rounding. *)
Theorem exact_float_arith z : (1024 <= z)%Z -> float_arith num_R 0 0 (fun x => x) z (fun _ => True) (fun _ => True) (fun x => x).
Proof.
  intros Hz. constructor; auto; try tauto.
  - constructor; auto; try lra; intros; unfold Rminus; rewrite Rplus_opp_r, Rabs_R0; lra.
Qed.
