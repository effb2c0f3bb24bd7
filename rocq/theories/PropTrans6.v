(** C55 in f32 (the library is generic over f32 and f64): the same statements as in PropTrans2.v for IEEE binary32:
    unit roundoff 2^-24, half the smallest subnormal 2^-150; up to 2^20 points (Dirichlet 2^11, Neumann 2^10: beyond, the
    condition of the fit exceeds the precision), sums of sizes up to 2^60. *)
From Coq Require Import List Arith ZArith Reals Bool Lra Lia.
From Flocq Require Import Core BinarySingleNaN.
From Verif Require Import Base Num Linalg Stencils Cheb Compo Fourier FourierF64 FourierProofs ChebFacts ExtLib Rounding RndNeumann LibAcc RndCheb RndFft RndR2c RndCompo RndFinite2 LibIdeal PropRound PropRound2 PropAny PropTrans.
Import ListNotations.
Local Open Scope R_scope.
Local Notation u32 := (bpow radix2 (-24)).
Local Notation eta32 := (bpow radix2 (-150)).
Local Notation fin := f32_fin.
Local Notation val := f32_val.
Local Notation FA := f32_float_arith.

(** [x == 0.0] *)
#[local] Instance eqz_f32 : EqZ f32 := fun x => match x with B754_zero _ => true | _ => false end.

(** ** The assumptions on the libraries can be met *)
Theorem C55_accurate_f32_libraries_exist :
  exists E : ext f32, forall n, (1 <= n)%nat ->
    (dct1_accurate E fin val n (bpow radix2 (-23)) eta32 /\ dct1_in_range E fin val (ieee_inr 128) n) /\
    (forall s, fft_accurate E fin val s n (bpow radix2 (-23)) eta32 /\ fft_in_range E fin val (ieee_inr 128) s n) /\
    (r2c_accurate E fin val n (bpow radix2 (-23)) eta32 /\ r2c_in_range E fin val (ieee_inr 128) n) /\
    (c2r_accurate E fin val n (bpow radix2 (-23)) eta32 /\ c2r_in_range E fin val (ieee_inr 128) n).
Proof.
  exists (ideal 24 128 eq_refl eq_refl). intros n Hn.
  assert (E2 : bpow radix2 (-23) = 2 * ieee_u 24). { unfold ieee_u. change (-23)%Z with (1 + - (24))%Z. rewrite bpow_plus. reflexivity. }
  rewrite E2. change eta32 with (ieee_eta 24 128).
  split; [|split; [|split]]; intros.
  - apply (ideal_dct1_ok 24 128 eq_refl eq_refl); lia.
  - apply (ideal_fft_ok 24 128 eq_refl eq_refl); lia.
  - apply (ideal_r2c_ok 24 128 eq_refl eq_refl); lia.
  - apply (ideal_c2r_ok 24 128 eq_refl eq_refl); auto; lia.
Qed.

(** ** Sizes *)
Lemma f32_n_eta n : (Z.of_nat n <= 2 ^ 20)%Z -> INR n * eta32 <= u32.
Proof.
  intros H. apply n_bounds in H. apply Rle_trans with (bpow radix2 20 * eta32). apply Rmult_le_compat_r. apply bpow_ge_0. rewrite <- (IZR_Zpower radix2) by lia. exact H.
  rewrite <- bpow_plus. apply bpow_le. lia.
Qed.
Lemma f32_in_range K x B : 0 <= x <= K * B -> K < bpow radix2 60 -> 0 <= B <= bpow radix2 60 -> ieee_inr 128 x.
Proof.
  intros [H0 H1] HK [B0 B1]. unfold ieee_inr. rewrite Rabs_pos_eq by auto. apply Rle_lt_trans with (1 := H1). apply Rle_lt_trans with (bpow radix2 60 * bpow radix2 60).
  - apply Rle_trans with (bpow radix2 60 * B). apply Rmult_le_compat_r; lra. apply Rmult_le_compat_l; auto. apply bpow_ge_0.
  - rewrite <- bpow_plus. apply bpow_lt. lia.
Qed.
Lemma B60 : 1 <= bpow radix2 60.
Proof. change 1 with (bpow radix2 0). apply bpow_le. lia. Qed.
Lemma eta1 : 0 <= eta32 <= 1.
Proof. split. apply bpow_ge_0. change 1 with (bpow radix2 0). apply bpow_le. lia. Qed.
Lemma mul_up a b A B : 0 <= a <= A -> 0 <= b <= B -> 0 <= a * b <= A * B.
Proof. intros. split. apply Rmult_le_pos; lra. apply Rmult_le_compat; lra. Qed.

(** ** Chebyshev *)
Theorem C55_f32_cheb_backward_of_forward :
  forall (E : ext f32) n c dl zt (x o1 o2 : list f32), cheb_new n = Ok c -> (Z.of_nat n <= 2 ^ 20)%Z -> 0 <= dl <= / 16 -> 0 <= zt <= 1 ->
  dct1_accurate E fin val n dl zt -> dct1_in_range E fin val (ieee_inr 128) n ->
  length x = n -> length o1 = n -> length o2 = n -> (forall j, (j < n)%nat -> is_finite x.[j] = true) ->
  rsum n (fun j => Rabs (B2R x.[j])) <= bpow radix2 60 ->
  exists a y, cheb_forward_x E c x o1 = Ok a /\ cheb_backward_x E c a o2 = Ok y /\
    forall j, (j < n)%nat -> is_finite y.[j] = true /\
      Rabs (B2R y.[j] - B2R x.[j]) <= (16 * dl + 24 * bpow radix2 (-24)) * rsum n (fun k => Rabs (B2R x.[k])) + 5 * INR n ^ 2 * bpow radix2 (-150) + 2 * INR n * zt.
Proof.
  intros E n c dl zt x o1 o2 Hc Hz Hd Hzt HE HR Lx L1 L2 Fx HS. destruct (cheb_new_inv n c Hc) as [Hn Ec].
  pose proof (n_bounds _ _ Hz) as HN. pose proof (pos_INR n) as N0. pose proof B60 as B1. pose proof eta1 as E1.
  assert (S0 : 0 <= rsum n (fun j => Rabs (B2R x.[j]))) by (apply rsum_pos; intros; apply Rabs_pos).
  destruct (cheb_bwd_fwd_fin FA E n dl zt x o1 o2 Hn ltac:(lia) (f32_n_eta n ltac:(lia)) Hd ltac:(lra) HE HR Lx L1 L2 Fx) as (a & y & Ea & Ey & Fa & Fy).
  { change (size n x) with (rsum n (fun j => Rabs (B2R x.[j]))). set (S := rsum n _) in *. destruct (mul_up (INR n) (INR n) _ _ (Logic.conj N0 HN) (Logic.conj N0 HN)) as [P1 P2].
    destruct (mul_up (INR n * INR n) eta32 _ _ (Logic.conj P1 P2) E1) as [P3 P4]. destruct (mul_up (INR n) zt _ _ (Logic.conj N0 HN) Hzt) as [P5 P6].
    apply (f32_in_range (42 + 27 * (IZR (2 ^ 20) * IZR (2 ^ 20)) + 9 * IZR (2 ^ 20)) _ (bpow radix2 60)); [|cbn; lra|lra]. split. lra.
    set (B := bpow radix2 60) in *. clearbody B. cbn in *. lra. }
  exists a, y. rewrite Ec. split; auto. split; auto. intros j Hj. split. apply Fy; auto.
  apply (C55_cheb_backward_of_forward f32 num_f32 _ _ _ _ _ _ _ FA E n c dl zt x o1 a o2 y); auto; try lia; try lra. apply f32_n_eta; lia. rewrite Ec; auto. rewrite Ec; auto.
Qed.
Theorem C55_f32_cheb_forward_of_backward :
  forall (E : ext f32) n c dl zt (a o1 o2 : list f32), cheb_new n = Ok c -> (Z.of_nat n <= 2 ^ 20)%Z -> 0 <= dl <= / 16 -> 0 <= zt <= 1 ->
  dct1_accurate E fin val n dl zt -> dct1_in_range E fin val (ieee_inr 128) n ->
  length a = n -> length o1 = n -> length o2 = n -> (forall j, (j < n)%nat -> is_finite a.[j] = true) ->
  rsum n (fun j => Rabs (B2R a.[j])) <= bpow radix2 60 ->
  exists y b, cheb_backward_x E c a o1 = Ok y /\ cheb_forward_x E c y o2 = Ok b /\
    forall k, (k < n)%nat -> is_finite b.[k] = true /\
      Rabs (B2R b.[k] - B2R a.[k]) <= (14 * dl + 21 * bpow radix2 (-24)) * rsum n (fun k => Rabs (B2R a.[k])) + 13 * INR n * bpow radix2 (-150) + 6 * zt.
Proof.
  intros E n c dl zt a o1 o2 Hc Hz Hd Hzt HE HR La L1 L2 Fa HS. destruct (cheb_new_inv n c Hc) as [Hn Ec].
  pose proof (n_bounds _ _ Hz) as HN. pose proof (pos_INR n) as N0. pose proof B60 as B1. pose proof eta1 as E1.
  assert (S0 : 0 <= rsum n (fun j => Rabs (B2R a.[j]))) by (apply rsum_pos; intros; apply Rabs_pos).
  destruct (cheb_fwd_bwd_fin FA E n dl zt a o1 o2 Hn ltac:(lia) Hd ltac:(lra) HE HR La L1 L2 Fa) as (y & b & Ey & Eb & Fy & Fb).
  { change (size n a) with (rsum n (fun j => Rabs (B2R a.[j]))). set (S := rsum n _) in *. destruct (mul_up (INR n) (INR n) _ _ (Logic.conj N0 HN) (Logic.conj N0 HN)) as [P1 P2].
    destruct (mul_up (INR n * INR n) eta32 _ _ (Logic.conj P1 P2) E1) as [P3 P4]. destruct (mul_up (INR n) zt _ _ (Logic.conj N0 HN) Hzt) as [P5 P6]. destruct (mul_up (INR n) S _ _ (Logic.conj N0 HN) (Logic.conj S0 HS)) as [P7 P8].
    apply (f32_in_range (11 * IZR (2 ^ 20) + 18 * (IZR (2 ^ 20) * IZR (2 ^ 20)) + 10 * IZR (2 ^ 20)) _ (bpow radix2 60)); [|cbn; lra|lra]. split. lra.
    set (B := bpow radix2 60) in *. clearbody B. cbn in *. lra. }
  exists y, b. rewrite Ec. split; auto. split; auto. intros j Hj. split. apply Fb; auto.
  apply (C55_cheb_forward_of_backward f32 num_f32 _ _ _ _ _ _ _ FA E n c dl zt a o1 y o2 b); auto; try lia; try lra. apply f32_n_eta; lia. rewrite Ec; auto. rewrite Ec; auto.
Qed.

(** ** Composite bases *)
Lemma f32_n11 n : (Z.of_nat n <= 2 ^ 11)%Z -> INR n * u32 <= 1 /\ 3 * (INR n + 1) ^ 2 * (u32 + eta32) <= 1.
Proof.
  intros Hz. pose proof (n_bounds _ _ Hz) as HN. pose proof (pos_INR n) as N0.
  assert (E1 : eta32 <= bpow radix2 (-40)) by (apply bpow_le; lia). change (bpow radix2 (-40)) with (/ IZR (2 ^ 40)) in E1. pose proof (bpow_gt_0 radix2 (-150)) as E0.
  change u32 with (/ IZR (2 ^ 24)). split.
  - apply Rle_trans with (IZR (2 ^ 11) * / IZR (2 ^ 24)). apply Rmult_le_compat_r; auto. cbn; lra. cbn; lra.
  - apply Rle_trans with (3 * (IZR (2 ^ 11) + 1) ^ 2 * (/ IZR (2 ^ 24) + / IZR (2 ^ 40))). 2: cbn; lra.
    apply Rmult_le_compat. apply Rmult_le_pos. lra. apply pow_le; lra. cbn in *; lra. apply Rmult_le_compat_l. lra. apply pow_incr. lra. lra.
Qed.
Lemma f32_n10 n : (Z.of_nat n <= 2 ^ 10)%Z -> (Z.of_nat n * Z.of_nat n <= 2 ^ 24)%Z /\ 10 * (INR n ^ 2 * (u32 + eta32)) <= 1.
Proof.
  intros Hz. pose proof (n_bounds _ _ Hz) as HN. pose proof (pos_INR n) as N0. split. { assert (Z.of_nat n * Z.of_nat n <= 2 ^ 10 * 2 ^ 10)%Z by (apply Z.mul_le_mono_nonneg; lia). lia. }
  assert (E1 : eta32 <= bpow radix2 (-40)) by (apply bpow_le; lia). change (bpow radix2 (-40)) with (/ IZR (2 ^ 40)) in E1. pose proof (bpow_gt_0 radix2 (-150)) as E0.
  change u32 with (/ IZR (2 ^ 24)).
  apply Rle_trans with (10 * (IZR (2 ^ 10) ^ 2 * (/ IZR (2 ^ 24) + / IZR (2 ^ 40)))). 2: cbn; lra.
  apply Rmult_le_compat_l. lra. apply Rmult_le_compat. apply pow_le; lra. cbn in *; lra. apply pow_incr. lra. lra.
Qed.
Lemma compo_range n S zt : (Z.of_nat n <= 2 ^ 11)%Z -> 0 <= zt <= 1 -> 0 <= S <= bpow radix2 60 -> ieee_inr 128 (27 * INR n * INR n * (14 * S + 26 * (INR n * eta32) + 6 * zt)).
Proof.
  intros Hz Hzt [S0 HS]. pose proof (n_bounds _ _ Hz) as HN. pose proof (pos_INR n) as N0. pose proof B60 as B1. pose proof eta1 as E1.
  destruct (mul_up (INR n) (INR n) _ _ (Logic.conj N0 HN) (Logic.conj N0 HN)) as [P1 P2]. destruct (mul_up (INR n) eta32 _ _ (Logic.conj N0 HN) E1) as [P3 P4].
  destruct (mul_up (INR n * INR n) (14 * S + 26 * (INR n * eta32) + 6 * zt) (IZR (2 ^ 11) * IZR (2 ^ 11)) ((20 + 26 * IZR (2 ^ 11)) * bpow radix2 60) (Logic.conj P1 P2)) as [P5 P6].
  { split. lra. set (B := bpow radix2 60) in *. clearbody B. cbn in *. lra. }
  replace (27 * INR n * INR n * (14 * S + 26 * (INR n * eta32) + 6 * zt)) with (27 * (INR n * INR n * (14 * S + 26 * (INR n * eta32) + 6 * zt))) by ring.
  apply (f32_in_range (27 * (IZR (2 ^ 11) * IZR (2 ^ 11) * (20 + 26 * IZR (2 ^ 11)))) _ (bpow radix2 60)); [|cbn; lra|lra]. split; lra.
Qed.
Theorem C55_f32_dirichlet_forward_of_backward :
  forall (E : ext f32) n b dl zt (c o1 o2 : list f32), (5 <= n)%nat -> (Z.of_nat n <= 2 ^ 11)%Z -> 0 <= dl <= / 16 -> 0 <= zt <= 1 ->
  dct1_accurate E fin val n dl zt -> dct1_in_range E fin val (ieee_inr 128) n ->
  compo_new KDirichlet n = Ok b -> length c = (n - 2)%nat -> length o1 = n -> length o2 = (n - 2)%nat -> (forall j, (j < n - 2)%nat -> is_finite c.[j] = true) ->
  rsum (n - 2) (fun j => Rabs (B2R c.[j])) <= bpow radix2 60 ->
  exists y x, compo_backward_x E b c o1 = Ok y /\ compo_forward_x E b y o2 = Ok x /\
    forall k, (k < n - 2)%nat -> is_finite x.[k] = true /\
      Rabs (B2R x.[k] - B2R c.[k]) <= (INR n + 1) ^ 2 * ((5 * dl + 12 * bpow radix2 (-24)) * rsum (n - 2) (fun k => Rabs (B2R c.[k])) + 3 * INR n * bpow radix2 (-150) + zt).
Proof.
  intros E n b dl zt c o1 o2 Hn Hz Hd Hzt HE HR Hb Lc L1 L2 Fc HS. destruct (dir_inv n b Hb) as [Hn4 Eb]. destruct (f32_n11 n Hz) as [NU NS].
  assert (S0 : 0 <= rsum (n - 2) (fun j => Rabs (B2R c.[j]))) by (apply rsum_pos; intros; apply Rabs_pos).
  destruct (dir_fwd_bwd_fin FA E n dl zt c o1 o2 Hn ltac:(lia) (f32_n_eta n ltac:(lia)) NU Hd ltac:(lra) HE HR Lc L1 L2 Fc) as (y & x & Ey & Ex & Fx). { apply compo_range; auto. }
  exists y, x. rewrite Eb. split; auto. split; auto. intros j Hj. split. apply Fx; auto.
  apply (C55_dirichlet_forward_of_backward f32 num_f32 _ _ _ _ _ _ _ FA E n b dl zt c o1 y o2 x); auto; try lia; try lra. apply f32_n_eta; lia. rewrite Eb; auto. rewrite Eb; auto.
Qed.
Theorem C55_f32_neumann_forward_of_backward :
  forall (E : ext f32) n b dl zt (c o1 o2 : list f32), (5 <= n)%nat -> (Z.of_nat n <= 2 ^ 10)%Z -> 0 <= dl <= / 16 -> 0 <= zt <= 1 ->
  dct1_accurate E fin val n dl zt -> dct1_in_range E fin val (ieee_inr 128) n ->
  compo_new KNeumann n = Ok b -> length c = (n - 2)%nat -> length o1 = n -> length o2 = (n - 2)%nat -> (forall j, (j < n - 2)%nat -> is_finite c.[j] = true) ->
  rsum (n - 2) (fun j => Rabs (B2R c.[j])) <= bpow radix2 60 ->
  exists y x, compo_backward_x E b c o1 = Ok y /\ compo_forward_x E b y o2 = Ok x /\
    forall k, (k < n - 2)%nat -> is_finite x.[k] = true /\
      Rabs (B2R x.[k] - B2R c.[k]) <= INR n ^ 2 * ((15 * dl + 41 * bpow radix2 (-24)) * rsum (n - 2) (fun k => Rabs (B2R c.[k])) + 11 * INR n * bpow radix2 (-150) + 3 * zt).
Proof.
  intros E n b dl zt c o1 o2 Hn Hz Hd Hzt HE HR Hb Lc L1 L2 Fc HS. destruct (neu_inv n b Hb) as [Hn4 Eb]. destruct (f32_n10 n Hz) as [NU NS].
  assert (S0 : 0 <= rsum (n - 2) (fun j => Rabs (B2R c.[j]))) by (apply rsum_pos; intros; apply Rabs_pos).
  destruct (neu_fwd_bwd_fin FA E n dl zt c o1 o2 Hn NU (f32_n_eta n ltac:(lia)) NS Hd ltac:(lra) HE HR Lc L1 L2 Fc) as (y & x & Ey & Ex & Fx). { apply compo_range; auto. lia. }
  exists y, x. rewrite Eb. split; auto. split; auto. intros j Hj. split. apply Fx; auto.
  apply (C55_neumann_forward_of_backward f32 num_f32 _ _ _ _ _ _ _ FA E n b dl zt c o1 y o2 x); auto; try lra. apply f32_n_eta; lia. rewrite Eb; auto. rewrite Eb; auto.
Qed.

(** ** Fourier *)
Lemma fourier_range n S zt : (Z.of_nat n <= 2 ^ 20)%Z -> 0 <= zt <= 1 -> 0 <= S <= bpow radix2 60 -> ieee_inr 128 (9 * INR n * S + 8 * INR n * zt).
Proof.
  intros Hz Hzt HS. pose proof (n_bounds _ _ Hz) as HN. pose proof (pos_INR n) as N0. pose proof B60 as B1.
  destruct (mul_up (INR n) S _ _ (Logic.conj N0 HN) HS) as [P1 P2]. destruct (mul_up (INR n) zt _ _ (Logic.conj N0 HN) Hzt) as [P3 P4].
  apply (f32_in_range (17 * IZR (2 ^ 20)) _ (bpow radix2 60)); [|cbn; lra|lra]. split. lra. set (B := bpow radix2 60) in *. clearbody B. cbn in *. lra.
Qed.
Lemma csum_pos n (x : list (cplx f32)) : 0 <= rsum n (fun k => Rabs (B2R (fst x.[k])) + Rabs (B2R (snd x.[k]))).
Proof. apply rsum_pos. intros i _. pose proof (Rabs_pos (B2R (fst x.[i]))). pose proof (Rabs_pos (B2R (snd x.[i]))). lra. Qed.
Theorem C55_f32_c2c_backward_of_forward :
  forall (E : ext f32) n f dl zt (x o1 o2 : list (cplx f32)), c2c_new n = Ok f -> (Z.of_nat n <= 2 ^ 20)%Z -> 0 <= dl <= / 16 -> 0 <= zt <= 1 ->
  (forall s, fft_accurate E fin val s n dl zt) -> (forall s, fft_in_range E fin val (ieee_inr 128) s n) ->
  length x = n -> length o1 = n -> length o2 = n -> (forall j, (j < n)%nat -> is_finite (fst x.[j]) = true /\ is_finite (snd x.[j]) = true) ->
  let S := rsum n (fun k => Rabs (B2R (fst x.[k])) + Rabs (B2R (snd x.[k]))) in S <= bpow radix2 60 ->
  exists c y, c2c_forward_x E f x o1 = Ok c /\ c2c_backward_x E f c o2 = Ok y /\
    forall j, (j < n)%nat -> is_finite (fst y.[j]) = true /\ is_finite (snd y.[j]) = true /\
      let e := (5 * dl + 8 * bpow radix2 (-24)) * S + 4 * INR n * bpow radix2 (-150) + 4 * zt in
      Rabs (B2R (fst y.[j]) - B2R (fst x.[j])) <= e /\ Rabs (B2R (snd y.[j]) - B2R (snd x.[j])) <= e.
Proof.
  intros E n f dl zt x o1 o2 Hf Hz Hd Hzt HE HR Lx L1 L2 Fx S HS. destruct (c2c_new_inv n f Hf) as [Hn Ef].
  destruct (c2c_bwd_fwd_fin FA E n dl zt x o1 o2 Hn ltac:(lia) Hd ltac:(lra) HE HR Lx L1 L2 Fx) as (c & y & Ec & Ey & Fc & Fy). { apply fourier_range; auto. split; [apply csum_pos|exact HS]. }
  exists c, y. rewrite Ef. split; auto. split; auto. intros j Hj. split. apply Fy; auto. split. apply Fy; auto.
  apply (C55_c2c_backward_of_forward f32 num_f32 _ _ _ _ _ _ _ FA E n f dl zt x o1 c o2 y); auto; try lia; try lra. apply f32_n_eta; lia. rewrite Ef; auto. rewrite Ef; auto.
Qed.
Theorem C55_f32_c2c_forward_of_backward :
  forall (E : ext f32) n f dl zt (c o1 o2 : list (cplx f32)), c2c_new n = Ok f -> (Z.of_nat n <= 2 ^ 20)%Z -> 0 <= dl <= / 16 -> 0 <= zt <= 1 ->
  (forall s, fft_accurate E fin val s n dl zt) -> (forall s, fft_in_range E fin val (ieee_inr 128) s n) ->
  length c = n -> length o1 = n -> length o2 = n -> (forall j, (j < n)%nat -> is_finite (fst c.[j]) = true /\ is_finite (snd c.[j]) = true) ->
  let S := rsum n (fun k => Rabs (B2R (fst c.[k])) + Rabs (B2R (snd c.[k]))) in S <= bpow radix2 60 ->
  exists y d, c2c_backward_x E f c o1 = Ok y /\ c2c_forward_x E f y o2 = Ok d /\
    forall k, (k < n)%nat -> is_finite (fst d.[k]) = true /\ is_finite (snd d.[k]) = true /\
      let e := (5 * dl + 9 * bpow radix2 (-24)) * S + 9 * INR n ^ 2 * bpow radix2 (-150) + 4 * INR n * zt in
      Rabs (B2R (fst d.[k]) - B2R (fst c.[k])) <= e /\ Rabs (B2R (snd d.[k]) - B2R (snd c.[k])) <= e.
Proof.
  intros E n f dl zt c o1 o2 Hf Hz Hd Hzt HE HR Lc L1 L2 Fc S HS. destruct (c2c_new_inv n f Hf) as [Hn Ef].
  destruct (c2c_fwd_bwd_fin FA E n dl zt c o1 o2 Hn ltac:(lia) Hd ltac:(lra) HE HR Lc L1 L2 Fc) as (y & d & Ey & Ed & Fy & Fd). { apply fourier_range; auto. split; [apply csum_pos|exact HS]. }
  exists y, d. rewrite Ef. split; auto. split; auto. intros j Hj. split. apply Fd; auto. split. apply Fd; auto.
  apply (C55_c2c_forward_of_backward f32 num_f32 _ _ _ _ _ _ _ FA E n f dl zt c o1 y o2 d); auto; try lia; try lra. apply f32_n_eta; lia. rewrite Ef; auto. rewrite Ef; auto.
Qed.
Theorem C55_f32_r2c_backward_of_forward :
  forall (E : ext f32) n f dl zt (x o2 : list f32) (o1 : list (cplx f32)), r2c_new n = Ok f -> (Z.of_nat n <= 2 ^ 20)%Z -> 0 <= dl <= / 16 -> 0 <= zt <= 1 ->
  r2c_accurate E fin val n dl zt -> c2r_accurate E fin val n dl zt -> r2c_in_range E fin val (ieee_inr 128) n -> c2r_in_range E fin val (ieee_inr 128) n ->
  length x = n -> length o1 = (n / 2 + 1)%nat -> length o2 = n -> (forall j, (j < n)%nat -> is_finite x.[j] = true) ->
  rsum n (fun k => Rabs (B2R x.[k])) <= bpow radix2 60 ->
  exists c y, r2c_forward_x E f x o1 = Ok c /\ r2c_backward_x E f c o2 = Ok y /\
    forall j, (j < n)%nat -> is_finite y.[j] = true /\
      Rabs (B2R y.[j] - B2R x.[j]) <= (7 * dl + 17 * bpow radix2 (-24)) * rsum n (fun k => Rabs (B2R x.[k])) + 6 * INR n * bpow radix2 (-150) + 6 * zt.
Proof.
  intros E n f dl zt x o2 o1 Hf Hz Hd Hzt HE HE2 HR HR2 Lx L1 L2 Fx HS. destruct (r2c_new_inv n f Hf) as [Hn Ef].
  destruct (r2c_bwd_fwd_fin FA E (Z0 := eqz_f32) n dl zt x o2 o1 eq_refl Hn ltac:(lia) Hd ltac:(lra) HE HR HR2 Lx L1 L2 Fx) as (c & y & Ec & Ey & Fc & Fy). { apply fourier_range; auto. split; [apply rsum_pos; intros; apply Rabs_pos|exact HS]. }
  exists c, y. rewrite Ef. split; auto. split; auto. intros j Hj. split. apply Fy; auto.
  apply (C55_r2c_backward_of_forward f32 num_f32 _ _ _ _ _ _ _ _ FA E n f dl zt x o2 y o1 c); auto; try lia; try lra. apply f32_n_eta; lia. rewrite Ef; auto. rewrite Ef; auto.
Qed.
Theorem C55_f32_r2c_forward_of_backward :
  forall (E : ext f32) n f dl zt (c o2 : list (cplx f32)) (o1 : list f32), r2c_new n = Ok f -> (Z.of_nat n <= 2 ^ 20)%Z -> 0 <= dl <= / 16 -> 0 <= zt <= 1 ->
  r2c_accurate E fin val n dl zt -> c2r_accurate E fin val n dl zt -> r2c_in_range E fin val (ieee_inr 128) n -> c2r_in_range E fin val (ieee_inr 128) n ->
  length c = (n / 2 + 1)%nat -> length o1 = n -> length o2 = (n / 2 + 1)%nat -> (forall j, (j < n / 2 + 1)%nat -> is_finite (fst c.[j]) = true /\ is_finite (snd c.[j]) = true) ->
  let S := rsum (n / 2 + 1) (fun k => Rabs (B2R (fst c.[k])) + Rabs (B2R (snd c.[k]))) in S <= bpow radix2 60 ->
  exists y d, r2c_backward_x E f c o1 = Ok y /\ r2c_forward_x E f y o2 = Ok d /\
    forall k, (k < n / 2 + 1)%nat -> is_finite (fst d.[k]) = true /\ is_finite (snd d.[k]) = true /\
      let e := (4 * dl + 9 * bpow radix2 (-24)) * S + 7 * INR n ^ 2 * bpow radix2 (-150) + 3 * INR n * zt in
      Rabs (B2R (fst d.[k]) - B2R (fst c.[k])) <= e /\
      Rabs (B2R (snd d.[k]) - (if (k =? 0)%nat || (2 * k =? n)%nat then 0 else B2R (snd c.[k]))) <= e.
Proof.
  intros E n f dl zt c o2 o1 Hf Hz Hd Hzt HE HE2 HR HR2 Lc L1 L2 Fc S HS. destruct (r2c_new_inv n f Hf) as [Hn Ef].
  destruct (r2c_fwd_bwd_fin FA E (Z0 := eqz_f32) n dl zt c o2 o1 eq_refl Hn ltac:(lia) Hd ltac:(lra) HE2 HR HR2 Lc L1 L2 Fc) as (y & d & Ey & Ed & Fy & Fd). { apply fourier_range; auto. split; [apply csum_pos|exact HS]. }
  exists y, d. rewrite Ef. split; auto. split; auto. intros j Hj. split. apply Fd; auto. split. apply Fd; auto.
  apply (C55_r2c_forward_of_backward f32 num_f32 _ _ _ _ _ _ _ _ FA E n f dl zt c o2 d o1 y); auto; try lia; try lra. apply f32_n_eta; lia. rewrite Ef; auto. rewrite Ef; auto.
Qed.

Print Assumptions C55_accurate_f32_libraries_exist.
Print Assumptions C55_f32_cheb_backward_of_forward.
Print Assumptions C55_f32_cheb_forward_of_backward.
Print Assumptions C55_f32_dirichlet_forward_of_backward.
Print Assumptions C55_f32_neumann_forward_of_backward.
Print Assumptions C55_f32_c2c_backward_of_forward.
Print Assumptions C55_f32_c2c_forward_of_backward.
Print Assumptions C55_f32_r2c_backward_of_forward.
Print Assumptions C55_f32_r2c_forward_of_backward.
