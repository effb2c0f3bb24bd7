(** C55, continued: in f64 (and f32) the round trips return finite numbers within
    explicit distance of the input, for every size and every finite input of
    moderate size; and a transform library of the assumed accuracy exists. *)
From Coq Require Import List Arith ZArith Reals Bool Lra Lia.
From Flocq Require Import Core BinarySingleNaN.
From Verif Require Import Base Num Linalg Stencils Cheb Compo Fourier FourierF64 FourierProofs ChebFacts ExtLib Rounding RndNeumann LibAcc RndCheb RndFft RndR2c RndCompo RndFinite2 LibIdeal PropRound PropRound2 PropAny PropTrans.
Import ListNotations.
Local Open Scope R_scope.
Local Notation u64 := (bpow radix2 (-53)).
Local Notation eta64 := (bpow radix2 (-1075)).
Local Notation fin := f64_fin.
Local Notation val := f64_val.
Local Notation FA := f64_float_arith.

(** ** The assumptions on the libraries can be met *)
Theorem C55_accurate_libraries_exist :
  exists E : ext f64, forall n, (1 <= n)%nat ->
    (dct1_accurate E fin val n (bpow radix2 (-52)) eta64 /\ dct1_in_range E fin val (ieee_inr 1024) n) /\
    (forall s, fft_accurate E fin val s n (bpow radix2 (-52)) eta64 /\ fft_in_range E fin val (ieee_inr 1024) s n) /\
    (r2c_accurate E fin val n (bpow radix2 (-52)) eta64 /\ r2c_in_range E fin val (ieee_inr 1024) n) /\
    (c2r_accurate E fin val n (bpow radix2 (-52)) eta64 /\ c2r_in_range E fin val (ieee_inr 1024) n).
Proof.
  exists (ideal 53 1024 eq_refl eq_refl). intros n Hn.
  assert (E2 : bpow radix2 (-52) = 2 * ieee_u 53). { unfold ieee_u. change (-52)%Z with (1 + - (53))%Z. rewrite bpow_plus. reflexivity. }
  rewrite E2. change eta64 with (ieee_eta 53 1024).
  split; [|split; [|split]]; intros.
  - apply (ideal_dct1_ok 53 1024 eq_refl eq_refl); lia.
  - apply (ideal_fft_ok 53 1024 eq_refl eq_refl); lia.
  - apply (ideal_r2c_ok 53 1024 eq_refl eq_refl); lia.
  - apply (ideal_c2r_ok 53 1024 eq_refl eq_refl); auto; lia.
Qed.

(** ** Sizes *)
Lemma f64_n_eta n : (Z.of_nat n <= 2 ^ 52)%Z -> INR n * eta64 <= u64.
Proof.
  intros H. apply n_bounds in H. apply Rle_trans with (bpow radix2 52 * eta64). apply Rmult_le_compat_r. apply bpow_ge_0. rewrite <- (IZR_Zpower radix2) by lia. exact H.
  rewrite <- bpow_plus. apply bpow_le. lia.
Qed.
Lemma f64_in_range K x B : 0 <= x <= K * B -> K < bpow radix2 120 -> 0 <= B <= bpow radix2 900 -> ieee_inr 1024 x.
Proof.
  intros [H0 H1] HK [B0 B1]. unfold ieee_inr. rewrite Rabs_pos_eq by auto. apply Rle_lt_trans with (1 := H1). apply Rle_lt_trans with (bpow radix2 120 * bpow radix2 900).
  - apply Rle_trans with (bpow radix2 120 * B). apply Rmult_le_compat_r; lra. apply Rmult_le_compat_l; auto. apply bpow_ge_0.
  - rewrite <- bpow_plus. apply bpow_lt. lia.
Qed.
Lemma B900 : 1 <= bpow radix2 900.
Proof. change 1 with (bpow radix2 0). apply bpow_le. lia. Qed.
Lemma eta1 : 0 <= eta64 <= 1.
Proof. split. apply bpow_ge_0. change 1 with (bpow radix2 0). apply bpow_le. lia. Qed.
Lemma mul_up a b A B : 0 <= a <= A -> 0 <= b <= B -> 0 <= a * b <= A * B.
Proof. intros. split. apply Rmult_le_pos; lra. apply Rmult_le_compat; lra. Qed.

(** ** Chebyshev *)
Theorem C55_f64_cheb_backward_of_forward :
  forall (E : ext f64) n c dl zt (x o1 o2 : list f64), cheb_new n = Ok c -> (Z.of_nat n <= 2 ^ 52)%Z -> 0 <= dl <= / 16 -> 0 <= zt <= 1 ->
  dct1_accurate E fin val n dl zt -> dct1_in_range E fin val (ieee_inr 1024) n ->
  length x = n -> length o1 = n -> length o2 = n -> (forall j, (j < n)%nat -> is_finite x.[j] = true) ->
  rsum n (fun j => Rabs (B2R x.[j])) <= bpow radix2 900 ->
  exists a y, cheb_forward_x E c x o1 = Ok a /\ cheb_backward_x E c a o2 = Ok y /\
    forall j, (j < n)%nat -> is_finite y.[j] = true /\
      Rabs (B2R y.[j] - B2R x.[j]) <= (16 * dl + 24 * bpow radix2 (-53)) * rsum n (fun k => Rabs (B2R x.[k])) + 5 * INR n ^ 2 * bpow radix2 (-1075) + 2 * INR n * zt.
Proof.
  intros E n c dl zt x o1 o2 Hc Hz Hd Hzt HE HR Lx L1 L2 Fx HS. destruct (cheb_new_inv n c Hc) as [Hn Ec].
  pose proof (n_bounds _ _ Hz) as HN. pose proof (pos_INR n) as N0. pose proof B900 as B1. pose proof eta1 as E1.
  assert (S0 : 0 <= rsum n (fun j => Rabs (B2R x.[j]))) by (apply rsum_pos; intros; apply Rabs_pos).
  destruct (cheb_bwd_fwd_fin FA E n dl zt x o1 o2 Hn ltac:(lia) (f64_n_eta n ltac:(lia)) Hd ltac:(lra) HE HR Lx L1 L2 Fx) as (a & y & Ea & Ey & Fa & Fy).
  { change (size n x) with (rsum n (fun j => Rabs (B2R x.[j]))). set (S := rsum n _) in *. destruct (mul_up (INR n) (INR n) _ _ (Logic.conj N0 HN) (Logic.conj N0 HN)) as [P1 P2].
    destruct (mul_up (INR n * INR n) eta64 _ _ (Logic.conj P1 P2) E1) as [P3 P4]. destruct (mul_up (INR n) zt _ _ (Logic.conj N0 HN) Hzt) as [P5 P6].
    apply (f64_in_range (42 + 27 * (IZR (2 ^ 52) * IZR (2 ^ 52)) + 9 * IZR (2 ^ 52)) _ (bpow radix2 900)); [|cbn; lra|lra]. split. lra.
    set (B := bpow radix2 900) in *. clearbody B. cbn in *. lra. }
  exists a, y. rewrite Ec. split; auto. split; auto. intros j Hj. split. apply Fy; auto.
  apply (C55_cheb_backward_of_forward f64 num_f64 _ _ _ _ _ _ _ FA E n c dl zt x o1 a o2 y); auto; try lia; try lra. apply f64_n_eta; lia. rewrite Ec; auto. rewrite Ec; auto.
Qed.
Theorem C55_f64_cheb_forward_of_backward :
  forall (E : ext f64) n c dl zt (a o1 o2 : list f64), cheb_new n = Ok c -> (Z.of_nat n <= 2 ^ 52)%Z -> 0 <= dl <= / 16 -> 0 <= zt <= 1 ->
  dct1_accurate E fin val n dl zt -> dct1_in_range E fin val (ieee_inr 1024) n ->
  length a = n -> length o1 = n -> length o2 = n -> (forall j, (j < n)%nat -> is_finite a.[j] = true) ->
  rsum n (fun j => Rabs (B2R a.[j])) <= bpow radix2 900 ->
  exists y b, cheb_backward_x E c a o1 = Ok y /\ cheb_forward_x E c y o2 = Ok b /\
    forall k, (k < n)%nat -> is_finite b.[k] = true /\
      Rabs (B2R b.[k] - B2R a.[k]) <= (14 * dl + 21 * bpow radix2 (-53)) * rsum n (fun k => Rabs (B2R a.[k])) + 13 * INR n * bpow radix2 (-1075) + 6 * zt.
Proof.
  intros E n c dl zt a o1 o2 Hc Hz Hd Hzt HE HR La L1 L2 Fa HS. destruct (cheb_new_inv n c Hc) as [Hn Ec].
  pose proof (n_bounds _ _ Hz) as HN. pose proof (pos_INR n) as N0. pose proof B900 as B1. pose proof eta1 as E1.
  assert (S0 : 0 <= rsum n (fun j => Rabs (B2R a.[j]))) by (apply rsum_pos; intros; apply Rabs_pos).
  destruct (cheb_fwd_bwd_fin FA E n dl zt a o1 o2 Hn ltac:(lia) Hd ltac:(lra) HE HR La L1 L2 Fa) as (y & b & Ey & Eb & Fy & Fb).
  { change (size n a) with (rsum n (fun j => Rabs (B2R a.[j]))). set (S := rsum n _) in *. destruct (mul_up (INR n) (INR n) _ _ (Logic.conj N0 HN) (Logic.conj N0 HN)) as [P1 P2].
    destruct (mul_up (INR n * INR n) eta64 _ _ (Logic.conj P1 P2) E1) as [P3 P4]. destruct (mul_up (INR n) zt _ _ (Logic.conj N0 HN) Hzt) as [P5 P6]. destruct (mul_up (INR n) S _ _ (Logic.conj N0 HN) (Logic.conj S0 HS)) as [P7 P8].
    apply (f64_in_range (11 * IZR (2 ^ 52) + 18 * (IZR (2 ^ 52) * IZR (2 ^ 52)) + 10 * IZR (2 ^ 52)) _ (bpow radix2 900)); [|cbn; lra|lra]. split. lra.
    set (B := bpow radix2 900) in *. clearbody B. cbn in *. lra. }
  exists y, b. rewrite Ec. split; auto. split; auto. intros j Hj. split. apply Fb; auto.
  apply (C55_cheb_forward_of_backward f64 num_f64 _ _ _ _ _ _ _ FA E n c dl zt a o1 y o2 b); auto; try lia; try lra. apply f64_n_eta; lia. rewrite Ec; auto. rewrite Ec; auto.
Qed.

(** ** Composite bases *)
Lemma f64_n25 n : (Z.of_nat n <= 2 ^ 25)%Z -> INR n * u64 <= 1 /\ 3 * (INR n + 1) ^ 2 * (u64 + eta64) <= 1.
Proof.
  intros Hz. pose proof (n_bounds _ _ Hz) as HN. pose proof (pos_INR n) as N0.
  assert (E1 : eta64 <= bpow radix2 (-60)) by (apply bpow_le; lia). change (bpow radix2 (-60)) with (/ IZR (2 ^ 60)) in E1. pose proof (bpow_gt_0 radix2 (-1075)) as E0.
  change u64 with (/ IZR (2 ^ 53)). split.
  - apply Rle_trans with (IZR (2 ^ 25) * / IZR (2 ^ 53)). apply Rmult_le_compat_r; auto. cbn; lra. cbn; lra.
  - apply Rle_trans with (3 * (IZR (2 ^ 25) + 1) ^ 2 * (/ IZR (2 ^ 53) + / IZR (2 ^ 60))). 2: cbn; lra.
    apply Rmult_le_compat. apply Rmult_le_pos. lra. apply pow_le; lra. cbn in *; lra. apply Rmult_le_compat_l. lra. apply pow_incr. lra. lra.
Qed.
Lemma f64_n24 n : (Z.of_nat n <= 2 ^ 24)%Z -> (Z.of_nat n * Z.of_nat n <= 2 ^ 53)%Z /\ 10 * (INR n ^ 2 * (u64 + eta64)) <= 1.
Proof.
  intros Hz. pose proof (n_bounds _ _ Hz) as HN. pose proof (pos_INR n) as N0. split. { assert (Z.of_nat n * Z.of_nat n <= 2 ^ 24 * 2 ^ 24)%Z by (apply Z.mul_le_mono_nonneg; lia). lia. }
  assert (E1 : eta64 <= bpow radix2 (-60)) by (apply bpow_le; lia). change (bpow radix2 (-60)) with (/ IZR (2 ^ 60)) in E1. pose proof (bpow_gt_0 radix2 (-1075)) as E0.
  change u64 with (/ IZR (2 ^ 53)).
  apply Rle_trans with (10 * (IZR (2 ^ 24) ^ 2 * (/ IZR (2 ^ 53) + / IZR (2 ^ 60)))). 2: cbn; lra.
  apply Rmult_le_compat_l. lra. apply Rmult_le_compat. apply pow_le; lra. cbn in *; lra. apply pow_incr. lra. lra.
Qed.
Lemma compo_range n S zt : (Z.of_nat n <= 2 ^ 25)%Z -> 0 <= zt <= 1 -> 0 <= S <= bpow radix2 900 -> ieee_inr 1024 (27 * INR n * INR n * (14 * S + 26 * (INR n * eta64) + 6 * zt)).
Proof.
  intros Hz Hzt [S0 HS]. pose proof (n_bounds _ _ Hz) as HN. pose proof (pos_INR n) as N0. pose proof B900 as B1. pose proof eta1 as E1.
  destruct (mul_up (INR n) (INR n) _ _ (Logic.conj N0 HN) (Logic.conj N0 HN)) as [P1 P2]. destruct (mul_up (INR n) eta64 _ _ (Logic.conj N0 HN) E1) as [P3 P4].
  destruct (mul_up (INR n * INR n) (14 * S + 26 * (INR n * eta64) + 6 * zt) (IZR (2 ^ 25) * IZR (2 ^ 25)) ((20 + 26 * IZR (2 ^ 25)) * bpow radix2 900) (Logic.conj P1 P2)) as [P5 P6].
  { split. lra. set (B := bpow radix2 900) in *. clearbody B. cbn in *. lra. }
  replace (27 * INR n * INR n * (14 * S + 26 * (INR n * eta64) + 6 * zt)) with (27 * (INR n * INR n * (14 * S + 26 * (INR n * eta64) + 6 * zt))) by ring.
  apply (f64_in_range (27 * (IZR (2 ^ 25) * IZR (2 ^ 25) * (20 + 26 * IZR (2 ^ 25)))) _ (bpow radix2 900)); [|cbn; lra|lra]. split; lra.
Qed.
Theorem C55_f64_dirichlet_forward_of_backward :
  forall (E : ext f64) n b dl zt (c o1 o2 : list f64), (5 <= n)%nat -> (Z.of_nat n <= 2 ^ 25)%Z -> 0 <= dl <= / 16 -> 0 <= zt <= 1 ->
  dct1_accurate E fin val n dl zt -> dct1_in_range E fin val (ieee_inr 1024) n ->
  compo_new KDirichlet n = Ok b -> length c = (n - 2)%nat -> length o1 = n -> length o2 = (n - 2)%nat -> (forall j, (j < n - 2)%nat -> is_finite c.[j] = true) ->
  rsum (n - 2) (fun j => Rabs (B2R c.[j])) <= bpow radix2 900 ->
  exists y x, compo_backward_x E b c o1 = Ok y /\ compo_forward_x E b y o2 = Ok x /\
    forall k, (k < n - 2)%nat -> is_finite x.[k] = true /\
      Rabs (B2R x.[k] - B2R c.[k]) <= (INR n + 1) ^ 2 * ((5 * dl + 12 * bpow radix2 (-53)) * rsum (n - 2) (fun k => Rabs (B2R c.[k])) + 3 * INR n * bpow radix2 (-1075) + zt).
Proof.
  intros E n b dl zt c o1 o2 Hn Hz Hd Hzt HE HR Hb Lc L1 L2 Fc HS. destruct (dir_inv n b Hb) as [Hn4 Eb]. destruct (f64_n25 n Hz) as [NU NS].
  assert (S0 : 0 <= rsum (n - 2) (fun j => Rabs (B2R c.[j]))) by (apply rsum_pos; intros; apply Rabs_pos).
  destruct (dir_fwd_bwd_fin FA E n dl zt c o1 o2 Hn ltac:(lia) (f64_n_eta n ltac:(lia)) NU Hd ltac:(lra) HE HR Lc L1 L2 Fc) as (y & x & Ey & Ex & Fx). { apply compo_range; auto. }
  exists y, x. rewrite Eb. split; auto. split; auto. intros j Hj. split. apply Fx; auto.
  apply (C55_dirichlet_forward_of_backward f64 num_f64 _ _ _ _ _ _ _ FA E n b dl zt c o1 y o2 x); auto; try lia; try lra. apply f64_n_eta; lia. rewrite Eb; auto. rewrite Eb; auto.
Qed.
Theorem C55_f64_neumann_forward_of_backward :
  forall (E : ext f64) n b dl zt (c o1 o2 : list f64), (5 <= n)%nat -> (Z.of_nat n <= 2 ^ 24)%Z -> 0 <= dl <= / 16 -> 0 <= zt <= 1 ->
  dct1_accurate E fin val n dl zt -> dct1_in_range E fin val (ieee_inr 1024) n ->
  compo_new KNeumann n = Ok b -> length c = (n - 2)%nat -> length o1 = n -> length o2 = (n - 2)%nat -> (forall j, (j < n - 2)%nat -> is_finite c.[j] = true) ->
  rsum (n - 2) (fun j => Rabs (B2R c.[j])) <= bpow radix2 900 ->
  exists y x, compo_backward_x E b c o1 = Ok y /\ compo_forward_x E b y o2 = Ok x /\
    forall k, (k < n - 2)%nat -> is_finite x.[k] = true /\
      Rabs (B2R x.[k] - B2R c.[k]) <= INR n ^ 2 * ((15 * dl + 41 * bpow radix2 (-53)) * rsum (n - 2) (fun k => Rabs (B2R c.[k])) + 11 * INR n * bpow radix2 (-1075) + 3 * zt).
Proof.
  intros E n b dl zt c o1 o2 Hn Hz Hd Hzt HE HR Hb Lc L1 L2 Fc HS. destruct (neu_inv n b Hb) as [Hn4 Eb]. destruct (f64_n24 n Hz) as [NU NS].
  assert (S0 : 0 <= rsum (n - 2) (fun j => Rabs (B2R c.[j]))) by (apply rsum_pos; intros; apply Rabs_pos).
  destruct (neu_fwd_bwd_fin FA E n dl zt c o1 o2 Hn NU (f64_n_eta n ltac:(lia)) NS Hd ltac:(lra) HE HR Lc L1 L2 Fc) as (y & x & Ey & Ex & Fx). { apply compo_range; auto. lia. }
  exists y, x. rewrite Eb. split; auto. split; auto. intros j Hj. split. apply Fx; auto.
  apply (C55_neumann_forward_of_backward f64 num_f64 _ _ _ _ _ _ _ FA E n b dl zt c o1 y o2 x); auto; try lra. apply f64_n_eta; lia. rewrite Eb; auto. rewrite Eb; auto.
Qed.

(** ** Fourier *)
Lemma fourier_range n S zt : (Z.of_nat n <= 2 ^ 52)%Z -> 0 <= zt <= 1 -> 0 <= S <= bpow radix2 900 -> ieee_inr 1024 (9 * INR n * S + 8 * INR n * zt).
Proof.
  intros Hz Hzt HS. pose proof (n_bounds _ _ Hz) as HN. pose proof (pos_INR n) as N0. pose proof B900 as B1.
  destruct (mul_up (INR n) S _ _ (Logic.conj N0 HN) HS) as [P1 P2]. destruct (mul_up (INR n) zt _ _ (Logic.conj N0 HN) Hzt) as [P3 P4].
  apply (f64_in_range (17 * IZR (2 ^ 52)) _ (bpow radix2 900)); [|cbn; lra|lra]. split. lra. set (B := bpow radix2 900) in *. clearbody B. cbn in *. lra.
Qed.
Lemma csum_pos n (x : list (cplx f64)) : 0 <= rsum n (fun k => Rabs (B2R (fst x.[k])) + Rabs (B2R (snd x.[k]))).
Proof. apply rsum_pos. intros i _. pose proof (Rabs_pos (B2R (fst x.[i]))). pose proof (Rabs_pos (B2R (snd x.[i]))). lra. Qed.
Theorem C55_f64_c2c_backward_of_forward :
  forall (E : ext f64) n f dl zt (x o1 o2 : list (cplx f64)), c2c_new n = Ok f -> (Z.of_nat n <= 2 ^ 52)%Z -> 0 <= dl <= / 16 -> 0 <= zt <= 1 ->
  (forall s, fft_accurate E fin val s n dl zt) -> (forall s, fft_in_range E fin val (ieee_inr 1024) s n) ->
  length x = n -> length o1 = n -> length o2 = n -> (forall j, (j < n)%nat -> is_finite (fst x.[j]) = true /\ is_finite (snd x.[j]) = true) ->
  let S := rsum n (fun k => Rabs (B2R (fst x.[k])) + Rabs (B2R (snd x.[k]))) in S <= bpow radix2 900 ->
  exists c y, c2c_forward_x E f x o1 = Ok c /\ c2c_backward_x E f c o2 = Ok y /\
    forall j, (j < n)%nat -> is_finite (fst y.[j]) = true /\ is_finite (snd y.[j]) = true /\
      let e := (5 * dl + 8 * bpow radix2 (-53)) * S + 4 * INR n * bpow radix2 (-1075) + 4 * zt in
      Rabs (B2R (fst y.[j]) - B2R (fst x.[j])) <= e /\ Rabs (B2R (snd y.[j]) - B2R (snd x.[j])) <= e.
Proof.
  intros E n f dl zt x o1 o2 Hf Hz Hd Hzt HE HR Lx L1 L2 Fx S HS. destruct (c2c_new_inv n f Hf) as [Hn Ef].
  destruct (c2c_bwd_fwd_fin FA E n dl zt x o1 o2 Hn ltac:(lia) Hd ltac:(lra) HE HR Lx L1 L2 Fx) as (c & y & Ec & Ey & Fc & Fy). { apply fourier_range; auto. split; [apply csum_pos|exact HS]. }
  exists c, y. rewrite Ef. split; auto. split; auto. intros j Hj. split. apply Fy; auto. split. apply Fy; auto.
  apply (C55_c2c_backward_of_forward f64 num_f64 _ _ _ _ _ _ _ FA E n f dl zt x o1 c o2 y); auto; try lia; try lra. apply f64_n_eta; lia. rewrite Ef; auto. rewrite Ef; auto.
Qed.
Theorem C55_f64_c2c_forward_of_backward :
  forall (E : ext f64) n f dl zt (c o1 o2 : list (cplx f64)), c2c_new n = Ok f -> (Z.of_nat n <= 2 ^ 52)%Z -> 0 <= dl <= / 16 -> 0 <= zt <= 1 ->
  (forall s, fft_accurate E fin val s n dl zt) -> (forall s, fft_in_range E fin val (ieee_inr 1024) s n) ->
  length c = n -> length o1 = n -> length o2 = n -> (forall j, (j < n)%nat -> is_finite (fst c.[j]) = true /\ is_finite (snd c.[j]) = true) ->
  let S := rsum n (fun k => Rabs (B2R (fst c.[k])) + Rabs (B2R (snd c.[k]))) in S <= bpow radix2 900 ->
  exists y d, c2c_backward_x E f c o1 = Ok y /\ c2c_forward_x E f y o2 = Ok d /\
    forall k, (k < n)%nat -> is_finite (fst d.[k]) = true /\ is_finite (snd d.[k]) = true /\
      let e := (5 * dl + 9 * bpow radix2 (-53)) * S + 9 * INR n ^ 2 * bpow radix2 (-1075) + 4 * INR n * zt in
      Rabs (B2R (fst d.[k]) - B2R (fst c.[k])) <= e /\ Rabs (B2R (snd d.[k]) - B2R (snd c.[k])) <= e.
Proof.
  intros E n f dl zt c o1 o2 Hf Hz Hd Hzt HE HR Lc L1 L2 Fc S HS. destruct (c2c_new_inv n f Hf) as [Hn Ef].
  destruct (c2c_fwd_bwd_fin FA E n dl zt c o1 o2 Hn ltac:(lia) Hd ltac:(lra) HE HR Lc L1 L2 Fc) as (y & d & Ey & Ed & Fy & Fd). { apply fourier_range; auto. split; [apply csum_pos|exact HS]. }
  exists y, d. rewrite Ef. split; auto. split; auto. intros j Hj. split. apply Fd; auto. split. apply Fd; auto.
  apply (C55_c2c_forward_of_backward f64 num_f64 _ _ _ _ _ _ _ FA E n f dl zt c o1 y o2 d); auto; try lia; try lra. apply f64_n_eta; lia. rewrite Ef; auto. rewrite Ef; auto.
Qed.
Theorem C55_f64_r2c_backward_of_forward :
  forall (E : ext f64) n f dl zt (x o2 : list f64) (o1 : list (cplx f64)), r2c_new n = Ok f -> (Z.of_nat n <= 2 ^ 52)%Z -> 0 <= dl <= / 16 -> 0 <= zt <= 1 ->
  r2c_accurate E fin val n dl zt -> c2r_accurate E fin val n dl zt -> r2c_in_range E fin val (ieee_inr 1024) n -> c2r_in_range E fin val (ieee_inr 1024) n ->
  length x = n -> length o1 = (n / 2 + 1)%nat -> length o2 = n -> (forall j, (j < n)%nat -> is_finite x.[j] = true) ->
  rsum n (fun k => Rabs (B2R x.[k])) <= bpow radix2 900 ->
  exists c y, r2c_forward_x E f x o1 = Ok c /\ r2c_backward_x E f c o2 = Ok y /\
    forall j, (j < n)%nat -> is_finite y.[j] = true /\
      Rabs (B2R y.[j] - B2R x.[j]) <= (7 * dl + 17 * bpow radix2 (-53)) * rsum n (fun k => Rabs (B2R x.[k])) + 6 * INR n * bpow radix2 (-1075) + 6 * zt.
Proof.
  intros E n f dl zt x o2 o1 Hf Hz Hd Hzt HE HE2 HR HR2 Lx L1 L2 Fx HS. destruct (r2c_new_inv n f Hf) as [Hn Ef].
  destruct (r2c_bwd_fwd_fin FA E (Z0 := eqz_f64) n dl zt x o2 o1 eq_refl Hn ltac:(lia) Hd ltac:(lra) HE HR HR2 Lx L1 L2 Fx) as (c & y & Ec & Ey & Fc & Fy). { apply fourier_range; auto. split; [apply rsum_pos; intros; apply Rabs_pos|exact HS]. }
  exists c, y. rewrite Ef. split; auto. split; auto. intros j Hj. split. apply Fy; auto.
  apply (C55_r2c_backward_of_forward f64 num_f64 _ _ _ _ _ _ _ _ FA E n f dl zt x o2 y o1 c); auto; try lia; try lra. apply f64_n_eta; lia. rewrite Ef; auto. rewrite Ef; auto.
Qed.
Theorem C55_f64_r2c_forward_of_backward :
  forall (E : ext f64) n f dl zt (c o2 : list (cplx f64)) (o1 : list f64), r2c_new n = Ok f -> (Z.of_nat n <= 2 ^ 52)%Z -> 0 <= dl <= / 16 -> 0 <= zt <= 1 ->
  r2c_accurate E fin val n dl zt -> c2r_accurate E fin val n dl zt -> r2c_in_range E fin val (ieee_inr 1024) n -> c2r_in_range E fin val (ieee_inr 1024) n ->
  length c = (n / 2 + 1)%nat -> length o1 = n -> length o2 = (n / 2 + 1)%nat -> (forall j, (j < n / 2 + 1)%nat -> is_finite (fst c.[j]) = true /\ is_finite (snd c.[j]) = true) ->
  let S := rsum (n / 2 + 1) (fun k => Rabs (B2R (fst c.[k])) + Rabs (B2R (snd c.[k]))) in S <= bpow radix2 900 ->
  exists y d, r2c_backward_x E f c o1 = Ok y /\ r2c_forward_x E f y o2 = Ok d /\
    forall k, (k < n / 2 + 1)%nat -> is_finite (fst d.[k]) = true /\ is_finite (snd d.[k]) = true /\
      let e := (4 * dl + 9 * bpow radix2 (-53)) * S + 7 * INR n ^ 2 * bpow radix2 (-1075) + 3 * INR n * zt in
      Rabs (B2R (fst d.[k]) - B2R (fst c.[k])) <= e /\
      Rabs (B2R (snd d.[k]) - (if (k =? 0)%nat || (2 * k =? n)%nat then 0 else B2R (snd c.[k]))) <= e.
Proof.
  intros E n f dl zt c o2 o1 Hf Hz Hd Hzt HE HE2 HR HR2 Lc L1 L2 Fc S HS. destruct (r2c_new_inv n f Hf) as [Hn Ef].
  destruct (r2c_fwd_bwd_fin FA E (Z0 := eqz_f64) n dl zt c o2 o1 eq_refl Hn ltac:(lia) Hd ltac:(lra) HE2 HR HR2 Lc L1 L2 Fc) as (y & d & Ey & Ed & Fy & Fd). { apply fourier_range; auto. split; [apply csum_pos|exact HS]. }
  exists y, d. rewrite Ef. split; auto. split; auto. intros j Hj. split. apply Fd; auto. split. apply Fd; auto.
  apply (C55_r2c_forward_of_backward f64 num_f64 _ _ _ _ _ _ _ _ FA E n f dl zt c o2 d o1 y); auto; try lia; try lra. apply f64_n_eta; lia. rewrite Ef; auto. rewrite Ef; auto.
Qed.

(** ** A case: (0.1, 0.2, 0.3, 0.7, 0.9) through the Chebyshev base of size 5 with
    the correctly rounding library *)
Example C55_example_cheb :
  exists (E : ext f64) a y, cheb_forward_x E (mk_cheb 5 5) tenths (repeat n0 5) = Ok a /\ cheb_backward_x E (mk_cheb 5 5) a (repeat n0 5) = Ok y /\
    forall j, (j < 5)%nat -> is_finite y.[j] = true /\ Rabs (B2R y.[j] - B2R tenths.[j]) <= bpow radix2 (-40).
Proof.
  destruct C55_accurate_libraries_exist as [E HE]. destruct (HE 5%nat ltac:(lia)) as [[HA HR] _]. exists E.
  assert (V : forall j, (j < 5)%nat -> is_finite tenths.[j] = true /\ Rabs (B2R tenths.[j]) <= 1).
  { assert (forall m e, (SpecFloat.S754_finite false m e = SpecFloat.S754_finite false m e) -> True) by auto.
    intros j Hj. destruct j as [|[|[|[|[|]]]]]; try lia; (split; [vm_compute; reflexivity|]); rewrite <- SF2R_B2SF;
      match goal with |- Rabs (SF2R _ ?t) <= _ => let t' := eval vm_compute in t in replace t with t' by (vm_compute; reflexivity) end;
      cbn [SF2R SpecFloat.cond_Zopp]; unfold F2R; cbn [Fnum Fexp cond_Zopp]; rewrite Rabs_pos_eq; cbn; lra. }
  assert (S1 : rsum 5 (fun j => Rabs (B2R tenths.[j])) <= 5). { eapply Rle_trans. apply (rsum_le 5 _ (fun _ => 1)). intros; apply V; auto. rewrite rsum_const. cbn; lra. }
  assert (D1 : 0 <= bpow radix2 (-52) <= / 16) by (cbn; lra).
  destruct (C55_f64_cheb_backward_of_forward E 5 (mk_cheb 5 5) (bpow radix2 (-52)) eta64 tenths (repeat n0 5) (repeat n0 5)) as (a & y & Ea & Ey & H); auto.
  - cbn. lia.
  - pose proof eta1. lra.
  - intros; apply V; auto.
  - eapply Rle_trans; [exact S1|]. apply Rle_trans with (bpow radix2 3). cbn; lra. apply bpow_le; lia.
  - exists a, y. split; [exact Ea|]. split; [exact Ey|]. intros j Hj. destruct (H j Hj) as [F B]. split; [exact F|]. eapply Rle_trans; [exact B|]. clear B F H Ea Ey V.
    assert (E1 : eta64 <= bpow radix2 (-60)) by (apply bpow_le; lia). pose proof (bpow_gt_0 radix2 (-1075)) as E0.
    assert (S0 : 0 <= rsum 5 (fun j => Rabs (B2R tenths.[j]))) by (apply rsum_pos; intros; apply Rabs_pos).
    revert S0 S1. generalize (rsum 5 (fun j => Rabs (B2R tenths.[j]))). revert E1 E0. generalize eta64. clear. intros et E1 E0 S S0 S1.
    change (bpow radix2 (-60)) with (/ IZR (2 ^ 60)) in E1. change (bpow radix2 (-52)) with (/ IZR (2 ^ 52)). change (bpow radix2 (-53)) with (/ IZR (2 ^ 53)). change (bpow radix2 (-40)) with (/ IZR (2 ^ 40)).
    replace (INR 5) with 5 by (cbn; lra). cbv [Z.pow Z.pow_pos Pos.iter Z.mul Pos.mul] in *. lra.
Qed.
Print Assumptions C55_accurate_libraries_exist.
Print Assumptions C55_f64_neumann_forward_of_backward.
