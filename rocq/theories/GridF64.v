(** The grids in f64. *)
From Coq Require Import List Arith Lia Bool ZArith Reals Lra Machin.
From Flocq Require Import Core BinarySingleNaN.
From Verif Require Import Base Num Cheb ChebDct Fourier FourierF64 Rounding MatF64 MatSten.
Import ListNotations.
Local Open Scope R_scope.

Definition pival : R := 7074237752028440 / 2251799813685248.
Lemma pi64_val : f64_fin pi64 /\ f64_val pi64 = pival.
Proof.
  assert (H : B2SF pi64 = SpecFloat.S754_finite false 7074237752028440 (-51)) by (vm_compute; reflexivity).
  split. unfold f64_fin. rewrite <- is_finite_SF_B2SF, H. reflexivity.
  unfold f64_val. rewrite <- SF2R_B2SF, H. cbn. unfold F2R; cbn. unfold pival. lra.
Qed.

Lemma pi_bounds : 314159265358979323 / 100000000000000000 <= PI <= 314159265358979325 / 100000000000000000.
Proof.
  pose proof (PI_2_3_7_ineq 8) as [L U]. change (S (2 * 8)) with 17%nat in L. change (2 * 8)%nat with 16%nat in U.
  assert (EL : sum_f_R0 (tg_alt PI_2_3_7_tg) 17 = 146345850155834379408328090727884622633713644201042990346 / 186333323626294902510772747968779831871719430076860849075).
  { cbn [sum_f_R0]. unfold tg_alt, PI_2_3_7_tg, Ratan_seq. rewrite !INR_IZR_INZ.
    cbv [pow Nat.add Nat.mul Z.of_nat Pos.of_succ_nat Pos.succ]. field. }
  assert (EU : sum_f_R0 (tg_alt PI_2_3_7_tg) 16 = 142221428722871117221716417127578095838075563503210139 / 181081947158692810992004614158192256435101486955161175).
  { cbn [sum_f_R0]. unfold tg_alt, PI_2_3_7_tg, Ratan_seq. rewrite !INR_IZR_INZ.
    cbv [pow Nat.add Nat.mul Z.of_nat Pos.of_succ_nat Pos.succ]. field. }
  rewrite EL in L. rewrite EU in U. split; lra.
Qed.

Lemma pi_near : Rabs (pival - PI) <= / 2 * u64 * PI.
Proof.
  pose proof pi_bounds as P. rewrite u64_eq.
  change (IZR (2 ^ 53)) with 9007199254740992. apply Rabs_le. unfold pival. split; lra.
Qed.

#[local] Instance P53g : Prec_gt_0 53 := eq_refl.
Lemma rnd_le x k : (-1000 <= k <= 1000)%Z -> Rabs x <= bpow radix2 k -> Rabs (rnd64 x) <= bpow radix2 k /\ ieee_inr 1024 (rnd64 x).
Proof.
  intros Hk Hx. assert (H : Rabs (rnd64 x) <= bpow radix2 k).
  { unfold ieee_rnd. apply abs_round_le_generic; auto with typeclass_instances. apply generic_format_bpow. unfold FLT_exp. lia. }
  split; auto. unfold ieee_inr. eapply Rle_lt_trans. exact H. apply bpow_lt. lia.
Qed.
Lemma rnd_opp x : rnd64 (- x) = - rnd64 x.
Proof. apply round_NE_opp. Qed.

(** ** Chebyshev nodes: the argument of the sine *)
(** what the code computes, and the exact argument *)
Definition arg64 (m z : Z) : R := rnd64 (rnd64 (pival * IZR z) / IZR (2 * m)).
Definition argR (m z : Z) : R := PI * IZR z / IZR (2 * m).

Lemma pival_bounds : 314 / 100 <= pival <= 315 / 100.
Proof. unfold pival. lra. Qed.

Lemma arg_f64 m k : (1 <= m <= 2 ^ 52)%Z -> (0 <= k <= m)%Z ->
  let a : f64 := ndiv (nmul pi64 (nsub (nofZ m) (nmul (nofZ 2%Z) (nofZ k)))) (nmul (nofZ 2%Z) (nofZ m)) in
  f64_fin a /\ f64_val a = arg64 m (m - 2 * k).
Proof.
  intros Hm Hk a. pose proof f64_float_arith as FA. destruct pi64_val as [Fp Vp].
  assert (Em : exi (nofZ m) (nofZ m) m) by (apply exi_int; lia). assert (Ek : exi (nofZ k) (nofZ k) k) by (apply exi_int; lia).
  assert (E2 : exi (nofZ 2) (nofZ 2) 2) by (apply exi_int; discriminate).
  assert (E2m : exi (nmul (nofZ 2) (nofZ m)) (nmul (nofZ 2) (nofZ m)) (2 * m)) by (apply exi_mul; auto; lia).
  assert (Ez : exi (nsub (nofZ m) (nmul (nofZ 2) (nofZ k))) (nsub (nofZ m) (nmul (nofZ 2) (nofZ k))) (m - 2 * k)).
  { apply exi_sub; auto. apply exi_mul; auto; lia. lia. }
  destruct E2m as (Fd & Vd & _), Ez as (Fz & Vz & _). set (d := nmul (nofZ 2%Z) (nofZ m) : f64) in *. set (z := nsub (nofZ m) (nmul (nofZ 2%Z) (nofZ k)) : f64) in *.
  set (t := (m - 2 * k)%Z) in *. assert (Ht : (Z.abs t <= 2 ^ 52)%Z) by (unfold t; lia).
  pose proof pival_bounds.
  assert (B1 : Rabs (pival * IZR t) <= bpow radix2 54).
  { rewrite Rabs_mult, (Rabs_pos_eq pival) by lra. rewrite <- abs_IZR. assert (0 <= IZR (Z.abs t) <= IZR (2 ^ 52)) by (split; apply IZR_le; lia).
    change (bpow radix2 54) with (IZR (4 * 2 ^ 52)). rewrite mult_IZR. nra. }
  destruct (rnd_le _ 54 ltac:(lia) B1) as [B2 I2].
  assert (Fn : f64_fin (nmul pi64 z)) by (apply (fa_mulF _ _ _ _ _ _ _ _ FA); auto; rewrite Vp, Vz; exact I2).
  destruct (fa_mul _ _ _ _ _ _ _ _ FA _ _ Fn) as (_ & _ & Vn). rewrite Vp, Vz in Vn.
  assert (Nd : f64_val d <> 0) by (rewrite Vd; apply not_0_IZR; lia).
  assert (B3 : Rabs (rnd64 (pival * IZR t) / IZR (2 * m)) <= bpow radix2 54).
  { rewrite Rabs_div by (apply not_0_IZR; lia). rewrite (Rabs_pos_eq (IZR (2 * m))) by (apply IZR_le; lia).
    assert (1 <= IZR (2 * m)) by (apply IZR_le; lia). unfold Rdiv. rewrite <- (Rmult_1_r (bpow radix2 54)).
    apply Rmult_le_compat; auto using Rabs_pos. apply Rlt_le, Rinv_0_lt_compat. lra. rewrite <- Rinv_1. apply Rinv_le; lra. }
  destruct (rnd_le _ 54 ltac:(lia) B3) as [_ I3].
  assert (Fa : f64_fin a) by (apply (fa_divF _ _ _ _ _ _ _ _ FA); auto; rewrite Vn, Vd; exact I3).
  split; auto. destruct (fa_div _ _ _ _ _ _ _ _ FA _ _ Fa Fd Nd) as [_ V]. unfold a. rewrite V, Vn, Vd. reflexivity.
Qed.

Lemma arg64_opp m z : arg64 m (- z) = - arg64 m z.
Proof.
  unfold arg64. rewrite opp_IZR. replace (pival * - IZR z) with (- (pival * IZR z)) by ring. rewrite rnd_opp.
  unfold Rdiv at 1. rewrite Ropp_mult_distr_l_reverse. apply rnd_opp.
Qed.

Lemma arg64_near m z : (1 <= m <= 2 ^ 52)%Z -> (Z.abs z <= m)%Z -> Rabs (arg64 m z - argR m z) <= 4 * u64 /\ Rabs (arg64 m z) <= 2.
Proof.
  intros Hm Hz. pose proof u64_small as Hu. pose proof pival_bounds as Pb. pose proof pi_near as Pn. pose proof pi_bounds as PB.
  destruct (Z.eq_dec z 0) as [->|Nz].
  { unfold arg64, argR. rewrite !Rmult_0_r, rnd64_0. unfold Rdiv. rewrite !Rmult_0_l, rnd64_0, Rminus_0_r, Rabs_R0. lra. }
  assert (Zp : 1 <= Rabs (IZR z)) by (rewrite <- abs_IZR; apply IZR_le; lia).
  set (w := IZR z / IZR (2 * m)).
  assert (M1 : 1 <= IZR m <= IZR (2 ^ 52)) by (split; apply IZR_le; lia). change (IZR (2 ^ 52)) with 4503599627370496 in M1.
  assert (M2 : IZR (2 * m) = 2 * IZR m) by (rewrite mult_IZR; reflexivity).
  assert (W : Rabs w <= / 2).
  { unfold w. rewrite Rabs_div by lra. rewrite M2, (Rabs_pos_eq (2 * IZR m)) by lra. rewrite <- abs_IZR.
    assert (IZR (Z.abs z) <= IZR m) by (apply IZR_le; lia). apply Rmult_le_reg_r with (2 * IZR m). lra. unfold Rdiv. rewrite Rmult_assoc, Rinv_l by lra. lra. }
  assert (W0 : bpow radix2 (-60) <= Rabs w).
  { unfold w. rewrite Rabs_div by lra. rewrite M2, (Rabs_pos_eq (2 * IZR m)) by lra.
    apply Rmult_le_reg_r with (2 * IZR m). lra. unfold Rdiv. rewrite Rmult_assoc, Rinv_l by lra.
    change (bpow radix2 (-60)) with (/ 1152921504606846976). lra. }
  set (p := rnd64 (pival * IZR z)).
  assert (E1 : Rabs (p - pival * IZR z) <= u64 * Rabs (pival * IZR z)).
  { apply rnd64_rel. rewrite Rabs_mult, (Rabs_pos_eq pival) by lra. apply Rle_trans with 1. change 1 with (bpow radix2 0). apply bpow_le; lia. nra. }
  assert (E2 : Rabs (p / IZR (2 * m) - pival * w) <= u64 * (pival * Rabs w)).
  { replace (p / IZR (2 * m) - pival * w) with ((p - pival * IZR z) / IZR (2 * m)) by (unfold w; field; lra).
    rewrite Rabs_div by lra. unfold w. rewrite Rabs_div by lra. rewrite Rabs_mult, (Rabs_pos_eq pival) in E1 by lra.
    assert (0 < / Rabs (IZR (2 * m))) by (apply Rinv_0_lt_compat, Rabs_pos_lt; lra). unfold Rdiv.
    replace (u64 * (pival * (Rabs (IZR z) * / Rabs (IZR (2 * m))))) with (u64 * (pival * Rabs (IZR z)) * / Rabs (IZR (2 * m))) by ring.
    apply Rmult_le_compat_r; lra. }
  set (q := p / IZR (2 * m)) in *.
  assert (Q1 : Rabs q <= (1 + u64) * (pival * Rabs w)).
  { replace q with ((q - pival * w) + pival * w) by ring. eapply Rle_trans. apply Rabs_triang. rewrite (Rabs_mult pival), (Rabs_pos_eq pival) by lra. lra. }
  assert (Q0 : Rabs w <= Rabs q).
  { assert (Rabs (pival * w) <= Rabs q + Rabs (q - pival * w)).
    { replace (pival * w) with (q - (q - pival * w)) at 1 by ring. unfold Rminus at 1. eapply Rle_trans. apply Rabs_triang. rewrite Rabs_Ropp. lra. }
    rewrite Rabs_mult, (Rabs_pos_eq pival) in H by lra. pose proof (Rabs_pos w).
    assert (u64 * (pival * Rabs w) <= / 1000000000 * (pival * Rabs w)) by (apply Rmult_le_compat_r; [apply Rmult_le_pos; lra|lra]). nra. }
  assert (E3 : Rabs (rnd64 q - q) <= u64 * Rabs q).
  { apply rnd64_rel. apply Rle_trans with (bpow radix2 (-60)). apply bpow_le; lia. lra. }
  assert (A : argR m z = PI * w) by (unfold argR, w; field; lra).
  assert (D : Rabs (pival * w - PI * w) <= / 2 * u64 * PI * / 2).
  { replace (pival * w - PI * w) with ((pival - PI) * w) by ring. rewrite Rabs_mult. apply Rmult_le_compat; auto using Rabs_pos. }
  assert (X : Rabs (arg64 m z - argR m z) <= 4 * u64).
  { change (arg64 m z) with (rnd64 q). rewrite A.
    replace (rnd64 q - PI * w) with ((rnd64 q - q) + ((q - pival * w) + (pival * w - PI * w))) by ring.
    eapply Rle_trans. apply Rabs_triang. eapply Rle_trans. apply Rplus_le_compat_l, Rabs_triang.
    assert (pival * Rabs w <= 1575 / 1000) by (pose proof (Rabs_pos w); nra).
    assert (u64 * (pival * Rabs w) <= u64 * (1575 / 1000)) by (apply Rmult_le_compat_l; lra).
    assert (Rabs q <= 1576 / 1000) by nra.
    assert (u64 * Rabs q <= u64 * (1576 / 1000)) by (apply Rmult_le_compat_l; lra).
    assert (/ 2 * u64 * PI * / 2 <= u64 * (786 / 1000)) by (replace (/ 2 * u64 * PI * / 2) with (u64 * (PI / 4)) by lra; apply Rmult_le_compat_l; lra). lra. }
  split; auto.
  assert (Rabs (argR m z) <= 16 / 10).
  { rewrite A, Rabs_mult, (Rabs_pos_eq PI) by lra. pose proof (Rabs_pos w). nra. }
  replace (arg64 m z) with ((arg64 m z - argR m z) + argR m z) by ring. eapply Rle_trans. apply Rabs_triang. lra.
Qed.

(** ** sine *)
Lemma sin_abs_le x : Rabs (sin x) <= Rabs x.
Proof.
  assert (P : forall y, 0 <= y -> Rabs (sin y) <= y).
  { intros y Hy. destruct (Req_dec y 0) as [->|N]. rewrite sin_0, Rabs_R0. lra.
    destruct (Rle_or_lt y 1) as [L|L].
    - pose proof (sin_lt_x y ltac:(lra)). pose proof PI2_1. rewrite Rabs_pos_eq. lra. apply sin_ge_0; lra.
    - pose proof (SIN_bound y). apply Rabs_le. lra. }
  destruct (Rle_or_lt 0 x). rewrite (Rabs_pos_eq x) by auto. auto.
  rewrite <- (Rabs_Ropp (sin x)), <- sin_neg, <- (Rabs_Ropp x), (Rabs_pos_eq (- x)) by lra. apply P. lra.
Qed.
Lemma sin_lip a b : Rabs (sin a - sin b) <= Rabs (a - b).
Proof.
  rewrite form4. rewrite !Rabs_mult, (Rabs_pos_eq 2) by lra.
  assert (Rabs (cos ((a + b) / 2)) <= 1) by (apply Rabs_le; pose proof (COS_bound ((a + b) / 2)); lra).
  pose proof (sin_abs_le ((a - b) / 2)) as S. rewrite (Rabs_div _ 2) in S by lra. rewrite (Rabs_pos_eq 2) in S by lra.
  pose proof (Rabs_pos (sin ((a - b) / 2))). pose proof (Rabs_pos (cos ((a + b) / 2))).
  assert (Rabs (sin ((a - b) / 2)) * Rabs (cos ((a + b) / 2)) <= Rabs (a - b) / 2 * 1) by (apply Rmult_le_compat; lra). nra.
Qed.
(** a lower bound good enough for neighbouring nodes *)
Lemma sin_ge_half x : 0 <= x <= PI / 2 -> x / 2 <= sin x.
Proof.
  intros [H0 H1]. pose proof pi_bounds. destruct (Req_dec x 0) as [->|N]. rewrite sin_0. lra.
  destruct (sin_bound x 0 H0 ltac:(lra)) as [L _]. unfold sin_approx, sin_term in L. cbn [sum_f_R0 Nat.mul Nat.add fact INR pow] in L.
  assert (S6 : x - x * x * x / 6 <= sin x) by (replace (x - x * x * x / 6) with (1 * (x * 1 / 1) + -1 * 1 * (x * (x * (x * 1)) / (1 + 1 + 1 + 1 + 1 + 1))) by field; exact L).
  assert (x * x <= 3) by nra. assert (x * x * x <= 3 * x) by nra. lra.
Qed.

(** neighbouring nodes are at least 1/m^2 apart *)
Lemma node_gap n k : (2 <= n)%nat -> (S k < n)%nat -> / (INR (n - 1) * INR (n - 1)) <= node n (S k) - node n k.
Proof.
  intros Hn Hk. unfold node. set (m := INR (n - 1)). assert (M : 1 <= m) by (change 1 with (INR 1); apply le_INR; lia).
  pose proof pi_bounds as P.
  replace (- cos (PI * INR (S k) / m) - - cos (PI * INR k / m)) with (cos (PI * INR k / m) - cos (PI * INR (S k) / m)) by ring.
  rewrite form2. rewrite S_INR.
  replace ((PI * INR k / m - PI * (INR k + 1) / m) / 2) with (- (PI / (2 * m))) by (field; lra). rewrite sin_neg.
  set (y := PI / (2 * m)). set (x := (PI * INR k / m + PI * (INR k + 1) / m) / 2).
  assert (X : x = (2 * INR k + 1) * y) by (unfold x, y; field; lra).
  assert (Y0 : 0 < y) by (unfold y; apply Rdiv_lt_0_compat; lra).
  assert (Y1 : y <= PI / 2). { unfold y. apply Rmult_le_reg_r with (2 * m). lra. replace (PI / (2 * m) * (2 * m)) with PI by (field; lra). nra. }
  assert (K : INR k + 1 <= m) by (unfold m; rewrite <- S_INR; apply le_INR; lia). pose proof (pos_INR k).
  assert (Ym : 2 * m * y = PI) by (unfold y; field; lra).
  assert (S1 : sin y <= sin x).
  { assert (x + y <= PI) by (rewrite X; nra). assert (y <= x) by (rewrite X; nra).
    destruct (Rle_or_lt x (PI / 2)). apply sin_incr_1; lra. rewrite <- (sin_PI_x x). apply sin_incr_1; lra. }
  pose proof (sin_ge_half y ltac:(lra)) as S2.
  assert (Y2 : 157 / 100 * / m <= y). { unfold y. apply Rmult_le_reg_r with m. lra. replace (157 / 100 * / m * m) with (157 / 100) by (field; lra). replace (PI / (2 * m) * m) with (PI / 2) by (field; lra). lra. }
  assert (I0 : 0 < / m) by (apply Rinv_0_lt_compat; lra).
  replace (/ (m * m)) with (/ m * / m) by (field; lra).
  assert (78 / 100 * / m <= sin y) by lra.
  assert ((78 / 100 * / m) * (78 / 100 * / m) <= sin x * sin y) by (apply Rmult_le_compat; lra). nra.
Qed.
Lemma node_arg n k : (2 <= n)%nat -> (k < n)%nat -> node n k = - sin (argR (Z.of_nat (n - 1)) (Z.of_nat (n - 1) - 2 * Z.of_nat k)).
Proof.
  intros Hn Hk. unfold node, argR. f_equal. rewrite <- sin_shift. f_equal.
  rewrite minus_IZR, !mult_IZR, <- !INR_IZR_INZ. assert (INR (n - 1) <> 0) by (apply not_0_INR; lia). field. auto.
Qed.

(** ** Fourier nodes *)
Definition fnode64 (n j : nat) : R := rnd64 (rnd64 (tp / INR n) * INR j).
Lemma tp_pival : tp = 2 * pival.
Proof. unfold tp, pival, F2R. cbn. lra. Qed.
Lemma fnode_f64 n j : (1 <= n)%nat -> (Z.of_nat n <= 2 ^ 51)%Z -> (j <= n)%nat ->
  let a : f64 := nadd n0 (nmul (ndiv (nmul (nofZ 2%Z) pi64) (nofN n)) (nofN j)) in
  f64_fin a /\ f64_val a = fnode64 n j.
Proof.
  intros Hn H51 Hj a. pose proof f64_float_arith as FA. destruct twopi_val as [Vt Ft]. cbv zeta in Vt, Ft.
  pose proof pival_bounds as PB. pose proof tp_pival as TP.
  set (t := nmul (nofZ 2%Z) pi64) in *. assert (En : exi (nofZ (Z.of_nat n)) (nofZ (Z.of_nat n)) (Z.of_nat n)) by (apply exi_int; lia).
  assert (Ej : exi (nofZ (Z.of_nat j)) (nofZ (Z.of_nat j)) (Z.of_nat j)) by (apply exi_int; lia).
  destruct En as (Fn & Vn & _), Ej as (Fj & Vj & _). unfold nofN in a. rewrite <- INR_IZR_INZ in Vn, Vj.
  assert (N1 : 1 <= INR n) by (change 1 with (INR 1); apply le_INR; auto).
  assert (N2 : INR n <= bpow radix2 51). { rewrite INR_IZR_INZ. change (bpow radix2 51) with (IZR (2 ^ 51)). apply IZR_le. exact H51. }
  assert (J : 0 <= INR j <= INR n) by (split; [apply pos_INR|apply le_INR; auto]).
  assert (B1 : Rabs (tp / INR n) <= bpow radix2 3).
  { rewrite Rabs_div by lra. rewrite (Rabs_pos_eq tp), (Rabs_pos_eq (INR n)) by lra. change (bpow radix2 3) with 8.
    apply Rmult_le_reg_r with (INR n). lra. replace (tp / INR n * INR n) with tp by (field; lra). nra. }
  destruct (rnd_le _ 3 ltac:(lia) B1) as [B2 I2].
  change (B2R t) with (f64_val t) in Vt. 
  assert (Fq : f64_fin (ndiv t (nofZ (Z.of_nat n)))) by (apply (fa_divF _ _ _ _ _ _ _ _ FA); auto; [rewrite Vn; lra|rewrite Vt, Vn; exact I2]).
  destruct (fa_div _ _ _ _ _ _ _ _ FA _ _ Fq Fn ltac:(rewrite Vn; lra)) as [_ Vq]. rewrite Vt, Vn in Vq.
  set (q := ndiv t (nofZ (Z.of_nat n))) in *.
  assert (B3 : Rabs (rnd64 (tp / INR n) * INR j) <= bpow radix2 54).
  { rewrite Rabs_mult, (Rabs_pos_eq (INR j)) by lra. replace (bpow radix2 54) with (bpow radix2 3 * bpow radix2 51) by (rewrite <- bpow_plus; reflexivity).
    apply Rmult_le_compat; auto using Rabs_pos; lra. }
  destruct (rnd_le _ 54 ltac:(lia) B3) as [B4 I4].
  assert (Fm : f64_fin (nmul q (nofZ (Z.of_nat j)))) by (apply (fa_mulF _ _ _ _ _ _ _ _ FA); auto; rewrite Vq, Vj; exact I4).
  destruct (fa_mul _ _ _ _ _ _ _ _ FA _ _ Fm) as (_ & _ & Vm). rewrite Vq, Vj in Vm.
  destruct (fa_0 _ _ _ _ _ _ _ _ FA) as [F0 V0].
  assert (R0 : rnd64 (f64_val n0 + f64_val (nmul q (nofZ (Z.of_nat j)))) = fnode64 n j).
  { rewrite V0, Rplus_0_l. unfold fnode64. rewrite <- Vm. apply (fa_float _ _ _ _ _ _ _ _ FA); auto. }
  assert (Fa : f64_fin a). { apply (fa_addF _ _ _ _ _ _ _ _ FA); auto. rewrite R0. exact I4. }
  split; auto. destruct (fa_add _ _ _ _ _ _ _ _ FA _ _ Fa) as (_ & _ & Va). rewrite <- R0. exact Va.
Qed.
Lemma fnode_near n j : (1 <= n)%nat -> (Z.of_nat n <= 2 ^ 51)%Z -> (j <= n)%nat ->
  Rabs (fnode64 n j - 2 * PI * INR j / INR n) <= 3 * u64 * (2 * PI * INR j / INR n).
Proof.
  intros Hn H51 Hj. pose proof u64_small as Hu. pose proof pival_bounds as Pb. pose proof pi_near as Pn. pose proof pi_bounds as PB. pose proof tp_pival as TP.
  assert (N1 : 1 <= INR n) by (change 1 with (INR 1); apply le_INR; auto).
  assert (N2 : INR n <= 2251799813685248). { rewrite INR_IZR_INZ. change 2251799813685248 with (IZR (2 ^ 51)). apply IZR_le. exact H51. }
  destruct j as [|j].
  { unfold fnode64. cbn [INR]. rewrite !Rmult_0_r. unfold Rdiv. rewrite Rmult_0_l, rnd64_0, Rminus_0_r, Rabs_R0. lra. }
  set (J := INR (S j)). assert (J1 : 1 <= J) by (change 1 with (INR 1); apply le_INR; lia).
  assert (I0 : 0 < / INR n) by (apply Rinv_0_lt_compat; lra).
  assert (I1 : / 2251799813685248 <= / INR n) by (apply Rinv_le; lra).
  set (s := rnd64 (tp / INR n)).
  assert (T0 : 0 < tp / INR n) by (apply Rdiv_lt_0_compat; lra).
  assert (E1 : Rabs (s - tp / INR n) <= u64 * (tp / INR n)).
  { rewrite <- (Rabs_pos_eq (tp / INR n)) at 2 by lra. apply rnd64_rel. rewrite Rabs_pos_eq by lra. unfold Rdiv.
    apply Rle_trans with (bpow radix2 (-60)). apply bpow_le; lia. change (bpow radix2 (-60)) with (/ 1152921504606846976). nra. }
  assert (S0 : tp / INR n / 2 <= s <= 2 * (tp / INR n)). { apply Rabs_le_inv in E1. nra. }
  assert (SJ : 0 < s * J) by nra.
  assert (E2 : Rabs (rnd64 (s * J) - s * J) <= u64 * (s * J)).
  { rewrite <- (Rabs_pos_eq (s * J)) at 3 by lra. apply rnd64_rel. rewrite Rabs_pos_eq by lra.
    apply Rle_trans with (bpow radix2 (-60)). apply bpow_le; lia. change (bpow radix2 (-60)) with (/ 1152921504606846976).
    assert (6 / 2251799813685248 <= tp / INR n) by (unfold Rdiv; nra). nra. }
  unfold fnode64. fold J s. set (g := / INR n) in *.
  replace (2 * PI * J / INR n) with (2 * PI * g * J) by (unfold g, Rdiv; ring).
  change (tp / INR n) with (tp * g) in *. rewrite TP in *.
  replace (rnd64 (s * J) - 2 * PI * g * J) with ((rnd64 (s * J) - s * J) + ((s - 2 * pival * g) * J + 2 * (pival - PI) * (g * J))) by ring.
  assert (GJ : 0 < g * J) by (apply Rmult_lt_0_compat; lra).
  eapply Rle_trans. apply Rabs_triang. eapply Rle_trans. apply Rplus_le_compat_l, Rabs_triang.
  rewrite !Rabs_mult. rewrite (Rabs_pos_eq J), (Rabs_pos_eq 2), (Rabs_pos_eq g) by lra.
  assert (A1 : Rabs (s - 2 * pival * g) * J <= u64 * (2 * pival * g) * J) by (apply Rmult_le_compat_r; lra).
  assert (A2 : 2 * Rabs (pival - PI) * (g * J) <= 2 * (/ 2 * u64 * PI) * (g * J)) by (apply Rmult_le_compat_r; lra).
  assert (P1 : pival <= PI * (1 + u64)) by (apply Rabs_le_inv in Pn; nra).
  assert (S2 : s <= 2 * PI * g * (1 + 3 * u64)).
  { apply Rabs_le_inv in E1. assert (s <= 2 * pival * g * (1 + u64)) by nra.
    assert (2 * pival * g * (1 + u64) <= 2 * (PI * (1 + u64)) * g * (1 + u64)) by (apply Rmult_le_compat_r; [lra|]; apply Rmult_le_compat_r; lra).
    assert ((1 + u64) * (1 + u64) <= 1 + 3 * u64) by nra.
    assert (2 * (PI * (1 + u64)) * g * (1 + u64) <= 2 * PI * g * (1 + 3 * u64)).
    { replace (2 * (PI * (1 + u64)) * g * (1 + u64)) with (2 * PI * g * ((1 + u64) * (1 + u64))) by ring. apply Rmult_le_compat_l; auto. apply Rmult_le_pos; lra. } lra. }
  set (T := 2 * PI * g * J). assert (T1 : 0 <= T) by (unfold T; apply Rmult_le_pos; [apply Rmult_le_pos|]; lra).
  assert (B1 : u64 * (s * J) <= u64 * ((1 + 3 * u64) * T)).
  { apply Rmult_le_compat_l. lra. unfold T. replace ((1 + 3 * u64) * (2 * PI * g * J)) with (2 * PI * g * (1 + 3 * u64) * J) by ring. apply Rmult_le_compat_r; lra. }
  assert (B2 : u64 * (2 * pival * g) * J <= u64 * ((1 + u64) * T)).
  { rewrite Rmult_assoc. apply Rmult_le_compat_l. lra. unfold T. replace ((1 + u64) * (2 * PI * g * J)) with (2 * (PI * (1 + u64)) * g * J) by ring. apply Rmult_le_compat_r. lra. apply Rmult_le_compat_r; lra. }
  assert (B3 : 2 * (/ 2 * u64 * PI) * (g * J) = u64 * (T / 2)) by (unfold T; lra).
  assert (C : u64 * ((1 + 3 * u64) * T) + u64 * ((1 + u64) * T) + u64 * (T / 2) <= 3 * u64 * T).
  { replace (u64 * ((1 + 3 * u64) * T) + u64 * ((1 + u64) * T) + u64 * (T / 2)) with (u64 * ((5 / 2 + 4 * u64) * T)) by field.
    replace (3 * u64 * T) with (u64 * (3 * T)) by ring. apply Rmult_le_compat_l. lra. apply Rmult_le_compat_r; lra. }
  fold T. lra.
Qed.
