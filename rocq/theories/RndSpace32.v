(** C67: the round trips of C56 (RndSpace.v) with scalars f32. *)
From Coq Require Import List Arith ZArith Reals Bool Lra Lia.
From Flocq Require Import Core BinarySingleNaN.
From Verif Require Import Base Num Linalg Stencils Cheb ChebFacts Compo Fourier FourierF64 FourierFacts FourierProofs Bases BaseLin LibBase NdArray NdArrayFacts AxisFacts AxisProps PropAxis SpaceFacts SpaceBases SpaceStages Space PropSpace
  ExtLib AnyArith ExtFacts AnyBase PropAny PropAny2 Rounding LibAcc RndCheb RndFft RndR2c RndFinite2 PropRound2 RndAxis RndOps SpaceAcc RndSpace PropTrans6 SpaceVal32 RndVal32.
Import ListNotations.
Local Open Scope R_scope.
Local Notation u32 := (bpow radix2 (-24)).
Local Notation eta32 := (bpow radix2 (-150)).
Local Notation FA := f32_float_arith.

Lemma orth_usable E dl zt r P S T b eP eS : f32_orthogonal E dl zt r P S T b eP eS -> any_usable E P S T b.
Proof. intros []; [eapply aus_chebyshev|eapply aus_r2c|eapply aus_c2c]; eauto. Qed.
Lemma orth_good E dl zt r P S T b eP eS : f32_orthogonal E dl zt r P S T b eP eS -> 0 <= dl <= 1 -> 0 <= zt <= 1 ->
  (Z.of_nat (len_phys b) <= 2 ^ 10)%Z /\ good_ops (forward_slice b) (backward_slice b) (len_phys b) (len_spec b) (len_phys b) eP eS same (dl + u32) (eta32 + zt) 4 R100 /\
  good_ops (backward_slice b) (forward_slice b) (len_spec b) (len_phys b) (len_phys b) eS eP (kept b r) (dl + u32) (eta32 + zt) 4 R100.
Proof.
  intros H Hd Hz. pose proof (range100 zt Hz) as HI. destruct H as [T V n b H Hn HE HR | n f H Hn HE HR HE' HR' | n f H Hn HE HR].
  - apply new_chebyshev_inv in H as [H2 ->]. unfold kept. cbn [r2r_ops_x len_phys len_spec forward_slice backward_slice cheb_len_phys cheb_len_spec c_n c_m andb]. split; auto.
    apply (cheb_good FA E n dl zt R100 H2 ltac:(lia) (f32_n_eta n ltac:(lia)) Hd ltac:(lra) HE HR HI).
  - apply r2c_new_inv in H as [H2 ->]. unfold kept. cbn [r2c_ops_x len_phys len_spec forward_slice backward_slice r2c_len_phys r2c_len_spec r_n r_m andb]. split; auto. split.
    apply (r2c_good FA E (Z0 := eqz_f32) n dl zt R100 eq_refl H2 ltac:(lia) (f32_n_eta n ltac:(lia)) Hd ltac:(lra) HE HR HE' HR' HI).
    eapply good_ext. apply (r2c_good_spectral FA E (Z0 := eqz_f32) n dl zt R100 eq_refl H2 ltac:(lia) (f32_n_eta n ltac:(lia)) Hd ltac:(lra) HE HR HE' HR' HI).
    intros j [x y] Hj. unfold realed, selfc. cbn [fst snd]. destruct (_ || _); reflexivity.
  - apply c2c_new_inv in H as [H2 ->]. unfold kept. cbn [c2c_ops_x len_phys len_spec forward_slice backward_slice c2c_len_phys c2c_len_spec cc_n cc_m andb]. split; auto.
    apply (c2c_good FA E n dl zt R100 H2 ltac:(lia) (f32_n_eta n ltac:(lia)) Hd ltac:(lra) HE HR HI).
Qed.

(** ** Sizes *)
Lemma range_step q Q c h a : (Z.of_nat q <= 2 ^ 10)%Z -> 0 <= Q <= bpow radix2 20 -> 0 <= c <= 100 -> 0 <= h <= 2 -> (60 <= a <= 84)%Z ->
  3 * INR q * bpow radix2 a + 8 * Q * (INR q * INR q) * h <= bpow radix2 (a + 12) /\ 2 * bpow radix2 (a + 12) + INR q * (c * (Q * Q) * h) <= R100.
Proof.
  intros Hq HQ Hc Hh Ha. apply q10 in Hq. pose proof (mul_up _ _ _ _ Hq Hq) as QQ. rewrite bp32 in QQ. change (10 + 10)%Z with 20%Z in QQ. pose proof (mul_up _ _ _ _ HQ QQ) as Q3. rewrite bp32 in Q3. change (20 + 20)%Z with 40%Z in Q3.
  pose proof (mul_up _ _ _ _ Q3 Hh) as Q4. pose proof (mul_up _ _ _ _ HQ HQ) as Q5. rewrite bp32 in Q5. change (20 + 20)%Z with 40%Z in Q5.
  pose proof (mul_up _ _ _ _ Hc Q5) as Q6. pose proof (mul_up _ _ _ _ Q6 Hh) as Q7. pose proof (mul_up _ _ _ _ Hq Q7) as Q8.
  pose proof (bpow_gt_0 radix2 a) as A0. assert (QA : INR q * bpow radix2 a <= bpow radix2 10 * bpow radix2 a) by (apply Rmult_le_compat_r; lra).
  assert (E1 : bpow radix2 (a + 12) = bpow radix2 a * 4096) by (rewrite bpow_plus; f_equal). assert (E2 : bpow radix2 10 = 1024) by reflexivity.
  assert (A8 : bpow radix2 60 <= bpow radix2 a) by (apply bpow_le; lia). assert (A9 : bpow radix2 (a + 12) <= bpow radix2 96) by (apply bpow_le; lia).
  assert (E3 : R100 = bpow radix2 96 * 16) by (change 100%Z with (96 + 4)%Z; rewrite bpow_plus; f_equal).
  assert (A7 : bpow radix2 60 <= bpow radix2 96) by (apply bpow_le; lia). assert (E4 : bpow radix2 60 = bpow radix2 40 * 1048576) by (change 60%Z with (40 + 20)%Z; rewrite bpow_plus; f_equal).
  pose proof (bpow_gt_0 radix2 40). set (b40 := bpow radix2 40) in *. set (b60 := bpow radix2 60) in *. set (b96 := bpow radix2 96) in *. set (b100 := R100) in *. set (ba := bpow radix2 a) in *. clearbody b40 b60 b96 b100 ba.
  rewrite E2 in *. clear E2. split; lra.
Qed.

(** ** One, two and three axes *)
Section Axes.
Context (E : ext f32) (dl zt : R) (Hd : 0 <= dl <= / 2000) (Hz : 0 <= zt <= 1).
Let w := dl + u32.
Let h := eta32 + zt.
Lemma w_small : 0 <= w <= / 1000.
Proof. unfold w. assert (0 <= u32 <= / 2000). { split. apply bpow_ge_0. cbn; lra. } lra. Qed.
Lemma h_small : 0 <= h <= 2.
Proof. unfold h. pose proof eta1. lra. Qed.
Notation gops f g n m q e1 e2 W := (good_ops f g n m q e1 e2 W w h 4 R100).
Lemma gops_n {T1 T2} f g n m q (e1 : fel T1) (e2 : fel T2) W : gops f g n m q e1 e2 W -> (1 <= n <= q)%nat.
Proof. intros (F & B & Kf & Kb & af & ab & _ & _ & _ & _ & _ & _ & _ & _ & _ & H & _). exact H. Qed.

Lemma rt1 {T1 T2} f g n m q (e1 : fel T1) (e2 : fel T2) W (X Y : nat -> T1) (Z : nat -> T2) : gops f g n m q e1 e2 W -> (Z.of_nat q <= 2 ^ 10)%Z ->
  rows (fun _ : unit => True) f n m (fun _ => X) (fun _ => Z) -> rows (fun _ : unit => True) g m n (fun _ => Z) (fun _ => Y) ->
  rt (D1 n) (S1 n) e1 (fun p => X (snd p)) (fun p => Y (snd p)) (fun p => W (snd p) (ev e1 (X (snd p)))) (bpow radix2 84) (33 * w) (29 * (INR q * INR q) * h).
Proof.
  intros HG Hq RX RY. destruct (range_step q 1 0 h 84 Hq) as [R1 R2]. change 1 with (bpow radix2 0) at 2. split; [lra|apply bpow_le; lia]. lra. apply h_small. lia. pose proof w_small. pose proof h_small.
  pose proof (rt_good (fun _ : unit => True) (fun f => f tt) 1 1 e1 e2 f g n m q W w h 4 0 0 R100 (bpow radix2 (84 + 12)) (bpow radix2 84) (fun _ => X) (fun _ => Y) (fun _ => Z) (fun _ => Z)
    isum_unit ltac:(lra) HG w_small ltac:(lra) ltac:(lra) ltac:(lra) ltac:(lra) RX RY) as G.
  assert (K : rt (fun q => True /\ (snd q < n)%nat) (fun f => (fun f => f tt) (fun p => rsum n (fun j => f (p, j)))) e1 (fun p : unit * nat => X (snd p)) (fun p => Y (snd p)) (fun p => W (snd p) (ev e1 (X (snd p)))) (bpow radix2 84)
     (4 * (11 / 10 * 0 + 81 / 10 * w)) ((29 + 21 / 10 * 0) * ((1 * INR q) * (1 * INR q)) * h)).
  { apply G. intros k Hk. assert (E0 : 0 * (1 * 1) * h = 0) by ring. rewrite E0. apply (rt_id _ _ _ _ _ _ isum_unit). apply bpow_ge_0. exact R1. exact R2. }
  intros FX SX p Hp. destruct (K FX SX p Hp) as [FY EY]. split; auto. eapply Rle_trans; [exact EY|]. change (rsum n (fun j => cn (ev e1 (X (snd (tt, j)))))) with (S1 n (fun p => cn (ev e1 (X (snd p))))).
  assert (S0 : 0 <= S1 n (fun p => cn (ev e1 (X (snd p))))) by (apply rsum_pos; intros; apply cn_pos). replace ((29 + 21 / 10 * 0) * (1 * INR q * (1 * INR q)) * h) with (29 * (INR q * INR q) * h) by ring.
  apply Rplus_le_compat_r, Rmult_le_compat_r; lra.
Qed.

Lemma rt2 {T1 T2 T3} f g n m q (e1 : fel T1) (e2 : fel T2) W f' g' n' m' q' (e3 : fel T3) (X Y : nat -> nat -> T1) (Z Z' : nat -> nat -> T2) (U : nat -> nat -> T3) :
  gops f g n m q e1 e2 W -> (Z.of_nat q <= 2 ^ 10)%Z -> gops f' g' n' m' q' e2 e3 same -> (Z.of_nat q' <= 2 ^ 10)%Z ->
  rows (D1 n') f n m (fun p j => X (snd p) j) (fun p j => Z (snd p) j) -> rows (D1 n') g m n (fun p j => Z' (snd p) j) (fun p j => Y (snd p) j) ->
  (forall k, (k < m)%nat -> rows (fun _ : unit => True) f' n' m' (fun _ i => Z i k) (fun _ i => U i k)) -> (forall k, (k < m)%nat -> rows (fun _ : unit => True) g' m' n' (fun _ i => U i k) (fun _ i => Z' i k)) ->
  rt (D2 n' n) (S2 n' n) e1 (fun p => X (snd (fst p)) (snd p)) (fun p => Y (snd (fst p)) (snd p)) (fun p => W (snd p) (ev e1 (X (snd (fst p)) (snd p)))) (bpow radix2 72) (178 * w) (90 * ((INR q' * INR q) * (INR q' * INR q)) * h).
Proof.
  intros HG Hq HG' Hq' RX RY RU RV. pose proof (gops_n _ _ _ _ _ _ _ _ HG') as Nn'. assert (N1 : 1 <= INR n') by (change 1 with (INR 1); apply le_INR; lia). assert (NQ : INR n' <= INR q') by (apply le_INR; lia).
  pose proof w_small as Hw. pose proof h_small as Hh. destruct (range_step q (INR q') 29 h 72 Hq) as [R1 R2]. { split. lra. eapply Rle_trans; [apply q10; exact Hq'|]. apply bpow_le; lia. } lra. lra. lia.
  pose proof (rt_good (D1 n') (S1 n') (1 * INR n') (INR q') e1 e2 f g n m q W w h 4 (33 * w) 29 R100 (bpow radix2 (72 + 12)) (bpow radix2 72) (fun p j => X (snd p) j) (fun p j => Y (snd p) j) (fun p j => Z (snd p) j) (fun p j => Z' (snd p) j)
    (isum1 n') ltac:(lra) HG Hw ltac:(lra) ltac:(lra) ltac:(lra) ltac:(lra) RX RY) as G.
  assert (K := fun HI => G HI (bpow_ge_0 _ _) R1 R2). clear G R1 R2.
  intros FX SX p Hp. destruct (fun HI => K HI FX SX p Hp) as [FY EY]. { intros k Hk. exact (rt1 f' g' n' m' q' e2 e3 same (fun i => Z i k) (fun i => Z' i k) (fun i => U i k) HG' Hq' (RU k Hk) (RV k Hk)). }
  split; [exact FY|]. eapply Rle_trans; [exact EY|].
  set (TS := S1 n' _). change (S2 n' n (fun p0 => cn (ev e1 (X (snd (fst p0)) (snd p0))))) with TS. assert (S0 : 0 <= TS) by (apply rsum_pos; intros; apply rsum_pos; intros; apply cn_pos).
  apply Rplus_le_compat. apply Rmult_le_compat_r; lra. apply Rmult_le_compat_r; [lra|]. apply Rmult_le_compat_r; [|lra]. apply Rmult_le_pos; apply Rmult_le_pos; apply pos_INR.
Qed.

Lemma rt3 {T1 T2 T3 T4} f g n m q (e1 : fel T1) (e2 : fel T2) W f' g' n' m' q' (e3 : fel T3) f2 g2 n2 m2 q2 (e4 : fel T4) (X Y : nat -> nat -> nat -> T1) (Z Z' : nat -> nat -> nat -> T2) (U U' : nat -> nat -> nat -> T3) (V : nat -> nat -> nat -> T4) :
  gops f g n m q e1 e2 W -> (Z.of_nat q <= 2 ^ 10)%Z -> gops f' g' n' m' q' e2 e3 same -> (Z.of_nat q' <= 2 ^ 10)%Z -> gops f2 g2 n2 m2 q2 e3 e4 same -> (Z.of_nat q2 <= 2 ^ 10)%Z ->
  rows (D2 n2 n') f n m (fun p j => X (snd (fst p)) (snd p) j) (fun p j => Z (snd (fst p)) (snd p) j) -> rows (D2 n2 n') g m n (fun p j => Z' (snd (fst p)) (snd p) j) (fun p j => Y (snd (fst p)) (snd p) j) ->
  (forall k, (k < m)%nat -> rows (D1 n2) f' n' m' (fun p j => Z (snd p) j k) (fun p j => U (snd p) j k)) -> (forall k, (k < m)%nat -> rows (D1 n2) g' m' n' (fun p j => U' (snd p) j k) (fun p j => Z' (snd p) j k)) ->
  (forall k l, (k < m)%nat -> (l < m')%nat -> rows (fun _ : unit => True) f2 n2 m2 (fun _ i => U i l k) (fun _ i => V i l k)) -> (forall k l, (k < m)%nat -> (l < m')%nat -> rows (fun _ : unit => True) g2 m2 n2 (fun _ i => V i l k) (fun _ i => U' i l k)) ->
  rt (D3 n2 n' n) (S3 n2 n' n) e1 (fun p => X (snd (fst (fst p))) (snd (fst p)) (snd p)) (fun p => Y (snd (fst (fst p))) (snd (fst p)) (snd p)) (fun p => W (snd p) (ev e1 (X (snd (fst (fst p))) (snd (fst p)) (snd p)))) (bpow radix2 60) (816 * w)
    (218 * ((INR q2 * INR q' * INR q) * (INR q2 * INR q' * INR q)) * h).
Proof.
  intros HG Hq HG' Hq' HG2 Hq2 RX RY RU RV RU2 RV2. pose proof (gops_n _ _ _ _ _ _ _ _ HG') as Nn'. assert (N1 : 1 <= INR n') by (change 1 with (INR 1); apply le_INR; lia). assert (NQ : INR n' <= INR q') by (apply le_INR; lia).
  pose proof (gops_n _ _ _ _ _ _ _ _ HG2) as Nn2. assert (N2 : 1 <= INR n2) by (change 1 with (INR 1); apply le_INR; lia). assert (NQ2 : INR n2 <= INR q2) by (apply le_INR; lia).
  assert (NN : 1 <= 1 * INR n2 * INR n' <= INR q2 * INR q'). { split. rewrite Rmult_1_l. replace 1 with (1 * 1) by ring. apply Rmult_le_compat; lra. rewrite Rmult_1_l. apply Rmult_le_compat; lra. }
  assert (QQ : 0 <= INR q2 * INR q' <= bpow radix2 20). { split. lra. change 20%Z with (10 + 10)%Z. rewrite bpow_plus. apply (mul_up _ _ _ _ (q10 _ Hq2) (q10 _ Hq')). }
  pose proof w_small as Hw. pose proof h_small as Hh. destruct (range_step q (INR q2 * INR q') 90 h 60 Hq QQ) as [R1 R2]. lra. lra. lia.
  pose proof (rt_good (D2 n2 n') (S2 n2 n') (1 * INR n2 * INR n') (INR q2 * INR q') e1 e2 f g n m q W w h 4 (178 * w) 90 R100 (bpow radix2 (60 + 12)) (bpow radix2 60) (fun p j => X (snd (fst p)) (snd p) j) (fun p j => Y (snd (fst p)) (snd p) j)
    (fun p j => Z (snd (fst p)) (snd p) j) (fun p j => Z' (snd (fst p)) (snd p) j)
    (isum2 n2 n') NN HG Hw ltac:(lra) ltac:(lra) ltac:(lra) ltac:(lra) RX RY) as G.
  assert (K := fun HI => G HI (bpow_ge_0 _ _) R1 R2). clear G R1 R2.
  intros FX SX p Hp. destruct (fun HI => K HI FX SX p Hp) as [FY EY].
  { intros k Hk. exact (rt2 f' g' n' m' q' e2 e3 same f2 g2 n2 m2 q2 e4 (fun i j => Z i j k) (fun i j => Z' i j k) (fun i j => U i j k) (fun i j => U' i j k) (fun i j => V i j k) HG' Hq' HG2 Hq2 (RU k Hk) (RV k Hk) (fun l Hl => RU2 k l Hk Hl) (fun l Hl => RV2 k l Hk Hl)). }
  split; [exact FY|]. eapply Rle_trans; [exact EY|].
  set (TS := S2 n2 n' _). change (S3 n2 n' n (fun p0 => cn (ev e1 (X (snd (fst (fst p0))) (snd (fst p0)) (snd p0))))) with TS. assert (S0 : 0 <= TS) by (apply rsum_pos; intros; apply rsum_pos; intros; apply rsum_pos; intros; apply cn_pos).
  apply Rplus_le_compat. apply Rmult_le_compat_r; lra. apply Rmult_le_compat_r; [lra|]. apply Rmult_le_compat_r; [|lra]. apply Rmult_le_pos; apply Rmult_le_pos; try apply pos_INR; lra.
Qed.
End Axes.
