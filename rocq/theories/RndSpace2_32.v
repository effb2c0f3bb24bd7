(** C67: the spectral round trips of C57 (RndSpace2.v) with scalars f32. *)
From Coq Require Import List Arith ZArith Reals Bool Lra Lia.
From Flocq Require Import Core BinarySingleNaN.
From Verif Require Import Base Num Linalg Stencils Cheb ChebFacts Compo CompoProofs Fourier FourierF64 FourierFacts FourierProofs Bases BaseLin LibBase NdArray NdArrayFacts AxisFacts AxisProps PropAxis SpaceFacts SpaceBases SpaceStages Space PropSpace
  ExtLib AnyArith ExtFacts AnyBase PropAny PropAny2 Rounding LibAcc RndCheb RndFft RndR2c RndCompo RndFinite2 PropRound2 RndAxis RndOps RndAxis2 RndOps2 SpaceAcc SpaceAcc2 RndSpace RndSpace2 PropRound RndNeumann PropTrans6 SpaceVal32 RndVal32 RndSpace32.
Import ListNotations.
Local Open Scope R_scope.
Local Notation u32 := (bpow radix2 (-24)).
Local Notation eta32 := (bpow radix2 (-150)).
Local Notation FA := f32_float_arith.

Lemma tr_usable E dl zt kap r P S T b eP eS : f32_transform E dl zt kap r P S T b eP eS -> any_usable E P S T b.
Proof.
  intros [r' P' S' T' b' eP' eS' H|T' V n b' H Hn _ _ _|T' V n b' H Hn _ _ _]; [eapply orth_usable; eauto|eapply aus_composite; eauto|eapply aus_composite; eauto]; cbn [ssolve]; lia.
Qed.
Lemma tr_good E dl zt kap r P S T b eP eS : f32_transform E dl zt kap r P S T b eP eS -> 0 <= dl <= / 16 -> 0 <= zt <= 1 ->
  (Z.of_nat (len_phys b) <= 2 ^ 10)%Z /\ 1 <= kap /\ good_spec (backward_slice b) (forward_slice b) (len_spec b) (len_phys b) (len_phys b) eS eP (kept b r) kap (dl + u32) (eta32 + zt) R100.
Proof.
  intros H Hd Hz. pose proof eta1 as E1. pose proof (bpow_gt_0 radix2 (-24)) as U0. destruct H as [r P S T b eP eS H|T V n b H Hn Hq HE HR|T V n b H Hn Hq HE HR].
  - destruct (orth_good E dl zt r P S T b eP eS H ltac:(lra) Hz) as (Hq & _ & HG). split; auto. split. lra. apply ops_spec; auto; try lra. intros; apply kept_le.
  - unfold new_composite in H. destruct (compo_new KDirichlet n) as [c| |] eqn:Ec; cbn [bind] in H; try discriminate. injection H as <-. destruct (dir_inv n c Ec) as [_ ->].
    unfold kept. cbn [r2r_ops_x len_phys len_spec forward_slice backward_slice compo_len_phys compo_len_spec p_n p_m andb].
    change (compo_len_phys (dirc n)) with n. change (compo_len_spec (dirc n)) with (n - 2)%nat. split; auto. split. { pose proof (pos_INR n). replace 1 with (1 * 1) at 1 by ring. apply Rmult_le_compat; lra. }
    destruct (f32_n11 n ltac:(lia)) as [A1 A2]. apply (dir_good FA E n dl zt R100 Hn ltac:(lia) (f32_n_eta n ltac:(lia)) A2 A1 Hd ltac:(lra) HE HR (crange zt Hz n Hn Hq)).
  - unfold new_composite in H. destruct (compo_new KNeumann n) as [c| |] eqn:Ec; cbn [bind] in H; try discriminate. injection H as <-. destruct (neu_inv n c Ec) as [_ ->].
    unfold kept. cbn [r2r_ops_x len_phys len_spec forward_slice backward_slice compo_len_phys compo_len_spec p_n p_m andb].
    change (compo_len_phys (neuc n)) with n. change (compo_len_spec (neuc n)) with (n - 2)%nat. split; auto. split. { pose proof (pos_INR n). replace 1 with (1 * 1) at 1 by ring. apply Rmult_le_compat; lra. }
    destruct (f32_n10 n ltac:(lia)) as [A1 A2]. apply (neu_good FA E n dl zt R100 Hn A1 (f32_n_eta n ltac:(lia)) A2 Hd ltac:(lra) HE HR (crange zt Hz n Hn Hq)).
Qed.

Lemma range_step2 q Q c H h a : (Z.of_nat q <= 2 ^ 10)%Z -> 0 <= Q <= bpow radix2 20 -> 0 <= c <= 100 -> 0 <= H <= bpow radix2 14 -> 0 <= h <= 2 -> (60 <= a <= 84)%Z ->
  3 * INR q * bpow radix2 a + 9 * Q * (INR q * INR q) * h <= bpow radix2 (a + 12) /\ 2 * bpow radix2 (a + 12) + INR q * (c * H * (Q * Q) * h) <= R100.
Proof.
  intros Hq HQ Hc HH Hh Ha. apply q10 in Hq. pose proof (mul_up _ _ _ _ Hq Hq) as QQ. rewrite bp32 in QQ. change (10 + 10)%Z with 20%Z in QQ. pose proof (mul_up _ _ _ _ HQ QQ) as Q3. rewrite bp32 in Q3. change (20 + 20)%Z with 40%Z in Q3.
  pose proof (mul_up _ _ _ _ Q3 Hh) as Q4. pose proof (mul_up _ _ _ _ HQ HQ) as Q5. rewrite bp32 in Q5. change (20 + 20)%Z with 40%Z in Q5.
  pose proof (mul_up _ _ _ _ (mul_up _ _ _ _ Hc HH) Q5) as Q6. pose proof (mul_up _ _ _ _ Q6 Hh) as Q7. pose proof (mul_up _ _ _ _ Hq Q7) as Q8.
  pose proof (bpow_gt_0 radix2 a) as A0. assert (QA : INR q * bpow radix2 a <= bpow radix2 10 * bpow radix2 a) by (apply Rmult_le_compat_r; lra).
  assert (E1 : bpow radix2 (a + 12) = bpow radix2 a * 4096) by (rewrite bpow_plus; f_equal). assert (E2 : bpow radix2 10 = 1024) by reflexivity. assert (E5 : bpow radix2 14 = 16384) by reflexivity.
  assert (A8 : bpow radix2 60 <= bpow radix2 a) by (apply bpow_le; lia). assert (A9 : bpow radix2 (a + 12) <= bpow radix2 96) by (apply bpow_le; lia).
  assert (E3 : R100 = bpow radix2 96 * 16) by (change 100%Z with (96 + 4)%Z; rewrite bpow_plus; f_equal).
  assert (A7 : bpow radix2 75 <= bpow radix2 96) by (apply bpow_le; lia). assert (E4 : bpow radix2 60 = bpow radix2 40 * 1048576) by (change 60%Z with (40 + 20)%Z; rewrite bpow_plus; f_equal).
  assert (E6 : bpow radix2 75 = bpow radix2 40 * 34359738368) by (change 75%Z with (40 + 35)%Z; rewrite bpow_plus; f_equal).
  pose proof (bpow_gt_0 radix2 40). set (b40 := bpow radix2 40) in *. set (b60 := bpow radix2 60) in *. set (b75 := bpow radix2 75) in *. set (b96 := bpow radix2 96) in *. set (b100 := R100) in *. set (ba := bpow radix2 a) in *. clearbody b40 b60 b75 b96 b100 ba.
  rewrite E2, ?E5 in *. clear E2 E5. split; lra.
Qed.

(** ** One, two and three axes *)
Section Axes.
Context (dl zt : R) (Hd : 0 <= dl) (Hz : 0 <= zt <= 1).
Let w := dl + u32.
Let h := eta32 + zt.
Lemma w_pos : 0 < w.
Proof. unfold w. pose proof (bpow_gt_0 radix2 (-24)). lra. Qed.
Lemma hs : 0 <= h <= 2.
Proof. unfold h. pose proof eta1. lra. Qed.
Lemma kap_14 k : 0 <= k -> k * w <= / 2000 -> k <= bpow radix2 14.
Proof.
  intros K0 H. assert (k * u32 <= / 2000). { eapply Rle_trans; [|exact H]. apply Rmult_le_compat_l; auto. unfold w. lra. }
  change u32 with (/ IZR (2 ^ 24)) in H0. change (bpow radix2 14) with (IZR (2 ^ 14)). cbv [Z.pow Z.pow_pos Pos.iter Z.mul Pos.mul] in *. lra.
Qed.
Lemma kap_le k k' : 1 <= k' -> 0 <= k -> k * k' * w <= / 2000 -> k * w <= / 2000.
Proof. intros H1 K0 H. eapply Rle_trans; [|exact H]. pose proof w_pos. apply Rmult_le_compat_r. lra. rewrite <- (Rmult_1_r k) at 1. apply Rmult_le_compat_l; auto. Qed.
Notation gs f g n m q e1 e2 W kap := (good_spec f g n m q e1 e2 W kap w h R100).
Lemma gs_n {T1 T2} f g n m q (e1 : fel T1) (e2 : fel T2) W kap : gs f g n m q e1 e2 W kap -> (1 <= n <= q)%nat.
Proof. intros (F & B & Kf & Kb & af & ab & ac & _ & _ & _ & _ & _ & _ & _ & _ & _ & _ & H & _). exact H. Qed.

Lemma st1 {T1 T2} f g n m q (e1 : fel T1) (e2 : fel T2) W kap (X Y : nat -> T1) (Z : nat -> T2) : gs f g n m q e1 e2 W kap -> (Z.of_nat q <= 2 ^ 10)%Z -> 1 <= kap -> kap * w <= / 2000 ->
  rows (fun _ : unit => True) f n m (fun _ => X) (fun _ => Z) -> rows (fun _ : unit => True) g m n (fun _ => Z) (fun _ => Y) ->
  rt (D1 n) (S1 n) e1 (fun p => X (snd p)) (fun p => Y (snd p)) (fun p => W (snd p) (ev e1 (X (snd p)))) (bpow radix2 84) (63 * kap * w) (32 * kap * (INR q * INR q) * h).
Proof.
  intros HG Hq Hk HK RX RY. destruct (range_step2 q 1 0 1 h 84 Hq) as [R1 R2]. change 1 with (bpow radix2 0) at 2. split; [lra|apply bpow_le; lia]. lra. change 1 with (bpow radix2 0). split; [apply bpow_ge_0|apply bpow_le; lia]. apply hs. lia. pose proof w_pos. pose proof hs.
  pose proof (rt_good_spec (fun _ : unit => True) (fun f => f tt) 1 1 1 e1 e2 f g n m q W kap w h 0 0 R100 (bpow radix2 (84 + 12)) (bpow radix2 84) (fun _ => X) (fun _ => Y) (fun _ => Z) (fun _ => Z)
    isum_unit ltac:(lra) ltac:(lra) HG Hk ltac:(lra) HK ltac:(lra) ltac:(lra) ltac:(lra) RX RY) as G.
  assert (K : rt (fun q => True /\ (snd q < n)%nat) (fun f => (fun f => f tt) (fun p => rsum n (fun j => f (p, j)))) e1 (fun p : unit * nat => X (snd p)) (fun p => Y (snd p)) (fun p => W (snd p) (ev e1 (X (snd p)))) (bpow radix2 84)
     (kap * (51 / 10 * 0 + 63 * w)) ((32 + 21 / 10 * 0) * (1 * kap) * ((1 * INR q) * (1 * INR q)) * h)).
  { apply G. intros k Hk'. assert (E0 : 0 * 1 * (1 * 1) * h = 0) by ring. rewrite E0. apply (rt_id _ _ _ _ _ _ isum_unit). apply bpow_ge_0. exact R1. exact R2. }
  intros FX SX p Hp. destruct (K FX SX p Hp) as [FY EY]. split; auto. eapply Rle_trans; [exact EY|]. change (rsum n (fun j => cn (ev e1 (X (snd (tt, j)))))) with (S1 n (fun p => cn (ev e1 (X (snd p))))).
  right. ring.
Qed.

Lemma st2 {T1 T2 T3} f g n m q (e1 : fel T1) (e2 : fel T2) W kap f' g' n' m' q' (e3 : fel T3) kap' (X Y : nat -> nat -> T1) (Z Z' : nat -> nat -> T2) (U : nat -> nat -> T3) :
  gs f g n m q e1 e2 W kap -> (Z.of_nat q <= 2 ^ 10)%Z -> 1 <= kap -> gs f' g' n' m' q' e2 e3 same kap' -> (Z.of_nat q' <= 2 ^ 10)%Z -> 1 <= kap' -> kap' * kap * w <= / 2000 ->
  rows (D1 n') f n m (fun p j => X (snd p) j) (fun p j => Z (snd p) j) -> rows (D1 n') g m n (fun p j => Z' (snd p) j) (fun p j => Y (snd p) j) ->
  (forall k, (k < m)%nat -> rows (fun _ : unit => True) f' n' m' (fun _ i => Z i k) (fun _ i => U i k)) -> (forall k, (k < m)%nat -> rows (fun _ : unit => True) g' m' n' (fun _ i => U i k) (fun _ i => Z' i k)) ->
  rt (D2 n' n) (S2 n' n) e1 (fun p => X (snd (fst p)) (snd p)) (fun p => Y (snd (fst p)) (snd p)) (fun p => W (snd p) (ev e1 (X (snd (fst p)) (snd p)))) (bpow radix2 72) (385 * (kap' * kap) * w)
    (100 * (kap' * kap) * ((INR q' * INR q) * (INR q' * INR q)) * h).
Proof.
  intros HG Hq Hk HG' Hq' Hk' HK RX RY RU RV. pose proof (gs_n _ _ _ _ _ _ _ _ _ HG') as Nn'. assert (N1 : 1 <= INR n') by (change 1 with (INR 1); apply le_INR; lia). assert (NQ : INR n' <= INR q') by (apply le_INR; lia).
  assert (HK' : kap' * w <= / 2000) by (apply (kap_le kap' kap); auto; lra). assert (HK2 : kap * w <= / 2000) by (apply (kap_le kap kap'); auto; try lra; rewrite (Rmult_comm kap); auto).
  pose proof w_pos as Hw. pose proof hs as Hh. assert (W0 : 0 <= kap' * w) by (apply Rmult_le_pos; lra).
  destruct (range_step2 q (INR q') 32 kap' h 72 Hq) as [R1 R2]. { split. lra. eapply Rle_trans; [apply q10; exact Hq'|]. apply bpow_le; lia. } lra. { split; [lra|apply kap_14; auto; lra]. } lra. lia.
  pose proof (rt_good_spec (D1 n') (S1 n') (1 * INR n') (INR q') kap' e1 e2 f g n m q W kap w h (63 * kap' * w) 32 R100 (bpow radix2 (72 + 12)) (bpow radix2 72) (fun p j => X (snd p) j) (fun p j => Y (snd p) j) (fun p j => Z (snd p) j) (fun p j => Z' (snd p) j)
    (isum1 n') ltac:(lra) Hk' HG Hk ltac:(lra) HK2 ltac:(lra) ltac:(lra) ltac:(lra) RX RY) as G.
  assert (K := fun HI => G HI (bpow_ge_0 _ _) R1 R2). clear G R1 R2.
  intros FX SX p Hp. destruct (fun HI => K HI FX SX p Hp) as [FY EY]. { intros k Hkk. exact (st1 f' g' n' m' q' e2 e3 same kap' (fun i => Z i k) (fun i => Z' i k) (fun i => U i k) HG' Hq' Hk' HK' (RU k Hkk) (RV k Hkk)). }
  split; [exact FY|]. eapply Rle_trans; [exact EY|].
  set (TS := S1 n' _). change (S2 n' n (fun p0 => cn (ev e1 (X (snd (fst p0)) (snd p0))))) with TS. assert (S0 : 0 <= TS) by (apply rsum_pos; intros; apply rsum_pos; intros; apply cn_pos).
  assert (KW : kap * w <= kap' * kap * w). { rewrite Rmult_assoc. rewrite <- (Rmult_1_l (kap * w)) at 1. apply Rmult_le_compat_r; auto. apply Rmult_le_pos; lra. } assert (0 <= kap * w) by (apply Rmult_le_pos; lra).
  assert (0 <= kap' * kap) by (apply Rmult_le_pos; lra).
  apply Rplus_le_compat. apply Rmult_le_compat_r; [lra|]. lra. apply Rmult_le_compat_r; [lra|]. apply Rmult_le_compat_r; [|lra]. apply Rmult_le_pos; apply Rmult_le_pos; apply pos_INR.
Qed.

Lemma st3 {T1 T2 T3 T4} f g n m q (e1 : fel T1) (e2 : fel T2) W kap f' g' n' m' q' (e3 : fel T3) kap' f2 g2 n2 m2 q2 (e4 : fel T4) kap2 (X Y : nat -> nat -> nat -> T1) (Z Z' : nat -> nat -> nat -> T2) (U U' : nat -> nat -> nat -> T3) (V : nat -> nat -> nat -> T4) :
  gs f g n m q e1 e2 W kap -> (Z.of_nat q <= 2 ^ 10)%Z -> 1 <= kap -> gs f' g' n' m' q' e2 e3 same kap' -> (Z.of_nat q' <= 2 ^ 10)%Z -> 1 <= kap' -> gs f2 g2 n2 m2 q2 e3 e4 same kap2 -> (Z.of_nat q2 <= 2 ^ 10)%Z -> 1 <= kap2 -> kap2 * kap' * kap * w <= / 2000 ->
  rows (D2 n2 n') f n m (fun p j => X (snd (fst p)) (snd p) j) (fun p j => Z (snd (fst p)) (snd p) j) -> rows (D2 n2 n') g m n (fun p j => Z' (snd (fst p)) (snd p) j) (fun p j => Y (snd (fst p)) (snd p) j) ->
  (forall k, (k < m)%nat -> rows (D1 n2) f' n' m' (fun p j => Z (snd p) j k) (fun p j => U (snd p) j k)) -> (forall k, (k < m)%nat -> rows (D1 n2) g' m' n' (fun p j => U' (snd p) j k) (fun p j => Z' (snd p) j k)) ->
  (forall k l, (k < m)%nat -> (l < m')%nat -> rows (fun _ : unit => True) f2 n2 m2 (fun _ i => U i l k) (fun _ i => V i l k)) -> (forall k l, (k < m)%nat -> (l < m')%nat -> rows (fun _ : unit => True) g2 m2 n2 (fun _ i => V i l k) (fun _ i => U' i l k)) ->
  rt (D3 n2 n' n) (S3 n2 n' n) e1 (fun p => X (snd (fst (fst p))) (snd (fst p)) (snd p)) (fun p => Y (snd (fst (fst p))) (snd (fst p)) (snd p)) (fun p => W (snd p) (ev e1 (X (snd (fst (fst p))) (snd (fst p)) (snd p)))) (bpow radix2 60) (2027 * (kap2 * kap' * kap) * w)
    (242 * (kap2 * kap' * kap) * ((INR q2 * INR q' * INR q) * (INR q2 * INR q' * INR q)) * h).
Proof.
  intros HG Hq Hk HG' Hq' Hk' HG2 Hq2 Hk2 HK RX RY RU RV RU2 RV2. pose proof (gs_n _ _ _ _ _ _ _ _ _ HG') as Nn'. assert (N1 : 1 <= INR n') by (change 1 with (INR 1); apply le_INR; lia). assert (NQ : INR n' <= INR q') by (apply le_INR; lia).
  pose proof (gs_n _ _ _ _ _ _ _ _ _ HG2) as Nn2. assert (N2 : 1 <= INR n2) by (change 1 with (INR 1); apply le_INR; lia). assert (NQ2 : INR n2 <= INR q2) by (apply le_INR; lia).
  assert (NN : 1 <= 1 * INR n2 * INR n' <= INR q2 * INR q'). { split. rewrite Rmult_1_l. replace 1 with (1 * 1) by ring. apply Rmult_le_compat; lra. rewrite Rmult_1_l. apply Rmult_le_compat; lra. }
  assert (QQ : 0 <= INR q2 * INR q' <= bpow radix2 20). { split. lra. change 20%Z with (10 + 10)%Z. rewrite bpow_plus. apply (mul_up _ _ _ _ (q10 _ Hq2) (q10 _ Hq')). }
  assert (KI : 1 <= kap2 * kap'). { replace 1 with (1 * 1) by ring. apply Rmult_le_compat; lra. }
  assert (HK' : kap2 * kap' * w <= / 2000) by (apply (kap_le (kap2 * kap') kap); auto; lra). assert (HKo : kap * w <= / 2000) by (apply (kap_le kap (kap2 * kap')); auto; try lra; rewrite (Rmult_comm kap); auto).
  pose proof w_pos as Hw. pose proof hs as Hh. assert (W0 : 0 <= kap2 * kap' * w) by (apply Rmult_le_pos; lra).
  destruct (range_step2 q (INR q2 * INR q') 100 (kap2 * kap') h 60 Hq QQ) as [R1 R2]. lra. { split; [lra|apply kap_14; auto; lra]. } lra. lia.
  pose proof (rt_good_spec (D2 n2 n') (S2 n2 n') (1 * INR n2 * INR n') (INR q2 * INR q') (kap2 * kap') e1 e2 f g n m q W kap w h (385 * (kap2 * kap') * w) 100 R100 (bpow radix2 (60 + 12)) (bpow radix2 60) (fun p j => X (snd (fst p)) (snd p) j) (fun p j => Y (snd (fst p)) (snd p) j)
    (fun p j => Z (snd (fst p)) (snd p) j) (fun p j => Z' (snd (fst p)) (snd p) j)
    (isum2 n2 n') NN KI HG Hk ltac:(lra) HKo ltac:(lra) ltac:(lra) ltac:(lra) RX RY) as G.
  assert (K := fun HI => G HI (bpow_ge_0 _ _) R1 R2). clear G R1 R2.
  intros FX SX p Hp. destruct (fun HI => K HI FX SX p Hp) as [FY EY].
  { intros k Hkk. exact (st2 f' g' n' m' q' e2 e3 same kap' f2 g2 n2 m2 q2 e4 kap2 (fun i j => Z i j k) (fun i j => Z' i j k) (fun i j => U i j k) (fun i j => U' i j k) (fun i j => V i j k) HG' Hq' Hk' HG2 Hq2 Hk2 HK' (RU k Hkk) (RV k Hkk) (fun l Hl => RU2 k l Hkk Hl) (fun l Hl => RV2 k l Hkk Hl)). }
  split; [exact FY|]. eapply Rle_trans; [exact EY|].
  set (TS := S2 n2 n' _). change (S3 n2 n' n (fun p0 => cn (ev e1 (X (snd (fst (fst p0))) (snd (fst p0)) (snd p0))))) with TS. assert (S0 : 0 <= TS) by (apply rsum_pos; intros; apply rsum_pos; intros; apply rsum_pos; intros; apply cn_pos).
  assert (KW0 : 0 <= kap * w) by (apply Rmult_le_pos; lra). assert (KW : kap * w <= kap2 * kap' * kap * w). { rewrite (Rmult_assoc (kap2 * kap')). rewrite <- (Rmult_1_l (kap * w)) at 1. apply Rmult_le_compat_r; auto. }
  apply Rplus_le_compat. apply Rmult_le_compat_r; [lra|]. lra. apply Rmult_le_compat_r; [lra|]. apply Rmult_le_compat_r; [|lra]. apply Rmult_le_pos; apply Rmult_le_pos; try apply pos_INR; lra.
Qed.
End Axes.
