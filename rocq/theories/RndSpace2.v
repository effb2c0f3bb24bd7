(** C57: the spectral round trips of Space1, Space2 and Space3 in f64, with
    Dirichlet and Neumann bases. *)
From Coq Require Import List Arith ZArith Reals Bool Lra Lia.
From Flocq Require Import Core BinarySingleNaN.
From Verif Require Import Base Num Linalg Stencils Cheb ChebFacts Compo CompoProofs Fourier FourierF64 FourierFacts FourierProofs Bases BaseLin LibBase NdArray NdArrayFacts AxisFacts AxisProps PropAxis SpaceFacts SpaceBases SpaceStages Space PropSpace
  ExtLib AnyArith ExtFacts AnyBase PropAny PropAny2 Rounding LibAcc RndCheb RndFft RndR2c RndCompo RndFinite2 PropRound2 PropTrans2 RndAxis RndOps RndAxis2 RndOps2 SpaceAcc SpaceAcc2 RndSpace PropRound RndNeumann.
Import ListNotations.
Local Open Scope R_scope.
Local Notation u64 := (bpow radix2 (-53)).
Local Notation eta64 := (bpow radix2 (-1075)).
Local Notation FA := f64_float_arith.

Lemma tr_usable E dl zt kap r P S T b eP eS : f64_transform E dl zt kap r P S T b eP eS -> any_usable E P S T b.
Proof.
  intros [r' P' S' T' b' eP' eS' H|T' V n b' H Hn _ _ _|T' V n b' H Hn _ _ _]; [eapply orth_usable; eauto|eapply aus_composite; eauto|eapply aus_composite; eauto]; cbn [ssolve]; lia.
Qed.
Lemma near_wider {T1 T2} f l1 l2 (e1 : fel T1) (e2 : fel T2) F Rg al be be' : near f l1 l2 e1 e2 F Rg al be -> be <= be' -> near f l1 l2 e1 e2 F Rg al be'.
Proof. intros H Hb d1 d2 x o Lx Lo Fx Sx. destruct (H d1 d2 x o Lx Lo Fx Sx) as (y & Ey & Ly & Hy). exists y. split; auto. split; auto. intros k Hk. destruct (Hy k Hk). split; auto. lra. Qed.
Lemma ops_spec {T1 T2} f g n m q (e1 : fel T1) (e2 : fel T2) W w h Rg : 0 <= w -> 0 <= h -> good_ops f g n m q e1 e2 W w h 4 Rg -> (forall j z, cn (W j z) <= cn z) -> good_spec f g n m q e1 e2 W 1 w h Rg.
Proof.
  intros Hw Hh (F & B & Kf & Kb & af & ab & NF & NB & BF & BB & KF & KB & KG & AF & AB & Hn & Hm & HW) WL. exists F, B, Kf, Kb, af, ab, 0.
  assert (Q : 0 <= INR q * h) by (apply Rmult_le_pos; auto; apply pos_INR). assert (WK : 0 <= w * Kf) by (apply Rmult_le_pos; lra).
  split. eapply near_wider; [exact NF|lra]. split. apply near_near_sol. eapply near_wider; [exact NB|lra]. split; auto. split; auto. split; auto. split. lra. split. lra. split. lra. split. lra. split. lra. auto.
Qed.
Lemma kept_le {P S T} (b : base_ops P S T) r j z : cn (kept b r j z) <= cn z.
Proof. unfold kept. destruct (r && _). unfold cn. cbn [fst snd]. rewrite Rabs_R0. pose proof (Rabs_pos (snd z)). lra. lra. Qed.

Lemma tr_good E dl zt kap r P S T b eP eS : f64_transform E dl zt kap r P S T b eP eS -> 0 <= dl <= / 16 -> 0 <= zt <= 1 ->
  (Z.of_nat (len_phys b) <= 2 ^ 20)%Z /\ 1 <= kap /\ good_spec (backward_slice b) (forward_slice b) (len_spec b) (len_phys b) (len_phys b) eS eP (kept b r) kap (dl + u64) (eta64 + zt) R900.
Proof.
  intros H Hd Hz. pose proof eta1 as E1. pose proof (bpow_gt_0 radix2 (-53)) as U0. destruct H as [r P S T b eP eS H|T V n b H Hn Hq HE HR|T V n b H Hn Hq HE HR].
  - destruct (orth_good E dl zt r P S T b eP eS H ltac:(lra) Hz) as (Hq & _ & HG). split; auto. split. lra. apply ops_spec; auto; try lra. intros; apply kept_le.
  - unfold new_composite in H. destruct (compo_new KDirichlet n) as [c| |] eqn:Ec; cbn [bind] in H; try discriminate. injection H as <-. destruct (dir_inv n c Ec) as [_ ->].
    unfold kept. cbn [r2r_ops_x len_phys len_spec forward_slice backward_slice compo_len_phys compo_len_spec p_n p_m andb].
    change (compo_len_phys (dirc n)) with n. change (compo_len_spec (dirc n)) with (n - 2)%nat. split; auto. split. { pose proof (pos_INR n). replace 1 with (1 * 1) at 1 by ring. apply Rmult_le_compat; lra. }
    destruct (f64_n25 n ltac:(lia)) as [A1 A2]. apply (dir_good FA E n dl zt R900 Hn ltac:(lia) (f64_n_eta n ltac:(lia)) A2 A1 Hd ltac:(lra) HE HR).
    pose proof (compo_range n R900 zt ltac:(lia) Hz ltac:(pose proof B900; lra)) as CR. eapply (inr_down FA); [|exact CR]. pose proof B900. pose proof (pos_INR n) as N0. assert (0 <= INR n * eta64) by (apply Rmult_le_pos; lra). assert (0 <= INR n * INR n) by (apply Rmult_le_pos; auto).
    rewrite !(Rmult_assoc 27). split. apply Rmult_le_pos; [lra|]. apply Rmult_le_pos; lra. apply Rmult_le_compat_l; [lra|]. apply Rmult_le_compat_l; lra.
  - unfold new_composite in H. destruct (compo_new KNeumann n) as [c| |] eqn:Ec; cbn [bind] in H; try discriminate. injection H as <-. destruct (neu_inv n c Ec) as [_ ->].
    unfold kept. cbn [r2r_ops_x len_phys len_spec forward_slice backward_slice compo_len_phys compo_len_spec p_n p_m andb].
    change (compo_len_phys (neuc n)) with n. change (compo_len_spec (neuc n)) with (n - 2)%nat. split; auto. split. { pose proof (pos_INR n). replace 1 with (1 * 1) at 1 by ring. apply Rmult_le_compat; lra. }
    destruct (f64_n24 n ltac:(lia)) as [A1 A2]. apply (neu_good FA E n dl zt R900 Hn A1 (f64_n_eta n ltac:(lia)) A2 Hd ltac:(lra) HE HR).
    pose proof (compo_range n R900 zt ltac:(lia) Hz ltac:(pose proof B900; lra)) as CR. eapply (inr_down FA); [|exact CR]. pose proof B900. pose proof (pos_INR n) as N0. assert (0 <= INR n * eta64) by (apply Rmult_le_pos; lra). assert (0 <= INR n * INR n) by (apply Rmult_le_pos; auto).
    rewrite !(Rmult_assoc 27). split. apply Rmult_le_pos; [lra|]. apply Rmult_le_pos; lra. apply Rmult_le_compat_l; [lra|]. apply Rmult_le_compat_l; lra.
Qed.

Lemma range_step2 q Q c H h a : (Z.of_nat q <= 2 ^ 20)%Z -> 0 <= Q <= bpow radix2 40 -> 0 <= c <= 100 -> 0 <= H <= bpow radix2 43 -> 0 <= h <= 2 -> (800 <= a <= 860)%Z ->
  3 * INR q * bpow radix2 a + 9 * Q * (INR q * INR q) * h <= bpow radix2 (a + 30) /\ 2 * bpow radix2 (a + 30) + INR q * (c * H * (Q * Q) * h) <= R900.
Proof.
  intros Hq HQ Hc HH Hh Ha. apply q20 in Hq. pose proof (mul_up _ _ _ _ Hq Hq) as QQ. rewrite bp in QQ. change (20 + 20)%Z with 40%Z in QQ. pose proof (mul_up _ _ _ _ HQ QQ) as Q3. rewrite bp in Q3. change (40 + 40)%Z with 80%Z in Q3.
  pose proof (mul_up _ _ _ _ Q3 Hh) as Q4. pose proof (mul_up _ _ _ _ HQ HQ) as Q5. rewrite bp in Q5. change (40 + 40)%Z with 80%Z in Q5.
  pose proof (mul_up _ _ _ _ (mul_up _ _ _ _ Hc HH) Q5) as Q6. pose proof (mul_up _ _ _ _ Q6 Hh) as Q7. pose proof (mul_up _ _ _ _ Hq Q7) as Q8.
  pose proof (bpow_gt_0 radix2 a) as A0. assert (QA : INR q * bpow radix2 a <= bpow radix2 20 * bpow radix2 a) by (apply Rmult_le_compat_r; lra).
  assert (E1 : bpow radix2 (a + 30) = bpow radix2 a * 1073741824) by (rewrite bpow_plus; f_equal). assert (E2 : bpow radix2 20 = 1048576) by reflexivity.
  assert (A8 : bpow radix2 80 <= bpow radix2 a) by (apply bpow_le; lia). assert (A9 : bpow radix2 (a + 30) <= bpow radix2 890) by (apply bpow_le; lia).
  assert (E3 : R900 = bpow radix2 890 * 1024) by (change 900%Z with (890 + 10)%Z; rewrite bpow_plus; f_equal).
  assert (A7 : bpow radix2 163 <= bpow radix2 890) by (apply bpow_le; lia). assert (E5 : bpow radix2 43 = 8796093022208) by reflexivity. assert (E4 : bpow radix2 163 = bpow radix2 80 * (8796093022208 * 1099511627776)). { change 163%Z with (80 + 83)%Z. rewrite bpow_plus. f_equal. rewrite <- mult_IZR. reflexivity. }
  pose proof (bpow_gt_0 radix2 80). set (b80 := bpow radix2 80) in *. set (b163 := bpow radix2 163) in *. set (b890 := bpow radix2 890) in *. set (b900 := R900) in *. set (ba := bpow radix2 a) in *. clearbody b80 b163 b890 b900 ba.
  rewrite E2, ?E5 in *. clear E2 E5. split; lra.
Qed.

(** ** One, two and three axes *)
Section Axes.
Context (dl zt : R) (Hd : 0 <= dl) (Hz : 0 <= zt <= 1).
Let w := dl + u64.
Let h := eta64 + zt.
Lemma w_pos : 0 < w.
Proof. unfold w. pose proof (bpow_gt_0 radix2 (-53)). lra. Qed.
Lemma hs : 0 <= h <= 2.
Proof. unfold h. pose proof eta1. lra. Qed.
Lemma kap_43 k : 0 <= k -> k * w <= / 2000 -> k <= bpow radix2 43.
Proof.
  intros K0 H. assert (k * u64 <= / 2000). { eapply Rle_trans; [|exact H]. apply Rmult_le_compat_l; auto. unfold w. lra. }
  change u64 with (/ IZR (2 ^ 53)) in H0. change (bpow radix2 43) with (IZR (2 ^ 43)). cbv [Z.pow Z.pow_pos Pos.iter Z.mul Pos.mul] in *. lra.
Qed.
Lemma kap_le k k' : 1 <= k' -> 0 <= k -> k * k' * w <= / 2000 -> k * w <= / 2000.
Proof. intros H1 K0 H. eapply Rle_trans; [|exact H]. pose proof w_pos. apply Rmult_le_compat_r. lra. rewrite <- (Rmult_1_r k) at 1. apply Rmult_le_compat_l; auto. Qed.
Notation gs f g n m q e1 e2 W kap := (good_spec f g n m q e1 e2 W kap w h R900).
Lemma gs_n {T1 T2} f g n m q (e1 : fel T1) (e2 : fel T2) W kap : gs f g n m q e1 e2 W kap -> (1 <= n <= q)%nat.
Proof. intros (F & B & Kf & Kb & af & ab & ac & _ & _ & _ & _ & _ & _ & _ & _ & _ & _ & H & _). exact H. Qed.

Lemma st1 {T1 T2} f g n m q (e1 : fel T1) (e2 : fel T2) W kap (X Y : nat -> T1) (Z : nat -> T2) : gs f g n m q e1 e2 W kap -> (Z.of_nat q <= 2 ^ 20)%Z -> 1 <= kap -> kap * w <= / 2000 ->
  rows (fun _ : unit => True) f n m (fun _ => X) (fun _ => Z) -> rows (fun _ : unit => True) g m n (fun _ => Z) (fun _ => Y) ->
  rt (D1 n) (S1 n) e1 (fun p => X (snd p)) (fun p => Y (snd p)) (fun p => W (snd p) (ev e1 (X (snd p)))) (bpow radix2 860) (63 * kap * w) (32 * kap * (INR q * INR q) * h).
Proof.
  intros HG Hq Hk HK RX RY. destruct (range_step2 q 1 0 1 h 860 Hq) as [R1 R2]. change 1 with (bpow radix2 0) at 2. split; [lra|apply bpow_le; lia]. lra. change 1 with (bpow radix2 0). split; [apply bpow_ge_0|apply bpow_le; lia]. apply hs. lia. pose proof w_pos. pose proof hs.
  pose proof (rt_good_spec (fun _ : unit => True) (fun f => f tt) 1 1 1 e1 e2 f g n m q W kap w h 0 0 R900 (bpow radix2 (860 + 30)) (bpow radix2 860) (fun _ => X) (fun _ => Y) (fun _ => Z) (fun _ => Z)
    isum_unit ltac:(lra) ltac:(lra) HG Hk ltac:(lra) HK ltac:(lra) ltac:(lra) ltac:(lra) RX RY) as G.
  assert (K : rt (fun q => True /\ (snd q < n)%nat) (fun f => (fun f => f tt) (fun p => rsum n (fun j => f (p, j)))) e1 (fun p : unit * nat => X (snd p)) (fun p => Y (snd p)) (fun p => W (snd p) (ev e1 (X (snd p)))) (bpow radix2 860)
     (kap * (51 / 10 * 0 + 63 * w)) ((32 + 21 / 10 * 0) * (1 * kap) * ((1 * INR q) * (1 * INR q)) * h)).
  { apply G. intros k Hk'. assert (E0 : 0 * 1 * (1 * 1) * h = 0) by ring. rewrite E0. apply (rt_id _ _ _ _ _ _ isum_unit). apply bpow_ge_0. exact R1. exact R2. }
  intros FX SX p Hp. destruct (K FX SX p Hp) as [FY EY]. split; auto. eapply Rle_trans; [exact EY|]. change (rsum n (fun j => cn (ev e1 (X (snd (tt, j)))))) with (S1 n (fun p => cn (ev e1 (X (snd p))))).
  right. ring.
Qed.

Lemma st2 {T1 T2 T3} f g n m q (e1 : fel T1) (e2 : fel T2) W kap f' g' n' m' q' (e3 : fel T3) kap' (X Y : nat -> nat -> T1) (Z Z' : nat -> nat -> T2) (U : nat -> nat -> T3) :
  gs f g n m q e1 e2 W kap -> (Z.of_nat q <= 2 ^ 20)%Z -> 1 <= kap -> gs f' g' n' m' q' e2 e3 same kap' -> (Z.of_nat q' <= 2 ^ 20)%Z -> 1 <= kap' -> kap' * kap * w <= / 2000 ->
  rows (D1 n') f n m (fun p j => X (snd p) j) (fun p j => Z (snd p) j) -> rows (D1 n') g m n (fun p j => Z' (snd p) j) (fun p j => Y (snd p) j) ->
  (forall k, (k < m)%nat -> rows (fun _ : unit => True) f' n' m' (fun _ i => Z i k) (fun _ i => U i k)) -> (forall k, (k < m)%nat -> rows (fun _ : unit => True) g' m' n' (fun _ i => U i k) (fun _ i => Z' i k)) ->
  rt (D2 n' n) (S2 n' n) e1 (fun p => X (snd (fst p)) (snd p)) (fun p => Y (snd (fst p)) (snd p)) (fun p => W (snd p) (ev e1 (X (snd (fst p)) (snd p)))) (bpow radix2 830) (385 * (kap' * kap) * w)
    (100 * (kap' * kap) * ((INR q' * INR q) * (INR q' * INR q)) * h).
Proof.
  intros HG Hq Hk HG' Hq' Hk' HK RX RY RU RV. pose proof (gs_n _ _ _ _ _ _ _ _ _ HG') as Nn'. assert (N1 : 1 <= INR n') by (change 1 with (INR 1); apply le_INR; lia). assert (NQ : INR n' <= INR q') by (apply le_INR; lia).
  assert (HK' : kap' * w <= / 2000) by (apply (kap_le kap' kap); auto; lra). assert (HK2 : kap * w <= / 2000) by (apply (kap_le kap kap'); auto; try lra; rewrite (Rmult_comm kap); auto).
  pose proof w_pos as Hw. pose proof hs as Hh. assert (W0 : 0 <= kap' * w) by (apply Rmult_le_pos; lra).
  destruct (range_step2 q (INR q') 32 kap' h 830 Hq) as [R1 R2]. { split. lra. eapply Rle_trans; [apply q20; exact Hq'|]. apply bpow_le; lia. } lra. { split; [lra|apply kap_43; auto; lra]. } lra. lia.
  pose proof (rt_good_spec (D1 n') (S1 n') (1 * INR n') (INR q') kap' e1 e2 f g n m q W kap w h (63 * kap' * w) 32 R900 (bpow radix2 (830 + 30)) (bpow radix2 830) (fun p j => X (snd p) j) (fun p j => Y (snd p) j) (fun p j => Z (snd p) j) (fun p j => Z' (snd p) j)
    (isum1 n') ltac:(lra) Hk' HG Hk ltac:(lra) HK2 ltac:(lra) ltac:(lra) ltac:(lra) RX RY) as G.
  assert (K := fun HI => G HI (bpow_ge_0 _ _) R1 R2). clear G R1 R2.
  intros FX SX p Hp. destruct (fun HI => K HI FX SX p Hp) as [FY EY]. { intros k Hkk. exact (st1 f' g' n' m' q' e2 e3 same kap' (fun i => Z i k) (fun i => Z' i k) (fun i => U i k) HG' Hq' Hk' HK' (RU k Hkk) (RV k Hkk)). }
  split; [exact FY|]. eapply Rle_trans; [exact EY|].
  set (TS := S1 n' _). change (S2 n' n (fun p0 => cn (ev e1 (X (snd (fst p0)) (snd p0))))) with TS. assert (S0 : 0 <= TS) by (apply rsum_pos; intros; apply rsum_pos; intros; apply cn_pos).
  assert (KW : kap * w <= kap' * kap * w). { rewrite Rmult_assoc. rewrite <- (Rmult_1_l (kap * w)) at 1. apply Rmult_le_compat_r; auto. apply Rmult_le_pos; lra. } assert (0 <= kap * w) by (apply Rmult_le_pos; lra).
  assert (0 <= kap' * kap) by (apply Rmult_le_pos; lra).
  apply Rplus_le_compat. apply Rmult_le_compat_r; [lra|]. lra. apply Rmult_le_compat_r; [lra|]. apply Rmult_le_compat_r; [|lra]. apply Rmult_le_pos; apply Rmult_le_pos; apply pos_INR.
Qed.

Lemma st3 {T1 T2 T3 T4} f g n m q (e1 : fel T1) (e2 : fel T2) W kap f' g' n' m' q' (e3 : fel T3) kap' f2 g2 n2 m2 q2 (e4 : fel T4) kap2 (X Y : nat -> nat -> nat -> T1) (Z Z' : nat -> nat -> nat -> T2) (U U' : nat -> nat -> nat -> T3) (V : nat -> nat -> nat -> T4) :
  gs f g n m q e1 e2 W kap -> (Z.of_nat q <= 2 ^ 20)%Z -> 1 <= kap -> gs f' g' n' m' q' e2 e3 same kap' -> (Z.of_nat q' <= 2 ^ 20)%Z -> 1 <= kap' -> gs f2 g2 n2 m2 q2 e3 e4 same kap2 -> (Z.of_nat q2 <= 2 ^ 20)%Z -> 1 <= kap2 -> kap2 * kap' * kap * w <= / 2000 ->
  rows (D2 n2 n') f n m (fun p j => X (snd (fst p)) (snd p) j) (fun p j => Z (snd (fst p)) (snd p) j) -> rows (D2 n2 n') g m n (fun p j => Z' (snd (fst p)) (snd p) j) (fun p j => Y (snd (fst p)) (snd p) j) ->
  (forall k, (k < m)%nat -> rows (D1 n2) f' n' m' (fun p j => Z (snd p) j k) (fun p j => U (snd p) j k)) -> (forall k, (k < m)%nat -> rows (D1 n2) g' m' n' (fun p j => U' (snd p) j k) (fun p j => Z' (snd p) j k)) ->
  (forall k l, (k < m)%nat -> (l < m')%nat -> rows (fun _ : unit => True) f2 n2 m2 (fun _ i => U i l k) (fun _ i => V i l k)) -> (forall k l, (k < m)%nat -> (l < m')%nat -> rows (fun _ : unit => True) g2 m2 n2 (fun _ i => V i l k) (fun _ i => U' i l k)) ->
  rt (D3 n2 n' n) (S3 n2 n' n) e1 (fun p => X (snd (fst (fst p))) (snd (fst p)) (snd p)) (fun p => Y (snd (fst (fst p))) (snd (fst p)) (snd p)) (fun p => W (snd p) (ev e1 (X (snd (fst (fst p))) (snd (fst p)) (snd p)))) (bpow radix2 800) (2027 * (kap2 * kap' * kap) * w)
    (242 * (kap2 * kap' * kap) * ((INR q2 * INR q' * INR q) * (INR q2 * INR q' * INR q)) * h).
Proof.
  intros HG Hq Hk HG' Hq' Hk' HG2 Hq2 Hk2 HK RX RY RU RV RU2 RV2. pose proof (gs_n _ _ _ _ _ _ _ _ _ HG') as Nn'. assert (N1 : 1 <= INR n') by (change 1 with (INR 1); apply le_INR; lia). assert (NQ : INR n' <= INR q') by (apply le_INR; lia).
  pose proof (gs_n _ _ _ _ _ _ _ _ _ HG2) as Nn2. assert (N2 : 1 <= INR n2) by (change 1 with (INR 1); apply le_INR; lia). assert (NQ2 : INR n2 <= INR q2) by (apply le_INR; lia).
  assert (NN : 1 <= 1 * INR n2 * INR n' <= INR q2 * INR q'). { split. rewrite Rmult_1_l. replace 1 with (1 * 1) by ring. apply Rmult_le_compat; lra. rewrite Rmult_1_l. apply Rmult_le_compat; lra. }
  assert (QQ : 0 <= INR q2 * INR q' <= bpow radix2 40). { split. lra. change 40%Z with (20 + 20)%Z. rewrite bpow_plus. apply (mul_up _ _ _ _ (q20 _ Hq2) (q20 _ Hq')). }
  assert (KI : 1 <= kap2 * kap'). { replace 1 with (1 * 1) by ring. apply Rmult_le_compat; lra. }
  assert (HK' : kap2 * kap' * w <= / 2000) by (apply (kap_le (kap2 * kap') kap); auto; lra). assert (HKo : kap * w <= / 2000) by (apply (kap_le kap (kap2 * kap')); auto; try lra; rewrite (Rmult_comm kap); auto).
  pose proof w_pos as Hw. pose proof hs as Hh. assert (W0 : 0 <= kap2 * kap' * w) by (apply Rmult_le_pos; lra).
  destruct (range_step2 q (INR q2 * INR q') 100 (kap2 * kap') h 800 Hq QQ) as [R1 R2]. lra. { split; [lra|apply kap_43; auto; lra]. } lra. lia.
  pose proof (rt_good_spec (D2 n2 n') (S2 n2 n') (1 * INR n2 * INR n') (INR q2 * INR q') (kap2 * kap') e1 e2 f g n m q W kap w h (385 * (kap2 * kap') * w) 100 R900 (bpow radix2 (800 + 30)) (bpow radix2 800) (fun p j => X (snd (fst p)) (snd p) j) (fun p j => Y (snd (fst p)) (snd p) j)
    (fun p j => Z (snd (fst p)) (snd p) j) (fun p j => Z' (snd (fst p)) (snd p) j)
    (isum2 n2 n') NN KI HG Hk ltac:(lra) HKo ltac:(lra) ltac:(lra) ltac:(lra) RX RY) as G.
  assert (K := fun HI => G HI (bpow_ge_0 _ _) R1 R2). clear G R1 R2.
  intros FX SX p Hp. destruct (fun HI => K HI FX SX p Hp) as [FY EY].
  { intros k Hkk. exact (st2 f' g' n' m' q' e2 e3 same kap' f2 g2 n2 m2 q2 e4 kap2 (fun i j => Z i j k) (fun i j => Z' i j k) (fun i j => U i j k) (fun i j => U' i j k) (fun i j => V i j k) HG' Hq' Hk' HG2 Hq2 Hk2 HK' (RU k Hkk) (RV k Hkk) (fun l Hl => RU2 k l Hkk Hl) (fun l Hl => RV2 k l Hkk Hl)). }
  split; [exact FY|]. eapply Rle_trans; [exact EY|].
  set (TS := S2 n2 n' _). change (S3 n2 n' n (fun p0 => cn (ev e1 (X (snd (fst (fst p0))) (snd (fst p0)) (snd p0))))) with TS. assert (S0 : 0 <= TS) by (apply rsum_pos; intros; apply rsum_pos; intros; apply rsum_pos; intros; apply cn_pos).
  assert (KW0 : 0 <= kap * w) by (apply Rmult_le_pos; lra). assert (KW : kap * w <= kap2 * kap' * kap * w). { rewrite (Rmult_assoc (kap2 * kap')). rewrite <- (Rmult_1_l (kap * w)) at 1. apply Rmult_le_compat_r; auto. }
  apply Rplus_le_compat. apply Rmult_le_compat_r; [lra|]. lra. apply Rmult_le_compat_r; [lra|]. apply Rmult_le_compat_r; [|lra]. apply Rmult_le_pos; apply Rmult_le_pos; try apply pos_INR; lra.
Qed.
End Axes.
