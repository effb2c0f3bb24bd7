(** C56: the round trips of Space1, Space2 and Space3 in f64. *)
From Coq Require Import List Arith ZArith Reals Bool Lra Lia.
From Flocq Require Import Core BinarySingleNaN.
From Verif Require Import Base Num Linalg Stencils Cheb ChebFacts Compo Fourier FourierF64 FourierFacts FourierProofs Bases BaseLin LibBase NdArray NdArrayFacts AxisFacts AxisProps PropAxis SpaceFacts SpaceBases SpaceStages Space PropSpace
  ExtLib AnyArith ExtFacts AnyBase PropAny PropAny2 Rounding LibAcc RndCheb RndFft RndR2c RndFinite2 PropRound2 PropTrans2 RndAxis RndOps SpaceAcc.
Import ListNotations.
Local Open Scope R_scope.
Local Notation u64 := (bpow radix2 (-53)).
Local Notation eta64 := (bpow radix2 (-1075)).
Local Notation FA := f64_float_arith.
Notation R900 := (bpow radix2 900).

Lemma axis_rows {P T1 T2} {d1 : Dflt T1} {d2 : Dflt T2} (D : P -> Prop) (f : list T1 -> list T2 -> res (list T2)) l1 l2 ax (a : arr T1) (b : arr T2) (pre post : P -> list nat) :
  nth_error (shp a) ax = Some l1 -> axis_op f l2 ax a b -> (forall p, D p -> length (pre p) = ax /\ valid (rm_axis (shp a) ax) (pre p ++ post p)) ->
  rows D f l1 l2 (fun p j => get a (pre p ++ j :: post p)) (fun p k => get b (pre p ++ k :: post p)).
Proof.
  intros Ea H HV p Hp. destruct (HV p Hp) as [Lp Vp]. destruct (nth_error_axlen _ _ _ Ea) as [Ha La]. pose proof (axis_op_extent f l2 ax a b Ha H) as Eb. destruct (nth_error_axlen _ _ _ Eb) as [_ Lb].
  exists (repeat dflt l2). split. apply repeat_length. destruct H as (_ & _ & _ & H). specialize (H (pre p) (post p) Lp Vp (repeat dflt l2) (repeat_length _ _)).
  unfold line in H. rewrite Lp, La, Lb in H. exact H.
Qed.

Lemma range900 zt : 0 <= zt <= 1 -> ieee_inr 1024 (9 * R900 + zt).
Proof. intros Hz. pose proof B900. apply (f64_in_range 10 _ R900); [lra|cbn; lra|lra]. Qed.

Lemma orth_usable E dl zt r P S T b eP eS : f64_orthogonal E dl zt r P S T b eP eS -> any_usable E P S T b.
Proof. intros []; [eapply aus_chebyshev|eapply aus_r2c|eapply aus_c2c]; eauto. Qed.
Lemma kept_false {P S T} (b : base_ops P S T) : kept b false = same.
Proof. reflexivity. Qed.
Lemma good_ext {T1 T2} f g n m q (e1 : fel T1) (e2 : fel T2) W W' w h G Rg : good_ops f g n m q e1 e2 W w h G Rg -> (forall j z, (j < n)%nat -> W j z = W' j z) -> good_ops f g n m q e1 e2 W' w h G Rg.
Proof.
  intros (F & B & Kf & Kb & af & ab & H) E. exists F, B, Kf, Kb, af, ab. repeat (destruct H as [? H]; split; [assumption|]). intros d x j Hj Hx. rewrite <- E by auto. apply H; auto.
Qed.
Lemma orth_good E dl zt r P S T b eP eS : f64_orthogonal E dl zt r P S T b eP eS -> 0 <= dl <= 1 -> 0 <= zt <= 1 ->
  (Z.of_nat (len_phys b) <= 2 ^ 20)%Z /\ good_ops (forward_slice b) (backward_slice b) (len_phys b) (len_spec b) (len_phys b) eP eS same (dl + u64) (eta64 + zt) 4 R900 /\
  good_ops (backward_slice b) (forward_slice b) (len_spec b) (len_phys b) (len_phys b) eS eP (kept b r) (dl + u64) (eta64 + zt) 4 R900.
Proof.
  intros H Hd Hz. pose proof (range900 zt Hz) as HI. destruct H as [T V n b H Hn HE HR | n f H Hn HE HR HE' HR' | n f H Hn HE HR].
  - apply new_chebyshev_inv in H as [H2 ->]. unfold kept. cbn [r2r_ops_x len_phys len_spec forward_slice backward_slice cheb_len_phys cheb_len_spec c_n c_m andb]. split; auto.
    apply (cheb_good FA E n dl zt R900 H2 ltac:(lia) (f64_n_eta n ltac:(lia)) Hd ltac:(lra) HE HR HI).
  - apply r2c_new_inv in H as [H2 ->]. unfold kept. cbn [r2c_ops_x len_phys len_spec forward_slice backward_slice r2c_len_phys r2c_len_spec r_n r_m andb]. split; auto. split.
    apply (r2c_good FA E (Z0 := eqz_f64) n dl zt R900 eq_refl H2 ltac:(lia) (f64_n_eta n ltac:(lia)) Hd ltac:(lra) HE HR HE' HR' HI).
    eapply good_ext. apply (r2c_good_spectral FA E (Z0 := eqz_f64) n dl zt R900 eq_refl H2 ltac:(lia) (f64_n_eta n ltac:(lia)) Hd ltac:(lra) HE HR HE' HR' HI).
    intros j [x y] Hj. unfold realed, selfc. cbn [fst snd]. destruct (_ || _); reflexivity.
  - apply c2c_new_inv in H as [H2 ->]. unfold kept. cbn [c2c_ops_x len_phys len_spec forward_slice backward_slice c2c_len_phys c2c_len_spec cc_n cc_m andb]. split; auto.
    apply (c2c_good FA E n dl zt R900 H2 ltac:(lia) (f64_n_eta n ltac:(lia)) Hd ltac:(lra) HE HR HI).
Qed.

(** ** Sizes *)
Lemma q20 q : (Z.of_nat q <= 2 ^ 20)%Z -> 0 <= INR q <= bpow radix2 20.
Proof. intros H. split. apply pos_INR. apply n_bounds in H. exact H. Qed.
Lemma bp (a b : Z) : bpow radix2 a * bpow radix2 b = bpow radix2 (a + b).
Proof. symmetry. apply bpow_plus. Qed.
Lemma range_step q Q c h a : (Z.of_nat q <= 2 ^ 20)%Z -> 0 <= Q <= bpow radix2 40 -> 0 <= c <= 100 -> 0 <= h <= 2 -> (800 <= a <= 860)%Z ->
  3 * INR q * bpow radix2 a + 8 * Q * (INR q * INR q) * h <= bpow radix2 (a + 30) /\ 2 * bpow radix2 (a + 30) + INR q * (c * (Q * Q) * h) <= R900.
Proof.
  intros Hq HQ Hc Hh Ha. apply q20 in Hq. pose proof (mul_up _ _ _ _ Hq Hq) as QQ. rewrite bp in QQ. change (20 + 20)%Z with 40%Z in QQ. pose proof (mul_up _ _ _ _ HQ QQ) as Q3. rewrite bp in Q3. change (40 + 40)%Z with 80%Z in Q3.
  pose proof (mul_up _ _ _ _ Q3 Hh) as Q4. pose proof (mul_up _ _ _ _ HQ HQ) as Q5. rewrite bp in Q5. change (40 + 40)%Z with 80%Z in Q5.
  pose proof (mul_up _ _ _ _ Hc Q5) as Q6. pose proof (mul_up _ _ _ _ Q6 Hh) as Q7. pose proof (mul_up _ _ _ _ Hq Q7) as Q8.
  pose proof (bpow_gt_0 radix2 a) as A0. assert (QA : INR q * bpow radix2 a <= bpow radix2 20 * bpow radix2 a) by (apply Rmult_le_compat_r; lra).
  assert (E1 : bpow radix2 (a + 30) = bpow radix2 a * 1073741824) by (rewrite bpow_plus; f_equal). assert (E2 : bpow radix2 20 = 1048576) by reflexivity.
  assert (A8 : bpow radix2 80 <= bpow radix2 a) by (apply bpow_le; lia). assert (A9 : bpow radix2 (a + 30) <= bpow radix2 890) by (apply bpow_le; lia).
  assert (E3 : R900 = bpow radix2 890 * 1024) by (change 900%Z with (890 + 10)%Z; rewrite bpow_plus; f_equal).
  assert (A7 : bpow radix2 120 <= bpow radix2 890) by (apply bpow_le; lia). assert (E4 : bpow radix2 120 = bpow radix2 80 * 1099511627776) by (change 120%Z with (80 + 40)%Z; rewrite bpow_plus; f_equal).
  pose proof (bpow_gt_0 radix2 80). set (b80 := bpow radix2 80) in *. set (b120 := bpow radix2 120) in *. set (b890 := bpow radix2 890) in *. set (b900 := R900) in *. set (ba := bpow radix2 a) in *. clearbody b80 b120 b890 b900 ba.
  rewrite E2 in *. clear E2. split; lra.
Qed.

(** ** One, two and three axes *)
Section Axes.
Context (E : ext f64) (dl zt : R) (Hd : 0 <= dl <= / 2000) (Hz : 0 <= zt <= 1).
Let w := dl + u64.
Let h := eta64 + zt.
Lemma w_small : 0 <= w <= / 1000.
Proof. unfold w. assert (0 <= u64 <= / 2000). { split. apply bpow_ge_0. cbn; lra. } lra. Qed.
Lemma h_small : 0 <= h <= 2.
Proof. unfold h. pose proof eta1. lra. Qed.
Notation gops f g n m q e1 e2 W := (good_ops f g n m q e1 e2 W w h 4 R900).
Lemma gops_n {T1 T2} f g n m q (e1 : fel T1) (e2 : fel T2) W : gops f g n m q e1 e2 W -> (1 <= n <= q)%nat.
Proof. intros (F & B & Kf & Kb & af & ab & _ & _ & _ & _ & _ & _ & _ & _ & _ & H & _). exact H. Qed.

Definition D1 (n : nat) (p : unit * nat) : Prop := True /\ (snd p < n)%nat.
Definition S1 (n : nat) (f : unit * nat -> R) : R := rsum n (fun i => f (tt, i)).
Lemma isum1 n : isum (D1 n) (S1 n) (1 * INR n).
Proof. exact (isum_times _ _ _ n isum_unit). Qed.
Definition D2 (n m : nat) (p : unit * nat * nat) : Prop := D1 n (fst p) /\ (snd p < m)%nat.
Definition S2 (n m : nat) (f : unit * nat * nat -> R) : R := S1 n (fun q => rsum m (fun j => f (q, j))).
Lemma isum2 n m : isum (D2 n m) (S2 n m) (1 * INR n * INR m).
Proof. exact (isum_times _ _ _ m (isum1 n)). Qed.
Definition D3 (n m l : nat) (p : unit * nat * nat * nat) : Prop := D2 n m (fst p) /\ (snd p < l)%nat.
Definition S3 (n m l : nat) (f : unit * nat * nat * nat -> R) : R := S2 n m (fun q => rsum l (fun j => f (q, j))).

Lemma rt1 {T1 T2} f g n m q (e1 : fel T1) (e2 : fel T2) W (X Y : nat -> T1) (Z : nat -> T2) : gops f g n m q e1 e2 W -> (Z.of_nat q <= 2 ^ 20)%Z ->
  rows (fun _ : unit => True) f n m (fun _ => X) (fun _ => Z) -> rows (fun _ : unit => True) g m n (fun _ => Z) (fun _ => Y) ->
  rt (D1 n) (S1 n) e1 (fun p => X (snd p)) (fun p => Y (snd p)) (fun p => W (snd p) (ev e1 (X (snd p)))) (bpow radix2 860) (33 * w) (29 * (INR q * INR q) * h).
Proof.
  intros HG Hq RX RY. destruct (range_step q 1 0 h 860 Hq) as [R1 R2]. change 1 with (bpow radix2 0) at 2. split; [lra|apply bpow_le; lia]. lra. apply h_small. lia. pose proof w_small. pose proof h_small.
  pose proof (rt_good (fun _ : unit => True) (fun f => f tt) 1 1 e1 e2 f g n m q W w h 4 0 0 R900 (bpow radix2 (860 + 30)) (bpow radix2 860) (fun _ => X) (fun _ => Y) (fun _ => Z) (fun _ => Z)
    isum_unit ltac:(lra) HG w_small ltac:(lra) ltac:(lra) ltac:(lra) ltac:(lra) RX RY) as G.
  assert (K : rt (fun q => True /\ (snd q < n)%nat) (fun f => (fun f => f tt) (fun p => rsum n (fun j => f (p, j)))) e1 (fun p : unit * nat => X (snd p)) (fun p => Y (snd p)) (fun p => W (snd p) (ev e1 (X (snd p)))) (bpow radix2 860)
     (4 * (11 / 10 * 0 + 81 / 10 * w)) ((29 + 21 / 10 * 0) * ((1 * INR q) * (1 * INR q)) * h)).
  { apply G. intros k Hk. assert (E0 : 0 * (1 * 1) * h = 0) by ring. rewrite E0. apply (rt_id _ _ _ _ _ _ isum_unit). apply bpow_ge_0. exact R1. exact R2. }
  intros FX SX p Hp. destruct (K FX SX p Hp) as [FY EY]. split; auto. eapply Rle_trans; [exact EY|]. change (rsum n (fun j => cn (ev e1 (X (snd (tt, j)))))) with (S1 n (fun p => cn (ev e1 (X (snd p))))).
  assert (S0 : 0 <= S1 n (fun p => cn (ev e1 (X (snd p))))) by (apply rsum_pos; intros; apply cn_pos). replace ((29 + 21 / 10 * 0) * (1 * INR q * (1 * INR q)) * h) with (29 * (INR q * INR q) * h) by ring.
  apply Rplus_le_compat_r, Rmult_le_compat_r; lra.
Qed.

Lemma rt2 {T1 T2 T3} f g n m q (e1 : fel T1) (e2 : fel T2) W f' g' n' m' q' (e3 : fel T3) (X Y : nat -> nat -> T1) (Z Z' : nat -> nat -> T2) (U : nat -> nat -> T3) :
  gops f g n m q e1 e2 W -> (Z.of_nat q <= 2 ^ 20)%Z -> gops f' g' n' m' q' e2 e3 same -> (Z.of_nat q' <= 2 ^ 20)%Z ->
  rows (D1 n') f n m (fun p j => X (snd p) j) (fun p j => Z (snd p) j) -> rows (D1 n') g m n (fun p j => Z' (snd p) j) (fun p j => Y (snd p) j) ->
  (forall k, (k < m)%nat -> rows (fun _ : unit => True) f' n' m' (fun _ i => Z i k) (fun _ i => U i k)) -> (forall k, (k < m)%nat -> rows (fun _ : unit => True) g' m' n' (fun _ i => U i k) (fun _ i => Z' i k)) ->
  rt (D2 n' n) (S2 n' n) e1 (fun p => X (snd (fst p)) (snd p)) (fun p => Y (snd (fst p)) (snd p)) (fun p => W (snd p) (ev e1 (X (snd (fst p)) (snd p)))) (bpow radix2 830) (178 * w) (90 * ((INR q' * INR q) * (INR q' * INR q)) * h).
Proof.
  intros HG Hq HG' Hq' RX RY RU RV. pose proof (gops_n _ _ _ _ _ _ _ _ HG') as Nn'. assert (N1 : 1 <= INR n') by (change 1 with (INR 1); apply le_INR; lia). assert (NQ : INR n' <= INR q') by (apply le_INR; lia).
  pose proof w_small as Hw. pose proof h_small as Hh. destruct (range_step q (INR q') 29 h 830 Hq) as [R1 R2]. { split. lra. eapply Rle_trans; [apply q20; exact Hq'|]. apply bpow_le; lia. } lra. lra. lia.
  pose proof (rt_good (D1 n') (S1 n') (1 * INR n') (INR q') e1 e2 f g n m q W w h 4 (33 * w) 29 R900 (bpow radix2 (830 + 30)) (bpow radix2 830) (fun p j => X (snd p) j) (fun p j => Y (snd p) j) (fun p j => Z (snd p) j) (fun p j => Z' (snd p) j)
    (isum1 n') ltac:(lra) HG Hw ltac:(lra) ltac:(lra) ltac:(lra) ltac:(lra) RX RY) as G.
  assert (K := fun HI => G HI (bpow_ge_0 _ _) R1 R2). clear G R1 R2.
  intros FX SX p Hp. destruct (fun HI => K HI FX SX p Hp) as [FY EY]. { intros k Hk. exact (rt1 f' g' n' m' q' e2 e3 same (fun i => Z i k) (fun i => Z' i k) (fun i => U i k) HG' Hq' (RU k Hk) (RV k Hk)). }
  split; [exact FY|]. eapply Rle_trans; [exact EY|].
  set (TS := S1 n' _). change (S2 n' n (fun p0 => cn (ev e1 (X (snd (fst p0)) (snd p0))))) with TS. assert (S0 : 0 <= TS) by (apply rsum_pos; intros; apply rsum_pos; intros; apply cn_pos).
  apply Rplus_le_compat. apply Rmult_le_compat_r; lra. apply Rmult_le_compat_r; [lra|]. apply Rmult_le_compat_r; [|lra]. apply Rmult_le_pos; apply Rmult_le_pos; apply pos_INR.
Qed.

Lemma rt3 {T1 T2 T3 T4} f g n m q (e1 : fel T1) (e2 : fel T2) W f' g' n' m' q' (e3 : fel T3) f2 g2 n2 m2 q2 (e4 : fel T4) (X Y : nat -> nat -> nat -> T1) (Z Z' : nat -> nat -> nat -> T2) (U U' : nat -> nat -> nat -> T3) (V : nat -> nat -> nat -> T4) :
  gops f g n m q e1 e2 W -> (Z.of_nat q <= 2 ^ 20)%Z -> gops f' g' n' m' q' e2 e3 same -> (Z.of_nat q' <= 2 ^ 20)%Z -> gops f2 g2 n2 m2 q2 e3 e4 same -> (Z.of_nat q2 <= 2 ^ 20)%Z ->
  rows (D2 n2 n') f n m (fun p j => X (snd (fst p)) (snd p) j) (fun p j => Z (snd (fst p)) (snd p) j) -> rows (D2 n2 n') g m n (fun p j => Z' (snd (fst p)) (snd p) j) (fun p j => Y (snd (fst p)) (snd p) j) ->
  (forall k, (k < m)%nat -> rows (D1 n2) f' n' m' (fun p j => Z (snd p) j k) (fun p j => U (snd p) j k)) -> (forall k, (k < m)%nat -> rows (D1 n2) g' m' n' (fun p j => U' (snd p) j k) (fun p j => Z' (snd p) j k)) ->
  (forall k l, (k < m)%nat -> (l < m')%nat -> rows (fun _ : unit => True) f2 n2 m2 (fun _ i => U i l k) (fun _ i => V i l k)) -> (forall k l, (k < m)%nat -> (l < m')%nat -> rows (fun _ : unit => True) g2 m2 n2 (fun _ i => V i l k) (fun _ i => U' i l k)) ->
  rt (D3 n2 n' n) (S3 n2 n' n) e1 (fun p => X (snd (fst (fst p))) (snd (fst p)) (snd p)) (fun p => Y (snd (fst (fst p))) (snd (fst p)) (snd p)) (fun p => W (snd p) (ev e1 (X (snd (fst (fst p))) (snd (fst p)) (snd p)))) (bpow radix2 800) (816 * w)
    (218 * ((INR q2 * INR q' * INR q) * (INR q2 * INR q' * INR q)) * h).
Proof.
  intros HG Hq HG' Hq' HG2 Hq2 RX RY RU RV RU2 RV2. pose proof (gops_n _ _ _ _ _ _ _ _ HG') as Nn'. assert (N1 : 1 <= INR n') by (change 1 with (INR 1); apply le_INR; lia). assert (NQ : INR n' <= INR q') by (apply le_INR; lia).
  pose proof (gops_n _ _ _ _ _ _ _ _ HG2) as Nn2. assert (N2 : 1 <= INR n2) by (change 1 with (INR 1); apply le_INR; lia). assert (NQ2 : INR n2 <= INR q2) by (apply le_INR; lia).
  assert (NN : 1 <= 1 * INR n2 * INR n' <= INR q2 * INR q'). { split. rewrite Rmult_1_l. replace 1 with (1 * 1) by ring. apply Rmult_le_compat; lra. rewrite Rmult_1_l. apply Rmult_le_compat; lra. }
  assert (QQ : 0 <= INR q2 * INR q' <= bpow radix2 40). { split. lra. change 40%Z with (20 + 20)%Z. rewrite bpow_plus. apply (mul_up _ _ _ _ (q20 _ Hq2) (q20 _ Hq')). }
  pose proof w_small as Hw. pose proof h_small as Hh. destruct (range_step q (INR q2 * INR q') 90 h 800 Hq QQ) as [R1 R2]. lra. lra. lia.
  pose proof (rt_good (D2 n2 n') (S2 n2 n') (1 * INR n2 * INR n') (INR q2 * INR q') e1 e2 f g n m q W w h 4 (178 * w) 90 R900 (bpow radix2 (800 + 30)) (bpow radix2 800) (fun p j => X (snd (fst p)) (snd p) j) (fun p j => Y (snd (fst p)) (snd p) j)
    (fun p j => Z (snd (fst p)) (snd p) j) (fun p j => Z' (snd (fst p)) (snd p) j)
    (isum2 n2 n') NN HG Hw ltac:(lra) ltac:(lra) ltac:(lra) ltac:(lra) RX RY) as G.
  assert (K := fun HI => G HI (bpow_ge_0 _ _) R1 R2). clear G R1 R2.
  intros FX SX p Hp. destruct (fun HI => K HI FX SX p Hp) as [FY EY].
  { intros k Hk. exact (rt2 f' g' n' m' q' e2 e3 same f2 g2 n2 m2 q2 e4 (fun i j => Z i j k) (fun i j => Z' i j k) (fun i j => U i j k) (fun i j => U' i j k) (fun i j => V i j k) HG' Hq' HG2 Hq2 (RU k Hk) (RV k Hk) (fun l Hl => RU2 k l Hk Hl) (fun l Hl => RV2 k l Hk Hl)). }
  split; [exact FY|]. eapply Rle_trans; [exact EY|].
  set (TS := S2 n2 n' _). change (S3 n2 n' n (fun p0 => cn (ev e1 (X (snd (fst (fst p0))) (snd (fst p0)) (snd p0))))) with TS. assert (S0 : 0 <= TS) by (apply rsum_pos; intros; apply rsum_pos; intros; apply rsum_pos; intros; apply cn_pos).
  apply Rplus_le_compat. apply Rmult_le_compat_r; lra. apply Rmult_le_compat_r; [lra|]. apply Rmult_le_compat_r; [|lra]. apply Rmult_le_pos; apply Rmult_le_pos; try apply pos_INR; lra.
Qed.
End Axes.
