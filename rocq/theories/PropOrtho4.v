(** C68: in f32 `from_ortho` after `to_ortho` gives the coefficients back (as C60 in
    PropOrtho3.v). *)
From Coq Require Import List Arith ZArith Reals Bool Lra Lia.
From Flocq Require Import Core BinarySingleNaN.
From Verif Require Import Base Num Linalg Stencils ChebPoly ChebGrad Cheb ChebFacts Compo CompoProofs Fourier FourierF64 FourierFacts FourierProofs Bases BaseLin LibBase NdArray NdArrayFacts AxisFacts AxisProps PropAxis SpaceFacts SpaceBases SpaceStages SpaceOrder Space PropSpace PropSpace2 PropSpace3 PropSpace4 PropElements
  ExtLib AnyArith ExtFacts AnyBase PropAny PropAny2 Rounding LibAcc LibIdeal RndCheb RndFft RndR2c RndCompo RndFinite2 RndDirichlet RndNeumann RndGrad PropRound PropRound2 PropRound4 RndAxis RndOps RndAxis2 RndOps2 SpaceAcc RndSpace PropTrans3 SpaceAcc2 PropTrans4 SpaceVal RndVal RndVal2 PropTrans5 GradSpec GradOp RndGrad4 OrthoSpec RndOrtho PropOrtho PropGrad PropTrans6 SpaceVal32 RndVal32 PropTrans7 GradSpec32 RndGrad32 RndOrtho32 PropOrtho RndOrtho3 PropOrtho2 RndOrtho4.
Import ListNotations.
Local Open Scope R_scope.
Local Notation u32 := (bpow radix2 (-24)).
Local Notation eta32 := (bpow radix2 (-150)).

Lemma back_err c w r a b L K N S SY e1 err nn LL : 0 <= K -> 0 <= N -> 0 <= S -> 0 <= nn -> 0 <= a -> 0 <= b -> 0 <= c * L -> c * L * u32 <= r ->
  e1 = a * u32 * S + b * nn * eta32 -> SY <= w * S + N * e1 -> err <= c * L * K * u32 * SY + 3 * LL * nn * eta32 + K * (N * e1) ->
  err <= K * (c * w * L + (1 + r) * a * N) * u32 * S + ((1 + r) * b * K * N + 3 * LL) * nn * eta32.
Proof.
  intros HK HN HS Hnn Ha Hb HcL Hr He HSY H. pose proof (bpow_gt_0 radix2 (-24)) as U. pose proof (bpow_gt_0 radix2 (-150)) as E. set (t := c * L * u32) in *. assert (0 <= t) by (apply Rmult_le_pos; lra).
  eapply Rle_trans; [exact H|]. assert (e10 : 0 <= e1). { subst e1. apply Rplus_le_le_0_compat; repeat apply Rmult_le_pos; lra. }
  assert (KN : 0 <= K * (N * e1)) by (repeat apply Rmult_le_pos; auto).
  assert (A : c * L * K * u32 * SY <= t * K * (w * S) + r * (K * (N * e1))).
  { apply Rle_trans with (t * K * (w * S + N * e1)). replace (c * L * K * u32 * SY) with (t * K * SY) by (unfold t; ring). apply Rmult_le_compat_l; auto. apply Rmult_le_pos; lra.
    replace (t * K * (w * S + N * e1)) with (t * K * (w * S) + t * (K * (N * e1))) by ring. apply Rplus_le_compat_l. apply Rmult_le_compat_r; auto. }
  apply Rle_trans with (t * K * (w * S) + (1 + r) * (K * (N * e1)) + 3 * LL * nn * eta32). lra. right. subst e1. unfold t. ring.
Qed.

Lemma comb_ext al be (g h : nat -> CR) k : (forall j, g j = h j) -> comb al be g k = comb al be h k.
Proof. intros H. unfold comb. rewrite !H. reflexivity. Qed.
Lemma nprod2 a b : 1 <= a <= bpow radix2 10 -> 1 <= b <= bpow radix2 10 -> 0 <= a * b <= bpow radix2 20.
Proof. intros. replace (bpow radix2 20) with (bpow radix2 10 * bpow radix2 10) by (rewrite <- bpow_plus; reflexivity). split. apply Rmult_le_pos; lra. apply Rmult_le_compat; lra. Qed.
Lemma nprod3 a b c : 1 <= a <= bpow radix2 10 -> 1 <= b <= bpow radix2 10 -> 1 <= c <= bpow radix2 10 -> 0 <= a * b * c <= bpow radix2 30.
Proof. intros H1 H2 H3. pose proof (nprod2 a b H1 H2). replace (bpow radix2 30) with (bpow radix2 20 * bpow radix2 10) by (rewrite <- bpow_plus; reflexivity). split. apply Rmult_le_pos; lra. apply Rmult_le_compat; lra. Qed.
Lemma e1_small a b S nn k : 0 <= a <= 20 -> 0 <= b <= 1000 -> 0 <= S <= bpow radix2 45 -> 0 <= nn <= bpow radix2 k -> (k <= 30)%Z -> 0 <= a * u32 * S + b * nn * eta32 <= bpow radix2 27.
Proof.
  intros Ha Hb HS Hn Hk. pose proof (bpow_gt_0 radix2 (-24)) as U. pose proof (bpow_gt_0 radix2 (-150)) as E. assert (nn <= bpow radix2 30) by (eapply Rle_trans; [apply Hn|apply bpow_le; lia]).
  assert (A : 0 <= a * u32 * S <= bpow radix2 26). { split. repeat apply Rmult_le_pos; lra. apply Rle_trans with (bpow radix2 5 * u32 * bpow radix2 45). apply Rmult_le_compat; try lra. apply Rmult_le_pos; lra. apply Rmult_le_compat_r. lra. change (bpow radix2 5) with 32. lra. rewrite <- !bpow_plus. apply bpow_le. lia. }
  assert (B : 0 <= b * nn * eta32 <= bpow radix2 26). { split. repeat apply Rmult_le_pos; lra. apply Rle_trans with (bpow radix2 10 * bpow radix2 30 * eta32). apply Rmult_le_compat_r. lra. change (bpow radix2 10) with 1024. apply Rmult_le_compat; lra. rewrite <- !bpow_plus. apply bpow_le. lia. }
  replace (bpow radix2 27) with (2 * bpow radix2 26). lra. change 2 with (bpow radix2 1). rewrite <- bpow_plus. reflexivity.
Qed.
Lemma sy_small w S N e1 k : 0 <= w <= 8 -> 0 <= S <= bpow radix2 45 -> 0 <= N <= bpow radix2 k -> 0 <= e1 <= bpow radix2 27 -> (k <= 30)%Z -> w * S + N * e1 <= bpow radix2 60.
Proof.
  intros Hw HS HN He Hk. assert (N <= bpow radix2 30) by (eapply Rle_trans; [apply HN|apply bpow_le; lia]).
  assert (A : w * S <= bpow radix2 3 * bpow radix2 45). { apply Rmult_le_compat; try lra. change (bpow radix2 3) with 8. lra. } assert (B : N * e1 <= bpow radix2 30 * bpow radix2 27) by (apply Rmult_le_compat; lra).
  rewrite <- bpow_plus in A, B. assert (bpow radix2 (3 + 45) <= bpow radix2 59) by (apply bpow_le; lia). assert (bpow radix2 (30 + 27) <= bpow radix2 59) by (apply bpow_le; lia).
  replace (bpow radix2 60) with (2 * bpow radix2 59). lra. change 2 with (bpow radix2 1). rewrite <- bpow_plus. reflexivity.
Qed.

Theorem C68_space1_ortho_there_and_back_f32 :
  forall E : ext f32, ext_ok E -> forall K0 L0 F0 P S T (b0 : base_ops P S T) (e : fel T),
  f32_from_ortho E K0 L0 P S T b0 e F0 ->
  forall (dP : Dflt P) (dS : Dflt S) (dT : Dflt T) zo, zip_ok zo ->
  let sp := mk_space1 b0 in let n0 := len_phys b0 in let m0 := len_spec b0 in let o0 := len_orth b0 in
  forall a : arr T, proper [m0] a -> (forall p, (p < m0)%nat -> ef e (get a [p])) ->
  let Sum := rsum m0 (fun p => esize e (get a [p])) in Sum <= bpow radix2 45 ->
  exists y z, s1_to_ortho zo sp a = Ok y /\ s1_from_ortho zo sp y = Ok z /\ proper [m0] z /\
    forall i, (i < m0)%nat -> ef e (get z [i]) /\
      edist e (get z [i]) (ev e (get a [i])) <=
        K0 * (2 * (L0) + 7 * (INR o0)) * bpow radix2 (-24) * Sum + (19 * (K0) * (INR o0) + 3 * (L0)) * (INR n0) * bpow radix2 (-150).
Proof.
  intros E HE K0 L0 F0 P S T b0 e H0 dP dS dT zo HZ sp n0 m0 o0 a Pa Fa Sum Sa.
  destruct (undo32_ex _ _ _ _ _ _ _ _ _ H0) as (T0 & HT0 & [inv0 sum0 (al0 & be0 & com0) bnd0 HK0 HL0 Lu0 Ho0 Hn0]). fold m0 o0 n0 in inv0, sum0, com0, bnd0, Ho0, Hn0.
  assert (S0 : 0 <= Sum) by (apply rsum_pos; intros; apply esize_pos).
  pose proof (bpow_gt_0 radix2 (-24)) as U. pose proof (bpow_gt_0 radix2 (-150)) as EE.
  destruct (C68_space1_to_ortho_f32 E HE _ _ _ _ _ e HT0 dP dS dT zo HZ a Pa Fa) as (y & Ey & Py & Hy). { eapply Rle_trans; [exact Sa|apply bpow_le; lia]. }
  set (e1 := 6 * u32 * Sum + 18 * (INR n0) * eta32).
  set (t := fun x : nat => T0 (fun p => ev e (get a [p])) x). set (yv := fun x : nat => ev e (get y [x])).
  assert (Hd : forall x, (x < o0)%nat -> cn (csub (yv x) (t x)) <= e1). { intros x X0. exact (proj2 (Hy x X0)). }
  assert (Fy : forall x, (x < o0)%nat -> ef e (get y [x])). { intros x X0. exact (proj1 (Hy x X0)). } clear Hy.
  assert (SY : rsum o0 (fun x => cn (yv x)) <= 2 * Sum + INR o0 * e1).
  { eapply Rle_trans; [apply (csub_sum o0 yv t e1); auto|]. apply Rplus_le_compat_r. apply (sum0 (fun p => ev e (get a [p]))). }
  assert (HN : 0 <= INR o0 <= bpow radix2 10) by lra. assert (Hnn : 0 <= INR n0 <= bpow radix2 10) by lra.
  assert (e1b : 0 <= e1 <= bpow radix2 27). { unfold e1. apply (e1_small _ _ _ _ 10); auto; lra || lia. }
  assert (SYb : 2 * Sum + INR o0 * e1 <= bpow radix2 60). { apply (sy_small _ _ _ _ 10); auto; lra || lia. }
  destruct (C68_space1_from_ortho_f32 E HE _ _ _ _ _ _ _ e H0 dP dS dT zo HZ y Py Fy) as (z & Ez & Pz & Hz). { eapply Rle_trans; [|exact SYb]. exact SY. }
  exists y, z. split; [exact Ey|]. split; [exact Ez|]. split; [exact Pz|]. intros i I0. destruct (Hz i I0) as [Fz Dz]. split; [exact Fz|].
  assert (EX : F0 (fun p => t p) i = ev e (get a [i])). { apply (inv0 (fun p => ev e (get a [p]))); auto. }
  assert (NE : cn (csub (F0 (fun p => yv p) i) (F0 (fun p => t p) i)) <= K0 * (INR o0 * e1)). { eapply bounded_near; eauto. lra. }
  rewrite EX in NE. pose proof (cn_csub (ev e (get z [i])) (F0 (fun p => yv p) i) (ev e (get a [i]))) as TR.
  match type of Dz with edist _ _ _ <= ?B => change (cn (csub (ev e (get z [i])) (F0 (fun p => yv p) i)) <= B) in Dz end.
  change (cn (csub (ev e (get z [i])) (ev e (get a [i]))) <= (K0) * (2 * (L0) + 7 * (INR o0)) * u32 * Sum + (19 * (K0) * (INR o0) + 3 * (L0)) * (INR n0) * eta32).
  assert (HKp : 0 <= K0) by (lra).
  pose proof (back_err (1) 2 (/ 100) (6) 18 (L0) (K0) (INR o0) Sum _ e1 (cn (csub (ev e (get z [i])) (ev e (get a [i])))) (INR n0) (L0) HKp ltac:(lra) S0 ltac:(lra) ltac:(lra) ltac:(lra) ltac:(lra) ltac:(lra) eq_refl SY) as BE.
  eapply Rle_trans; [apply BE|].
  { eapply Rle_trans; [exact TR|]. apply Rplus_le_compat; [|exact NE]. eapply Rle_trans; [exact Dz|]. change ((L0) * (K0) * u32 * rsum o0 (fun x => cn (yv x)) + 3 * (L0) * (INR n0) * eta32 <= 1 * (L0) * (K0) * u32 * rsum o0 (fun x => cn (yv x)) + 3 * (L0) * (INR n0) * eta32). right; ring. }
  clear - S0 U EE HKp HN Hnn HL0. apply Rplus_le_compat.
  - apply Rmult_le_compat_r; [exact S0|]. apply Rmult_le_compat_r; [lra|]. apply Rmult_le_compat_l; [exact HKp|]. lra.
  - apply Rmult_le_compat_r; [lra|]. apply Rmult_le_compat_r; [lra|]. apply Rplus_le_compat_r. assert (0 <= (K0) * (INR o0)) by (apply Rmult_le_pos; lra). lra.
Qed.
Print Assumptions C68_space1_ortho_there_and_back_f32.

Theorem C68_space2_ortho_there_and_back_f32 :
  forall E : ext f32, ext_ok E -> forall K0 L0 F0 K1 L1 F1 P I S T (b0 : base_ops I S T) (b1 : base_ops P I T) (e : fel T),
  f32_from_ortho E K0 L0 I S T b0 e F0 -> f32_from_ortho E K1 L1 P I T b1 e F1 ->
  forall (dP : Dflt P) (dI : Dflt I) (dS : Dflt S) (dT : Dflt T) zo, zip_ok zo ->
  let sp := mk_space2 b0 b1 in let n0 := len_phys b0 in let m0 := len_spec b0 in let o0 := len_orth b0 in let n1 := len_phys b1 in let m1 := len_spec b1 in let o1 := len_orth b1 in
  forall a : arr T, proper [m0; m1] a -> (forall p q, (p < m0)%nat -> (q < m1)%nat -> ef e (get a [p; q])) ->
  let Sum := rsum m0 (fun p => rsum m1 (fun q => esize e (get a [p; q]))) in Sum <= bpow radix2 45 ->
  exists y z, s2_to_ortho zo sp a = Ok y /\ s2_from_ortho zo sp y = Ok z /\ proper [m0; m1] z /\
    forall i j, (i < m0)%nat -> (j < m1)%nat -> ef e (get z [i; j]) /\
      edist e (get z [i; j]) (ev e (get a [i; j])) <=
        (K0 * K1) * (5 * (L0 + L1) + 13 * (INR o0 * INR o1)) * bpow radix2 (-24) * Sum + (111 * (K0 * K1) * (INR o0 * INR o1) + 3 * (L0 * L1)) * (INR n0 * INR n1) * bpow radix2 (-150).
Proof.
  intros E HE K0 L0 F0 K1 L1 F1 P I S T b0 b1 e H0 H1 dP dI dS dT zo HZ sp n0 m0 o0 n1 m1 o1 a Pa Fa Sum Sa.
  destruct (undo32_ex _ _ _ _ _ _ _ _ _ H0) as (T0 & HT0 & [inv0 sum0 (al0 & be0 & com0) bnd0 HK0 HL0 Lu0 Ho0 Hn0]). fold m0 o0 n0 in inv0, sum0, com0, bnd0, Ho0, Hn0.
  destruct (undo32_ex _ _ _ _ _ _ _ _ _ H1) as (T1 & HT1 & [inv1 sum1 (al1 & be1 & com1) bnd1 HK1 HL1 Lu1 Ho1 Hn1]). fold m1 o1 n1 in inv1, sum1, com1, bnd1, Ho1, Hn1.
  assert (S0 : 0 <= Sum) by (apply rsum_pos; intros; apply rsum_pos; intros; apply esize_pos).
  pose proof (bpow_gt_0 radix2 (-24)) as U. pose proof (bpow_gt_0 radix2 (-150)) as EE.
  destruct (C68_space2_to_ortho_f32 E HE _ _ _ _ _ _ _ _ e HT0 HT1 dP dI dS dT zo HZ a Pa Fa) as (y & Ey & Py & Hy). { eapply Rle_trans; [exact Sa|apply bpow_le; lia]. }
  set (e1 := 63 / 5 * u32 * Sum + 108 * (INR n0 * INR n1) * eta32).
  set (t := fun x v : nat => T1 (fun q => T0 (fun p => ev e (get a [p; q])) x) v). set (yv := fun x v : nat => ev e (get y [x; v])).
  assert (Hd : forall x v, (x < o0)%nat -> (v < o1)%nat -> cn (csub (yv x v) (t x v)) <= e1). { intros x v X0 X1. exact (proj2 (Hy x v X0 X1)). }
  assert (Fy : forall x v, (x < o0)%nat -> (v < o1)%nat -> ef e (get y [x; v])). { intros x v X0 X1. exact (proj1 (Hy x v X0 X1)). } clear Hy.
  assert (SY : rsum o0 (fun x => rsum o1 (fun v => cn (yv x v))) <= 4 * Sum + INR o0 * INR o1 * e1).
  { apply Rle_trans with (rsum o0 (fun x => rsum o1 (fun v => cn (t x v)) + INR o1 * e1)). { apply rsum_le. intros x Hx. apply (csub_sum o1 (yv x) (t x) e1). intros v Hv. apply Hd; auto. }
    rewrite rsum_add, rsum_const. rewrite Rmult_assoc. apply Rplus_le_compat_r.
    apply Rle_trans with (rsum o0 (fun x => 2 * rsum m1 (fun q => cn (T0 (fun p => ev e (get a [p; q])) x)))). { apply rsum_le. intros x Hx. apply (sum1 (fun q => T0 (fun p => ev e (get a [p; q])) x)). }
    rewrite rsum_scal_l, rsum_swap. apply Rle_trans with (2 * rsum m1 (fun q => 2 * rsum m0 (fun p => cn (ev e (get a [p; q]))))). { apply Rmult_le_compat_l; [lra|]. apply rsum_le. intros q Hq. apply (sum0 (fun p => ev e (get a [p; q]))). }
    rewrite rsum_scal_l, rsum_swap. unfold Sum. right. change (fun p => rsum m1 (fun q => esize e (get a [p; q]))) with (fun p => rsum m1 (fun q => cn (ev e (get a [p; q])))). ring. }
  assert (HKN : 0 <= INR o0 * INR o1 <= bpow radix2 20 /\ 0 <= INR n0 * INR n1 <= bpow radix2 20). { split; apply nprod2; auto; lra. } destruct HKN as [HN Hnn].
  assert (e1b : 0 <= e1 <= bpow radix2 27). { unfold e1. apply (e1_small _ _ _ _ 20); auto; lra || lia. }
  assert (SYb : 4 * Sum + INR o0 * INR o1 * e1 <= bpow radix2 60). { apply (sy_small _ _ _ _ 20); auto; lra || lia. }
  destruct (C68_space2_from_ortho_f32 E HE _ _ _ _ _ _ _ _ _ _ _ _ e H0 H1 dP dI dS dT zo HZ y Py Fy) as (z & Ez & Pz & Hz). { eapply Rle_trans; [|exact SYb]. exact SY. }
  exists y, z. split; [exact Ey|]. split; [exact Ez|]. split; [exact Pz|]. intros i j I0 I1. destruct (Hz i j I0 I1) as [Fz Dz]. split; [exact Fz|].
  assert (EX : F1 (fun q => F0 (fun p => t p q) i) j = ev e (get a [i; j])).
  { rewrite <- (inv1 (fun q => ev e (get a [i; q])) j I1). apply (bounded_ext F1 o1 m1 K1); auto. intros v Hv. rewrite <- (inv0 (fun p => T1 (fun q => ev e (get a [p; q])) v) i I0). apply (bounded_ext F0 o0 m0 K0); auto. intros x Hx.
    unfold t. rewrite com1, com0 by auto. rewrite (comb_ext al1 be1 _ (fun q => comb al0 be0 (fun p => ev e (get a [p; q])) x)) by (intros; apply com0; auto). rewrite (comb_ext al0 be0 _ (fun p => comb al1 be1 (fun q => ev e (get a [p; q])) v)) by (intros; apply com1; auto). apply (comb_swap al0 be0 al1 be1 (fun p q => ev e (get a [p; q]))). }
  assert (NE : cn (csub (F1 (fun q => F0 (fun p => yv p q) i) j) (F1 (fun q => F0 (fun p => t p q) i) j)) <= (K0 * K1) * (INR o0 * INR o1 * e1)).
  { eapply Rle_trans. apply (bounded_near F1 o1 m1 K1 _ _ (K0 * (INR o0 * e1)) j bnd1); auto. lra. intros v Hv. apply (bounded_near F0 o0 m0 K0); auto. lra. right; ring. }
  rewrite EX in NE. pose proof (cn_csub (ev e (get z [i; j])) (F1 (fun q => F0 (fun p => yv p q) i) j) (ev e (get a [i; j]))) as TR.
  match type of Dz with edist _ _ _ <= ?B => change (cn (csub (ev e (get z [i; j])) (F1 (fun q => F0 (fun p => yv p q) i) j)) <= B) in Dz end.
  change (cn (csub (ev e (get z [i; j])) (ev e (get a [i; j]))) <= (K0 * K1) * (5 * (L0 + L1) + 13 * (INR o0 * INR o1)) * u32 * Sum + (111 * (K0 * K1) * (INR o0 * INR o1) + 3 * (L0 * L1)) * (INR n0 * INR n1) * eta32).
  assert (HKp : 0 <= K0 * K1) by (repeat apply Rmult_le_pos; lra).
  pose proof (back_err (21 / 20) 4 (21 / 1000) (63 / 5) 108 (L0 + L1) (K0 * K1) (INR o0 * INR o1) Sum _ e1 (cn (csub (ev e (get z [i; j])) (ev e (get a [i; j])))) (INR n0 * INR n1) (L0 * L1) HKp ltac:(lra) S0 ltac:(lra) ltac:(lra) ltac:(lra) ltac:(lra) ltac:(lra) eq_refl SY) as BE.
  eapply Rle_trans; [apply BE|].
  { eapply Rle_trans; [exact TR|]. apply Rplus_le_compat; [|exact NE]. eapply Rle_trans; [exact Dz|]. change (21 / 20 * (L0 + L1) * (K0 * K1) * u32 * rsum o0 (fun x => rsum o1 (fun v => cn (yv x v))) + 3 * (L0 * L1) * (INR n0 * INR n1) * eta32 <= 21 / 20 * (L0 + L1) * (K0 * K1) * u32 * rsum o0 (fun x => rsum o1 (fun v => cn (yv x v))) + 3 * (L0 * L1) * (INR n0 * INR n1) * eta32). right; ring. }
  clear - S0 U EE HKp HN Hnn HL0 HL1. apply Rplus_le_compat.
  - apply Rmult_le_compat_r; [exact S0|]. apply Rmult_le_compat_r; [lra|]. apply Rmult_le_compat_l; [exact HKp|]. lra.
  - apply Rmult_le_compat_r; [lra|]. apply Rmult_le_compat_r; [lra|]. apply Rplus_le_compat_r. assert (0 <= (K0 * K1) * (INR o0 * INR o1)) by (apply Rmult_le_pos; lra). lra.
Qed.
Print Assumptions C68_space2_ortho_there_and_back_f32.

Theorem C68_space3_ortho_there_and_back_f32 :
  forall E : ext f32, ext_ok E -> forall K0 L0 F0 K1 L1 F1 K2 L2 F2 P I J S T (b0 : base_ops J S T) (b1 : base_ops I J T) (b2 : base_ops P I T) (e : fel T),
  f32_from_ortho E K0 L0 J S T b0 e F0 -> f32_from_ortho E K1 L1 I J T b1 e F1 -> f32_from_ortho E K2 L2 P I T b2 e F2 ->
  forall (dP : Dflt P) (dI : Dflt I) (dJ : Dflt J) (dS : Dflt S) (dT : Dflt T) zo, zip_ok zo ->
  let sp := mk_space3 b0 b1 b2 in let n0 := len_phys b0 in let m0 := len_spec b0 in let o0 := len_orth b0 in let n1 := len_phys b1 in let m1 := len_spec b1 in let o1 := len_orth b1 in let n2 := len_phys b2 in let m2 := len_spec b2 in let o2 := len_orth b2 in
  forall a : arr T, proper [m0; m1; m2] a -> (forall p q r, (p < m0)%nat -> (q < m1)%nat -> (r < m2)%nat -> ef e (get a [p; q; r])) ->
  let Sum := rsum m0 (fun p => rsum m1 (fun q => rsum m2 (fun r => esize e (get a [p; q; r])))) in Sum <= bpow radix2 45 ->
  exists y z, s3_to_ortho zo sp a = Ok y /\ s3_from_ortho zo sp y = Ok z /\ proper [m0; m1; m2] z /\
    forall i j k, (i < m0)%nat -> (j < m1)%nat -> (k < m2)%nat -> ef e (get z [i; j; k]) /\
      edist e (get z [i; j; k]) (ev e (get a [i; j; k])) <=
        (K0 * K1 * K2) * (9 * (L0 + L1 + L2) + 21 * (INR o0 * INR o1 * INR o2)) * bpow radix2 (-24) * Sum + (670 * (K0 * K1 * K2) * (INR o0 * INR o1 * INR o2) + 3 * (L0 * L1 * L2)) * (INR n0 * INR n1 * INR n2) * bpow radix2 (-150).
Proof.
  intros E HE K0 L0 F0 K1 L1 F1 K2 L2 F2 P I J S T b0 b1 b2 e H0 H1 H2 dP dI dJ dS dT zo HZ sp n0 m0 o0 n1 m1 o1 n2 m2 o2 a Pa Fa Sum Sa.
  destruct (undo32_ex _ _ _ _ _ _ _ _ _ H0) as (T0 & HT0 & [inv0 sum0 (al0 & be0 & com0) bnd0 HK0 HL0 Lu0 Ho0 Hn0]). fold m0 o0 n0 in inv0, sum0, com0, bnd0, Ho0, Hn0.
  destruct (undo32_ex _ _ _ _ _ _ _ _ _ H1) as (T1 & HT1 & [inv1 sum1 (al1 & be1 & com1) bnd1 HK1 HL1 Lu1 Ho1 Hn1]). fold m1 o1 n1 in inv1, sum1, com1, bnd1, Ho1, Hn1.
  destruct (undo32_ex _ _ _ _ _ _ _ _ _ H2) as (T2 & HT2 & [inv2 sum2 (al2 & be2 & com2) bnd2 HK2 HL2 Lu2 Ho2 Hn2]). fold m2 o2 n2 in inv2, sum2, com2, bnd2, Ho2, Hn2.
  assert (S0 : 0 <= Sum) by (apply rsum_pos; intros; apply rsum_pos; intros; apply rsum_pos; intros; apply esize_pos).
  pose proof (bpow_gt_0 radix2 (-24)) as U. pose proof (bpow_gt_0 radix2 (-150)) as EE.
  destruct (C68_space3_to_ortho_f32 E HE _ _ _ _ _ _ _ _ _ _ _ e HT0 HT1 HT2 dP dI dJ dS dT zo HZ a Pa Fa) as (y & Ey & Py & Hy). { eapply Rle_trans; [exact Sa|apply bpow_le; lia]. }
  set (e1 := 99 / 5 * u32 * Sum + 648 * (INR n0 * INR n1 * INR n2) * eta32).
  set (t := fun x v s : nat => T2 (fun r => T1 (fun q => T0 (fun p => ev e (get a [p; q; r])) x) v) s). set (yv := fun x v s : nat => ev e (get y [x; v; s])).
  assert (Hd : forall x v s, (x < o0)%nat -> (v < o1)%nat -> (s < o2)%nat -> cn (csub (yv x v s) (t x v s)) <= e1). { intros x v s X0 X1 X2. exact (proj2 (Hy x v s X0 X1 X2)). }
  assert (Fy : forall x v s, (x < o0)%nat -> (v < o1)%nat -> (s < o2)%nat -> ef e (get y [x; v; s])). { intros x v s X0 X1 X2. exact (proj1 (Hy x v s X0 X1 X2)). } clear Hy.
  assert (SY : rsum o0 (fun x => rsum o1 (fun v => rsum o2 (fun s => cn (yv x v s)))) <= 8 * Sum + INR o0 * INR o1 * INR o2 * e1).
  { apply Rle_trans with (rsum o0 (fun x => rsum o1 (fun v => rsum o2 (fun s => cn (t x v s)) + INR o2 * e1))). { apply rsum_le. intros x Hx. apply rsum_le. intros v Hv. apply (csub_sum o2 (yv x v) (t x v) e1). intros s Hs. apply Hd; auto. }
    apply Rle_trans with (rsum o0 (fun x => rsum o1 (fun v => rsum o2 (fun s => cn (t x v s)))) + INR o0 * INR o1 * INR o2 * e1). { right. rewrite (rsum_ext o0 _ (fun x => rsum o1 (fun v => rsum o2 (fun s => cn (t x v s))) + INR o1 * (INR o2 * e1))). rewrite rsum_add, rsum_const. ring. intros x Hx. rewrite rsum_add, rsum_const. reflexivity. }
    apply Rplus_le_compat_r.
    apply Rle_trans with (rsum o0 (fun x => rsum o1 (fun v => 2 * rsum m2 (fun r => cn (T1 (fun q => T0 (fun p => ev e (get a [p; q; r])) x) v))))). { apply rsum_le. intros x Hx. apply rsum_le. intros v Hv. apply (sum2 (fun r => T1 (fun q => T0 (fun p => ev e (get a [p; q; r])) x) v)). }
    apply Rle_trans with (rsum o0 (fun x => 2 * rsum m2 (fun r => 2 * rsum m1 (fun q => cn (T0 (fun p => ev e (get a [p; q; r])) x))))).
    { apply rsum_le. intros x Hx. rewrite rsum_scal_l, rsum_swap. apply Rmult_le_compat_l; [lra|]. apply rsum_le. intros r Hr. apply (sum1 (fun q => T0 (fun p => ev e (get a [p; q; r])) x)). }
    rewrite rsum_scal_l, rsum_swap. apply Rle_trans with (2 * rsum m2 (fun r => 2 * rsum m1 (fun q => 2 * rsum m0 (fun p => cn (ev e (get a [p; q; r])))))).
    { apply Rmult_le_compat_l; [lra|]. apply rsum_le. intros r Hr. rewrite rsum_scal_l, rsum_swap. apply Rmult_le_compat_l; [lra|]. apply rsum_le. intros q Hq. apply (sum0 (fun p => ev e (get a [p; q; r]))). }
    unfold Sum. right. change (fun p => rsum m1 (fun q => rsum m2 (fun r => esize e (get a [p; q; r])))) with (fun p => rsum m1 (fun q => rsum m2 (fun r => cn (ev e (get a [p; q; r]))))).
    rewrite (rsum_ext m2 _ (fun r => 4 * rsum m1 (fun q => rsum m0 (fun p => cn (ev e (get a [p; q; r])))))). 2: { intros r Hr. rewrite rsum_scal_l. ring. }
    rewrite rsum_scal_l. rewrite (rsum_ext m0 _ (fun p => rsum m2 (fun r => rsum m1 (fun q => cn (ev e (get a [p; q; r])))))). 2: { intros p Hp. apply rsum_swap. }
    rewrite (rsum_swap m0). rewrite (rsum_ext m2 (fun r => rsum m0 _) (fun r => rsum m1 (fun q => rsum m0 (fun p => cn (ev e (get a [p; q; r])))))). 2: { intros r Hr. apply rsum_swap. } ring. }
  assert (HKN : 0 <= INR o0 * INR o1 * INR o2 <= bpow radix2 30 /\ 0 <= INR n0 * INR n1 * INR n2 <= bpow radix2 30). { split; apply nprod3; auto; lra. } destruct HKN as [HN Hnn].
  assert (e1b : 0 <= e1 <= bpow radix2 27). { unfold e1. apply (e1_small _ _ _ _ 30); auto; lra || lia. }
  assert (SYb : 8 * Sum + INR o0 * INR o1 * INR o2 * e1 <= bpow radix2 60). { apply (sy_small _ _ _ _ 30); auto; lra || lia. }
  destruct (C68_space3_from_ortho_f32 E HE _ _ _ _ _ _ _ _ _ _ _ _ _ _ _ _ _ e H0 H1 H2 dP dI dJ dS dT zo HZ y Py Fy) as (z & Ez & Pz & Hz). { eapply Rle_trans; [|exact SYb]. exact SY. }
  exists y, z. split; [exact Ey|]. split; [exact Ez|]. split; [exact Pz|]. intros i j k I0 I1 I2. destruct (Hz i j k I0 I1 I2) as [Fz Dz]. split; [exact Fz|].
  assert (EX : F2 (fun r => F1 (fun q => F0 (fun p => t p q r) i) j) k = ev e (get a [i; j; k])).
  { set (av := fun p q r : nat => ev e (get a [p; q; r])). change (ev e (get a [i; j; k])) with (av i j k).
    rewrite <- (inv2 (fun r => av i j r) k I2). apply (bounded_ext F2 o2 m2 K2); auto. intros s Hs.
    rewrite <- (inv1 (fun q => T2 (fun r => av i q r) s) j I1). apply (bounded_ext F1 o1 m1 K1); auto. intros v Hv.
    rewrite <- (inv0 (fun p => T1 (fun q => T2 (fun r => av p q r) s) v) i I0). apply (bounded_ext F0 o0 m0 K0); auto. intros x Hx.
    unfold t. change (T2 (fun r => T1 (fun q => T0 (fun p => av p q r) x) v) s = T0 (fun p => T1 (fun q => T2 (fun r => av p q r) s) v) x).
    rewrite com2, com0 by auto.
    rewrite (comb_ext al2 be2 _ (fun r => comb al1 be1 (fun q => comb al0 be0 (fun p => av p q r) x) v)). 2: { intros r. rewrite com1 by auto. apply comb_ext. intros q. apply com0; auto. }
    rewrite (comb_ext al0 be0 _ (fun p => comb al1 be1 (fun q => comb al2 be2 (fun r => av p q r) s) v)). 2: { intros p. rewrite com1 by auto. apply comb_ext. intros q. apply com2; auto. }
    rewrite (comb_swap al1 be1 al2 be2 (fun q r => comb al0 be0 (fun p => av p q r) x) v s).
    rewrite (comb_ext al1 be1 _ (fun q => comb al0 be0 (fun p => comb al2 be2 (fun r => av p q r) s) x)). 2: { intros q. apply (comb_swap al0 be0 al2 be2 (fun p r => av p q r) x s). }
    apply (comb_swap al0 be0 al1 be1 (fun p q => comb al2 be2 (fun r => av p q r) s) x v). }
  assert (NE : cn (csub (F2 (fun r => F1 (fun q => F0 (fun p => yv p q r) i) j) k) (F2 (fun r => F1 (fun q => F0 (fun p => t p q r) i) j) k)) <= (K0 * K1 * K2) * (INR o0 * INR o1 * INR o2 * e1)).
  { eapply Rle_trans. apply (bounded_near F2 o2 m2 K2 _ _ (K1 * (INR o1 * (K0 * (INR o0 * e1)))) k bnd2); auto. lra. intros s Hs. apply (bounded_near F1 o1 m1 K1); auto. lra. intros v Hv. apply (bounded_near F0 o0 m0 K0); auto. lra. right; ring. }
  rewrite EX in NE. pose proof (cn_csub (ev e (get z [i; j; k])) (F2 (fun r => F1 (fun q => F0 (fun p => yv p q r) i) j) k) (ev e (get a [i; j; k]))) as TR.
  match type of Dz with edist _ _ _ <= ?B => change (cn (csub (ev e (get z [i; j; k])) (F2 (fun r => F1 (fun q => F0 (fun p => yv p q r) i) j) k)) <= B) in Dz end.
  change (cn (csub (ev e (get z [i; j; k])) (ev e (get a [i; j; k]))) <= (K0 * K1 * K2) * (9 * (L0 + L1 + L2) + 21 * (INR o0 * INR o1 * INR o2)) * u32 * Sum + (670 * (K0 * K1 * K2) * (INR o0 * INR o1 * INR o2) + 3 * (L0 * L1 * L2)) * (INR n0 * INR n1 * INR n2) * eta32).
  assert (HKp : 0 <= K0 * K1 * K2) by (repeat apply Rmult_le_pos; lra).
  pose proof (back_err (11 / 10) 8 (33 / 1000) (99 / 5) 648 (L0 + L1 + L2) (K0 * K1 * K2) (INR o0 * INR o1 * INR o2) Sum _ e1 (cn (csub (ev e (get z [i; j; k])) (ev e (get a [i; j; k])))) (INR n0 * INR n1 * INR n2) (L0 * L1 * L2) HKp ltac:(lra) S0 ltac:(lra) ltac:(lra) ltac:(lra) ltac:(lra) ltac:(lra) eq_refl SY) as BE.
  eapply Rle_trans; [apply BE|].
  { eapply Rle_trans; [exact TR|]. apply Rplus_le_compat; [|exact NE]. eapply Rle_trans; [exact Dz|]. change (11 / 10 * (L0 + L1 + L2) * (K0 * K1 * K2) * u32 * rsum o0 (fun x => rsum o1 (fun v => rsum o2 (fun s => cn (yv x v s)))) + 3 * (L0 * L1 * L2) * (INR n0 * INR n1 * INR n2) * eta32 <= 11 / 10 * (L0 + L1 + L2) * (K0 * K1 * K2) * u32 * rsum o0 (fun x => rsum o1 (fun v => rsum o2 (fun s => cn (yv x v s)))) + 3 * (L0 * L1 * L2) * (INR n0 * INR n1 * INR n2) * eta32). right; ring. }
  clear - S0 U EE HKp HN Hnn HL0 HL1 HL2. apply Rplus_le_compat.
  - apply Rmult_le_compat_r; [exact S0|]. apply Rmult_le_compat_r; [lra|]. apply Rmult_le_compat_l; [exact HKp|]. lra.
  - apply Rmult_le_compat_r; [lra|]. apply Rmult_le_compat_r; [lra|]. apply Rplus_le_compat_r. assert (0 <= (K0 * K1 * K2) * (INR o0 * INR o1 * INR o2)) by (apply Rmult_le_pos; lra). lra.
Qed.
Print Assumptions C68_space3_ortho_there_and_back_f32.

(** The premises are met: Fourier (4 points) x Dirichlet (7 points), coefficients 0.1, 0.2, ... *)
Example C68_example_there_and_back :
  forall (E : ext f32), ext_ok E -> exists b1, let sp := mk_space2 (r2c_ops_x E (mk_r2c 4 3)) (r2r_ops_x E b1) in new_composite KDirichlet 7 = Ok b1 /\ exists zo, zip_ok zo /\
  exists y z, s2_to_ortho zo sp coef35_32 = Ok y /\ s2_from_ortho zo sp y = Ok z /\
    forall i j, (i < 3)%nat -> (j < 5)%nat -> is_finite (fst (get z [i; j])) = true /\ is_finite (snd (get z [i; j])) = true /\
      edist f32_cplx (get z [i; j]) (ev f32_cplx (get coef35_32 [i; j])) <= bpow radix2 (-2).
Proof.
  intros E HE. destruct (C68_bases_exist E 7 ltac:(lia) ltac:(lia)) as (_ & HC & _). destruct (HC (cplx f32) _ f32_cplx fs32_cplx) as (b1 & N1 & _ & F1 & _ & H1). clear HC.
  assert (N0 : r2c_new 4 = Ok (mk_r2c 4 3)) by reflexivity. pose proof (ffo32_r2c E f32_cplx 4 _ N0 ltac:(lia)) as H0.
  exists b1. intros sp. split; auto. destruct some_zip as [zo HZ]. exists zo. split; auto.
  assert (L1 : len_phys (r2r_ops_x (T := cplx f32) E b1) = 7%nat /\ len_spec (r2r_ops_x (T := cplx f32) E b1) = 5%nat /\ len_orth (r2r_ops_x (T := cplx f32) E b1) = 7%nat).
  { unfold new_composite in N1. destruct (compo_new KDirichlet 7) as [cc| |] eqn:Ec; cbn [bind] in N1; try discriminate. injection N1 as <-. destruct (dir_inv 7 cc Ec) as [_ ->]. repeat split; reflexivity. }
  destruct L1 as (L1 & L1' & L1'').
  assert (V : forall j, (j < 5)%nat -> is_finite tenths32.[j] = true /\ Rabs (B2R tenths32.[j]) <= 1).
  { intros j Hj. destruct j as [|[|[|[|[|]]]]]; try lia; (split; [vm_compute; reflexivity|]); rewrite <- SF2R_B2SF;
      match goal with |- Rabs (SF2R _ ?t) <= _ => let t' := eval vm_compute in t in replace t with t' by (vm_compute; reflexivity) end;
      cbn [SF2R SpecFloat.cond_Zopp]; unfold F2R; cbn [Fnum Fexp cond_Zopp]; rewrite Rabs_pos_eq; cbn; lra. }
  assert (VG : forall i j, (i < 3)%nat -> (j < 5)%nat -> get coef35_32 [i; j] = (tenths32.[j], n0)).
  { intros i j Hi Hj. destruct i as [|[|[|]]]; try lia; destruct j as [|[|[|[|[|]]]]]; try lia; reflexivity. }
  assert (Z0 : B2R (n0 (A := f32)) = 0) by reflexivity.
  set (S := rsum 3 (fun i => rsum 5 (fun j => esize f32_cplx (get coef35_32 [i; j])))).
  assert (S1 : 0 <= S <= 15). { split. apply rsum_pos; intros; apply rsum_pos; intros; apply esize_pos.
    eapply Rle_trans. apply (rsum_le 3 _ (fun _ => 5)). intros i Hi. eapply Rle_trans. apply (rsum_le 5 _ (fun _ => 1)). intros j Hj. rewrite VG by auto. unfold esize. cbn [ev f32_cplx fst snd]. unfold f32_val. rewrite Z0, Rabs_R0. destruct (V j Hj). lra.
    rewrite rsum_const. cbn; lra. rewrite rsum_const. cbn; lra. }
  destruct (C68_space2_ortho_there_and_back_f32 E HE _ _ _ _ _ _ _ _ _ _ _ _ f32_cplx H0 H1 dflt_num dflt_num dflt_vec dflt_vec zo HZ coef35_32) as (y & z & Ey & Ez & _ & H).
  - rewrite L1'. repeat split.
  - rewrite L1'. intros i j Hi Hj. rewrite (VG i j Hi Hj). split; [apply V; auto|reflexivity].
  - rewrite L1'. change (S <= bpow radix2 45). apply Rle_trans with (bpow radix2 17). change (bpow radix2 17) with (IZR (2 ^ 17)). cbv [Z.pow Z.pow_pos Pos.iter Z.mul Pos.mul]. lra. apply bpow_le; lia.
  - exists y, z. split; [exact Ey|]. split; [exact Ez|]. intros i j Hi Hj. rewrite L1, ?L1', ?L1'' in H. destruct (H i j Hi Hj) as [F B]. destruct F as [G1 G2]. split; [exact G1|]. split; [exact G2|]. clear H Ey Ez.
    change (edist f32_cplx (get z [i; j]) (ev f32_cplx (get coef35_32 [i; j])) <= (1 * (INR 7 + 1) ^ 2) * (5 * (4 + 8 * (INR 7 + 1) ^ 2) + 13 * (INR 3 * INR 7)) * u32 * S + (111 * (1 * (INR 7 + 1) ^ 2) * (INR 3 * INR 7) + 3 * (4 * (8 * (INR 7 + 1) ^ 2))) * (INR 4 * INR 7) * eta32) in B.
    eapply Rle_trans; [exact B|]. clear B G1 G2 V VG.
    assert (E1 : eta32 <= bpow radix2 (-80)) by (apply bpow_le; lia). pose proof (bpow_gt_0 radix2 (-150)) as E0. revert S1. generalize S. revert E1 E0. generalize eta32. clear. intros et E1 E0 S S1.
    change (bpow radix2 (-80)) with (/ IZR (2 ^ 80)) in E1. change (bpow radix2 (-24)) with (/ IZR (2 ^ 24)). change (bpow radix2 (-2)) with (/ IZR (2 ^ 2)).
    replace (INR 7) with 7 by (cbn; lra). replace (INR 4) with 4 by (cbn; lra). replace (INR 3) with 3 by (cbn; lra). cbv [Z.pow Z.pow_pos Pos.iter Z.mul Pos.mul] in *. lra.
Qed.
