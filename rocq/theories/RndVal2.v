(** C58: the stages of RndVal.v along one, two and three axes. *)
From Coq Require Import List Arith ZArith Reals Bool Lra Lia.
From Flocq Require Import Core BinarySingleNaN.
From Verif Require Import Base Num Fourier FourierF64 FourierFacts Rounding RndFft RndFinite2 PropRound PropRound2 PropTrans2 RndAxis RndOps RndSpace RndVal.
Import ListNotations.
Local Open Scope R_scope.
Local Notation u64 := (bpow radix2 (-53)).

Lemma close_weak {T} (e : fel T) x t lam lam' K s b b' : close e x t lam K s b -> lam <= lam' -> b <= b' -> 0 <= K * s -> close e x t lam' K s b'.
Proof.
  intros (F & D & S) Hl Hb H0. split; auto. split; auto. eapply Rle_trans; [exact D|]. rewrite !Rmult_assoc. apply (Rmult_le_compat_r (K * s)) in Hl; auto. lra.
Qed.

Section Axes.
Context (w h : R) (Hw : u64 <= w) (Hh : 0 <= h <= 2).
Notation acc f l1 l2 q e1 e2 F K L := (acc_op f l1 l2 q e1 e2 F K L w h).
Lemma L47 L : L * w <= / 100 -> 4 <= L -> L <= bpow radix2 47.
Proof.
  intros H HL. pose proof (bpow_gt_0 radix2 (-53)). assert (L * u64 <= / 100). { eapply Rle_trans; [|exact H]. apply Rmult_le_compat_l; lra. }
  change u64 with (/ IZR (2 ^ 53)) in *. change (bpow radix2 47) with (IZR (2 ^ 47)). cbv [Z.pow Z.pow_pos Pos.iter Z.mul Pos.mul] in *. lra.
Qed.
Lemma tiny K L q Lp Qp : 0 <= K <= L / 2 -> 4 <= L -> L * w <= / 100 -> 4 <= Lp -> 1 <= Qp ->
  3 * L * INR q * h + (1 + L * w) * K * (INR q * (3 * Lp * Qp * h)) <= 3 * (Lp * L) * (Qp * INR q) * h.
Proof.
  intros HK HL HLw H4 H1. pose proof (pos_INR q) as q0. pose proof (bpow_gt_0 radix2 (-53)) as U0. assert (LP : 4 <= Lp * Qp). { replace 4 with (4 * 1) by ring. apply Rmult_le_compat; lra. }
  assert (QH : 0 <= INR q * h) by (apply Rmult_le_pos; lra). assert (LW : 0 <= L * w) by (apply Rmult_le_pos; lra). assert (LL : 4 * L <= (Lp * Qp) * L) by (apply Rmult_le_compat_r; lra).
  assert (M1 : (1 + L * w) * K <= 101 / 200 * L). { apply Rle_trans with (101 / 100 * (L / 2)). apply Rmult_le_compat; lra. lra. } assert (M0 : 0 <= (1 + L * w) * K) by (apply Rmult_le_pos; lra).
  assert (M2 : (1 + L * w) * K * (Lp * Qp) <= 101 / 200 * L * (Lp * Qp)) by (apply Rmult_le_compat_r; lra).
  replace (3 * L * INR q * h + (1 + L * w) * K * (INR q * (3 * Lp * Qp * h))) with (3 * (INR q * h) * (L + (1 + L * w) * K * (Lp * Qp))) by ring. replace (3 * (Lp * L) * (Qp * INR q) * h) with (3 * (INR q * h) * (Lp * Qp * L)) by ring.
  apply Rmult_le_compat_l; lra.
Qed.
Lemma acc_facts {T1 T2} f l1 l2 q (e1 : fel T1) (e2 : fel T2) F K L : acc f l1 l2 q e1 e2 F K L -> L * w <= / 100 ->
  0 <= K <= L / 2 /\ 4 <= L /\ 0 <= L * w <= / 100 /\ L <= bpow radix2 47 /\ 1 <= INR q <= bpow radix2 20.
Proof.
  intros A HL. pose proof (ao_K _ _ _ _ _ _ _ _ _ _ _ A) as HK. pose proof (ao_L _ _ _ _ _ _ _ _ _ _ _ A) as H4. pose proof (ao_len _ _ _ _ _ _ _ _ _ _ _ A) as Hlen. pose proof (ao_q _ _ _ _ _ _ _ _ _ _ _ A) as Hq.
  pose proof (bpow_gt_0 radix2 (-53)) as U0. split; auto. split; auto. split. split; auto. apply Rmult_le_pos; lra. split. apply L47; auto. split. change 1 with (INR 1). apply le_INR. lia. apply q20; auto.
Qed.
Lemma range_ok lam Kt S Q Lp Qp : 0 <= lam <= / 4 -> 0 <= Kt <= bpow radix2 95 -> 0 <= S <= bpow radix2 800 -> 0 <= Q <= bpow radix2 20 -> 0 <= Lp <= bpow radix2 95 -> 0 <= Qp <= bpow radix2 40 ->
  (1 + lam) * Kt * S + Q * (3 * Lp * Qp * h) <= R900.
Proof.
  intros Hl HK HS HQ HL HP. pose proof (mul_up _ _ _ _ HK HS) as A1. rewrite bp in A1. change (95 + 800)%Z with 895%Z in A1. pose proof (mul_up _ _ _ _ HQ (mul_up _ _ _ _ (mul_up _ _ _ _ HL HP) Hh)) as A2. rewrite (bp 95 40) in A2. change (95 + 40)%Z with 135%Z in A2.
  replace (bpow radix2 20 * (bpow radix2 135 * 2)) with (2 * (bpow radix2 20 * bpow radix2 135)) in A2 by ring. rewrite (bp 20 135) in A2. change (20 + 135)%Z with 155%Z in A2.
  assert (A3 : bpow radix2 155 <= bpow radix2 895) by (apply bpow_le; lia). assert (A4 : R900 = bpow radix2 895 * 32) by (change 900%Z with (895 + 5)%Z; rewrite bpow_plus; f_equal).
  pose proof (bpow_gt_0 radix2 895). assert (A5 : (1 + lam) * (Kt * S) <= 5 / 4 * (Kt * S)) by (apply Rmult_le_compat_r; lra).
  rewrite A4. set (B := bpow radix2 895) in *. set (C := bpow radix2 155) in *. clearbody B C. replace (Q * (3 * Lp * Qp * h)) with (3 * (Q * (Lp * Qp * h))) by ring. lra.
Qed.

Lemma va1 {T1 T2} f l1 l2 q (e1 : fel T1) (e2 : fel T2) F K L (X : nat -> T1) (Z : nat -> T2) : acc f l1 l2 q e1 e2 F K L -> L * w <= / 100 ->
  rows (fun _ : unit => True) f l1 l2 (fun _ => X) (fun _ => Z) -> (forall i, (i < l1)%nat -> ef e1 (X i)) -> rsum l1 (fun i => cn (ev e1 (X i))) <= bpow radix2 800 ->
  forall k, (k < l2)%nat -> close e2 (Z k) (F (fun i => ev e1 (X i)) k) (L * w) K (rsum l1 (fun i => cn (ev e1 (X i)))) (3 * L * INR q * h).
Proof.
  intros A HL RX FX SX k Hk. destruct (acc_facts _ _ _ _ _ _ _ _ _ A HL) as (HK & H4 & HLw & H47 & Hq). assert (S0 : 0 <= rsum l1 (fun i => cn (ev e1 (X i)))) by (apply rsum_pos; intros; apply cn_pos).
  pose proof (bpow_gt_0 radix2 (-53)) as U0.
  pose proof (stage f l1 l2 q e1 e2 F K L w h X Z (fun i => ev e1 (X i)) (fun i => cn (ev e1 (X i))) 0 1 0 A ltac:(lra) (Rle_refl 0) ltac:(lra) (Rle_refl 0) RX) as G.
  specialize (G ltac:(intros l Hl; split; [apply cn_pos|]; split; [auto|]; split; [rewrite cn_csub_self; lra|lra])).
  assert (R9 : (1 + 0) * 1 * rsum l1 (fun i => cn (ev e1 (X i))) + INR q * 0 <= R900).
  { assert (bpow radix2 800 <= R900) by (apply bpow_le; lia). lra. }
  specialize (G R9 k Hk). replace (1 * K) with K in G by ring. eapply close_weak; [exact G|lra|lra|apply Rmult_le_pos; lra].
Qed.

Lemma va2 {T1 T2 T3} f l1 l2 q (e1 : fel T1) (e2 : fel T2) F K L f' l1' l2' q' (e3 : fel T3) F' K' L' (X : nat -> nat -> T1) (Z : nat -> nat -> T2) (Y : nat -> nat -> T3) :
  acc f l1 l2 q e1 e2 F K L -> L * w <= / 100 -> acc f' l1' l2' q' e2 e3 F' K' L' -> L' * w <= / 100 ->
  (forall p, (p < l1')%nat -> rows (fun _ : unit => True) f l1 l2 (fun _ i => X i p) (fun _ k => Z k p)) ->
  (forall k, (k < l2)%nat -> rows (fun _ : unit => True) f' l1' l2' (fun _ p => Z k p) (fun _ j => Y k j)) ->
  (forall i p, (i < l1)%nat -> (p < l1')%nat -> ef e1 (X i p)) ->
  let Sum := rsum l1' (fun p => rsum l1 (fun i => cn (ev e1 (X i p)))) in Sum <= bpow radix2 800 ->
  forall k j, (k < l2)%nat -> (j < l2')%nat -> close e3 (Y k j) (F' (fun p => F (fun i => ev e1 (X i p)) k) j) (21 / 20 * (L + L') * w) (K * K') Sum (3 * (L * L') * (INR q * INR q') * h).
Proof.
  intros A HL A' HL' RX RZ FX Sum SX k j Hk Hj. destruct (acc_facts _ _ _ _ _ _ _ _ _ A HL) as (HK & H4 & HLw & H47 & Hq). destruct (acc_facts _ _ _ _ _ _ _ _ _ A' HL') as (HK' & H4' & HLw' & H47' & Hq').
  pose proof (bpow_gt_0 radix2 (-53)) as U0. assert (R0 : forall p, 0 <= rsum l1 (fun i => cn (ev e1 (X i p)))) by (intros; apply rsum_pos; intros; apply cn_pos). assert (S0 : 0 <= Sum) by (apply rsum_pos; auto).
  assert (P0 : 0 <= 3 * L * INR q * h). { apply Rmult_le_pos; [apply Rmult_le_pos|]; lra. }
  pose proof (stage f' l1' l2' q' e2 e3 F' K' L' w h (fun p => Z k p) (fun j => Y k j) (fun p => F (fun i => ev e1 (X i p)) k) (fun p => rsum l1 (fun i => cn (ev e1 (X i p)))) (L * w) K (3 * L * INR q * h)
    A' ltac:(lra) ltac:(lra) ltac:(lra) P0 (RZ k Hk)) as G.
  specialize (G ltac:(intros p Hp; split; [auto|]; apply (va1 f l1 l2 q e1 e2 F K L (fun i => X i p) (fun k => Z k p) A HL (RX p Hp)); [intros; apply FX; auto| |auto]; eapply Rle_trans; [|exact SX]; apply (rsum_pick l1' (fun p => rsum l1 (fun i => cn (ev e1 (X i p))))); auto)).
  assert (B47 : bpow radix2 47 <= bpow radix2 95) by (apply bpow_le; lia). assert (B20 : bpow radix2 20 <= bpow radix2 40) by (apply bpow_le; lia).
  specialize (G ltac:(apply range_ok; split; try lra; auto) j Hj). eapply close_weak; [exact G| | |].
  - assert (L' * w * (1 + L * w) <= L' * w * (1 + / 100)) by (apply Rmult_le_compat_l; lra). lra.
  - apply tiny; auto; lra.
  - apply Rmult_le_pos; auto. apply Rmult_le_pos; lra.
Qed.

Lemma va3 {T1 T2 T3 T4} f l1 l2 q (e1 : fel T1) (e2 : fel T2) F K L f' l1' l2' q' (e3 : fel T3) F' K' L' f2 m1 m2 q2 (e4 : fel T4) F2 K2 L2
    (X : nat -> nat -> nat -> T1) (Z : nat -> nat -> nat -> T2) (U : nat -> nat -> nat -> T3) (Y : nat -> nat -> nat -> T4) :
  acc f l1 l2 q e1 e2 F K L -> L * w <= / 100 -> acc f' l1' l2' q' e2 e3 F' K' L' -> L' * w <= / 100 -> acc f2 m1 m2 q2 e3 e4 F2 K2 L2 -> L2 * w <= / 100 ->
  (forall p r, (p < l1')%nat -> (r < m1)%nat -> rows (fun _ : unit => True) f l1 l2 (fun _ i => X i p r) (fun _ k => Z k p r)) ->
  (forall k r, (k < l2)%nat -> (r < m1)%nat -> rows (fun _ : unit => True) f' l1' l2' (fun _ p => Z k p r) (fun _ j => U k j r)) ->
  (forall k j, (k < l2)%nat -> (j < l2')%nat -> rows (fun _ : unit => True) f2 m1 m2 (fun _ r => U k j r) (fun _ s => Y k j s)) ->
  (forall i p r, (i < l1)%nat -> (p < l1')%nat -> (r < m1)%nat -> ef e1 (X i p r)) ->
  let Sum := rsum m1 (fun r => rsum l1' (fun p => rsum l1 (fun i => cn (ev e1 (X i p r))))) in Sum <= bpow radix2 800 ->
  forall k j s, (k < l2)%nat -> (j < l2')%nat -> (s < m2)%nat ->
    close e4 (Y k j s) (F2 (fun r => F' (fun p => F (fun i => ev e1 (X i p r)) k) j) s) (11 / 10 * (L + L' + L2) * w) (K * K' * K2) Sum (3 * (L * L' * L2) * (INR q * INR q' * INR q2) * h).
Proof.
  intros A HL A' HL' A2 HL2 RX RZ RU FX Sum SX k j s Hk Hj Hs. destruct (acc_facts _ _ _ _ _ _ _ _ _ A HL) as (HK & H4 & HLw & H47 & Hq). destruct (acc_facts _ _ _ _ _ _ _ _ _ A' HL') as (HK' & H4' & HLw' & H47' & Hq'). destruct (acc_facts _ _ _ _ _ _ _ _ _ A2 HL2) as (HK2 & H42 & HLw2 & H472 & Hq2).
  pose proof (bpow_gt_0 radix2 (-53)) as U0. assert (R0 : forall r, 0 <= rsum l1' (fun p => rsum l1 (fun i => cn (ev e1 (X i p r))))) by (intros; apply rsum_pos; intros; apply rsum_pos; intros; apply cn_pos). assert (S0 : 0 <= Sum) by (apply rsum_pos; auto).
  assert (QQ : 1 <= INR q * INR q' <= bpow radix2 40). { split. replace 1 with (1 * 1) by ring. apply Rmult_le_compat; lra. change 40%Z with (20 + 20)%Z. rewrite bpow_plus. apply mul_up; lra. }
  assert (LL : 16 <= L * L' <= bpow radix2 94). { split. replace 16 with (4 * 4) by ring. apply Rmult_le_compat; lra. change 94%Z with (47 + 47)%Z. rewrite bpow_plus. apply mul_up; lra. }
  assert (KK : 0 <= K * K' <= bpow radix2 94). { split. apply Rmult_le_pos; lra. change 94%Z with (47 + 47)%Z. rewrite bpow_plus. apply mul_up; lra. }
  assert (B94 : bpow radix2 94 <= bpow radix2 95) by (apply bpow_le; lia).
  assert (P0 : 0 <= 3 * (L * L') * (INR q * INR q') * h). { apply Rmult_le_pos; [apply Rmult_le_pos|]; lra. }
  set (lam := 21 / 20 * (L + L') * w). assert (LAM : 0 <= lam <= 21 / 1000) by (unfold lam; lra).
  pose proof (stage f2 m1 m2 q2 e3 e4 F2 K2 L2 w h (fun r => U k j r) (fun s => Y k j s) (fun r => F' (fun p => F (fun i => ev e1 (X i p r)) k) j) (fun r => rsum l1' (fun p => rsum l1 (fun i => cn (ev e1 (X i p r))))) lam (K * K') (3 * (L * L') * (INR q * INR q') * h)
    A2 ltac:(lra) ltac:(lra) ltac:(lra) P0 (RU k j Hk Hj)) as G.
  specialize (G ltac:(intros r Hr; split; [auto|]; apply (va2 f l1 l2 q e1 e2 F K L f' l1' l2' q' e3 F' K' L' (fun i p => X i p r) (fun k p => Z k p r) (fun k j => U k j r) A HL A' HL'); auto;
     eapply Rle_trans; [|exact SX]; apply (rsum_pick m1 (fun r => rsum l1' (fun p => rsum l1 (fun i => cn (ev e1 (X i p r)))))); auto)).
  specialize (G ltac:(apply range_ok; split; try lra; auto) s Hs). eapply close_weak; [exact G| | |].
  - assert (L2 * w * (1 + lam) <= L2 * w * (1 + 21 / 1000)) by (apply Rmult_le_compat_l; lra). unfold lam at 1. lra.
  - apply tiny; auto; lra.
  - apply Rmult_le_pos; auto. apply Rmult_le_pos; lra.
Qed.
End Axes.
