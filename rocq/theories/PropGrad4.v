(** C68, with a scale: C59's scaled gradients with scalars f32. *)
From Coq Require Import List Arith ZArith Reals Bool Lra Lia.
From Flocq Require Import Core BinarySingleNaN.
From Verif Require Import Base Num Linalg Stencils ChebPoly ChebGrad Cheb ChebFacts Compo CompoProofs Fourier FourierF64 FourierFacts FourierProofs Bases BaseLin LibBase NdArray NdArrayFacts AxisFacts AxisProps PropAxis SpaceFacts SpaceBases SpaceStages SpaceOrder Space PropSpace PropSpace2 PropSpace3 PropSpace4 PropElements
  ExtLib AnyArith ExtFacts AnyBase PropAny PropAny2 Rounding LibAcc LibIdeal RndCheb RndFft RndR2c RndCompo RndFinite2 RndDirichlet RndNeumann RndGrad PropRound PropRound2 PropRound4 RndAxis RndOps RndAxis2 RndOps2 SpaceAcc RndSpace PropTrans3 SpaceAcc2 PropTrans4 SpaceVal RndVal RndVal2 PropTrans5 GradSpec GradOp RndGrad4 OrthoSpec RndOrtho PropOrtho PropGrad PropTrans6 SpaceVal32 RndVal32 PropTrans7 GradSpec32 RndGrad32 PropGrad2 PropGrad3 MatF64 RndScale F32 RndScale32.
Import ListNotations.
Local Open Scope R_scope.
#[local] Instance P24t : Prec_gt_0 24 := eq_refl.

(** `x /= sc` on the elements (space1.rs:213-216): the division of f32, or that of
    num-complex by the complex number (sc, 0) *)
Inductive f32_division : forall T, fel T -> DivInto f32 T -> Prop :=
| fd32_real : f32_division f32 f32_real div_real
| fd32_cplx : f32_division (cplx f32) f32_cplx div_cplx.
(** a finite scale factor [s], raised to a power that is neither extremely small nor extremely large *)
Definition fair_scale32 (s : f32) (d : nat) : Prop := is_finite s = true /\ (Z.of_nat d < 2 ^ 15)%Z /\ bpow radix2 (-10) <= Rabs (B2R s ^ d) <= bpow radix2 10.

Lemma tame2 x y : bpow radix2 (-10) <= Rabs x <= bpow radix2 10 -> bpow radix2 (-10) <= Rabs y <= bpow radix2 10 -> bpow radix2 (-20) <= Rabs (x * y) <= bpow radix2 20.
Proof.
  intros [A1 A2] [B1 B2]. rewrite Rabs_mult. change (-20)%Z with (-10 + -10)%Z. change 20%Z with (10 + 10)%Z. rewrite !bpow_plus. pose proof (bpow_ge_0 radix2 (-10)). split; apply Rmult_le_compat; auto using Rabs_pos.
Qed.
Lemma tame_w x j : (0 <= j <= 30)%Z -> bpow radix2 (- j) <= Rabs x <= bpow radix2 j -> tame x.
Proof. intros Hj [A B]. split. eapply Rle_trans; [|exact A]. apply bpow_le; lia. eapply Rle_trans; [exact B|]. apply bpow_le; lia. Qed.

(** one element, then the array *)
Lemma scaled_elem T (e : fel T) (D : DivInto f32 T) (q : f32) Q k y : f32_division T e D -> pw q Q k -> tame Q -> (Z.of_nat k <= 2 ^ 17)%Z ->
  ef e y -> cn (ev e y) <= bpow radix2 41 ->
  ef e (div_into y q) /\ cn (csub (ev e (div_into y q)) (divided_by Q (ev e y))) <= lam k * (cn (ev e y) / Rabs Q) + tiny.
Proof.
  intros HD HW HT HK. destruct HD; intros Fy Sy.
  - cbn [ef ev f32_real] in *. unfold cn in Sy. cbn [fst snd] in Sy. rewrite Rabs_R0, Rplus_0_r in Sy.
    destruct (quot_real q Q k HW HT HK y Fy Sy) as [F E]. split; [exact F|]. unfold cn, csub, divided_by. cbn [fst snd nsub num_R]. pose proof (tame_nz _ HT) as NQ. pose proof (bpow_ge_0 radix2 (-67)).
    replace (0 - 0 / Q) with 0 by (field; auto). rewrite Rabs_R0, !Rplus_0_r. eapply Rle_trans; [exact E|]. rewrite Rabs_div by auto. unfold tiny. lra.
  - cbn [ef ev f32_cplx] in *. destruct Fy as [F1 F2]. unfold cn in Sy. cbn [fst snd] in Sy. pose proof (Rabs_pos (f32_val (fst y))) as P1. pose proof (Rabs_pos (f32_val (snd y))) as P2.
    pose proof (tame_nz _ HT) as NQ. destruct (wfact q Q k HW HK) as (c & Ew & _ & Bc). destruct (quot_core 0 _ _ _ Ew HT Bc) as (_ & [_ SW2] & _). pose proof (proj1 HW) as Fq.
    assert (PF : forall x, f32_fin x -> Rabs (f32_val x) <= bpow radix2 41 -> f32_fin (nmul x q) /\ f32_val (nmul x q) = rnd32 (f32_val x * f32_val q)).
    { intros x Fx Sx. assert (F : f32_fin (nmul x q)). { apply (fa_mulF _ _ _ _ _ _ _ _ f32_float_arith); auto. apply fin_of. eapply (rnd_le32 _ 72); [lia|]. rewrite Rabs_mult. change 72%Z with (41 + 31)%Z. rewrite bpow_plus. apply Rmult_le_compat; auto using Rabs_pos. }
      split; auto. apply (fa_mul _ _ _ _ _ _ _ _ f32_float_arith x q F). }
    assert (QF : f32_fin (nmul q q) /\ f32_val (nmul q q) = rnd32 (f32_val q * f32_val q)). { apply PF; auto. eapply Rle_trans; [exact SW2|]. apply bpow_le; lia. }
    destruct QF as [QF QV]. destruct (times0 n0) as [Z1 Z2]. apply (fa_0 _ _ _ _ _ _ _ _ f32_float_arith).
    destruct (proj1 (sum0 (nmul q q) (nmul n0 n0) QF Z1 Z2)) as [NF NV]. rewrite QV in NV.
    destruct (PF (fst y) F1 ltac:(lra)) as [M1 V1]. destruct (PF (snd y) F2 ltac:(lra)) as [M2 V2]. destruct (times0 (fst y) F1) as [O1 W1]. destruct (times0 (snd y) F2) as [O2 W2].
    destruct (proj1 (sum0 (nmul (fst y) q) (nmul (snd y) n0) M1 O2 W2)) as [A1 B1]. destruct (proj2 (sum0 (nmul (snd y) q) (nmul (fst y) n0) M2 O1 W1)) as [A2 B2]. rewrite V1 in B1. rewrite V2 in B2.
    destruct (quot_3 q Q k HW HT HK (fst y) _ _ F1 ltac:(lra) A1 B1 NF NV) as [R1 E1]. destruct (quot_3 q Q k HW HT HK (snd y) _ _ F2 ltac:(lra) A2 B2 NF NV) as [R2 E2].
    cbv [div_into div_cplx cdiv]. cbn [fst snd]. split; [split; assumption|]. unfold cn, csub, divided_by. cbn [fst snd nsub num_R].
    rewrite Rabs_div in E1, E2 by auto. eapply Rle_trans; [apply Rplus_le_compat; [exact E1|exact E2]|]. right. field. apply Rabs_no_R0; auto.
Qed.

Lemma scaled_close T (e : fel T) (D : DivInto f32 T) (q : f32) Q k y t la K S b : f32_division T e D -> pw q Q k -> tame Q -> (Z.of_nat k <= 2 ^ 17)%Z ->
  close e y t la K S b -> 0 <= la <= / 10 -> 0 <= S -> 1 <= K -> 0 <= b <= 1 -> K * (1 + S) <= bpow radix2 40 ->
  ef e (div_into y q) /\ edist e (div_into y q) (divided_by Q t) <= ((26 / 25 * la + lam k) * K * S + 26 / 25 * b) / Rabs Q + bpow radix2 (-67).
Proof.
  intros HD HW HT HK (Fy & Ey & Kt) Hla HS H1 Hb HB. pose proof (tame_nz _ HT) as NQ. pose proof (cn_split (ev e y) t) as C. pose proof (Rabs_pos_lt _ NQ) as PQ.
  assert (KS : 0 <= K * S) by (apply Rmult_le_pos; lra). assert (LK : 0 <= la * K * S <= / 10 * (K * S)). { rewrite Rmult_assoc. split. apply Rmult_le_pos; lra. apply Rmult_le_compat_r; lra. }
  assert (SY : cn (ev e y) <= bpow radix2 41). { change 41%Z with (40 + 1)%Z. rewrite <- two_bp. lra. }
  destruct (scaled_elem T e D q Q k y HD HW HT HK Fy SY) as [F E]. split; auto.
  assert (L0 : 0 <= lam k <= / 25). { unfold lam. pose proof (proj1 u32_small). pose proof (small_n _ HK). pose proof (pos_INR k). assert (0 <= INR k * u32) by (apply Rmult_le_pos; lra). lra. }
  change (edist e (div_into y q) (divided_by Q t)) with (cn (csub (ev e (div_into y q)) (divided_by Q t))).
  eapply Rle_trans; [apply (cn_csub _ (divided_by Q (ev e y)))|]. rewrite divided_sub, divided_cn by auto. eapply Rle_trans; [apply Rplus_le_compat_r, E|]. fold tiny.
  set (d := cn (csub (ev e y) t)) in *. set (c := cn (ev e y)) in *.
  assert (G : lam k * c + d <= (26 / 25 * la + lam k) * K * S + 26 / 25 * b).
  { assert (D0 : 0 <= d) by apply cn_pos. assert (lam k * c <= lam k * (K * S + d)) by (apply Rmult_le_compat_l; lra). assert (lam k * d <= / 25 * d) by (apply Rmult_le_compat_r; lra). lra. }
  apply (Rmult_le_compat_r (/ Rabs Q)) in G; [|left; apply Rinv_0_lt_compat; auto]. unfold Rdiv in *. lra.
Qed.

Lemma get_scaled {T} (dT : Dflt T) (D : DivInto f32 T) sh (y : arr T) (q : f32) idx : proper sh y -> valid sh idx -> get (scale_arr y q) idx = div_into (get y idx) q.
Proof.
  intros (S & _ & W) V. unfold get. cbn [scale_arr shp dat]. unfold at_. rewrite (nth_indep _ _ (div_into dflt q)). apply (map_nth (fun x => div_into x q)). rewrite map_length. unfold wf in W. rewrite W, S. apply ravel_lt; auto.
Qed.
Lemma proper_scaled {T} (D : DivInto f32 T) sh (y : arr T) (q : f32) : proper sh y -> proper sh (scale_arr y q).
Proof. intros (S & St & W). split; [exact S|]. split; [exact St|]. unfold wf in *. cbn [scale_arr shp dat]. rewrite map_length. auto. Qed.

(** the finite bound on the underflow terms *)
Lemma k_le K S : 1 <= K -> 0 <= S -> K * (1 + S) <= bpow radix2 40 -> K <= bpow radix2 40.
Proof. intros. assert (0 <= K * S) by (apply Rmult_le_pos; lra). lra. Qed.


Ltac facts A HL HK H4 HLw H47 Hq := destruct (gacc_facts _ _ _ _ _ _ _ _ _ A HL) as (HK & H4 & HLw & H47 & Hq).

(** ** The theorems *)
Theorem C68_space1_scaled_gradient_f32 :
  forall E : ext f32, ext_ok E -> forall d K0 L0 F0 P S T (b0 : base_ops P S T) (e : fel T),
  f32_gradient E d K0 L0 P S T b0 e F0 -> L0 * bpow radix2 (-24) <= / 100 ->
  forall (dP : Dflt P) (dS : Dflt S) (dT : Dflt T) (D : DivInto f32 T) zo, zip_ok zo -> f32_division T e D ->
  let sp := mk_space1 b0 in let n0 := len_phys b0 in let m0 := len_spec b0 in let o0 := len_orth b0 in
  forall a : arr T, proper [m0] a -> (forall p, (p < m0)%nat -> ef e (get a [p])) ->
  let Sum := rsum m0 (fun p => esize e (get a [p])) in K0 * (1 + Sum) <= bpow radix2 40 ->
  forall s : f32, fair_scale32 s d -> let q := B2R s ^ d in
  exists y, s1_gradient zo sp a d (Some s) = Ok y /\ proper [o0] y /\
    forall i, (i < o0)%nat -> ef e (get y [i]) /\
      edist e (get y [i]) (divided_by q (F0 (fun p => ev e (get a [p])) i)) <=
        (6 / 5 * (L0 + INR d + 4) * K0 * bpow radix2 (-24) * Sum + 2 * L0 * K0 * INR n0 * bpow radix2 (-150)) / Rabs q + bpow radix2 (-67).
Proof.
  intros E HE d K0 L0 F0 P S T b0 e H0 HL0 dP dS dT D zo HZ HD sp n0 m0 o0 a Pa Fa Sum Sa s Hs q.
  destruct (space1_gradient_close E HE d K0 L0 F0 P S T b0 e H0 HL0 dP dS dT f32 num_f32 D zo HZ a Pa Fa ltac:(eapply Rle_trans; [exact Sa|apply bpow_le; lia])) as (y & Ey & Py & H).
  pose proof (gradient_acc _ _ _ _ _ _ _ _ _ _ H0 HL0) as A0. facts A0 HL0 HK H4 HLw H47 Hq.
  assert (S0 : 0 <= Sum) by apply sums_pos1. pose proof (npow_pw s d Hs) as W. pose proof (k_le _ _ HK S0 Sa) as KL. pose proof (proj1 u32_small) as U. pose proof (pos_INR d) as D0. pose proof (bpow_gt_0 radix2 (-150)) as E0.
  assert (HT : tame q) by (apply (tame_w _ 10); [lia|apply Hs]). destruct Hs as (_ & Hd & _).
  exists (scale_arr y (npowi s (as_i32 d))). split; [|split].
  - unfold s1_gradient in Ey |- *. destruct (gradient _ _ _ _ _) as [o| |]; cbn [bind] in Ey |- *; congruence.
  - apply proper_scaled. exact Py.
  - intros i Hi. rewrite (get_scaled dT D [o0] y _ [i] Py); [|repeat constructor; auto].
    assert (B : 0 <= L0 * K0 * INR n0 * bpow radix2 (-150) <= 1).
    { split. repeat apply Rmult_le_pos; try lra. apply pos_INR.
      apply Rle_trans with (bpow radix2 18 * bpow radix2 40 * bpow radix2 16 * bpow radix2 (-150)). apply Rmult_le_compat_r; [lra|]. apply mul_up; [split|split; [apply pos_INR|apply Hq]]. apply Rmult_le_pos; lra. apply mul_up; lra.
      rewrite !bp. change 1 with (bpow radix2 0). apply bpow_le. lia. }
    assert (LA : 0 <= L0 * u32 <= / 10) by lra.
    destruct (scaled_close T e D _ q d _ _ _ _ _ _ HD W HT ltac:(lia) (H i Hi) LA S0 HK B Sa) as [F EB]. split; [exact F|]. eapply Rle_trans; [exact EB|]. apply Rplus_le_compat_r. unfold Rdiv. apply Rmult_le_compat_r. left. apply Rinv_0_lt_compat, Rabs_pos_lt, tame_nz; auto.
    fold m0. fold Sum. assert (KS : 0 <= K0 * u32 * Sum). { apply Rmult_le_pos; auto. apply Rmult_le_pos; lra. } unfold lam. apply Rplus_le_compat; [|fold n0; clear -B; lra].
    replace ((26 * / 25 * (L0 * u32) + 11 / 10 * (INR d + 4) * u32) * K0 * Sum) with ((26 / 25 * L0 + 11 / 10 * (INR d + 4)) * (K0 * u32 * Sum)) by field.
    replace (6 * / 5 * (L0 + INR d + 4) * K0 * u32 * Sum) with (6 / 5 * (L0 + INR d + 4) * (K0 * u32 * Sum)) by field. apply Rmult_le_compat_r; auto. lra.
Qed.
Print Assumptions C68_space1_scaled_gradient_f32.

Theorem C68_space2_scaled_gradient_f32 :
  forall E : ext f32, ext_ok E -> forall d0 d1 K0 L0 F0 K1 L1 F1 P I S T (b0 : base_ops I S T) (b1 : base_ops P I T) (e : fel T),
  f32_gradient E d0 K0 L0 I S T b0 e F0 -> L0 * bpow radix2 (-24) <= / 100 -> f32_gradient E d1 K1 L1 P I T b1 e F1 -> L1 * bpow radix2 (-24) <= / 100 ->
  forall (dP : Dflt P) (dI : Dflt I) (dS : Dflt S) (dT : Dflt T) (D : DivInto f32 T) zo, zip_ok zo -> f32_division T e D ->
  let sp := mk_space2 b0 b1 in let n0 := len_phys b0 in let m0 := len_spec b0 in let o0 := len_orth b0 in let n1 := len_phys b1 in let m1 := len_spec b1 in let o1 := len_orth b1 in
  forall a : arr T, proper [m0; m1] a -> (forall p q, (p < m0)%nat -> (q < m1)%nat -> ef e (get a [p; q])) ->
  let Sum := rsum m0 (fun p => rsum m1 (fun q => esize e (get a [p; q]))) in K0 * K1 * (1 + Sum) <= bpow radix2 40 ->
  forall s0 s1 : f32, fair_scale32 s0 d0 -> fair_scale32 s1 d1 -> let q := B2R s0 ^ d0 * B2R s1 ^ d1 in
  exists y, s2_gradient zo sp a d0 d1 (Some (s0, s1)) = Ok y /\ proper [o0; o1] y /\
    forall i j, (i < o0)%nat -> (j < o1)%nat -> ef e (get y [i; j]) /\
      edist e (get y [i; j]) (divided_by q (F1 (fun q => F0 (fun p => ev e (get a [p; q])) i) j)) <=
        (6 / 5 * (L0 + L1 + INR d0 + INR d1 + 5) * (K0 * K1) * bpow radix2 (-24) * Sum + 2 * L0 * L1 * (K0 * K1) * (INR n0 * INR n1) * bpow radix2 (-150)) / Rabs q + bpow radix2 (-67).
Proof.
  intros E HE d0 d1 K0 L0 F0 K1 L1 F1 P I S T b0 b1 e H0 HL0 H1 HL1 dP dI dS dT D zo HZ HD sp n0 m0 o0 n1 m1 o1 a Pa Fa Sum Sa s0 s1 Hs0 Hs1 q.
  destruct (space2_gradient_close E HE d0 d1 K0 L0 F0 K1 L1 F1 P I S T b0 b1 e H0 HL0 H1 HL1 dP dI dS dT f32 num_f32 D zo HZ a Pa Fa ltac:(eapply Rle_trans; [exact Sa|apply bpow_le; lia])) as (y & Ey & Py & H).
  pose proof (gradient_acc _ _ _ _ _ _ _ _ _ _ H0 HL0) as A0. facts A0 HL0 HK H4 HLw H47 Hq. pose proof (gradient_acc _ _ _ _ _ _ _ _ _ _ H1 HL1) as A1. facts A1 HL1 HK1 H41 HLw1 H471 Hq1.
  assert (S0 : 0 <= Sum) by (apply rsum_pos; intros; apply sums_pos1). assert (HKK : 1 <= K0 * K1). { replace 1 with (1 * 1) by ring. apply Rmult_le_compat; lra. }
  pose proof (k_le _ _ HKK S0 Sa) as KL. pose proof (proj1 u32_small) as U. pose proof (pos_INR d0) as D0. pose proof (pos_INR d1) as D1. pose proof (bpow_gt_0 radix2 (-150)) as E0.
  pose proof (tame2 _ _ (proj2 (proj2 Hs0)) (proj2 (proj2 Hs1))) as TQ. assert (HT : tame q) by (apply (tame_w _ 20); [lia|exact TQ]).
  pose proof (proj1 (proj2 Hs0)) as Z0. pose proof (proj1 (proj2 Hs1)) as Z1.
  assert (W : pw (nmul (npowi s0 (as_i32 d0)) (npowi s1 (as_i32 d1))) q (d0 + d1 + 1)). { apply pw_mul; [apply npow_pw; auto|apply npow_pw; auto|exact HT|apply small_n; lia]. }
  exists (scale_arr y (nmul (npowi s0 (as_i32 d0)) (npowi s1 (as_i32 d1)))). split; [|split].
  - unfold s2_gradient in Ey |- *. destruct (gradient _ _ a _ _) as [o| |]; cbn [bind] in Ey |- *; try congruence. destruct (gradient _ _ o _ _) as [o'| |]; cbn [bind s2_scale] in Ey |- *; congruence.
  - apply proper_scaled. exact Py.
  - intros i j Hi Hj. rewrite (get_scaled dT D [o0; o1] y _ [i; j] Py); [|repeat constructor; auto].
    assert (B : 0 <= L0 * L1 * (K0 * K1) * (INR n0 * INR n1) * bpow radix2 (-150) <= 1).
    { pose proof (pos_INR n0). pose proof (pos_INR n1). split. repeat apply Rmult_le_pos; try lra.
      apply Rle_trans with (bpow radix2 18 * bpow radix2 18 * bpow radix2 40 * (bpow radix2 16 * bpow radix2 16) * bpow radix2 (-150)). apply Rmult_le_compat_r; [lra|].
      apply mul_up; split; repeat apply Rmult_le_pos; try lra. apply mul_up; [split|lra]. apply Rmult_le_pos; lra. apply mul_up; lra. apply mul_up; split; auto; [apply Hq|apply Hq1].
      rewrite !bp. change 1 with (bpow radix2 0). apply bpow_le. lia. }
    assert (LA : 0 <= 21 / 20 * (L0 + L1) * u32 <= / 10) by lra.
    destruct (scaled_close T e D _ q (d0 + d1 + 1) _ _ _ _ _ _ HD W HT ltac:(lia) (H i j Hi Hj) LA S0 HKK B Sa) as [F EB]. split; [exact F|]. eapply Rle_trans; [exact EB|]. apply Rplus_le_compat_r. unfold Rdiv. apply Rmult_le_compat_r. left. apply Rinv_0_lt_compat, Rabs_pos_lt, tame_nz; auto.
    fold m0 m1. fold Sum. assert (KS : 0 <= K0 * K1 * u32 * Sum). { apply Rmult_le_pos; auto. apply Rmult_le_pos; lra. } unfold lam. rewrite !plus_INR. change (INR 1) with 1. apply Rplus_le_compat; [|fold n0 n1; clear -B; lra].
    replace ((26 * / 25 * (21 * / 20 * (L0 + L1) * u32) + 11 / 10 * (INR d0 + INR d1 + 1 + 4) * u32) * (K0 * K1) * Sum) with ((26 / 25 * (21 / 20) * (L0 + L1) + 11 / 10 * (INR d0 + INR d1 + 5)) * (K0 * K1 * u32 * Sum)) by field.
    replace (6 * / 5 * (L0 + L1 + INR d0 + INR d1 + 5) * (K0 * K1) * u32 * Sum) with (6 / 5 * (L0 + L1 + INR d0 + INR d1 + 5) * (K0 * K1 * u32 * Sum)) by field. apply Rmult_le_compat_r; auto. lra.
Qed.
Print Assumptions C68_space2_scaled_gradient_f32.

Theorem C68_space3_scaled_gradient_f32 :
  forall E : ext f32, ext_ok E -> forall d0 d1 d2 K0 L0 F0 K1 L1 F1 K2 L2 F2 P I J S T (b0 : base_ops J S T) (b1 : base_ops I J T) (b2 : base_ops P I T) (e : fel T),
  f32_gradient E d0 K0 L0 J S T b0 e F0 -> L0 * bpow radix2 (-24) <= / 100 -> f32_gradient E d1 K1 L1 I J T b1 e F1 -> L1 * bpow radix2 (-24) <= / 100 ->
  f32_gradient E d2 K2 L2 I J T b1 e F2 -> L2 * bpow radix2 (-24) <= / 100 -> len_spec b2 = len_spec b1 ->
  forall (dT : Dflt T) (D : DivInto f32 T) zo, zip_ok zo -> f32_division T e D ->
  let sp := mk_space3 b0 b1 b2 in let n0 := len_phys b0 in let m0 := len_spec b0 in let o0 := len_orth b0 in let n1 := len_phys b1 in let m1 := len_spec b1 in let o1 := len_orth b1 in
  forall a : arr T, proper [m0; m1; m1] a -> (forall p q r, (p < m0)%nat -> (q < m1)%nat -> (r < m1)%nat -> ef e (get a [p; q; r])) ->
  let Sum := rsum m0 (fun p => rsum m1 (fun q => rsum m1 (fun r => esize e (get a [p; q; r])))) in K0 * K1 * K2 * (1 + Sum) <= bpow radix2 40 ->
  forall s0 s1 s2 : f32, fair_scale32 s0 d0 -> fair_scale32 s1 d1 -> fair_scale32 s2 d2 -> let q := B2R s0 ^ d0 * B2R s1 ^ d1 * B2R s2 ^ d2 in
  exists y, s3_gradient zo sp a d0 d1 d2 (Some (s0, s1, s2)) = Ok y /\ proper [o0; o1; o1] y /\
    forall i j k, (i < o0)%nat -> (j < o1)%nat -> (k < o1)%nat -> ef e (get y [i; j; k]) /\
      edist e (get y [i; j; k]) (divided_by q (F2 (fun r => F1 (fun q => F0 (fun p => ev e (get a [p; q; r])) i) j) k)) <=
        (6 / 5 * (L0 + L1 + L2 + INR d0 + INR d1 + INR d2 + 6) * (K0 * K1 * K2) * bpow radix2 (-24) * Sum + 2 * L0 * L1 * L2 * (K0 * K1 * K2) * (INR n0 * INR n1 * INR n1) * bpow radix2 (-150)) / Rabs q + bpow radix2 (-67).
Proof.
  intros E HE d0 d1 d2 K0 L0 F0 K1 L1 F1 K2 L2 F2 P I J S T b0 b1 b2 e H0 HL0 H1 HL1 H2 HL2 EQ dT D zo HZ HD sp n0 m0 o0 n1 m1 o1 a Pa Fa Sum Sa s0 s1 s2 Hs0 Hs1 Hs2 q.
  destruct (space3_gradient_close E HE d0 d1 d2 K0 L0 F0 K1 L1 F1 K2 L2 F2 P I J S T b0 b1 b2 e H0 HL0 H1 HL1 H2 HL2 EQ dT f32 num_f32 D zo HZ a Pa Fa ltac:(eapply Rle_trans; [exact Sa|apply bpow_le; lia])) as (y & Ey & Py & H).
  pose proof (gradient_acc _ _ _ _ _ _ _ _ _ _ H0 HL0) as A0. facts A0 HL0 HK H4 HLw H47 Hq. pose proof (gradient_acc _ _ _ _ _ _ _ _ _ _ H1 HL1) as A1. facts A1 HL1 HK1 H41 HLw1 H471 Hq1.
  pose proof (gradient_acc _ _ _ _ _ _ _ _ _ _ H2 HL2) as A2. facts A2 HL2 HK2 H42 HLw2 H472 Hq2.
  assert (S0 : 0 <= Sum) by (apply rsum_pos; intros; apply rsum_pos; intros; apply sums_pos1). assert (HKK : 1 <= K0 * K1 * K2). { replace 1 with (1 * 1 * 1) by ring. apply Rmult_le_compat; try lra. apply Rmult_le_compat; lra. }
  pose proof (k_le _ _ HKK S0 Sa) as KL. pose proof (proj1 u32_small) as U. pose proof (pos_INR d0) as D0. pose proof (pos_INR d1) as D1. pose proof (pos_INR d2) as D2. pose proof (bpow_gt_0 radix2 (-150)) as E0.
  pose proof (tame2 _ _ (proj2 (proj2 Hs0)) (proj2 (proj2 Hs1))) as TQ2.
  assert (TQ : bpow radix2 (-30) <= Rabs q <= bpow radix2 30).
  { unfold q. rewrite Rabs_mult. destruct TQ2 as [X1 X2]. destruct Hs2 as (_ & _ & Y1 & Y2). change (-30)%Z with (-20 + -10)%Z. change 30%Z with (20 + 10)%Z. rewrite !bpow_plus. pose proof (bpow_ge_0 radix2 (-10)). pose proof (bpow_ge_0 radix2 (-20)). split; apply Rmult_le_compat; auto using Rabs_pos. }
  assert (HT : tame q) by exact TQ. assert (HT2 : tame (B2R s0 ^ d0 * B2R s1 ^ d1)) by (apply (tame_w _ 20); [lia|exact TQ2]).
  pose proof (proj1 (proj2 Hs0)) as Z0. pose proof (proj1 (proj2 Hs1)) as Z1. pose proof (proj1 (proj2 Hs2)) as Z2.
  assert (W2 : pw (nmul (npowi s0 (as_i32 d0)) (npowi s1 (as_i32 d1))) (B2R s0 ^ d0 * B2R s1 ^ d1) (d0 + d1 + 1)). { apply pw_mul; [apply npow_pw; auto|apply npow_pw; auto|exact HT2|apply small_n; lia]. }
  assert (W : pw (nmul (nmul (npowi s0 (as_i32 d0)) (npowi s1 (as_i32 d1))) (npowi s2 (as_i32 d2))) q (d0 + d1 + 1 + d2 + 1)). { apply pw_mul; [exact W2|apply npow_pw; auto|exact HT|apply small_n; lia]. }
  exists (scale_arr y (nmul (nmul (npowi s0 (as_i32 d0)) (npowi s1 (as_i32 d1))) (npowi s2 (as_i32 d2)))). split; [|split].
  - unfold s3_gradient in Ey |- *. destruct (gradient _ _ a _ _) as [o| |]; cbn [bind] in Ey |- *; try congruence. destruct (gradient _ _ o _ _) as [o'| |]; cbn [bind] in Ey |- *; try congruence. destruct (gradient _ _ o' _ _) as [o2| |]; cbn [bind s3_scale] in Ey |- *; congruence.
  - apply proper_scaled. exact Py.
  - intros i j k Hi Hj Hk. rewrite (get_scaled dT D [o0; o1; o1] y _ [i; j; k] Py); [|repeat constructor; auto].
    assert (B : 0 <= L0 * L1 * L2 * (K0 * K1 * K2) * (INR n0 * INR n1 * INR n1) * bpow radix2 (-150) <= 1).
    { pose proof (pos_INR n0). pose proof (pos_INR n1). split. repeat apply Rmult_le_pos; try lra.
      apply Rle_trans with (bpow radix2 18 * bpow radix2 18 * bpow radix2 18 * bpow radix2 40 * (bpow radix2 16 * bpow radix2 16 * bpow radix2 16) * bpow radix2 (-150)). apply Rmult_le_compat_r; [lra|].
      apply mul_up; split; repeat apply Rmult_le_pos; try lra.
      + apply mul_up; split; repeat apply Rmult_le_pos; try lra. apply mul_up; split; repeat apply Rmult_le_pos; try lra. apply mul_up; lra.
      + apply mul_up; split; auto; [apply Rmult_le_pos; lra|apply mul_up; split; auto; [apply Hq|apply Hq1]|apply Hq1].
      + rewrite !bp. change 1 with (bpow radix2 0). apply bpow_le. lia. }
    assert (LA : 0 <= 11 / 10 * (L0 + L1 + L2) * u32 <= / 10) by lra.
    destruct (scaled_close T e D _ q (d0 + d1 + 1 + d2 + 1) _ _ _ _ _ _ HD W HT ltac:(lia) (H i j k Hi Hj Hk) LA S0 HKK B Sa) as [F EB]. split; [exact F|]. eapply Rle_trans; [exact EB|]. apply Rplus_le_compat_r. unfold Rdiv. apply Rmult_le_compat_r. left. apply Rinv_0_lt_compat, Rabs_pos_lt, tame_nz; auto.
    fold m0 m1. fold Sum. assert (KS : 0 <= K0 * K1 * K2 * u32 * Sum). { apply Rmult_le_pos; auto. apply Rmult_le_pos; lra. } unfold lam. rewrite !plus_INR. change (INR 1) with 1. apply Rplus_le_compat; [|fold n0 n1; clear -B; lra].
    replace ((26 * / 25 * (11 * / 10 * (L0 + L1 + L2) * u32) + 11 / 10 * (INR d0 + INR d1 + 1 + INR d2 + 1 + 4) * u32) * (K0 * K1 * K2) * Sum) with ((26 / 25 * (11 / 10) * (L0 + L1 + L2) + 11 / 10 * (INR d0 + INR d1 + INR d2 + 6)) * (K0 * K1 * K2 * u32 * Sum)) by field.
    replace (6 * / 5 * (L0 + L1 + L2 + INR d0 + INR d1 + INR d2 + 6) * (K0 * K1 * K2) * u32 * Sum) with (6 / 5 * (L0 + L1 + L2 + INR d0 + INR d1 + INR d2 + 6) * (K0 * K1 * K2 * u32 * Sum)) by field. apply Rmult_le_compat_r; auto. lra.
Qed.
Print Assumptions C68_space3_scaled_gradient_f32.

(** ** Cases *)
(** fair scales: any finite factor between 2^-10 and 2^10 for first derivatives, any factor for the order 0 *)
Theorem C68_fair_scales_exist :
  (forall s : f32, is_finite s = true -> fair_scale32 s 0) /\
  (forall s : f32, is_finite s = true -> bpow radix2 (-10) <= Rabs (B2R s) <= bpow radix2 10 -> fair_scale32 s 1) /\
  (forall (s : f32) d, is_finite s = true -> (1 <= d <= 5)%nat -> bpow radix2 (-2) <= Rabs (B2R s) <= bpow radix2 2 -> fair_scale32 s d) /\
  fair_scale32 (nofZ 3) 2 /\ B2R (nofZ 3 : f32) ^ 2 = 9.
Proof.
  assert (O : bpow radix2 (-10) <= 1 <= bpow radix2 10) by (change 1 with (bpow radix2 0); split; apply bpow_le; lia).
  assert (P3 : forall (s : f32) d, is_finite s = true -> (1 <= d <= 5)%nat -> bpow radix2 (-2) <= Rabs (B2R s) <= bpow radix2 2 -> fair_scale32 s d).
  { intros s d F Hd [B1 B2]. split; auto. split; [lia|]. rewrite <- RPow_abs. generalize dependent (Rabs (B2R s)). intros r B1 B2.
    assert (Q : forall j, (j <= 5)%nat -> bpow radix2 (-2 * Z.of_nat j) <= r ^ j <= bpow radix2 (2 * Z.of_nat j)).
    { induction j as [|j IH]; intros Hj. cbn; lra. destruct (IH ltac:(lia)) as [I1 I2]. cbn [pow]. pose proof (bpow_ge_0 radix2 (-2)). pose proof (bpow_ge_0 radix2 (-2 * Z.of_nat j)).
      replace (-2 * Z.of_nat (S j))%Z with (-2 + -2 * Z.of_nat j)%Z by lia. replace (2 * Z.of_nat (S j))%Z with (2 + 2 * Z.of_nat j)%Z by lia. rewrite !bpow_plus. split; apply Rmult_le_compat; lra. }
    destruct (Q d ltac:(lia)) as [Q1 Q2]. split; [eapply Rle_trans; [|exact Q1]|eapply Rle_trans; [exact Q2|]]; apply bpow_le; lia. }
  split; [|split; [|split; [exact P3|]]].
  - intros s F. split; auto. split; [lia|]. cbn [pow]. rewrite Rabs_R1. exact O.
  - intros s F B. split; auto. split; [lia|]. rewrite pow_1. exact B.
  - destruct (fa_int _ _ _ _ _ _ _ _ f32_float_arith 3 ltac:(lia)) as [F V]. change (B2R (nofZ 3 : f32)) with (f32_val (nofZ 3)). split.
    + apply P3; [exact F|lia|]. change (B2R (nofZ 3 : f32)) with (f32_val (nofZ 3)). rewrite V, Rabs_pos_eq by lra. split. apply Rle_trans with (bpow radix2 0). apply bpow_le; lia. cbn; lra. change (bpow radix2 2) with 4. lra.
    + rewrite V. ring.
Qed.
Print Assumptions C68_fair_scales_exist.

(** the second derivative on 8 Chebyshev points, lengths scaled by 3 *)
Example C68_example_scaled :
  forall (E : ext f32), ext_ok E -> exists b, new_chebyshev 8 = Ok b /\ let sp := mk_space1 (r2r_ops_x (T := f32) E b) in
  forall (a : arr f32), proper [8%nat] a -> (forall p, (p < 8)%nat -> is_finite (get a [p]) = true /\ Rabs (B2R (get a [p])) <= 1) -> forall zo, zip_ok zo ->
  exists y, s1_gradient zo sp a 2 (Some (nofZ 3 : f32)) = Ok y /\ forall i, (i < 8)%nat -> is_finite (get y [i]) = true /\
    Rabs (B2R (get y [i]) - fst (times 2 (cheb_derivative 8) (fun p => (B2R (get a [p]), 0)) i) / 9) <= / 100.
Proof.
  intros E HE. destruct (proj1 (C68_gradients_exist E 2 8 ltac:(lia)) f32 vec_self f32_real fs32_real) as (b & Eb & G). exists b. split; auto. intros sp a Pa Ha zo HZ.
  assert (LB : len_phys (r2r_ops_x (T := f32) E b) = 8%nat /\ len_spec (r2r_ops_x (T := f32) E b) = 8%nat /\ len_orth (r2r_ops_x (T := f32) E b) = 8%nat).
  { apply new_chebyshev_inv in Eb as [_ ->]. repeat split. }
  destruct LB as (L1 & L2 & L3). destruct C68_fair_scales_exist as (_ & _ & _ & FS & E9).
  assert (SS : 0 <= rsum 8 (fun p => esize f32_real (get a [p])) <= 8). { split. apply sums_pos1. eapply Rle_trans. apply (rsum_le 8 _ (fun _ => 1)). intros p Hp. unfold esize. cbn [ev f32_real fst snd]. rewrite Rabs_R0. destruct (Ha p Hp) as [_ B]. unfold f32_val. lra. rewrite rsum_const. cbn; lra. }
  assert (K : 2 * INR 8 ^ (2 * 2 - 1) = 1024) by (cbn; ring). rewrite K in G. assert (LL : 4 * INR (2 + 1) * INR 8 = 96) by (cbn; ring). rewrite LL in G.
  assert (HL : 96 * bpow radix2 (-24) <= / 100). { pose proof (proj1 u32_small). lra. }
  pose proof (C68_space1_scaled_gradient_f32 E HE 2 1024 96 _ _ _ _ _ f32_real G HL dflt_num dflt_num dflt_num div_real zo HZ fd32_real a) as H. cbv zeta in H. rewrite L1, L2, L3 in H.
  destruct (H Pa ltac:(intros p Hp; apply Ha; auto) ltac:(apply Rle_trans with (bpow radix2 14); [change (bpow radix2 14) with 16384; lra|apply bpow_le; lia]) (nofZ 3) FS) as (y & Ey & _ & Y). exists y. split; [exact Ey|].
  intros i Hi. destruct (Y i Hi) as [F B]. split; [exact F|]. clear H Y Ey. rewrite E9 in B. unfold edist in B. cbn [ev f32_real fst snd divided_by] in B. unfold f32_val in B.
  eapply Rle_trans; [|eapply Rle_trans; [exact B|]].
  - rewrite <- (Rplus_0_r (Rabs _)) at 1. apply Rplus_le_compat_l, Rabs_pos.
  - set (S8 := rsum 8 _) in *. assert (E1 : bpow radix2 (-150) <= bpow radix2 (-60)) by (apply bpow_le; lia). assert (E2 : bpow radix2 (-67) <= bpow radix2 (-60)) by (apply bpow_le; lia). pose proof (bpow_gt_0 radix2 (-150)) as E0.
    revert SS E0 E1 E2. generalize (bpow radix2 (-150)) (bpow radix2 (-67)). clearbody S8. clear. intros et t S1 E0 E1 E2. rewrite (Rabs_pos_eq 9) by lra. replace (INR 8) with 8 by (cbn; lra). replace (INR 2) with 2 by (cbn; lra).
    change (bpow radix2 (-60)) with (/ IZR (2 ^ 60)) in *. change (bpow radix2 (-24)) with (/ IZR (2 ^ 24)). cbv [Z.pow Z.pow_pos Pos.iter Z.mul Pos.mul] in *. lra.
Qed.

(** ** Where it fails
    num-complex divides by the square of the scale.  When a first derivative is
    scaled by a factor whose square underflows, no entry of a complex result is
    finite, whatever the input; the same factor is harmless for real entries. *)
Lemma div_zero_inf (x z : f32) : is_finite z = true -> B2R z = 0 -> is_finite (ndiv x z) = false.
Proof.
  intros F V. destruct z as [sz|sz| |sz mz ez Bz]; try discriminate F.
  - destruct x; reflexivity.
  - exfalso. cbn in V. apply eq_0_F2R in V. destruct sz; discriminate V.
Qed.
Lemma square_underflows (q : f32) : is_finite q = true -> Rabs (B2R q) <= bpow radix2 (-76) -> f32_fin (nmul q q) /\ f32_val (nmul q q) = 0.
Proof.
  intros F B. assert (Z : rnd32 (f32_val q * f32_val q) = 0).
  { set (x := f32_val q * f32_val q). assert (BX : Rabs x <= bpow radix2 (-152)). { unfold x. rewrite Rabs_mult. change (-152)%Z with (-76 + -76)%Z. rewrite bpow_plus. apply Rmult_le_compat; auto using Rabs_pos. }
    destruct (Req_dec x 0) as [->|NX]; [apply rnd32_0|]. destruct (mag radix2 x) as (ex & Hex). specialize (Hex NX).
    assert (L : (ex <= -151)%Z). { destruct (Z_le_gt_dec ex (-151)); auto. exfalso. assert (bpow radix2 (-151) <= bpow radix2 (ex - 1)) by (apply bpow_le; lia). assert (bpow radix2 (-152) < bpow radix2 (-151)) by (apply bpow_lt; lia). lra. }
    unfold ieee_rnd. apply round_N_small with ex; auto. unfold FLT_exp. lia. }
  assert (Fm : f32_fin (nmul q q)). { apply (fa_mulF _ _ _ _ _ _ _ _ f32_float_arith); auto. rewrite Z. unfold ieee_inr. rewrite Rabs_R0. apply bpow_gt_0. }
  split; auto. destruct (fa_mul _ _ _ _ _ _ _ _ f32_float_arith q q Fm) as (_ & _ & V). rewrite V. exact Z.
Qed.
Theorem C68_tiny_scale_ruins_complex_results :
  forall zo P S (sp : space1 P S (cplx f32)) (a : arr (cplx f32)) (s : f32), is_finite s = true -> Rabs (B2R s) <= bpow radix2 (-76) ->
  (forall (dT : Dflt (cplx f32)) y, s1_gradient zo sp a 1 (Some s) = Ok y -> forall k, (k < length (dat y))%nat -> is_finite (fst (dat y).[k]) = false /\ is_finite (snd (dat y).[k]) = false) /\
  (forall (sp' : space1 P S f32) (a' : arr f32) (dT : Dflt f32) y, s1_gradient zo sp' a' 1 (None (A := f32)) = Ok y -> bpow radix2 (-80) <= Rabs (B2R s) ->
     (forall k, (k < length (dat y))%nat -> is_finite ((dat y).[k]) = true /\ Rabs (B2R ((dat y).[k])) <= bpow radix2 40) ->
     exists y', s1_gradient zo sp' a' 1 (Some s) = Ok y' /\ forall k, (k < length (dat y))%nat -> is_finite ((dat y').[k]) = true).
Proof.
  intros zo P S sp a s Fs Bs. assert (P1 : f32_fin (npowi s (as_i32 1)) /\ f32_val (npowi s (as_i32 1)) = f32_val s).
  { change (npowi s (as_i32 1)) with (nmul s n1). destruct (fa_1 _ _ _ _ _ _ _ _ f32_float_arith) as [F1 V1]. assert (RS : rnd32 (f32_val s) = f32_val s) by apply (fa_float _ _ _ _ _ _ _ _ f32_float_arith s Fs).
    assert (F : f32_fin (nmul s n1)). { apply (fa_mulF _ _ _ _ _ _ _ _ f32_float_arith); auto. rewrite V1, Rmult_1_r, RS. unfold ieee_inr. apply abs_B2R_lt_emax. } split; auto. destruct (fa_mul _ _ _ _ _ _ _ _ f32_float_arith s n1 F) as (_ & _ & V). rewrite V, V1, Rmult_1_r. auto. }
  destruct P1 as [Fq Vq]. set (q := npowi s (as_i32 1)) in *. split.
  - intros dT y. unfold s1_gradient. fold q. destruct (gradient _ _ _ _ _) as [o| |]; cbn [bind]; intros Ey; try discriminate. assert (Y : y = scale_arr o q) by congruence. subst y.
    cbn [scale_arr dat]. rewrite map_length. intros k Hk. unfold at_. rewrite (nth_indep _ _ (div_into dflt q)) by (rewrite map_length; auto). rewrite (map_nth (fun x => div_into x q)).
    destruct (square_underflows q Fq) as [F2 V2]. { change (B2R q) with (f32_val q). rewrite Vq. exact Bs. }
    destruct (times0 n0) as [Z1 Z2]. apply (fa_0 _ _ _ _ _ _ _ _ f32_float_arith). destruct (proj1 (sum0 (nmul q q) (nmul n0 n0) F2 Z1 Z2)) as [NF NV]. rewrite V2 in NV.
    cbv [div_into div_cplx cdiv]. cbn [fst snd]. split; apply div_zero_inf; auto.
  - intros sp' a' dT y. unfold s1_gradient. fold q. destruct (gradient _ _ _ _ _) as [o| |]; cbn [bind]; intros Ey Ls Hy; try discriminate. assert (Y : y = o) by congruence. subst y.
    exists (scale_arr o q). split; [reflexivity|]. intros k Hk. cbn [scale_arr dat]. unfold at_. rewrite (nth_indep _ _ (div_into dflt q)) by (rewrite map_length; auto). rewrite (map_nth (fun x => div_into x q)). destruct (Hy k Hk) as [Fk Bk]. unfold at_ in Fk, Bk.
    pose proof (bpow_gt_0 radix2 (-80)) as P6. assert (NQ : f32_val q <> 0). { rewrite Vq. intros Z. unfold f32_val in Z. rewrite Z, Rabs_R0 in Ls. lra. }
    cbv [div_into div_real]. apply (fa_divF _ _ _ _ _ _ _ _ f32_float_arith); auto. apply fin_of. apply (rnd_le32 _ 120); [lia|]. rewrite Rabs_div by auto. unfold Rdiv. change 120%Z with (40 + 80)%Z. rewrite bpow_plus. apply Rmult_le_compat; auto using Rabs_pos.
    left. apply Rinv_0_lt_compat, Rabs_pos_lt; auto. replace (bpow radix2 80) with (/ bpow radix2 (-80)) by (rewrite <- bpow_opp; reflexivity). apply Rinv_le; auto. rewrite Vq. exact Ls.
Qed.
Print Assumptions C68_tiny_scale_ruins_complex_results.
