(** C69: coefficients that go to the orthogonal basis and back k times in f64. *)
From Coq Require Import List Arith ZArith Reals Bool Lra Lia.
From Flocq Require Import Core BinarySingleNaN.
From Verif Require Import Base Num Linalg Stencils ChebPoly Cheb ChebFacts Compo CompoProofs Fourier FourierF64 FourierFacts FourierProofs Bases BaseLin LibBase NdArray NdArrayFacts AxisFacts AxisProps PropAxis SpaceFacts SpaceBases SpaceStages SpaceOrder Space PropSpace PropSpace2 PropSpace3 PropSpace4 PropElements
  ExtLib AnyArith ExtFacts AnyBase PropAny PropAny2 Rounding LibAcc LibIdeal RndCheb RndFft RndR2c RndFinite2 RndDirichlet RndNeumann RndGrad PropRound PropRound2 PropRound4 PropTrans2 RndAxis RndOps RndAxis2 RndOps2 SpaceAcc RndSpace PropTrans3 SpaceAcc2 PropTrans4 SpaceVal RndVal RndVal2 PropTrans5 GradSpec GradOp RndGrad3 RndGrad4 RndGrad5 RndGrad6 OrthoSpec RndOrtho OrthoSpec RndOrtho PropOrtho RndOrtho3 RndOrtho3 PropOrtho3 Trips PropTrips.
Import ListNotations.
Local Open Scope R_scope.
Local Notation u64 := (bpow radix2 (-53)).
Local Notation eta64 := (bpow radix2 (-1075)).

Lemma trips_small Y K O X LL nn cN cK : 0 <= Y -> 1 <= K -> 1 <= O -> 0 <= X -> 0 <= LL <= bpow radix2 141 -> 0 <= nn <= bpow radix2 60 -> 7 <= cN -> 0 <= cK <= 1000 ->
  2 * Y * (K * (X + cN * O) * u64) <= 1 -> 2 * Y * ((cK * K * O + 3 * LL) * nn * eta64) <= 1.
Proof.
  intros HY HK HO HX HL Hn HcN HcK H. pose proof (bpow_gt_0 radix2 (-53)) as U. pose proof (bpow_gt_0 radix2 (-1075)) as ET.
  assert (KO : 1 * 1 <= K * O) by (apply Rmult_le_compat; lra). assert (YK : 0 <= Y * K) by (apply Rmult_le_pos; lra).
  assert (Z1 : Y * (K * O) * u64 <= / 14).
  { assert (Y * K * (7 * O) * u64 <= Y * K * (X + cN * O) * u64). { apply Rmult_le_compat_r; [lra|]. apply Rmult_le_compat_l; auto. assert (7 * O <= cN * O) by (apply Rmult_le_compat_r; lra). lra. }
    replace (2 * Y * (K * (X + cN * O) * u64)) with (2 * (Y * K * (X + cN * O) * u64)) in H by ring. replace (Y * K * (7 * O) * u64) with (7 * (Y * (K * O) * u64)) in H0 by ring. lra. }
  assert (Z2 : Y * (K * O) <= bpow radix2 53). { apply (Rmult_le_reg_r u64); auto. rewrite <- bpow_plus. change (bpow radix2 (53 + -53)) with 1. lra. }
  assert (Z3 : Y <= bpow radix2 53). { assert (Y * 1 <= Y * (K * O)) by (apply Rmult_le_compat_l; lra). lra. }
  assert (A : 0 <= Y * (cK * K * O + 3 * LL) <= bpow radix2 200).
  { replace (Y * (cK * K * O + 3 * LL)) with (cK * (Y * (K * O)) + 3 * (Y * LL)) by ring.
    assert (0 <= Y * (K * O)) by (apply Rmult_le_pos; lra). assert (0 <= Y * LL) by (apply Rmult_le_pos; lra).
    assert (cK * (Y * (K * O)) <= 1000 * bpow radix2 53) by (apply Rmult_le_compat; lra). assert (Y * LL <= bpow radix2 53 * bpow radix2 141) by (apply Rmult_le_compat; lra).
    split. assert (0 <= cK * (Y * (K * O))) by (apply Rmult_le_pos; lra). lra. eapply Rle_trans; [apply Rplus_le_compat; [eassumption|apply Rmult_le_compat_l; [lra|eassumption]]|].
    rewrite <- bpow_plus. change (bpow radix2 (53 + 141)) with (IZR (2 ^ (53 + 141))). change (bpow radix2 53) with (IZR (2 ^ 53)). change (bpow radix2 200) with (IZR (2 ^ 200)). rewrite <- !mult_IZR, <- plus_IZR. apply IZR_le. now vm_compute. }
  replace (2 * Y * ((cK * K * O + 3 * LL) * nn * eta64)) with (bpow radix2 1 * (Y * (cK * K * O + 3 * LL)) * nn * eta64) by (change (bpow radix2 1) with 2; ring).
  apply Rle_trans with (bpow radix2 1 * bpow radix2 200 * bpow radix2 60 * eta64).
  - pose proof (bpow_gt_0 radix2 1). apply Rmult_le_compat_r; [lra|]. apply Rmult_le_compat; try lra. apply Rmult_le_pos; lra. apply Rmult_le_compat_l; lra.
  - rewrite <- !bpow_plus. change 1 with (bpow radix2 0). apply bpow_le. lia.
Qed.
Lemma L_small L : 4 <= L -> L * u64 <= / 100 -> 0 <= L <= bpow radix2 47.
Proof.
  intros H0 H. split. lra. apply (Rmult_le_reg_r u64). apply bpow_gt_0. eapply Rle_trans; [exact H|]. rewrite <- bpow_plus. change (bpow radix2 (47 + -53)) with (/ IZR (2 ^ (53 - 47))). cbn. lra.
Qed.
Lemma prod2_small a b k l : 0 <= a <= bpow radix2 k -> 0 <= b <= bpow radix2 l -> 0 <= a * b <= bpow radix2 (k + l).
Proof. intros. rewrite bpow_plus. split. apply Rmult_le_pos; lra. apply Rmult_le_compat; lra. Qed.
Lemma top_ok2 S X : S <= bpow radix2 600 -> X <= 1 -> 2 * S + X <= bpow radix2 700.
Proof.
  intros HS HX. assert (E : 4 * bpow radix2 600 = bpow radix2 (2 + 600)) by (rewrite bpow_plus; reflexivity). assert (bpow radix2 (2 + 600) <= bpow radix2 700) by (apply bpow_le; lia).
  assert (1 <= bpow radix2 600) by (change 1 with (bpow radix2 0); apply bpow_le; lia). lra.
Qed.

Theorem C69_space1_ortho_f64 :
  forall E : ext f64, ext_ok E -> forall K0 L0 F0 P S T (b0 : base_ops P S T) (e : fel T),
  f64_from_ortho E K0 L0 P S T b0 e F0 ->
  forall (dP : Dflt P) (dS : Dflt S) (dT : Dflt T) zo, zip_ok zo ->
  let sp := mk_space1 b0 in let n0 := len_phys b0 in let m0 := len_spec b0 in let o0 := len_orth b0 in
  forall a : arr T, proper [m0] a -> (forall p, (p < m0)%nat -> ef e (get a [p])) ->
  let Sum := rsum m0 (fun p => esize e (get a [p])) in Sum <= bpow radix2 600 ->
  forall r, 2 * INR r * INR m0 * (K0 * (2 * (L0) + 7 * (INR o0)) * bpow radix2 (-53)) <= 1 ->
  exists y, repeat_trip r (fun x => let* c := s1_to_ortho zo sp x in s1_from_ortho zo sp c) a = Ok y /\ proper [m0] y /\
    forall i, (i < m0)%nat -> ef e (get y [i]) /\
      edist e (get y [i]) (ev e (get a [i])) <= 2 * INR r * (K0 * (2 * (L0) + 7 * (INR o0)) * bpow radix2 (-53) * Sum + (19 * (K0) * (INR o0) + 3 * (L0)) * (INR n0) * bpow radix2 (-1075)).
Proof.
  intros E HE K0 L0 F0 P S T b0 e H0 dP dS dT zo HZ sp n0 m0 o0 a Pa Fa Sum Sa r HQ.
  assert (U0 : 1 <= K0 /\ 4 <= L0 /\ L0 * u64 <= / 100 /\ 1 <= INR o0 /\ 0 <= INR n0 <= bpow radix2 20).
  { destruct (undo_ex _ _ _ _ _ _ _ _ _ H0) as (T0 & _ & [_ _ _ _ A1 A2 A3 A4 A5]). change (1 <= INR o0 <= bpow radix2 20) in A4. change (1 <= INR n0 <= bpow radix2 20) in A5. clear - A1 A2 A3 A4 A5. repeat split; lra. }
  destruct U0 as (HK0 & HL0 & Lu0 & Ho0 & NN0).
  assert (BK : 1 <= K0) by exact HK0. assert (BO : 1 <= INR o0) by exact Ho0.
  assert (BL : 0 <= L0 <= bpow radix2 47) by exact (L_small _ HL0 Lu0). assert (BN : 0 <= INR n0 <= bpow radix2 20) by exact NN0.
  assert (BL' : 0 <= L0 <= bpow radix2 141) by (split; [apply BL|eapply Rle_trans; [apply BL|apply bpow_le; lia]]). assert (BN' : 0 <= INR n0 <= bpow radix2 60) by (split; [apply BN|eapply Rle_trans; [apply BN|apply bpow_le; lia]]).
  pose proof (bpow_gt_0 radix2 (-53)) as U. pose proof (bpow_gt_0 radix2 (-1075)) as ET.
  assert (BM : 0 <= INR m0) by (apply pos_INR).
  assert (S0 : 0 <= Sum) by (unfold Sum; apply rsum_pos; intros; apply esize_pos).
  set (ee := K0 * (2 * (L0) + 7 * (INR o0)) * bpow radix2 (-53)) in *. set (tt0 := (19 * (K0) * (INR o0) + 3 * (L0)) * (INR n0) * bpow radix2 (-1075)).
  assert (He : 0 <= ee) by (unfold ee; apply Rmult_le_pos; [apply Rmult_le_pos; lra|lra]).
  assert (Ht : 0 <= tt0). { unfold tt0. apply Rmult_le_pos; [|lra]. apply Rmult_le_pos; [|lra]. assert (0 <= (K0) * (INR o0)) by (apply Rmult_le_pos; lra). replace (19 * (K0) * (INR o0)) with (19 * ((K0) * (INR o0))) by ring. lra. }
  assert (RG : 2 * Sum + 2 * INR r * (INR m0) * tt0 <= bpow radix2 700).
  { apply top_ok2; [exact Sa|]. replace (2 * INR r * (INR m0) * tt0) with (2 * (INR r * (INR m0)) * ((19 * (K0) * (INR o0) + 3 * (L0)) * (INR n0) * eta64)) by (unfold tt0; ring).
    apply (trips_small _ _ _ (2 * (L0)) _ _ 7); auto; try lra. apply Rmult_le_pos; [apply pos_INR|exact BM].
    replace (2 * (INR r * (INR m0)) * ((K0) * (2 * (L0) + 7 * (INR o0)) * u64)) with (2 * INR r * (INR m0) * ee) by (unfold ee; ring). exact HQ. }
  destruct (many_trips (D1 m0) (S1 m0) _ (isum1 m0) (fun x => proper [m0] x /\ (forall i, (i < m0)%nat -> ef e (get x [i])))
    (fun x p => ev e (get x [snd p])) (fun _ z => z) ltac:(reflexivity) ltac:(intros; apply Rle_refl) ltac:(intros; apply Rle_refl)
    ee tt0 (bpow radix2 700) (fun x => let* c := s1_to_ortho zo sp x in s1_from_ortho zo sp c) He Ht ltac:(rewrite ?Rmult_1_l; exact BM)
    ) with (k := r) (x := a) as (y & Ey & [Py Fy] & Ny & Zy).
  - intros x [Px Fx] Sx. destruct (C60_space1_ortho_there_and_back_f64 E HE K0 L0 F0 P S T b0 e H0 dP dS dT zo HZ x Px Fx Sx) as (c & y & Ec & Ey & Py & Hy).
    exists y. split. { change sp with (mk_space1 b0). rewrite Ec. exact Ey. } split. { split; [exact Py|]. intros i; intros; apply Hy; auto. }
    intros p Hp. destruct Hp as [_ Hp0]. apply Hy; auto.
  - split; auto.
  - rewrite ?Rmult_1_l. exact HQ.
  - rewrite ?Rmult_1_l. exact RG.
  - exists y. split; [exact Ey|]. split; [exact Py|]. intros i; intros. split; [apply Fy; auto|].
    destruct r as [|r].
    + rewrite (Zy eq_refl). unfold edist. rewrite !Rminus_diag_eq, Rabs_R0 by reflexivity. cbn [INR]. rewrite Rmult_0_r, Rmult_0_l, Rplus_0_r. apply Rle_refl.
    + exact (Ny ltac:(discriminate) (tt, i) ltac:(split; [constructor|auto])).
Qed.
Print Assumptions C69_space1_ortho_f64.

Theorem C69_space2_ortho_f64 :
  forall E : ext f64, ext_ok E -> forall K0 L0 F0 K1 L1 F1 P I S T (b0 : base_ops I S T) (b1 : base_ops P I T) (e : fel T),
  f64_from_ortho E K0 L0 I S T b0 e F0 -> f64_from_ortho E K1 L1 P I T b1 e F1 ->
  forall (dP : Dflt P) (dI : Dflt I) (dS : Dflt S) (dT : Dflt T) zo, zip_ok zo ->
  let sp := mk_space2 b0 b1 in let n0 := len_phys b0 in let m0 := len_spec b0 in let o0 := len_orth b0 in let n1 := len_phys b1 in let m1 := len_spec b1 in let o1 := len_orth b1 in
  forall a : arr T, proper [m0; m1] a -> (forall p q, (p < m0)%nat -> (q < m1)%nat -> ef e (get a [p; q])) ->
  let Sum := rsum m0 (fun p => rsum m1 (fun q => esize e (get a [p; q]))) in Sum <= bpow radix2 600 ->
  forall r, 2 * INR r * (INR m0 * INR m1) * ((K0 * K1) * (5 * (L0 + L1) + 13 * (INR o0 * INR o1)) * bpow radix2 (-53)) <= 1 ->
  exists y, repeat_trip r (fun x => let* c := s2_to_ortho zo sp x in s2_from_ortho zo sp c) a = Ok y /\ proper [m0; m1] y /\
    forall i j, (i < m0)%nat -> (j < m1)%nat -> ef e (get y [i; j]) /\
      edist e (get y [i; j]) (ev e (get a [i; j])) <= 2 * INR r * ((K0 * K1) * (5 * (L0 + L1) + 13 * (INR o0 * INR o1)) * bpow radix2 (-53) * Sum + (111 * (K0 * K1) * (INR o0 * INR o1) + 3 * (L0 * L1)) * (INR n0 * INR n1) * bpow radix2 (-1075)).
Proof.
  intros E HE K0 L0 F0 K1 L1 F1 P I S T b0 b1 e H0 H1 dP dI dS dT zo HZ sp n0 m0 o0 n1 m1 o1 a Pa Fa Sum Sa r HQ.
  assert (U0 : 1 <= K0 /\ 4 <= L0 /\ L0 * u64 <= / 100 /\ 1 <= INR o0 /\ 0 <= INR n0 <= bpow radix2 20).
  { destruct (undo_ex _ _ _ _ _ _ _ _ _ H0) as (T0 & _ & [_ _ _ _ A1 A2 A3 A4 A5]). change (1 <= INR o0 <= bpow radix2 20) in A4. change (1 <= INR n0 <= bpow radix2 20) in A5. clear - A1 A2 A3 A4 A5. repeat split; lra. }
  destruct U0 as (HK0 & HL0 & Lu0 & Ho0 & NN0).
  assert (U1 : 1 <= K1 /\ 4 <= L1 /\ L1 * u64 <= / 100 /\ 1 <= INR o1 /\ 0 <= INR n1 <= bpow radix2 20).
  { destruct (undo_ex _ _ _ _ _ _ _ _ _ H1) as (T0 & _ & [_ _ _ _ A1 A2 A3 A4 A5]). change (1 <= INR o1 <= bpow radix2 20) in A4. change (1 <= INR n1 <= bpow radix2 20) in A5. clear - A1 A2 A3 A4 A5. repeat split; lra. }
  destruct U1 as (HK1 & HL1 & Lu1 & Ho1 & NN1).
  assert (BK : 1 <= K0 * K1) by exact (prod_ge_1 _ _ HK0 HK1). assert (BO : 1 <= INR o0 * INR o1) by exact (prod_ge_1 _ _ Ho0 Ho1).
  assert (BL : 0 <= L0 * L1 <= bpow radix2 94) by exact (prod2_small _ _ _ _ (L_small _ HL0 Lu0) (L_small _ HL1 Lu1)). assert (BN : 0 <= INR n0 * INR n1 <= bpow radix2 40) by exact (prod2_small _ _ _ _ NN0 NN1).
  assert (BL' : 0 <= L0 * L1 <= bpow radix2 141) by (split; [apply BL|eapply Rle_trans; [apply BL|apply bpow_le; lia]]). assert (BN' : 0 <= INR n0 * INR n1 <= bpow radix2 60) by (split; [apply BN|eapply Rle_trans; [apply BN|apply bpow_le; lia]]).
  pose proof (bpow_gt_0 radix2 (-53)) as U. pose proof (bpow_gt_0 radix2 (-1075)) as ET.
  assert (BM : 0 <= INR m0 * INR m1) by (repeat apply Rmult_le_pos; apply pos_INR).
  assert (S0 : 0 <= Sum) by (unfold Sum; apply rsum_pos; intros; apply rsum_pos; intros; apply esize_pos).
  set (ee := (K0 * K1) * (5 * (L0 + L1) + 13 * (INR o0 * INR o1)) * bpow radix2 (-53)) in *. set (tt0 := (111 * (K0 * K1) * (INR o0 * INR o1) + 3 * (L0 * L1)) * (INR n0 * INR n1) * bpow radix2 (-1075)).
  assert (He : 0 <= ee) by (unfold ee; apply Rmult_le_pos; [apply Rmult_le_pos; lra|lra]).
  assert (Ht : 0 <= tt0). { unfold tt0. apply Rmult_le_pos; [|lra]. apply Rmult_le_pos; [|lra]. assert (0 <= (K0 * K1) * (INR o0 * INR o1)) by (apply Rmult_le_pos; lra). replace (111 * (K0 * K1) * (INR o0 * INR o1)) with (111 * ((K0 * K1) * (INR o0 * INR o1))) by ring. lra. }
  assert (RG : 2 * Sum + 2 * INR r * (INR m0 * INR m1) * tt0 <= bpow radix2 700).
  { apply top_ok2; [exact Sa|]. replace (2 * INR r * (INR m0 * INR m1) * tt0) with (2 * (INR r * (INR m0 * INR m1)) * ((111 * (K0 * K1) * (INR o0 * INR o1) + 3 * (L0 * L1)) * (INR n0 * INR n1) * eta64)) by (unfold tt0; ring).
    apply (trips_small _ _ _ (5 * (L0 + L1)) _ _ 13); auto; try lra. apply Rmult_le_pos; [apply pos_INR|exact BM].
    replace (2 * (INR r * (INR m0 * INR m1)) * ((K0 * K1) * (5 * (L0 + L1) + 13 * (INR o0 * INR o1)) * u64)) with (2 * INR r * (INR m0 * INR m1) * ee) by (unfold ee; ring). exact HQ. }
  destruct (many_trips (D2 m0 m1) (S2 m0 m1) _ (isum2 m0 m1) (fun x => proper [m0; m1] x /\ (forall i j, (i < m0)%nat -> (j < m1)%nat -> ef e (get x [i; j])))
    (fun x p => ev e (get x [snd (fst p); snd p])) (fun _ z => z) ltac:(reflexivity) ltac:(intros; apply Rle_refl) ltac:(intros; apply Rle_refl)
    ee tt0 (bpow radix2 700) (fun x => let* c := s2_to_ortho zo sp x in s2_from_ortho zo sp c) He Ht ltac:(rewrite ?Rmult_1_l; exact BM)
    ) with (k := r) (x := a) as (y & Ey & [Py Fy] & Ny & Zy).
  - intros x [Px Fx] Sx. destruct (C60_space2_ortho_there_and_back_f64 E HE K0 L0 F0 K1 L1 F1 P I S T b0 b1 e H0 H1 dP dI dS dT zo HZ x Px Fx Sx) as (c & y & Ec & Ey & Py & Hy).
    exists y. split. { change sp with (mk_space2 b0 b1). rewrite Ec. exact Ey. } split. { split; [exact Py|]. intros i j; intros; apply Hy; auto. }
    intros p Hp. destruct Hp as [[_ Hp0] Hp1]. apply Hy; auto.
  - split; auto.
  - rewrite ?Rmult_1_l. exact HQ.
  - rewrite ?Rmult_1_l. exact RG.
  - exists y. split; [exact Ey|]. split; [exact Py|]. intros i j; intros. split; [apply Fy; auto|].
    destruct r as [|r].
    + rewrite (Zy eq_refl). unfold edist. rewrite !Rminus_diag_eq, Rabs_R0 by reflexivity. cbn [INR]. rewrite Rmult_0_r, Rmult_0_l, Rplus_0_r. apply Rle_refl.
    + exact (Ny ltac:(discriminate) (tt, i, j) ltac:(split; [split; [constructor|auto]|auto])).
Qed.
Print Assumptions C69_space2_ortho_f64.

Theorem C69_space3_ortho_f64 :
  forall E : ext f64, ext_ok E -> forall K0 L0 F0 K1 L1 F1 K2 L2 F2 P I J S T (b0 : base_ops J S T) (b1 : base_ops I J T) (b2 : base_ops P I T) (e : fel T),
  f64_from_ortho E K0 L0 J S T b0 e F0 -> f64_from_ortho E K1 L1 I J T b1 e F1 -> f64_from_ortho E K2 L2 P I T b2 e F2 ->
  forall (dP : Dflt P) (dI : Dflt I) (dJ : Dflt J) (dS : Dflt S) (dT : Dflt T) zo, zip_ok zo ->
  let sp := mk_space3 b0 b1 b2 in let n0 := len_phys b0 in let m0 := len_spec b0 in let o0 := len_orth b0 in let n1 := len_phys b1 in let m1 := len_spec b1 in let o1 := len_orth b1 in let n2 := len_phys b2 in let m2 := len_spec b2 in let o2 := len_orth b2 in
  forall a : arr T, proper [m0; m1; m2] a -> (forall p q r, (p < m0)%nat -> (q < m1)%nat -> (r < m2)%nat -> ef e (get a [p; q; r])) ->
  let Sum := rsum m0 (fun p => rsum m1 (fun q => rsum m2 (fun r => esize e (get a [p; q; r])))) in Sum <= bpow radix2 600 ->
  forall r, 2 * INR r * (INR m0 * INR m1 * INR m2) * ((K0 * K1 * K2) * (9 * (L0 + L1 + L2) + 21 * (INR o0 * INR o1 * INR o2)) * bpow radix2 (-53)) <= 1 ->
  exists y, repeat_trip r (fun x => let* c := s3_to_ortho zo sp x in s3_from_ortho zo sp c) a = Ok y /\ proper [m0; m1; m2] y /\
    forall i j k, (i < m0)%nat -> (j < m1)%nat -> (k < m2)%nat -> ef e (get y [i; j; k]) /\
      edist e (get y [i; j; k]) (ev e (get a [i; j; k])) <= 2 * INR r * ((K0 * K1 * K2) * (9 * (L0 + L1 + L2) + 21 * (INR o0 * INR o1 * INR o2)) * bpow radix2 (-53) * Sum + (670 * (K0 * K1 * K2) * (INR o0 * INR o1 * INR o2) + 3 * (L0 * L1 * L2)) * (INR n0 * INR n1 * INR n2) * bpow radix2 (-1075)).
Proof.
  intros E HE K0 L0 F0 K1 L1 F1 K2 L2 F2 P I J S T b0 b1 b2 e H0 H1 H2 dP dI dJ dS dT zo HZ sp n0 m0 o0 n1 m1 o1 n2 m2 o2 a Pa Fa Sum Sa r HQ.
  assert (U0 : 1 <= K0 /\ 4 <= L0 /\ L0 * u64 <= / 100 /\ 1 <= INR o0 /\ 0 <= INR n0 <= bpow radix2 20).
  { destruct (undo_ex _ _ _ _ _ _ _ _ _ H0) as (T0 & _ & [_ _ _ _ A1 A2 A3 A4 A5]). change (1 <= INR o0 <= bpow radix2 20) in A4. change (1 <= INR n0 <= bpow radix2 20) in A5. clear - A1 A2 A3 A4 A5. repeat split; lra. }
  destruct U0 as (HK0 & HL0 & Lu0 & Ho0 & NN0).
  assert (U1 : 1 <= K1 /\ 4 <= L1 /\ L1 * u64 <= / 100 /\ 1 <= INR o1 /\ 0 <= INR n1 <= bpow radix2 20).
  { destruct (undo_ex _ _ _ _ _ _ _ _ _ H1) as (T0 & _ & [_ _ _ _ A1 A2 A3 A4 A5]). change (1 <= INR o1 <= bpow radix2 20) in A4. change (1 <= INR n1 <= bpow radix2 20) in A5. clear - A1 A2 A3 A4 A5. repeat split; lra. }
  destruct U1 as (HK1 & HL1 & Lu1 & Ho1 & NN1).
  assert (U2 : 1 <= K2 /\ 4 <= L2 /\ L2 * u64 <= / 100 /\ 1 <= INR o2 /\ 0 <= INR n2 <= bpow radix2 20).
  { destruct (undo_ex _ _ _ _ _ _ _ _ _ H2) as (T0 & _ & [_ _ _ _ A1 A2 A3 A4 A5]). change (1 <= INR o2 <= bpow radix2 20) in A4. change (1 <= INR n2 <= bpow radix2 20) in A5. clear - A1 A2 A3 A4 A5. repeat split; lra. }
  destruct U2 as (HK2 & HL2 & Lu2 & Ho2 & NN2).
  assert (BK : 1 <= K0 * K1 * K2) by exact (prod_ge_1 _ _ (prod_ge_1 _ _ HK0 HK1) HK2). assert (BO : 1 <= INR o0 * INR o1 * INR o2) by exact (prod_ge_1 _ _ (prod_ge_1 _ _ Ho0 Ho1) Ho2).
  assert (BL : 0 <= L0 * L1 * L2 <= bpow radix2 141) by exact (prod2_small _ _ _ _ (prod2_small _ _ _ _ (L_small _ HL0 Lu0) (L_small _ HL1 Lu1)) (L_small _ HL2 Lu2)). assert (BN : 0 <= INR n0 * INR n1 * INR n2 <= bpow radix2 60) by exact (prod2_small _ _ _ _ (prod2_small _ _ _ _ NN0 NN1) NN2).
  assert (BL' : 0 <= L0 * L1 * L2 <= bpow radix2 141) by (split; [apply BL|eapply Rle_trans; [apply BL|apply bpow_le; lia]]). assert (BN' : 0 <= INR n0 * INR n1 * INR n2 <= bpow radix2 60) by (split; [apply BN|eapply Rle_trans; [apply BN|apply bpow_le; lia]]).
  pose proof (bpow_gt_0 radix2 (-53)) as U. pose proof (bpow_gt_0 radix2 (-1075)) as ET.
  assert (BM : 0 <= INR m0 * INR m1 * INR m2) by (repeat apply Rmult_le_pos; apply pos_INR).
  assert (S0 : 0 <= Sum) by (unfold Sum; apply rsum_pos; intros; apply rsum_pos; intros; apply rsum_pos; intros; apply esize_pos).
  set (ee := (K0 * K1 * K2) * (9 * (L0 + L1 + L2) + 21 * (INR o0 * INR o1 * INR o2)) * bpow radix2 (-53)) in *. set (tt0 := (670 * (K0 * K1 * K2) * (INR o0 * INR o1 * INR o2) + 3 * (L0 * L1 * L2)) * (INR n0 * INR n1 * INR n2) * bpow radix2 (-1075)).
  assert (He : 0 <= ee) by (unfold ee; apply Rmult_le_pos; [apply Rmult_le_pos; lra|lra]).
  assert (Ht : 0 <= tt0). { unfold tt0. apply Rmult_le_pos; [|lra]. apply Rmult_le_pos; [|lra]. assert (0 <= (K0 * K1 * K2) * (INR o0 * INR o1 * INR o2)) by (apply Rmult_le_pos; lra). replace (670 * (K0 * K1 * K2) * (INR o0 * INR o1 * INR o2)) with (670 * ((K0 * K1 * K2) * (INR o0 * INR o1 * INR o2))) by ring. lra. }
  assert (RG : 2 * Sum + 2 * INR r * (INR m0 * INR m1 * INR m2) * tt0 <= bpow radix2 700).
  { apply top_ok2; [exact Sa|]. replace (2 * INR r * (INR m0 * INR m1 * INR m2) * tt0) with (2 * (INR r * (INR m0 * INR m1 * INR m2)) * ((670 * (K0 * K1 * K2) * (INR o0 * INR o1 * INR o2) + 3 * (L0 * L1 * L2)) * (INR n0 * INR n1 * INR n2) * eta64)) by (unfold tt0; ring).
    apply (trips_small _ _ _ (9 * (L0 + L1 + L2)) _ _ 21); auto; try lra. apply Rmult_le_pos; [apply pos_INR|exact BM].
    replace (2 * (INR r * (INR m0 * INR m1 * INR m2)) * ((K0 * K1 * K2) * (9 * (L0 + L1 + L2) + 21 * (INR o0 * INR o1 * INR o2)) * u64)) with (2 * INR r * (INR m0 * INR m1 * INR m2) * ee) by (unfold ee; ring). exact HQ. }
  destruct (many_trips (D3 m0 m1 m2) (S3 m0 m1 m2) _ (isum3 m0 m1 m2) (fun x => proper [m0; m1; m2] x /\ (forall i j k, (i < m0)%nat -> (j < m1)%nat -> (k < m2)%nat -> ef e (get x [i; j; k])))
    (fun x p => ev e (get x [snd (fst (fst p)); snd (fst p); snd p])) (fun _ z => z) ltac:(reflexivity) ltac:(intros; apply Rle_refl) ltac:(intros; apply Rle_refl)
    ee tt0 (bpow radix2 700) (fun x => let* c := s3_to_ortho zo sp x in s3_from_ortho zo sp c) He Ht ltac:(rewrite ?Rmult_1_l; exact BM)
    ) with (k := r) (x := a) as (y & Ey & [Py Fy] & Ny & Zy).
  - intros x [Px Fx] Sx. destruct (C60_space3_ortho_there_and_back_f64 E HE K0 L0 F0 K1 L1 F1 K2 L2 F2 P I J S T b0 b1 b2 e H0 H1 H2 dP dI dJ dS dT zo HZ x Px Fx Sx) as (c & y & Ec & Ey & Py & Hy).
    exists y. split. { change sp with (mk_space3 b0 b1 b2). rewrite Ec. exact Ey. } split. { split; [exact Py|]. intros i j k; intros; apply Hy; auto. }
    intros p Hp. destruct Hp as [[[_ Hp0] Hp1] Hp2]. apply Hy; auto.
  - split; auto.
  - rewrite ?Rmult_1_l. exact HQ.
  - rewrite ?Rmult_1_l. exact RG.
  - exists y. split; [exact Ey|]. split; [exact Py|]. intros i j k; intros. split; [apply Fy; auto|].
    destruct r as [|r].
    + rewrite (Zy eq_refl). unfold edist. rewrite !Rminus_diag_eq, Rabs_R0 by reflexivity. cbn [INR]. rewrite Rmult_0_r, Rmult_0_l, Rplus_0_r. apply Rle_refl.
    + exact (Ny ltac:(discriminate) (tt, i, j, k) ltac:(split; [split; [split; [constructor|auto]|auto]|auto])).
Qed.
Print Assumptions C69_space3_ortho_f64.
