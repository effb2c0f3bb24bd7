(** C54, continued: the Neumann base in floating point. *)
From Coq Require Import List Arith ZArith Reals Bool Lra Lia.
From Flocq Require Import Core BinarySingleNaN.
From Verif Require Import Base Num Linalg Stencils Cheb ChebFacts Compo CompoProofs AnyArith ArithSteps FourierF64 Rounding RndTdma RndDirichlet RndGrad RndFinite RndNeumann PropRound PropRound2.
Import ListNotations.
Local Open Scope R_scope.

Lemma nq_eq j : nq j = (INR j / (INR j + 2)) ^ 2.
Proof. unfold nq. pose proof (pos_INR j). cbn. field. lra. Qed.

(** The coefficients to_ortho returns: phi_j = T_j - (j/(j+2))^2 T_(j+2).  The
    stencil coefficient itself is rounded, so the error has a second part. *)
Theorem C54_neumann_to_ortho :
  forall A (N : Num A) u eta rnd zmax inr fin val, float_arith N u eta rnd zmax inr fin val ->
  forall T (V : Vec A T) (VC : VecC N T V) n c (v o a : list T), (Z.of_nat n * Z.of_nat n <= zmax)%Z -> compo_new KNeumann n = Ok c ->
  length v = (n - 2)%nat -> length o = n -> compo_to_ortho c v o = Ok a ->
  forall p k, (k < n)%nat -> fin (cp p a.[k]) ->
  let q j := (INR j / (INR j + 2)) ^ 2 in
  let exact := (if (k <? n - 2)%nat then val (cp p v.[k]) else 0) - (if (k <? 2)%nat then 0 else q (k - 2)%nat * val (cp p v.[k - 2])) in
  Rabs (val (cp p a.[k]) - exact) <= u * Rabs exact +
    (if (k <? 2)%nat then 0 else 3 * u * (q (k - 2)%nat * Rabs (val (cp p v.[k - 2]))) + 2 * eta * (1 + Rabs (val (cp p v.[k - 2])))).
Proof.
  intros A N u eta rnd zmax inr fin val FA T V VC n c v o a Hz Hc Lv Lo E p k Hk F q exact. destruct (neu_inv n c Hc) as [Hn ->].
  pose proof (proj1 (neu_to_ortho_err FA n v o a p Hn Hz Lv Lo E k Hk F)) as H. unfold neu_coef, X in H. unfold exact, q. rewrite <- nq_eq. exact H.
Qed.

Lemma rsum_head n f : (2 <= n)%nat -> rsum n (fun k => if (k <? n - 2)%nat then f k else 0) = rsum (n - 2) f.
Proof.
  intros Hn. replace n with ((n - 2) + 2)%nat at 1 by lia. rewrite rsum_split, (rsum_0 2).
  - rewrite Rplus_0_r. apply rsum_ext. intros k Hk. destruct (Nat.ltb_spec k (n - 2)); auto; lia.
  - intros k Hk. destruct (Nat.ltb_spec (n - 2 + k) (n - 2)); auto; lia.
Qed.
Lemma rsum_tail n f : (2 <= n)%nat -> rsum n (fun k => if (k <? 2)%nat then 0 else f (k - 2)%nat) = rsum (n - 2) f.
Proof.
  intros Hn. replace n with (2 + (n - 2))%nat at 1 by lia. rewrite rsum_split, (rsum_0 2).
  - rewrite Rplus_0_l. apply rsum_ext. intros k Hk. destruct (Nat.ltb_spec (2 + k) 2); [lia|]. f_equal. lia.
  - intros k Hk. destruct (Nat.ltb_spec k 2); auto; lia.
Qed.
Lemma nq_cancel j : nq j * ((INR j + 2) * (INR j + 2)) = INR j * INR j.
Proof. unfold nq. pose proof (pos_INR j). field. lra. Qed.
Lemma INR_shift k : (2 <= k)%nat -> INR k = INR (k - 2) + 2.
Proof. intros. rewrite minus_INR by lia. replace (INR 2) with 2 by (cbn; ring). ring. Qed.

(** The derivative at the end points s = 1 and s = -1 of the polynomial to_ortho
    returns, sum_k k^2 s^(k+1) a_k, vanishes up to rounding. *)
Theorem C54_neumann_boundary :
  forall A (N : Num A) u eta rnd zmax inr fin val, float_arith N u eta rnd zmax inr fin val ->
  forall T (V : Vec A T) (VC : VecC N T V) n c (v o a : list T), (Z.of_nat n * Z.of_nat n <= zmax)%Z -> compo_new KNeumann n = Ok c ->
  length v = (n - 2)%nat -> length o = n -> compo_to_ortho c v o = Ok a ->
  forall p, (forall k, (k < n)%nat -> fin (cp p a.[k])) -> forall s, s = 1 \/ s = -1 ->
  Rabs (rsum n (fun k => INR k ^ 2 * s ^ (k + 1) * val (cp p a.[k]))) <=
    5 * u * rsum (n - 2) (fun j => INR j ^ 2 * Rabs (val (cp p v.[j]))) + 2 * eta * rsum (n - 2) (fun j => (INR j + 2) ^ 2 * (1 + Rabs (val (cp p v.[j])))).
Proof.
  intros A N u eta rnd zmax inr fin val FA T V VC n c v o a Hz Hc Lv Lo E p F s Hs. destruct (neu_inv n c Hc) as [Hn ->].
  assert (SS : s * s = 1) by (destruct Hs as [-> | ->]; ring). assert (SA : Rabs s = 1) by (destruct Hs as [-> | ->]; [apply Rabs_R1|rewrite Rabs_left; lra]).
  assert (SP : forall k, Rabs (s ^ k) = 1) by (intros; rewrite <- RPow_abs, SA; apply pow1).
  set (Xv := X (val := val) p v). set (Xa := X (val := val) p a).
  pose proof (rn_u _ _ _ (fa_rnd _ _ _ _ _ _ _ _ FA)) as [U _]. pose proof (rn_eta _ _ _ (fa_rnd _ _ _ _ _ _ _ _ FA)) as H0.
  pose proof (fun k Hk => proj1 (neu_to_ortho_err FA n v o a p Hn Hz Lv Lo E k Hk (F k Hk))) as B. fold Xv Xa in B.
  assert (Z : rsum n (fun k => INR k ^ 2 * s ^ (k + 1) * neu_coef n Xv k) = 0).
  { rewrite (rsum_ext n _ (fun k => (if k <? n - 2 then INR k * INR k * s ^ (k + 1) * Xv k else 0) - (if k <? 2 then 0 else INR (k - 2) * INR (k - 2) * s ^ (k - 2 + 1) * Xv (k - 2)%nat))).
    - rewrite rsum_sub, (rsum_head n (fun k => INR k * INR k * s ^ (k + 1) * Xv k)), (rsum_tail n (fun k => INR k * INR k * s ^ (k + 1) * Xv k)) by lia. ring.
    - intros k Hk. unfold neu_coef. assert (G : (2 <= k)%nat -> INR k ^ 2 * s ^ (k + 1) * (nq (k - 2) * Xv (k - 2)%nat) = INR (k - 2) * INR (k - 2) * s ^ (k - 2 + 1) * Xv (k - 2)%nat).
      { intros H2. replace (s ^ (k + 1)) with (s ^ (k - 2 + 1)). 2: { replace (k + 1)%nat with (S (S (k - 2 + 1))) by lia. cbn [pow]. rewrite <- Rmult_assoc, SS. ring. }
        rewrite (INR_shift k H2). rewrite <- (nq_cancel (k - 2)). cbn [pow]. ring. }
      destruct (Nat.ltb_spec k (n - 2)), (Nat.ltb_spec k 2); try (rewrite <- G by lia); cbn [pow]; ring. }
  change (rsum n (fun k => INR k ^ 2 * s ^ (k + 1) * val (cp p a.[k]))) with (rsum n (fun k => INR k ^ 2 * s ^ (k + 1) * Xa k)).
  replace (rsum n (fun k => INR k ^ 2 * s ^ (k + 1) * Xa k)) with (rsum n (fun k => INR k ^ 2 * s ^ (k + 1) * (Xa k - neu_coef n Xv k))).
  2: { rewrite (rsum_ext n _ (fun k => INR k ^ 2 * s ^ (k + 1) * Xa k - INR k ^ 2 * s ^ (k + 1) * neu_coef n Xv k)) by (intros; ring). rewrite rsum_sub, Z. ring. }
  eapply Rle_trans; [apply rsum_abs|].
  eapply Rle_trans.
  { apply (rsum_le n _ (fun k => u * (if k <? n - 2 then INR k ^ 2 * Rabs (Xv k) else 0) + (4 * u * (if k <? 2 then 0 else INR (k - 2) ^ 2 * Rabs (Xv (k - 2)%nat)) +
      2 * eta * (if k <? 2 then 0 else (INR (k - 2) + 2) ^ 2 * (1 + Rabs (Xv (k - 2)%nat)))))).
    intros k Hk. rewrite !Rabs_mult, SP, Rmult_1_r, (Rabs_pos_eq (INR k ^ 2)) by (apply pow_le, pos_INR). specialize (B k Hk).
    pose proof (pow_le (INR k) 2 (pos_INR k)) as K0. eapply Rle_trans; [apply Rmult_le_compat_l; [exact K0|exact B]|].
    assert (D : Rabs (neu_coef n Xv k) <= (if k <? n - 2 then Rabs (Xv k) else 0) + (if k <? 2 then 0 else nq (k - 2) * Rabs (Xv (k - 2)%nat))).
    { unfold neu_coef, Rminus. eapply Rle_trans; [apply Rabs_triang|]. rewrite Rabs_Ropp. pose proof (nq_range (k - 2)) as Q.
      destruct (k <? n - 2), (k <? 2); rewrite ?Rabs_R0, ?Rabs_mult, ?(Rabs_pos_eq (nq (k - 2))) by lra; lra. }
    assert (G : (2 <= k)%nat -> INR k ^ 2 * nq (k - 2) = INR (k - 2) ^ 2). { intros H2. rewrite (INR_shift k H2). cbn [pow]. rewrite !Rmult_1_r, <- (nq_cancel (k - 2)). ring. }
    apply (Rmult_le_compat_l _ _ _ U) in D. apply (Rmult_le_compat_l _ _ _ K0) in D. rewrite Rmult_plus_distr_l.
    eapply Rle_trans; [apply Rplus_le_compat_r; exact D|]. destruct (Nat.ltb_spec k 2).
    - destruct (k <? n - 2); right; ring.
    - rewrite <- (G ltac:(lia)), <- (INR_shift k) by lia. destruct (k <? n - 2); right; ring. }
  rewrite !rsum_add, !rsum_scal_l. rewrite (rsum_head n (fun k => INR k ^ 2 * Rabs (Xv k))), (rsum_tail n (fun k => INR k ^ 2 * Rabs (Xv k))), (rsum_tail n (fun k => (INR k + 2) ^ 2 * (1 + Rabs (Xv k)))) by lia.
  change (fun j => INR j ^ 2 * Rabs (val (cp p v.[j]))) with (fun j => INR j ^ 2 * Rabs (Xv j)). change (fun j => (INR j + 2) ^ 2 * (1 + Rabs (val (cp p v.[j])))) with (fun j => (INR j + 2) ^ 2 * (1 + Rabs (Xv j))).
  lra.
Qed.

(** from_ortho against the same program over the reals. *)
Theorem C54_neumann_from_ortho :
  forall A (N : Num A) u eta rnd zmax inr fin val, float_arith N u eta rnd zmax inr fin val ->
  forall T (V : Vec A T) (VC : VecC N T V) n c cx (a o x : list T), (5 <= n)%nat -> (Z.of_nat n * Z.of_nat n <= zmax)%Z -> INR n ^ 2 * (u + eta) <= 1 ->
  compo_new KNeumann n = Ok c -> compo_new (N := num_R) KNeumann n = Ok cx ->
  length a = n -> length o = (n - 2)%nat ->
  compo_from_ortho c a o = Ok x -> (forall p j, (j < n - 2)%nat -> fin (cp p x.[j])) ->
  forall p (o' y : list R), length o' = (n - 2)%nat -> compo_from_ortho cx (map (fun z => val (cp p z)) a) o' = Ok y ->
  forall Am Xm, (forall k, (k < n)%nat -> Rabs (val (cp p a.[k])) <= Am) -> (forall k, (k < n - 2)%nat -> Rabs (val (cp p x.[k])) <= Xm) ->
  (forall k, (k < n)%nat -> fin (cp p a.[k])) /\
  forall k, (k < n - 2)%nat -> Rabs (val (cp p x.[k]) - y.[k]) <= INR n ^ 2 * (u * (Am + 5 * Xm) + eta * (3 + Am + 5 * Xm)).
Proof.
  intros A N u eta rnd zmax inr fin val FA T V VC n c cx a o x Hn Hz Hs Hc Hcx La Lo E FX p o' y Lo' Ey Am Xm HA HX.
  destruct (neu_inv n c Hc) as [Hn4 ->]. destruct (neu_inv (N := num_R) n cx Hcx) as [_ ->].
  replace (INR n ^ 2) with (INR n * INR n) in * by ring.
  destruct (neu_from_rows FA n a o x Hn Hz Hs La Lo E FX) as [Lx HR]. destruct (HR p) as [Fa Hr]. specialize (Hr Am Xm HA HX). split; auto.
  assert (Lm : length (map (fun z => val (cp p z)) a) = n) by (rewrite map_length; auto).
  destruct (neu_from_rows (exact_float_arith (Z.max 1024 (Z.of_nat n * Z.of_nat n)) ltac:(lia)) n (map (fun z => val (cp p z)) a) o' y Hn ltac:(lia) ltac:(lra) Lm Lo' Ey (fun _ _ _ => I)) as [Ly HY].
  destruct (HY tt) as [_ HY']. clear HY HR.
  set (XR := X (T := R) (val := fun v : R => v) (VC := vecC_self num_R) tt) in *.
  assert (Am' : forall j, (j < n)%nat -> XR (map (fun z => val (cp p z)) a) j = X (val := val) p a j).
  { intros j Hj. unfold XR, X. cbn [cp vecC_self]. rewrite (at_map (fun z => val (cp p z)) a j) by lia. reflexivity. }
  destruct (bounded_max (n - 2) (XR y)) as (Ym & _ & HYm & _).
  assert (HA' : forall k, (k < n)%nat -> Rabs (XR (map (fun z => val (cp p z)) a) k) <= Am) by (intros k Hk; rewrite Am' by auto; apply HA; auto).
  specialize (HY' Am Ym HA' HYm).
  pose proof (rn_u _ _ _ (fa_rnd _ _ _ _ _ _ _ _ FA)) as [U _]. pose proof (rn_eta _ _ _ (fa_rnd _ _ _ _ _ _ _ _ FA)) as H0.
  assert (Am0 : 0 <= Am). { specialize (HA 0%nat ltac:(lia)). pose proof (Rabs_pos (val (cp p a.[0]))). lra. }
  assert (Xm0 : 0 <= Xm). { specialize (HX 0%nat ltac:(lia)). pose proof (Rabs_pos (val (cp p x.[0]))). lra. }
  intros k Hk. set (z := fun j => X (val := val) p x j - XR y j).
  pose proof (neu_dominance n z (u * (56 * Xm + 5 * Am) + eta * (26 + 53 * Xm + 2 * Am)) Hn4) as D.
  assert (HZ : forall j, (j < n - 2)%nat -> Rabs (neu_row (n - 2) z j) <= u * (56 * Xm + 5 * Am) + eta * (26 + 53 * Xm + 2 * Am)).
  { intros j Hj. specialize (Hr j Hj). specialize (HY' j Hj). rewrite !Am' in HY' by lia. rewrite !Rmult_0_l, Rplus_0_r in HY'. apply Rabs_le0, Rminus_diag_uniq in HY'.
    replace (neu_row (n - 2) z j) with (neu_row (n - 2) (X (val := val) p x) j - neu_row (n - 2) (XR y) j) by (unfold neu_row, z; ring). rewrite HY'. exact Hr. }
  specialize (D HZ k Hk). change (val (cp p x.[k]) - y.[k]) with (z k). eapply Rle_trans; [exact D|].
  assert (NN : 0 <= INR n * INR n) by (apply Rmult_le_pos; apply pos_INR).
  unfold Rdiv. rewrite Rmult_assoc. apply Rmult_le_compat_l; auto.
  pose proof (Rmult_le_pos u Am U Am0). pose proof (Rmult_le_pos u Xm U Xm0). pose proof (Rmult_le_pos eta Am H0 Am0). pose proof (Rmult_le_pos eta Xm H0 Xm0). lra.
Qed.

(** from_ortho undoes to_ortho up to rounding. *)
Theorem C54_neumann_round_trip :
  forall A (N : Num A) u eta rnd zmax inr fin val, float_arith N u eta rnd zmax inr fin val ->
  forall T (V : Vec A T) (VC : VecC N T V) n b (c o o' a x : list T), (5 <= n)%nat -> (Z.of_nat n * Z.of_nat n <= zmax)%Z -> 10 * (INR n ^ 2 * (u + eta)) <= 1 ->
  compo_new KNeumann n = Ok b -> length c = (n - 2)%nat -> length o = n -> length o' = (n - 2)%nat ->
  compo_to_ortho b c o = Ok a -> compo_from_ortho b a o' = Ok x ->
  (forall p j, (j < n - 2)%nat -> fin (cp p x.[j])) ->
  forall p Cm, (forall k, (k < n - 2)%nat -> Rabs (val (cp p c.[k])) <= Cm) ->
  forall k, (k < n - 2)%nat -> fin (cp p c.[k]) /\
    Rabs (val (cp p x.[k]) - val (cp p c.[k])) <= INR n ^ 2 * (13 * u * Cm + eta * (6 + 11 * Cm)).
Proof.
  intros A N u eta rnd zmax inr fin val FA T V VC n b c o o' a x Hn Hz Hsm Hb Lc Lo Lo' Ea Ex FX p Cm HC.
  destruct (neu_inv n b Hb) as [Hn4 ->]. replace (INR n ^ 2) with (INR n * INR n) in * by ring.
  pose proof (rn_u _ _ _ (fa_rnd _ _ _ _ _ _ _ _ FA)) as [U U1]. pose proof (rn_eta _ _ _ (fa_rnd _ _ _ _ _ _ _ _ FA)) as H0.
  assert (N5 : 5 <= INR n). { apply le_INR in Hn. replace (INR 5) with 5 in Hn by (cbn; ring). auto. }
  set (K := INR n * INR n) in *. assert (K25 : 25 <= K) by (unfold K; nra).
  assert (Ks : 0 <= K * (u + eta)) by (apply Rmult_le_pos; lra).
  assert (Hs : K * (u + eta) <= 1) by lra.
  assert (Se : u + eta <= / 250). { assert (25 * (u + eta) <= K * (u + eta)) by (apply Rmult_le_compat_r; lra). lra. }
  assert (La : length a = n). { pose proof (neu_to_ortho n c o Hn4 Lc Lo) as W. rewrite Ea in W. apply W. }
  destruct (neu_from_rows FA n a o' x Hn Hz Hs La Lo' Ex FX) as [Lx HR]. destruct (HR p) as [Fa Hr]. clear HR.
  pose proof (fun k Hk => neu_to_ortho_err FA n c o a p Hn4 Hz Lc Lo Ea k Hk (Fa k Hk)) as HT.
  intros k Hk. split. apply (HT k); lia.
  assert (Cm0 : 0 <= Cm). { specialize (HC 0%nat ltac:(lia)). pose proof (Rabs_pos (val (cp p c.[0]))). lra. }
  set (Xx := X (val := val) p x) in *. set (Xc := X (val := val) p c) in *. set (Xa := X (val := val) p a) in *.
  set (z := fun j => Xx j - Xc j).
  destruct (bounded_max (n - 2) z) as (Zm & Z0 & HZ & ZA).
  assert (HX : forall j, (j < n - 2)%nat -> Rabs (Xx j) <= Cm + Zm).
  { intros j Hj. replace (Xx j) with (Xc j + z j) by (unfold z; ring). eapply Rle_trans; [apply Rabs_triang|].
    specialize (HC j Hj). specialize (HZ j Hj). unfold Xc at 1, X. lra. }
  pose proof (Rmult_le_pos u Cm U Cm0) as uC. pose proof (Rmult_le_pos u Zm U Z0) as uZ. pose proof (Rmult_le_pos eta Cm H0 Cm0) as eC. pose proof (Rmult_le_pos eta Zm H0 Z0) as eZ.
  assert (HG : forall i, Rabs (Xc i) <= Cm). { intros i. destruct (lt_dec i (n - 2)). apply HC; auto. unfold Xc. rewrite (X_over FA) by lia. rewrite Rabs_R0. auto. }
  assert (HD : forall j, Rabs (neu_coef n Xc j) <= 2 * Cm).
  { intros j. unfold neu_coef, Rminus. eapply Rle_trans; [apply Rabs_triang|]. rewrite Rabs_Ropp. pose proof (nq_range (j - 2)) as Q.
    pose proof (HG j) as G1. pose proof (HG (j - 2)%nat) as G2. assert (nq (j - 2) * Rabs (Xc (j - 2)%nat) <= 1 * Cm). { apply Rmult_le_compat; try lra. apply Rabs_pos. }
    destruct (j <? n - 2), (j <? 2); rewrite ?Rabs_R0, ?Rabs_mult, ?(Rabs_pos_eq (nq (j - 2))) by lra; lra. }
  set (ea := 5 * u * Cm + 2 * eta * (1 + Cm)).
  assert (HA : forall j, (j < n)%nat -> Rabs (Xa j - neu_coef n Xc j) <= ea).
  { intros j Hj. destruct (HT j Hj) as [B _]. fold Xa Xc in B. specialize (HD j). pose proof (Rmult_le_compat_l u _ _ U HD). pose proof (nq_range (j - 2)) as Q. pose proof (HG (j - 2)%nat) as G2.
    assert (G3 : 3 * u * (nq (j - 2) * Rabs (Xc (j - 2)%nat)) <= 3 * u * (1 * Cm)). { apply Rmult_le_compat_l. lra. apply Rmult_le_compat; try lra. apply Rabs_pos. }
    assert (G4 : 2 * eta * (1 + Rabs (Xc (j - 2)%nat)) <= 2 * eta * (1 + Cm)) by (apply Rmult_le_compat_l; lra).
    unfold ea. destruct (j <? 2); lra. }
  assert (ea0 : 0 <= ea) by (unfold ea; lra).
  set (Am := 2 * Cm + ea).
  assert (HAm : forall j, (j < n)%nat -> Rabs (Xa j) <= Am).
  { intros j Hj. replace (Xa j) with (neu_coef n Xc j + (Xa j - neu_coef n Xc j)) by ring. eapply Rle_trans; [apply Rabs_triang|]. pose proof (HA j Hj). pose proof (HD j). unfold Am. lra. }
  specialize (Hr Am (Cm + Zm) HAm HX).
  set (rho := u * (77 * Cm + 56 * Zm) + eta * (36 + 68 * Cm + 53 * Zm)).
  assert (HM : forall j, (j < n - 2)%nat -> Rabs (neu_row (n - 2) z j) <= rho).
  { intros j Hj. specialize (Hr j Hj). pose proof (HA j ltac:(lia)) as A1. pose proof (HA (j + 2)%nat ltac:(lia)) as A2. pose proof (nq_range j) as Q.
    assert (DD : neu_coef n Xc j - nq j * neu_coef n Xc (j + 2) = neu_row (n - 2) Xc j).
    { unfold neu_coef, neu_row, qprev, qnext. destruct (Nat.ltb_spec j (n - 2)); [|lia]. destruct (Nat.ltb_spec (j + 2) 2); [lia|].
      replace (j + 2 - 2)%nat with j by lia. destruct (j <? 2), (j + 2 <? n - 2); ring. }
    replace (neu_row (n - 2) z j) with ((neu_row (n - 2) Xx j - (Xa j - nq j * Xa (j + 2)%nat)) + ((Xa j - neu_coef n Xc j) + - (nq j * (Xa (j + 2)%nat - neu_coef n Xc (j + 2))))).
    2: { transitivity (neu_row (n - 2) Xx j - neu_row (n - 2) Xc j). rewrite <- DD. ring. unfold neu_row, z. ring. }
    eapply Rle_trans; [apply Rabs_triang|]. eapply Rle_trans; [apply Rplus_le_compat_l, Rabs_triang|]. rewrite Rabs_Ropp, (Rabs_mult (nq j)), (Rabs_pos_eq (nq j)) by lra.
    assert (A3 : nq j * Rabs (Xa (j + 2)%nat - neu_coef n Xc (j + 2)) <= 1 * ea) by (apply Rmult_le_compat; try lra; apply Rabs_pos).
    assert (S1 : u * ea <= / 64 * ea) by (apply Rmult_le_compat_r; auto). assert (S2 : eta * ea <= / 250 * ea) by (apply Rmult_le_compat_r; lra).
    assert (S3 : u * Am = 2 * (u * Cm) + u * ea) by (unfold Am; ring). assert (S4 : eta * Am = 2 * (eta * Cm) + eta * ea) by (unfold Am; ring).
    unfold rho. assert (S5 : ea = 5 * (u * Cm) + 2 * eta + 2 * (eta * Cm)) by (unfold ea; ring). lra. }
  pose proof (neu_dominance n z rho Hn4 HM) as D. fold K in D.
  assert (ZM : Zm <= K * (13 * u * Cm + eta * (6 + 11 * Cm))).
  { assert (Q : 0 <= K * (13 * u * Cm + eta * (6 + 11 * Cm))) by (apply Rmult_le_pos; lra).
    destruct ZA as [->|(j & Hj & EZ)]; auto. specialize (D j Hj). rewrite <- EZ in D. unfold rho in D.
    pose proof (Rmult_le_pos K _ ltac:(lra) uC) as KuC. pose proof (Rmult_le_pos K _ ltac:(lra) H0) as Ke. pose proof (Rmult_le_pos K _ ltac:(lra) eC) as KeC. pose proof (Rmult_le_pos K _ ltac:(lra) eZ) as KeZ.
    assert (S : K * (u + eta) * Zm <= / 10 * Zm) by (apply Rmult_le_compat_r; lra). lra. }
  specialize (HZ k Hk). unfold z, Xx, Xc, X in HZ. lra.
Qed.

(** Small enough input never overflows. *)
Theorem C54_neumann_no_overflow :
  forall A (N : Num A) u eta rnd zmax inr fin val, float_arith N u eta rnd zmax inr fin val ->
  forall T (V : Vec A T) (VC : VecC N T V) n b (c o o' : list T) Cm, (5 <= n)%nat -> (Z.of_nat n * Z.of_nat n <= zmax)%Z -> 10 * (INR n ^ 2 * (u + eta)) <= 1 ->
  compo_new KNeumann n = Ok b -> length c = (n - 2)%nat -> length o = n -> length o' = (n - 2)%nat ->
  0 <= Cm -> inr (81 * INR n * INR n * Cm) ->
  (forall p k, (k < n - 2)%nat -> fin (cp p c.[k]) /\ Rabs (val (cp p c.[k])) <= Cm) ->
  exists a x, compo_to_ortho b c o = Ok a /\ compo_from_ortho b a o' = Ok x /\ length a = n /\ length x = (n - 2)%nat /\
    (forall p k, (k < n)%nat -> fin (cp p a.[k])) /\ (forall p k, (k < n - 2)%nat -> fin (cp p x.[k])).
Proof.
  intros A N u eta rnd zmax inr fin val FA T V VC n b c o o' Cm Hn Hz Hs Hb Lc Lo Lo' C0 HI HC. destruct (neu_inv n b Hb) as [Hn4 ->].
  replace (INR n ^ 2) with (INR n * INR n) in * by ring.
  assert (N5 : 5 <= INR n). { apply le_INR in Hn. replace (INR 5) with 5 in Hn by (cbn; ring). auto. }
  assert (B2 : Cm <= INR n * INR n * Cm).
  { rewrite <- (Rmult_1_l Cm) at 1. apply Rmult_le_compat_r; auto. pose proof (Rmult_le_compat 1 (INR n) 1 (INR n)). lra. }
  destruct (neu_to_ortho_fin FA n c o Cm Hn4 Hz Lc Lo HC) as (a & Ea & La & Ha).
  { eapply (inr_le FA); [| |exact HI]. lra. rewrite Rabs_pos_eq; lra. }
  destruct (neu_from_ortho_fin FA n a o' (3 * Cm) Hn Hz Hs La Lo' ltac:(lra) Ha) as (x & Ex & Lx & Hx).
  { eapply (inr_le FA); [| |exact HI]. lra. rewrite Rabs_pos_eq; lra. }
  exists a, x. split; auto. split; auto. split; auto. split; auto. split; intros; [apply Ha|apply Hx]; auto.
Qed.

(** f64 and f32 *)
Theorem C54_f64_neumann_round_trip :
  forall T (V : Vec f64 T) (VC : VecC num_f64 T V) n b (c o o' : list T) Cm, (5 <= n)%nat -> (Z.of_nat n <= 2 ^ 24)%Z ->
  compo_new (A := f64) KNeumann n = Ok b -> length c = (n - 2)%nat -> length o = n -> length o' = (n - 2)%nat ->
  0 <= Cm <= bpow radix2 960 ->
  (forall p k, (k < n - 2)%nat -> is_finite (cp p c.[k]) = true /\ Rabs (B2R (cp p c.[k])) <= Cm) ->
  exists a x, compo_to_ortho b c o = Ok a /\ compo_from_ortho b a o' = Ok x /\ length a = n /\ length x = (n - 2)%nat /\
    forall p k, (k < n - 2)%nat -> is_finite (cp p x.[k]) = true /\
      Rabs (B2R (cp p x.[k]) - B2R (cp p c.[k])) <= INR n ^ 2 * (13 * bpow radix2 (-53) * Cm + bpow radix2 (-1075) * (6 + 11 * Cm)).
Proof.
  intros T V VC n b c o o' Cm Hn Hz Hb Lc Lo Lo' [C0 C1] HC. pose proof (n_bounds _ _ Hz) as HN.
  assert (N5 : 5 <= INR n). { apply le_INR in Hn. replace (INR 5) with 5 in Hn by (cbn; ring). auto. }
  assert (SQ : INR n * INR n <= IZR (2 ^ 24) * IZR (2 ^ 24)) by (apply Rmult_le_compat; lra).
  assert (E1 : bpow radix2 (-1075) <= bpow radix2 (-60)) by (apply bpow_le; lia). pose proof (bpow_gt_0 radix2 (-1075)) as E1'.
  change (bpow radix2 (-60)) with (/ IZR (2 ^ 60)) in E1.
  assert (E0 : bpow radix2 (-53) = / IZR (2 ^ 53)) by reflexivity.
  assert (ZZ : (Z.of_nat n * Z.of_nat n <= 2 ^ 53)%Z). { assert (Z.of_nat n * Z.of_nat n <= 2 ^ 24 * 2 ^ 24)%Z by (apply Z.mul_le_mono_nonneg; lia). lia. }
  assert (SS : 10 * (INR n ^ 2 * (bpow radix2 (-53) + bpow radix2 (-1075))) <= 1).
  { rewrite E0. replace (INR n ^ 2) with (INR n * INR n) by ring. apply Rle_trans with (10 * (IZR (2 ^ 24) * IZR (2 ^ 24) * (/ IZR (2 ^ 53) + / IZR (2 ^ 60)))). 2: { cbn. lra. }
    apply Rmult_le_compat_l. lra. apply Rmult_le_compat; try lra. apply Rmult_le_pos; lra. }
  destruct (C54_neumann_no_overflow f64 num_f64 _ _ _ _ _ _ _ f64_float_arith T V VC n b c o o' Cm Hn) as (a & x & Ea & Ex & La & Lx & Fa & Fx); auto.
  - unfold ieee_inr. rewrite Rabs_pos_eq. 2: { apply Rmult_le_pos; auto. apply Rmult_le_pos; lra. }
    apply Rle_lt_trans with ((81 * (IZR (2 ^ 24) * IZR (2 ^ 24))) * bpow radix2 960).
    + apply Rmult_le_compat; auto. apply Rmult_le_pos; lra. lra.
    + replace 1024%Z with (64 + 960)%Z by lia. rewrite bpow_plus. apply Rmult_lt_compat_r. apply bpow_gt_0. cbn. lra.
  - exists a, x. split; auto. split; auto. split; auto. split; auto. intros p k Hk. split. apply Fx; auto.
    destruct (C54_neumann_round_trip f64 num_f64 _ _ _ _ _ _ _ f64_float_arith T V VC n b c o o' a x Hn) with (p := p) (Cm := Cm) (k := k) as [_ R]; auto.
    intros i Hi. apply HC; auto.
Qed.

Theorem C54_f32_neumann_round_trip :
  forall T (V : Vec f32 T) (VC : VecC num_f32 T V) n b (c o o' : list T) Cm, (5 <= n)%nat -> (Z.of_nat n <= 2 ^ 10)%Z ->
  compo_new (A := f32) KNeumann n = Ok b -> length c = (n - 2)%nat -> length o = n -> length o' = (n - 2)%nat ->
  0 <= Cm <= bpow radix2 96 ->
  (forall p k, (k < n - 2)%nat -> is_finite (cp p c.[k]) = true /\ Rabs (B2R (cp p c.[k])) <= Cm) ->
  exists a x, compo_to_ortho b c o = Ok a /\ compo_from_ortho b a o' = Ok x /\ length a = n /\ length x = (n - 2)%nat /\
    forall p k, (k < n - 2)%nat -> is_finite (cp p x.[k]) = true /\
      Rabs (B2R (cp p x.[k]) - B2R (cp p c.[k])) <= INR n ^ 2 * (13 * bpow radix2 (-24) * Cm + bpow radix2 (-150) * (6 + 11 * Cm)).
Proof.
  intros T V VC n b c o o' Cm Hn Hz Hb Lc Lo Lo' [C0 C1] HC. pose proof (n_bounds _ _ Hz) as HN.
  assert (N5 : 5 <= INR n). { apply le_INR in Hn. replace (INR 5) with 5 in Hn by (cbn; ring). auto. }
  assert (SQ : INR n * INR n <= IZR (2 ^ 10) * IZR (2 ^ 10)) by (apply Rmult_le_compat; lra).
  assert (E1 : bpow radix2 (-150) <= bpow radix2 (-60)) by (apply bpow_le; lia). pose proof (bpow_gt_0 radix2 (-150)) as E1'.
  change (bpow radix2 (-60)) with (/ IZR (2 ^ 60)) in E1.
  assert (E0 : bpow radix2 (-24) = / IZR (2 ^ 24)) by reflexivity.
  assert (ZZ : (Z.of_nat n * Z.of_nat n <= 2 ^ 24)%Z). { assert (Z.of_nat n * Z.of_nat n <= 2 ^ 10 * 2 ^ 10)%Z by (apply Z.mul_le_mono_nonneg; lia). lia. }
  assert (SS : 10 * (INR n ^ 2 * (bpow radix2 (-24) + bpow radix2 (-150))) <= 1).
  { rewrite E0. replace (INR n ^ 2) with (INR n * INR n) by ring. apply Rle_trans with (10 * (IZR (2 ^ 10) * IZR (2 ^ 10) * (/ IZR (2 ^ 24) + / IZR (2 ^ 60)))). 2: { cbn. lra. }
    apply Rmult_le_compat_l. lra. apply Rmult_le_compat; try lra. apply Rmult_le_pos; lra. }
  destruct (C54_neumann_no_overflow f32 num_f32 _ _ _ _ _ _ _ f32_float_arith T V VC n b c o o' Cm Hn) as (a & x & Ea & Ex & La & Lx & Fa & Fx); auto.
  - unfold ieee_inr. rewrite Rabs_pos_eq. 2: { apply Rmult_le_pos; auto. apply Rmult_le_pos; lra. }
    apply Rle_lt_trans with ((81 * (IZR (2 ^ 10) * IZR (2 ^ 10))) * bpow radix2 96).
    + apply Rmult_le_compat; auto. apply Rmult_le_pos; lra. lra.
    + replace 128%Z with (32 + 96)%Z by lia. rewrite bpow_plus. apply Rmult_lt_compat_r. apply bpow_gt_0. cbn. lra.
  - exists a, x. split; auto. split; auto. split; auto. split; auto. intros p k Hk. split. apply Fx; auto.
    destruct (C54_neumann_round_trip f32 num_f32 _ _ _ _ _ _ _ f32_float_arith T V VC n b c o o' a x Hn) with (p := p) (Cm := Cm) (k := k) as [_ R]; auto.
    intros i Hi. apply HC; auto.
Qed.

(** The hypotheses are met: a round trip in f64 of five coefficients; it does
    not return exactly the same numbers. *)
Definition neu_trip : res (list f64) :=
  let* b := compo_new (A := f64) KNeumann 7 in let* a := compo_to_ortho b tenths (repeat n0 7) in compo_from_ortho b a (repeat n0 5).
Example C54_example_neumann :
  forallb (fun x => is_finite x) (match neu_trip with Ok x => x | _ => [] end) = true /\ length (sf_list neu_trip) = 5%nat /\
  sf_list neu_trip <> map B2SF tenths.
Proof. split; [|split]; [vm_compute; reflexivity|vm_compute; reflexivity|]. intros H. vm_compute in H. discriminate. Qed.
