(** C61 in f64: with accurate transform libraries no value of the example
    programs overflows or becomes NaN, so their assertion holds and they run to
    completion. *)
From Coq Require Import List Arith ZArith Reals Bool Lra Lia.
From Flocq Require Import Core BinarySingleNaN.
From Verif Require Import Base Num Linalg Stencils Cheb ChebFacts Compo CompoProofs Fourier FourierF64 FourierFacts FourierProofs Bases BaseLin LibBase NdArray NdArrayFacts AxisFacts AxisProps PropAxis SpaceFacts SpaceBases SpaceStages Space PropSpace PropSpace2 PropElements
  MpiSem Decomp MpiSpec MpiRuns PropMpi SpaceMpi PropSpaceMpi
  ExtLib AnyArith ExtFacts AnyBase PropAny PropAny2 Rounding LibAcc LibIdeal RndCheb RndFft RndR2c RndFinite2 RndDirichlet RndNeumann PropRound PropRound2 PropRound4 PropTrans2 RndAxis RndOps RndAxis2 RndOps2 SpaceAcc RndSpace PropTrans3 SpaceAcc2 PropTrans4 SpaceVal RndVal RndVal2 PropTrans5 MpiMix Examples PropExample.
Import ListNotations.
Local Open Scope R_scope.
Local Notation u64 := (bpow radix2 (-53)).
Local Notation eta64 := (bpow radix2 (-1075)).

Lemma L_max dl L : 0 <= dl -> L * (dl + u64) <= / 100 -> 0 <= L -> L <= IZR (2 ^ 53).
Proof.
  intros Hd H HL. pose proof (bpow_gt_0 radix2 (-53)). assert (L * u64 <= L * (dl + u64)) by (apply Rmult_le_compat_l; lra). apply Rmult_le_reg_r with u64; [lra|].
  apply Rle_trans with (/ 100); [lra|]. change u64 with (/ IZR (2 ^ 53)). rewrite Rinv_r by (apply not_0_IZR; discriminate). lra.
Qed.
Lemma beqb_refl (x : f64) : is_finite x = true -> Beqb x x = true.
Proof. intros H. rewrite Beqb_correct by auto. apply Req_bool_true. reflexivity. Qed.

(** `backward(forward(g))` of values of size up to 2^31 has finite entries *)
Lemma fwd_bwd_finite :
  forall E : ext f64, ext_ok E -> forall dl zt, 0 <= dl <= / 2000 -> 0 <= zt <= 1 ->
  forall K0 K1 L0 L1 k0 k1 F0 F1 B0 B1 I S (b0 : base_ops I S S) (b1 : base_ops f64 I S) (eI : fel I) (eS : fel S),
  f64_coefs E dl zt K0 L0 I S S b0 eI eS F0 -> L0 * (dl + bpow radix2 (-53)) <= / 100 -> f64_values E dl zt k0 I S S b0 eI eS B0 ->
  f64_coefs E dl zt K1 L1 f64 I S b1 f64_real eI F1 -> L1 * (dl + bpow radix2 (-53)) <= / 100 -> f64_values E dl zt k1 f64 I S b1 f64_real eI B1 ->
  forall (dI : Dflt I) (dS : Dflt S), let sp := mk_space2 b0 b1 in
  (Z.of_nat (len_phys b0 * len_phys b1) < 2 ^ 31)%Z ->
  forall g : arr f64, proper [len_phys b0; len_phys b1] g ->
  (forall i j, (i < len_phys b0)%nat -> (j < len_phys b1)%nat -> f64_fin (get g [i; j]) /\ Rabs (f64_val (get g [i; j])) <= IZR (2 ^ 31)) ->
  forall zs, zip_ok zs -> forall vhat v, s2_forward zs sp g = Ok vhat -> s2_backward zs sp vhat = Ok v -> forall x, In x (dat v) -> is_finite x = true.
Proof.
  intros E HE dl zt Hd Hz K0 K1 L0 L1 k0 k1 F0 F1 B0 B1 I S b0 b1 eI eS H0 HL0 V0 H1 HL1 V1 dI dS sp Hs g Pg Fg zs Hzs vhat v EF EB.
  set (n0 := len_phys b0) in *. set (n1 := len_phys b1) in *. set (m0 := len_spec b0). set (m1 := len_spec b1).
  assert (Hd' : 0 <= dl <= / 16) by lra.
  pose proof (coefs_acc E dl zt Hd' Hz _ _ _ _ _ _ _ _ _ H0) as A0. pose proof (coefs_acc E dl zt Hd' Hz _ _ _ _ _ _ _ _ _ H1) as A1.
  pose proof (values_acc E dl zt Hd' Hz _ _ _ _ _ _ _ _ V0) as C0. pose proof (values_acc E dl zt Hd' Hz _ _ _ _ _ _ _ _ V1) as C1.
  set (Sg := rsum n0 (fun i => rsum n1 (fun j => esize f64_real (get g [i; j])))).
  assert (SG : 0 <= Sg <= IZR (2 ^ 62)).
  { split. apply rsum_pos; intros; apply rsum_pos; intros; apply esize_pos.
    apply Rle_trans with (rsum n0 (fun i => rsum n1 (fun j => IZR (2 ^ 31)))).
    - apply rsum_le. intros i Hi. apply rsum_le. intros j Hj. destruct (Fg i j Hi Hj) as [_ B]. unfold esize. cbn [ev f64_real fst snd]. rewrite Rabs_R0. lra.
    - rewrite (rsum_ext n0 _ (fun _ => INR n1 * IZR (2 ^ 31))) by (intros; rewrite rsum_const; reflexivity). rewrite rsum_const. rewrite !INR_IZR_INZ, <- !mult_IZR. apply IZR_le. change (2 ^ 62)%Z with (2 ^ 31 * 2 ^ 31)%Z. nia. }
  destruct (C58_space2_forward_coefs_f64 E HE dl zt ltac:(lra) Hz K0 K1 L0 L1 F0 F1 f64 I S S b0 b1 f64_real eI eS H0 HL0 H1 HL1 dflt_num dI dS dS zs Hzs g Pg) as (y & Ey & Py & Hy).
  { intros i j Hi Hj. apply (Fg i j Hi Hj). }
  { fold n0 n1. change (Sg <= bpow radix2 800). apply Rle_trans with (bpow radix2 62); [|apply bpow_le; lia]. change (bpow radix2 62) with (IZR (2 ^ 62)). lra. }
  fold n0 n1 m0 m1 in Py, Hy. fold Sg in Hy. unfold sp in EF, EB. assert (y = vhat) by congruence. subst y.
  (* the size of the coefficients *)
  destruct A0 as [_ [_ BB0] KK0 LL0 LE0 Q0]. destruct A1 as [_ [_ BB1] KK1 LL1 LE1 Q1]. fold n0 m0 in BB0, LE0, Q0. fold n1 m1 in BB1, LE1, Q1.
  pose proof (L_max dl L0 ltac:(lra) HL0 ltac:(lra)) as M0. pose proof (L_max dl L1 ltac:(lra) HL1 ltac:(lra)) as M1.
  assert (KK : 0 <= K0 * K1 <= IZR (2 ^ 106)). { split. apply Rmult_le_pos; lra. change (2 ^ 106)%Z with (2 ^ 53 * 2 ^ 53)%Z. rewrite mult_IZR. apply Rmult_le_compat; lra. }
  assert (LL : 0 <= L0 * L1 <= IZR (2 ^ 106)). { split. apply Rmult_le_pos; lra. change (2 ^ 106)%Z with (2 ^ 53 * 2 ^ 53)%Z. rewrite mult_IZR. apply Rmult_le_compat; lra. }
  assert (KS : 0 <= K0 * K1 * Sg <= IZR (2 ^ 168)). { split. apply Rmult_le_pos; lra. change (2 ^ 168)%Z with (2 ^ 106 * 2 ^ 62)%Z. rewrite mult_IZR. apply Rmult_le_compat; lra. }
  assert (NN : 0 <= INR n0 * INR n1 <= IZR (2 ^ 31)). { split. apply Rmult_le_pos; apply pos_INR. rewrite !INR_IZR_INZ, <- mult_IZR. apply IZR_le. lia. }
  assert (W : (L0 + L1) * (dl + u64) <= / 50) by lra.
  assert (HH : 0 <= eta64 + zt <= 2) by (apply h_range; auto).
  assert (CY : forall i j, (i < m0)%nat -> (j < m1)%nat -> esize eS (get vhat [i; j]) <= IZR (2 ^ 170)).
  { intros i j Hi Hj. destruct (Hy i j Hi Hj) as [_ B].
    set (Z := F0 (fun p => F1 (fun q => ev f64_real (get g [p; q])) j) i) in *.
    assert (BZ : cn Z <= K0 * K1 * Sg).
    { unfold Z. eapply Rle_trans. apply BB0; auto. rewrite Rmult_assoc. apply Rmult_le_compat_l; [lra|]. unfold Sg. rewrite <- rsum_scal_l. apply rsum_le. intros a Ha. apply BB1; auto. }
    assert (T : esize eS (get vhat [i; j]) <= edist eS (get vhat [i; j]) Z + cn Z). { unfold esize, edist, cn. pose proof (Rabs_triang (fst (ev eS (get vhat [i; j])) - fst Z) (fst Z)) as T1. pose proof (Rabs_triang (snd (ev eS (get vhat [i; j])) - snd Z) (snd Z)) as T2. revert T1 T2. 
      replace (fst (ev eS (get vhat [i; j])) - fst Z + fst Z) with (fst (ev eS (get vhat [i; j]))) by ring. replace (snd (ev eS (get vhat [i; j])) - snd Z + snd Z) with (snd (ev eS (get vhat [i; j]))) by ring. lra. }
    assert (T1 : 21 / 20 * (L0 + L1) * (K0 * K1) * (dl + u64) * Sg <= K0 * K1 * Sg). { replace (21 / 20 * (L0 + L1) * (K0 * K1) * (dl + u64) * Sg) with ((21 / 20 * ((L0 + L1) * (dl + u64))) * (K0 * K1 * Sg)) by ring. rewrite <- (Rmult_1_l (K0 * K1 * Sg)) at 2. apply Rmult_le_compat_r; lra. }
    assert (T2 : 3 * (L0 * L1) * (INR n0 * INR n1) * (eta64 + zt) <= 6 * IZR (2 ^ 137)).
    { replace (3 * (L0 * L1) * (INR n0 * INR n1) * (eta64 + zt)) with (3 * ((L0 * L1) * (INR n0 * INR n1) * (eta64 + zt))) by ring. replace (6 * IZR (2 ^ 137)) with (3 * (IZR (2 ^ 137) * 2)) by ring. apply Rmult_le_compat_l; [lra|]. apply Rmult_le_compat; try lra. apply Rmult_le_pos; lra.
      change (2 ^ 137)%Z with (2 ^ 106 * 2 ^ 31)%Z. rewrite mult_IZR. apply Rmult_le_compat; lra. }
    eapply Rle_trans; [exact T|]. revert B BZ T1 T2 KS. clear. intros. apply Rle_trans with (IZR (2 ^ 168) + 6 * IZR (2 ^ 137) + IZR (2 ^ 168)). lra.
    cbv [Z.pow Z.pow_pos Pos.iter Z.mul Pos.mul]. lra. }
  destruct C0 as [_ _ _ _ LC0 _]. destruct C1 as [_ _ _ _ LC1 _]. fold m0 in LC0. fold n0 in LC0. fold m1 n1 in LC1.
  destruct (C58_space2_backward_values_f64 E HE dl zt Hd Hz k0 k1 B0 B1 f64 I S S b0 b1 f64_real eI eS V0 V1 dflt_num dI dS dS zs Hzs vhat Py) as (y & Ey' & Py' & Hy').
  { intros i j Hi Hj. apply (Hy i j Hi Hj). }
  { fold m0 m1. apply Rle_trans with (rsum m0 (fun i => rsum m1 (fun j => IZR (2 ^ 170)))).
    - apply rsum_le. intros i Hi. apply rsum_le. intros j Hj. auto.
    - rewrite (rsum_ext m0 _ (fun _ => INR m1 * IZR (2 ^ 170))) by (intros; rewrite rsum_const; reflexivity). rewrite rsum_const. rewrite !INR_IZR_INZ, <- !mult_IZR.
      apply Rle_trans with (bpow radix2 230); [|apply bpow_le; lia]. change (bpow radix2 230) with (IZR (2 ^ 230)). apply IZR_le. apply Z.le_trans with (2 ^ 20 * (2 ^ 20 * 2 ^ 170))%Z. 2: vm_compute; discriminate.
      apply Z.mul_le_mono_nonneg; try lia. } 
  assert (y = v) by congruence. subst y. fold n0 n1 in Py', Hy'.
  intros x Hx. destruct (In_nth _ _ (dflt (A := f64)) Hx) as (k & Hk & Ek). destruct Py' as (S1 & S2 & S3). unfold wf in S3. rewrite S1 in S3. unfold NdArray.size in S3. cbn [fold_right] in S3. rewrite Nat.mul_1_r in S3.
  assert (N1 : (n1 <> 0)%nat) by lia.
  destruct (Hy' (k / n1)%nat (k mod n1)%nat) as [Fk _]. { apply Nat.div_lt_upper_bound; lia. } { apply Nat.mod_upper_bound; auto. }
  revert Fk. unfold get. rewrite S1. replace (ravel _ _) with k. 2: { pose proof (Nat.div_mod k n1 N1). cbn. lia. } unfold at_. rewrite Ek. auto.
Qed.

Theorem C61_mpi_examples_run_to_completion_f64 :
  forall E : ext f64, ext_ok E -> forall dl zt, 0 <= dl <= / 2000 -> 0 <= zt <= 1 ->
  forall K0 K1 L0 L1 k0 k1 F0 F1 B0 B1 I S (b0 : base_ops I S S) (b1 : base_ops f64 I S) (eI : fel I) (eS : fel S),
  f64_coefs E dl zt K0 L0 I S S b0 eI eS F0 -> L0 * (dl + bpow radix2 (-53)) <= / 100 -> f64_values E dl zt k0 I S S b0 eI eS B0 ->
  f64_coefs E dl zt K1 L1 f64 I S b1 f64_real eI F1 -> L1 * (dl + bpow radix2 (-53)) <= / 100 -> f64_values E dl zt k1 f64 I S b1 f64_real eI B1 ->
  forall (dI : Dflt I) (dS : Dflt S), let sp := mk_space2 b0 b1 in
  forall bm p, distributable sp p -> (Z.of_nat (len_phys b0 * len_phys b1) < 2 ^ 31)%Z ->
  forall zo : nat -> nat -> zip_order, (forall r c, zip_ok (zo r c)) ->
  every_schedule (world bm p sp (fun r sm => mpi_example bm (zo r) Beqb (fun i => nofZ (Z.of_nat i)) r sm)) (repeat tt p).
Proof.
  intros E HE dl zt Hd Hz K0 K1 L0 L1 k0 k1 F0 F1 B0 B1 I S b0 b1 eI eS H0 HL0 V0 H1 HL1 V1 dI dS sp bm p Hp Hs zo HZ.
  destruct some_zip as [zs Hzs].
  destruct (C61_mpi_examples_run_to_completion f64 _ _ E HE eq_refl f64 I S dflt_num dI dS b0 b1 (coefs_usable E dl zt _ _ _ _ _ _ _ _ _ H0) (coefs_usable E dl zt _ _ _ _ _ _ _ _ _ H1) bm p Hp Hs zs zo Hzs HZ (fun i => nofZ (Z.of_nat i)) Beqb) as (vhat & v & EF & EB & H).
  apply H. clear H. set (n0 := len_phys b0) in *. set (n1 := len_phys b1) in *.
  match type of EF with s2_forward _ _ ?g0 = _ => set (g := g0) in * end.
  assert (Pg : proper [n0; n1] g). { split; [reflexivity|]. split; [reflexivity|]. unfold g, wf. cbn [dat shp]. rewrite map_length, seq_length. unfold NdArray.size. cbn [fold_right]. lia. }
  assert (Gg : forall i j, (i < n0)%nat -> (j < n1)%nat -> get g [i; j] = nofZ (Z.of_nat (i * n1 + j)) /\ (i * n1 + j < n0 * n1)%nat).
  { intros i j Hi Hj. assert (X : (i * n1 + j < n0 * n1)%nat). { apply Nat.lt_le_trans with (i * n1 + n1)%nat. lia. replace (i * n1 + n1)%nat with ((i + 1) * n1)%nat by ring. apply Nat.mul_le_mono_r. lia. } split; auto.
    unfold get, g. cbn [dat shp]. replace (ravel _ _) with (i * n1 + j)%nat by (cbn; lia). apply at_map_seq. auto. }
  assert (Fg : forall i j, (i < n0)%nat -> (j < n1)%nat -> f64_fin (get g [i; j]) /\ Rabs (f64_val (get g [i; j])) <= IZR (2 ^ 31)).
  { intros i j Hi Hj. destruct (Gg i j Hi Hj) as [-> X]. destruct (nof_val (Z.of_nat (i * n1 + j)) ltac:(lia)) as [V F]. split; auto. unfold f64_val. rewrite V, Rabs_pos_eq; apply IZR_le; lia. }
  intros x Hx. apply beqb_refl. revert x Hx.
  exact (fwd_bwd_finite E HE dl zt Hd Hz K0 K1 L0 L1 k0 k1 F0 F1 B0 B1 I S b0 b1 eI eS H0 HL0 V0 H1 HL1 V1 dI dS Hs g Pg Fg zs Hzs vhat v EF EB).
Qed.
Print Assumptions C61_mpi_examples_run_to_completion_f64.

Lemma small_distributable {P I S} (sp : space2 P I S S) p n0 n1 m0 m1 : len_phys (s2_base0 sp) = n0 -> len_spec (s2_base0 sp) = m0 -> len_phys (s2_base1 sp) = n1 -> len_spec (s2_base1 sp) = m1 ->
  (1 <= p)%nat -> (p <= m0 <= n0)%nat -> (p <= m1 <= n1)%nat -> (Z.of_nat (n0 * n1) < 2 ^ 31)%Z -> distributable sp p.
Proof.
  intros E1 E2 E3 E4 Hp H0 H1 B. split; auto. rewrite E1, E2, E3, E4.
  assert (K : forall e0 e1, (p <= e0 <= n0)%nat -> (p <= e1 <= n1)%nat -> (p <= e0)%nat /\ (p <= e1)%nat /\ pencils_fit e0 e1 p).
  { intros e0 e1 X0 X1. split; [lia|]. split; [lia|]. intros r Hr. assert (Q : forall e, (blk_len e p r <= e)%nat). { intros e. apply blk_len_le; lia. }
    pose proof (Q e0). pose proof (Q e1). assert (e0 * blk_len e1 p r <= n0 * n1)%nat by (apply Nat.mul_le_mono; lia). assert (blk_len e0 p r * e1 <= n0 * n1)%nat by (apply Nat.mul_le_mono; lia). lia. }
  intros e0 e1 [<-|[<-|[]]] [<-|[<-|[]]]; apply K; lia.
Qed.
Lemma dirichlet_lengths {T} {V : Vec f64 T} E n b : new_composite KDirichlet n = Ok b -> len_phys (r2r_ops_x (T := T) E b) = n /\ len_spec (r2r_ops_x (T := T) E b) = (n - 2)%nat.
Proof. intros H. unfold new_composite in H. destruct (compo_new KDirichlet n) as [cc| |] eqn:Ec; cbn [bind] in H; try discriminate. injection H as <-. destruct (dir_inv n cc Ec) as [_ ->]. split; reflexivity. Qed.

(** The programs as they are in the repository: cheb_dirichlet(16) x cheb_dirichlet(10)
    (space_mpi.rs:9-17) and fourier_r2c(32) x cheb_dirichlet(10) (space_complex_mpi.rs:9-17),
    on 1 to 8 ranks, in both build modes, with libraries that return the rounded exact sums. *)
Theorem C61_space_mpi_example :
  exists E : ext f64, ext_ok E /\ exists b0 b1 b1', new_composite KDirichlet 16 = Ok b0 /\ new_composite KDirichlet 10 = Ok b1 /\ new_composite KDirichlet 10 = Ok b1' /\
  forall bm p, (1 <= p <= 8)%nat -> forall zo : nat -> nat -> zip_order, (forall r c, zip_ok (zo r c)) ->
  every_schedule (world bm p (mk_space2 (r2r_ops_x (T := f64) E b0) (r2r_ops_x (T := f64) E b1)) (fun r sm => mpi_example bm (zo r) Beqb (fun i => nofZ (Z.of_nat i)) r sm)) (repeat tt p) /\
  every_schedule (world bm p (mk_space2 (r2c_ops_x E (mk_r2c 32 17)) (r2r_ops_x (T := cplx f64) E b1')) (fun r sm => mpi_example bm (zo r) Beqb (fun i => nofZ (Z.of_nat i)) r sm)) (repeat tt p).
Proof.
  destruct C58_accurate_bases_exist as (E & HE & _ & HC & HR & _). exists E. split; auto.
  destruct (HC 16%nat ltac:(lia) ltac:(cbn; lia) f64 _) as (b0 & _ & F0 & _ & N0 & V0 & _ & G0 & _).
  destruct (HC 10%nat ltac:(lia) ltac:(cbn; lia) f64 _) as (b1 & _ & F1 & _ & N1 & V1 & _ & G1 & _).
  destruct (HC 10%nat ltac:(lia) ltac:(cbn; lia) (cplx f64) _) as (b1' & _ & F1' & _ & N1' & V1' & _ & G1' & _).
  destruct (HR 32%nat ltac:(lia) ltac:(cbn; lia)) as (f & Nf & Vf & Gf). injection Nf as <-. change (32 / 2 + 1)%nat with 17%nat in *.
  exists b0, b1, b1'. do 3 (split; [assumption|]). intros bm p Hp zo HZ.
  assert (D0 : 0 <= bpow radix2 (-52) <= / 2000) by (cbn; lra). assert (D1 : 0 <= eta64 <= 1) by (pose proof (bpow_gt_0 radix2 (-1075)); pose proof eta1; lra).
  assert (I16 : INR 16 = 16) by (cbn; lra). assert (I10 : INR 10 = 10) by (cbn; lra).
  assert (W : bpow radix2 (-52) + u64 = 3 * / IZR (2 ^ 53)). { change u64 with (/ IZR (2 ^ 53)). change (bpow radix2 (-52)) with (/ IZR (2 ^ 52)). cbv [Z.pow Z.pow_pos Pos.iter Z.mul Pos.mul]. lra. }
  assert (S0 : 16 * (INR 16 + 1) ^ 2 * (bpow radix2 (-52) + u64) <= / 100) by (rewrite W, I16; cbv [Z.pow Z.pow_pos Pos.iter Z.mul Pos.mul]; lra).
  assert (S1 : 16 * (INR 10 + 1) ^ 2 * (bpow radix2 (-52) + u64) <= / 100) by (rewrite W, I10; cbv [Z.pow Z.pow_pos Pos.iter Z.mul Pos.mul]; lra).
  assert (S2 : 4 * (bpow radix2 (-52) + u64) <= / 100) by (rewrite W; cbv [Z.pow Z.pow_pos Pos.iter Z.mul Pos.mul]; lra).
  destruct (dirichlet_lengths (T := f64) E _ _ N0) as [P0 Q0]. destruct (dirichlet_lengths (T := f64) E _ _ N1) as [P1 Q1]. destruct (dirichlet_lengths (T := cplx f64) E _ _ N1') as [P2 Q2]. cbn [Nat.sub] in Q0, Q1, Q2.
  split.
  - eapply (C61_mpi_examples_run_to_completion_f64 E HE _ _ D0 D1); [exact G0|exact S0|exact V0|exact G1|exact S1|exact V1| | |exact HZ].
    + eapply small_distributable; cbn [s2_base0 s2_base1]; eauto; cbn; lia.
    + rewrite P0, P1. cbn. lia.
  - eapply (C61_mpi_examples_run_to_completion_f64 E HE _ _ D0 D1); [exact Gf|exact S2|exact Vf|exact G1'|exact S1|exact V1'| | |exact HZ].
    + eapply small_distributable; cbn [s2_base0 s2_base1]; eauto; try reflexivity; cbn; lia.
    + rewrite P2. cbn. lia.
Qed.
Print Assumptions C61_space_mpi_example.
