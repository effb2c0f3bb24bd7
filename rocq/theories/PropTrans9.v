(** C67: C57 with scalars f32.  Coefficients of Space1, Space2 or Space3, on
    Chebyshev, Fourier, Dirichlet or Neumann bases, that are transformed to values
    and back in f32 are, entry by entry, close to themselves. *)
From Coq Require Import List Arith ZArith Reals Bool Lra Lia.
From Flocq Require Import Core BinarySingleNaN.
From Verif Require Import Base Num Linalg Stencils Cheb ChebFacts Compo CompoProofs Fourier FourierF64 FourierFacts FourierProofs Bases BaseLin LibBase NdArray NdArrayFacts AxisFacts AxisProps PropAxis SpaceFacts SpaceBases SpaceStages Space PropSpace PropSpace2 PropElements
  ExtLib AnyArith ExtFacts AnyBase PropAny PropAny2 Rounding LibAcc LibIdeal RndCheb RndFft RndR2c RndFinite2 PropRound PropRound2 RndAxis RndOps RndAxis2 SpaceAcc SpaceAcc2 RndSpace RndSpace2 PropTrans3 PropTrans6 SpaceVal32 RndVal32 PropTrans7 RndSpace32 PropTrans8 RndSpace2_32.
Import ListNotations.
Local Open Scope R_scope.
Local Notation u32 := (bpow radix2 (-24)).
Local Notation eta32 := (bpow radix2 (-150)).
Local Notation R60 := (bpow radix2 60).

Lemma dl_small dl k : 0 <= dl -> 1 <= k -> k * (dl + u32) <= / 2000 -> 0 <= dl <= / 16.
Proof.
  intros H0 H1 H. pose proof (bpow_gt_0 radix2 (-24)). assert (1 * (dl + u32) <= k * (dl + u32)) by (apply Rmult_le_compat_r; lra). lra.
Qed.
Lemma one_le a b : 1 <= a -> 1 <= b -> 1 <= a * b.
Proof. intros. replace 1 with (1 * 1) by ring. apply Rmult_le_compat; lra. Qed.
Lemma tr_kap E dl zt kap r P S T b eP eS : f32_transform E dl zt kap r P S T b eP eS -> 1 <= kap.
Proof.
  intros [].
  - lra.
  - pose proof (pos_INR n). apply one_le; lra.
  - pose proof (pos_INR n). apply one_le; lra.
Qed.

(** The coefficients of a field on Space1: [n] is the number of points, [kap] is 1
    for Chebyshev and Fourier bases and (n+1)^2 for Dirichlet and Neumann bases,
    and [kept] is the identity unless the base is real-to-complex. *)
Theorem C67_space1_spectral_round_trip_f32 :
  forall E : ext f32, ext_ok E -> forall dl zt, 0 <= dl -> 0 <= zt <= 1 ->
  forall kap r0 P S T (b0 : base_ops P S T) (eP : fel P) (eS : fel S), f32_transform E dl zt kap r0 P S T b0 eP eS -> kap * (dl + bpow radix2 (-24)) <= / 2000 ->
  forall (dP : Dflt P) (dS : Dflt S) (dT : Dflt T) zo, zip_ok zo ->
  let sp := mk_space1 b0 in let n := len_phys b0 in let m := len_spec b0 in
  forall a : arr S, proper [m] a -> (forall i, (i < m)%nat -> ef eS (get a [i])) ->
  let Sum := rsum m (fun i => esize eS (get a [i])) in
  Sum <= bpow radix2 60 ->
  exists c y, s1_backward zo sp a = Ok c /\ s1_forward zo sp c = Ok y /\ proper [m] y /\
    forall i, (i < m)%nat -> ef eS (get y [i]) /\
      edist eS (get y [i]) (kept b0 r0 i (ev eS (get a [i]))) <= 63 * kap * (dl + bpow radix2 (-24)) * Sum + 32 * kap * INR n ^ 2 * (bpow radix2 (-150) + zt).
Proof.
  intros E HE dl zt Hd0 Hz kap r0 P S T b0 eP eS H0 HK dP dS dT zo HZ sp n m a Pa Fa Sum Sa. pose proof (dl_small dl kap Hd0 (tr_kap _ _ _ _ _ _ _ _ _ _ _ H0) HK) as Hd.
  destruct (C53_space1_applies_each_base_along_its_axis f32 _ _ E HE eq_refl P S T b0 (tr_usable _ _ _ _ _ _ _ _ _ _ _ H0) dP dS dT zo HZ) as (HF & HB & _).
  destruct (HB a (azeros dflt _) Pa (proper_zeros _ _)) as (c & _ & Ec & Pc & Ac). destruct (HF c (azeros dflt _) Pc (proper_zeros _ _)) as (y & _ & Ey & Py & Ay).
  exists c, y. split; [exact Ec|]. split; [exact Ey|]. split; [exact Py|]. intros i Hi.
  destruct (tr_good _ _ _ _ _ _ _ _ _ _ _ H0 Hd Hz) as (Hq & K1 & G0). pose proof (proj1 Pa) as Sha. pose proof (proj1 Pc) as Shc.
  replace (INR n ^ 2) with (INR n * INR n) by ring.
  refine (st1 dl zt Hd0 Hz _ _ _ _ _ eS eP _ kap (fun i => get a [i]) (fun i => get y [i]) (fun i => get c [i]) G0 Hq K1 HK _ _ _ _ (tt, i) _).
  - axr a c (fun _ : unit => @nil nat) (fun _ : unit => @nil nat). rewrite Sha. reflexivity. rewrite Sha. vrow.
  - axr c y (fun _ : unit => @nil nat) (fun _ : unit => @nil nat). rewrite Shc. reflexivity. rewrite Shc. vrow.
  - intros p [_ Hp]. apply Fa; auto.
  - eapply Rle_trans; [exact Sa|]. apply R60_le; lia.
  - split; auto.
Qed.
Print Assumptions C67_space1_spectral_round_trip_f32.

Theorem C67_space2_spectral_round_trip_f32 :
  forall E : ext f32, ext_ok E -> forall dl zt, 0 <= dl -> 0 <= zt <= 1 ->
  forall k0 k1 r0 P I S T (b0 : base_ops I S T) (b1 : base_ops P I T) (eP : fel P) (eI : fel I) (eS : fel S),
  f32_transform E dl zt k0 r0 I S T b0 eI eS -> f32_transform E dl zt k1 false P I T b1 eP eI -> k0 * k1 * (dl + bpow radix2 (-24)) <= / 2000 ->
  forall (dP : Dflt P) (dI : Dflt I) (dS : Dflt S) (dT : Dflt T) zo, zip_ok zo ->
  let sp := mk_space2 b0 b1 in let n0 := len_phys b0 in let n1 := len_phys b1 in let m0 := len_spec b0 in let m1 := len_spec b1 in
  forall a : arr S, proper [m0; m1] a -> (forall i j, (i < m0)%nat -> (j < m1)%nat -> ef eS (get a [i; j])) ->
  let Sum := rsum m0 (fun i => rsum m1 (fun j => esize eS (get a [i; j]))) in
  Sum <= bpow radix2 60 ->
  exists c y, s2_backward zo sp a = Ok c /\ s2_forward zo sp c = Ok y /\ proper [m0; m1] y /\
    forall i j, (i < m0)%nat -> (j < m1)%nat -> ef eS (get y [i; j]) /\
      edist eS (get y [i; j]) (kept b0 r0 i (ev eS (get a [i; j]))) <= 385 * (k0 * k1) * (dl + bpow radix2 (-24)) * Sum + 100 * (k0 * k1) * (INR n0 * INR n1) ^ 2 * (bpow radix2 (-150) + zt).
Proof.
  intros E HE dl zt Hd0 Hz k0 k1 r0 P I S T b0 b1 eP eI eS H0 H1 HK dP dI dS dT zo HZ sp n0 n1 m0 m1 a Pa Fa Sum Sa.
  pose proof (dl_small dl _ Hd0 (one_le _ _ (tr_kap _ _ _ _ _ _ _ _ _ _ _ H0) (tr_kap _ _ _ _ _ _ _ _ _ _ _ H1)) HK) as Hd.
  destruct (C53_space2_applies_each_base_along_its_axis f32 _ _ E HE eq_refl P I S T b0 b1 (tr_usable _ _ _ _ _ _ _ _ _ _ _ H0) (tr_usable _ _ _ _ _ _ _ _ _ _ _ H1) dP dI dS dT zo HZ) as (HF & HB & _).
  destruct (HB a (azeros dflt _) Pa (proper_zeros _ _)) as (z & c & _ & Ec & Pc & Az & Ac). destruct (HF c (azeros dflt _) Pc (proper_zeros _ _)) as (z' & y & _ & Ey & Py & Az' & Ay).
  exists c, y. split; [exact Ec|]. split; [exact Ey|]. split; [exact Py|]. intros i j Hi Hj.
  destruct (tr_good _ _ _ _ _ _ _ _ _ _ _ H0 Hd Hz) as (Hq0 & K0 & G0). destruct (tr_good _ _ _ _ _ _ _ _ _ _ _ H1 Hd Hz) as (Hq1 & K1 & G1). rewrite kept_false in G1.
  pose proof (proj1 Pa) as Sha. pose proof (proj1 Pc) as Shc. pose proof (proj1 (proper_op _ _ _ _ _ _ _ Az Pa eq_refl)) as Shz. pose proof (proj1 (proper_op _ _ _ _ _ _ _ Az' Pc eq_refl)) as Shz'.
  unfold Sum in *. rewrite rsum_swap. rewrite rsum_swap in Sa. replace ((INR n0 * INR n1) ^ 2) with ((INR n1 * INR n0) * (INR n1 * INR n0)) by ring. rewrite (Rmult_comm k0) in *.
  refine (st2 dl zt Hd0 Hz _ _ _ _ _ eS eI _ k0 _ _ _ _ _ eP k1 (fun i j => get a [j; i]) (fun i j => get y [j; i]) (fun i j => get z [j; i]) (fun i j => get z' [j; i]) (fun i j => get c [j; i]) G0 Hq0 K0 G1 Hq1 K1 HK _ _ _ _ _ _ (tt, j, i) _).
  - axr a z (fun p : unit * nat => @nil nat) (fun p : unit * nat => [snd p]). rewrite Sha. reflexivity. rewrite Sha. vrow.
  - axr z' y (fun p : unit * nat => @nil nat) (fun p : unit * nat => [snd p]). rewrite Shz'. reflexivity. rewrite Shz'. vrow.
  - intros k Hk. axr z c (fun _ : unit => [k]) (fun _ : unit => @nil nat). rewrite Shz. reflexivity. rewrite Shz. vrow.
  - intros k Hk. axr c z' (fun _ : unit => [k]) (fun _ : unit => @nil nat). rewrite Shc. reflexivity. rewrite Shc. vrow.
  - intros p [[_ Hp] Hp']. apply Fa; auto.
  - eapply Rle_trans; [exact Sa|]. apply R60_le; lia.
  - split; [split; auto|auto].
Qed.
Print Assumptions C67_space2_spectral_round_trip_f32.

Theorem C67_space3_spectral_round_trip_f32 :
  forall E : ext f32, ext_ok E -> forall dl zt, 0 <= dl -> 0 <= zt <= 1 ->
  forall k0 k1 k2 r0 P I J S T (b0 : base_ops J S T) (b1 : base_ops I J T) (b2 : base_ops P I T) (eP : fel P) (eI : fel I) (eJ : fel J) (eS : fel S),
  f32_transform E dl zt k0 r0 J S T b0 eJ eS -> f32_transform E dl zt k1 false I J T b1 eI eJ -> f32_transform E dl zt k2 false P I T b2 eP eI -> k0 * k1 * k2 * (dl + bpow radix2 (-24)) <= / 2000 ->
  forall (dP : Dflt P) (dI : Dflt I) (dJ : Dflt J) (dS : Dflt S) (dT : Dflt T) zo, zip_ok zo ->
  let sp := mk_space3 b0 b1 b2 in let n0 := len_phys b0 in let n1 := len_phys b1 in let n2 := len_phys b2 in
  let m0 := len_spec b0 in let m1 := len_spec b1 in let m2 := len_spec b2 in
  forall a : arr S, proper [m0; m1; m2] a -> (forall i j k, (i < m0)%nat -> (j < m1)%nat -> (k < m2)%nat -> ef eS (get a [i; j; k])) ->
  let Sum := rsum m0 (fun i => rsum m1 (fun j => rsum m2 (fun k => esize eS (get a [i; j; k])))) in
  Sum <= bpow radix2 60 ->
  exists c y, s3_backward zo sp a = Ok c /\ s3_forward zo sp c = Ok y /\ proper [m0; m1; m2] y /\
    forall i j k, (i < m0)%nat -> (j < m1)%nat -> (k < m2)%nat -> ef eS (get y [i; j; k]) /\
      edist eS (get y [i; j; k]) (kept b0 r0 i (ev eS (get a [i; j; k]))) <= 2027 * (k0 * k1 * k2) * (dl + bpow radix2 (-24)) * Sum + 242 * (k0 * k1 * k2) * (INR n0 * INR n1 * INR n2) ^ 2 * (bpow radix2 (-150) + zt).
Proof.
  intros E HE dl zt Hd0 Hz k0 k1 k2 r0 P I J S T b0 b1 b2 eP eI eJ eS H0 H1 H2 HK dP dI dJ dS dT zo HZ sp n0 n1 n2 m0 m1 m2 a Pa Fa Sum Sa.
  pose proof (dl_small dl _ Hd0 (one_le _ _ (one_le _ _ (tr_kap _ _ _ _ _ _ _ _ _ _ _ H0) (tr_kap _ _ _ _ _ _ _ _ _ _ _ H1)) (tr_kap _ _ _ _ _ _ _ _ _ _ _ H2)) HK) as Hd.
  destruct (C53_space3_applies_each_base_along_its_axis f32 _ _ E HE eq_refl P I J S T b0 b1 b2 (tr_usable _ _ _ _ _ _ _ _ _ _ _ H0) (tr_usable _ _ _ _ _ _ _ _ _ _ _ H1) (tr_usable _ _ _ _ _ _ _ _ _ _ _ H2) dP dI dJ dS dT zo HZ) as (HF & HB & _).
  destruct (HB a (azeros dflt _) Pa (proper_zeros _ _)) as (z & u & c & _ & Ec & Pc & Az & Au & Ac). destruct (HF c (azeros dflt _) Pc (proper_zeros _ _)) as (u' & z' & y & _ & Ey & Py & Au' & Az' & Ay).
  exists c, y. split; [exact Ec|]. split; [exact Ey|]. split; [exact Py|]. intros i j k Hi Hj Hk.
  destruct (tr_good _ _ _ _ _ _ _ _ _ _ _ H0 Hd Hz) as (Hq0 & K0 & G0). destruct (tr_good _ _ _ _ _ _ _ _ _ _ _ H1 Hd Hz) as (Hq1 & K1 & G1). destruct (tr_good _ _ _ _ _ _ _ _ _ _ _ H2 Hd Hz) as (Hq2 & K2 & G2).
  rewrite kept_false in G1. rewrite kept_false in G2.
  pose proof (proj1 Pa) as Sha. pose proof (proj1 Pc) as Shc. pose proof (proper_op _ _ _ _ _ _ _ Az Pa eq_refl) as Pz. pose proof (proj1 Pz) as Shz. pose proof (proj1 (proper_op _ _ _ _ _ _ _ Au Pz eq_refl)) as Shu.
  pose proof (proper_op _ _ _ _ _ _ _ Au' Pc eq_refl) as Pu'. pose proof (proj1 Pu') as Shu'. pose proof (proj1 (proper_op _ _ _ _ _ _ _ Az' Pu' eq_refl)) as Shz'.
  assert (SW : Sum = rsum m2 (fun k => rsum m1 (fun j => rsum m0 (fun i => esize eS (get a [i; j; k]))))).
  { unfold Sum. erewrite rsum_ext; [|intros; apply rsum_swap]. rewrite rsum_swap. apply rsum_ext; intros. apply rsum_swap. }
  rewrite SW in *. replace ((INR n0 * INR n1 * INR n2) ^ 2) with ((INR n2 * INR n1 * INR n0) * (INR n2 * INR n1 * INR n0)) by ring.
  replace (k0 * k1 * k2) with (k2 * k1 * k0) in * by ring.
  refine (st3 dl zt Hd0 Hz _ _ _ _ _ eS eJ _ k0 _ _ _ _ _ eI k1 _ _ _ _ _ eP k2 (fun k j i => get a [i; j; k]) (fun k j i => get y [i; j; k]) (fun k j i => get z [i; j; k]) (fun k j i => get z' [i; j; k])
    (fun k j i => get u [i; j; k]) (fun k j i => get u' [i; j; k]) (fun k j i => get c [i; j; k]) G0 Hq0 K0 G1 Hq1 K1 G2 Hq2 K2 HK _ _ _ _ _ _ _ _ (tt, k, j, i) _).
  - axr a z (fun _ : unit * nat * nat => @nil nat) (fun p : unit * nat * nat => [snd p; snd (fst p)]). rewrite Sha. reflexivity. rewrite Sha. vrow.
  - axr z' y (fun _ : unit * nat * nat => @nil nat) (fun p : unit * nat * nat => [snd p; snd (fst p)]). rewrite Shz'. reflexivity. rewrite Shz'. vrow.
  - intros x Hx. axr z u (fun _ : unit * nat => [x]) (fun p : unit * nat => [snd p]). rewrite Shz. reflexivity. rewrite Shz. vrow.
  - intros x Hx. axr u' z' (fun _ : unit * nat => [x]) (fun p : unit * nat => [snd p]). rewrite Shu'. reflexivity. rewrite Shu'. vrow.
  - intros x v Hx Hv. axr u c (fun _ : unit => [x; v]) (fun _ : unit => @nil nat). rewrite Shu. reflexivity. rewrite Shu. vrow.
  - intros x v Hx Hv. axr c u' (fun _ : unit => [x; v]) (fun _ : unit => @nil nat). rewrite Shc. reflexivity. rewrite Shc. vrow.
  - intros p [[[_ Hp] Hp'] Hp2]. apply Fa; auto.
  - exact Sa.
  - split; [split; [split; auto|auto]|auto].
Qed.
Print Assumptions C67_space3_spectral_round_trip_f32.

(** ** The hypotheses can be met: with correctly rounded libraries, every Dirichlet
    and Neumann base of 5 to 2^10 points is accurate enough (for the other bases see
    [C67_accurate_orthogonal_bases_exist]). *)
Theorem C67_accurate_composite_bases_exist :
  exists E : ext f32, ext_ok E /\
    (forall n, (5 <= n)%nat -> (Z.of_nat n <= 2 ^ 10)%Z -> forall T (V : Vec f32 T), exists b b',
       new_composite KDirichlet n = Ok b /\ f32_transform E (bpow radix2 (-23)) eta32 ((INR n + 1) * (INR n + 1)) false f32 f32 T (r2r_ops_x E b) f32_real f32_real /\
       new_composite KNeumann n = Ok b' /\ f32_transform E (bpow radix2 (-23)) eta32 ((INR n + 1) * (INR n + 1)) false f32 f32 T (r2r_ops_x E b') f32_real f32_real) /\
    (forall n, (1 <= n)%nat -> (Z.of_nat n <= 2 ^ 10)%Z -> exists f, r2c_new n = Ok f /\
       f32_transform E (bpow radix2 (-23)) eta32 1 true f32 (cplx f32) (cplx f32) (r2c_ops_x E f) f32_real f32_cplx).
Proof.
  exists (ideal 24 128 eq_refl eq_refl). split. apply ideal_lengths32.
  assert (E2 : bpow radix2 (-23) = 2 * ieee_u 24). { unfold ieee_u. change (-23)%Z with (1 + - (24))%Z. rewrite bpow_plus. reflexivity. }
  rewrite E2. change eta32 with (ieee_eta 24 128). split.
  - intros n Hn Hz T V. destruct (ideal_dct1_ok 24 128 eq_refl eq_refl (ltac:(lia)) (ltac:(lia)) n) as [A1 A2].
    pose proof (proj1 (proj2 (C53_constructors f32 num_f32)) KDirichlet n) as K. destruct (new_composite KDirichlet n) as [b| |] eqn:Eb; [|cbn in K; lia|tauto]. clear K.
    pose proof (proj1 (proj2 (C53_constructors f32 num_f32)) KNeumann n) as K. destruct (new_composite KNeumann n) as [b'| |] eqn:Eb'; [|cbn in K; lia|tauto]. clear K.
    exists b, b'. split; [reflexivity|]. split; [eapply ft32_dirichlet; eauto|]. split; [reflexivity|]. eapply ft32_neumann; eauto.
  - intros n Hn Hz. exists (mk_r2c n (n / 2 + 1)). assert (HB : r2c_new n = Ok (mk_r2c n (n / 2 + 1))). { unfold r2c_new. apply Nat.leb_le in Hn. rewrite Hn. reflexivity. }
    split; auto. apply ft32_orthogonal. destruct (ideal_r2c_ok 24 128 eq_refl eq_refl (ltac:(lia)) (ltac:(lia)) n). destruct (ideal_c2r_ok 24 128 eq_refl eq_refl (ltac:(lia)) (ltac:(lia)) n Hn). eapply fo32_r2c; eauto.
Qed.

(** Coefficients on Space2 of a real Fourier base of 4 points and a Dirichlet base
    of 7 points: 3 x 5 numbers, each of which comes back within 2^-3 of its value
    (those of frequency 0 and 2 are real). *)
Example C67_example_spectral :
  exists (E : ext f32) b1, let sp := mk_space2 (r2c_ops_x E (mk_r2c 4 3)) (r2r_ops_x E b1) in new_composite KDirichlet 7 = Ok b1 /\ exists zo, zip_ok zo /\
  exists c y, s2_backward zo sp coef35_32 = Ok c /\ s2_forward zo sp c = Ok y /\
    forall i j, (i < 3)%nat -> (j < 5)%nat ->
      (is_finite (fst (get y [i; j])) = true /\ is_finite (snd (get y [i; j])) = true) /\
      Rabs (B2R (fst (get y [i; j])) - B2R (tenths32.[j])) + Rabs (B2R (snd (get y [i; j]))) <= bpow radix2 (-3).
Proof.
  destruct C67_accurate_composite_bases_exist as (E & HE & HC & HR). destruct (HC 7%nat ltac:(lia) ltac:(cbn; lia) (cplx f32) _) as (b1 & _ & N1 & H1 & _). destruct (HR 4%nat ltac:(lia) ltac:(cbn; lia)) as (f & N0 & H0). clear HC HR.
  exists E, b1. intros sp. split; auto. destruct some_zip as [zo HZ]. exists zo. split; auto. injection N0 as <-.
  assert (L1 : len_phys (r2r_ops_x (T := cplx f32) E b1) = 7%nat /\ len_spec (r2r_ops_x (T := cplx f32) E b1) = 5%nat).
  { unfold new_composite in N1. destruct (compo_new KDirichlet 7) as [cc| |] eqn:Ec; cbn [bind] in N1; try discriminate. injection N1 as <-. destruct (dir_inv 7 cc Ec) as [_ ->]. split; reflexivity. }
  destruct L1 as [L1 L1'].
  assert (V : forall j, (j < 5)%nat -> is_finite tenths32.[j] = true /\ Rabs (B2R tenths32.[j]) <= 1).
  { intros j Hj. destruct j as [|[|[|[|[|]]]]]; try lia; (split; [vm_compute; reflexivity|]); rewrite <- SF2R_B2SF;
      match goal with |- Rabs (SF2R _ ?t) <= _ => let t' := eval vm_compute in t in replace t with t' by (vm_compute; reflexivity) end;
      cbn [SF2R SpecFloat.cond_Zopp]; unfold F2R; cbn [Fnum Fexp cond_Zopp]; rewrite Rabs_pos_eq; cbn; lra. }
  assert (VG : forall i j, (i < 3)%nat -> (j < 5)%nat -> get coef35_32 [i; j] = (tenths32.[j], n0)).
  { intros i j Hi Hj. destruct i as [|[|[|]]]; try lia; destruct j as [|[|[|[|[|]]]]]; try lia; reflexivity. }
  assert (Z0 : B2R (n0 (A := f32)) = 0) by reflexivity.
  set (S := rsum 3 (fun i => rsum 5 (fun j => esize f32_cplx (get coef35_32 [i; j])))).
  assert (S1 : 0 <= S <= 16). { split. apply rsum_pos; intros; apply rsum_pos; intros; apply esize_pos.
    eapply Rle_trans. apply (rsum_le 3 _ (fun _ => 5)). intros i Hi. eapply Rle_trans. apply (rsum_le 5 _ (fun _ => 1)). intros j Hj. rewrite VG by auto. unfold esize. cbn [ev f32_cplx fst snd]. unfold f32_val. rewrite Z0, Rabs_R0. destruct (V j Hj). lra.
    rewrite rsum_const. cbn; lra. rewrite rsum_const. cbn; lra. }
  destruct (C67_space2_spectral_round_trip_f32 E HE (bpow radix2 (-23)) eta32 ltac:(cbn; lra) ltac:(pose proof eta1; lra) 1 _ true _ _ _ _ _ _ f32_real f32_real f32_cplx H0 H1 ltac:(cbn; lra) dflt_num dflt_num dflt_vec dflt_vec zo HZ coef35_32) as (c & y & Ec & Ey & _ & H).
  - rewrite L1'. repeat split.
  - rewrite L1'. intros i j Hi Hj. rewrite (VG i j Hi Hj). split; [apply V; auto|reflexivity].
  - rewrite L1'. change (S <= R60). apply Rle_trans with (bpow radix2 4). change (bpow radix2 4) with 16. apply S1. apply bpow_le; lia.
  - exists c, y. split; [exact Ec|]. split; [exact Ey|]. intros i j Hi Hj. rewrite L1' in H. destruct (H i j Hi Hj) as [F B]. split; [exact F|]. clear H Ec Ey.
    rewrite L1 in B.
    change (edist f32_cplx (get y [i; j]) (kept (r2c_ops_x E (mk_r2c 4 3)) true i (ev f32_cplx (get coef35_32 [i; j]))) <= 385 * (1 * ((INR 7 + 1) * (INR 7 + 1))) * (bpow radix2 (-23) + u32) * S + 100 * (1 * ((INR 7 + 1) * (INR 7 + 1))) * (INR 4 * INR 7) ^ 2 * (eta32 + eta32)) in B.
    rewrite (VG i j Hi Hj) in B. unfold edist in B. cbn [ev f32_cplx] in B. unfold f32_val in B. cbn [fst snd] in B. rewrite Z0 in B.
    replace (kept (r2c_ops_x E (mk_r2c 4 3)) true i (B2R tenths32.[j], 0)) with (B2R tenths32.[j], 0) in B by (unfold kept; cbn [fst]; destruct (andb _ _); reflexivity). cbn [fst snd] in B. rewrite Rminus_0_r in B. eapply Rle_trans; [exact B|]. clear B F V VG.
    assert (E1 : eta32 <= bpow radix2 (-80)) by (apply bpow_le; lia). pose proof (bpow_gt_0 radix2 (-150)) as E0. revert S1. generalize S. revert E1 E0. generalize eta32. clear. intros et E1 E0 S S1.
    change (bpow radix2 (-80)) with (/ IZR (2 ^ 80)) in E1. change (bpow radix2 (-23)) with (/ IZR (2 ^ 23)). change (bpow radix2 (-24)) with (/ IZR (2 ^ 24)). change (bpow radix2 (-3)) with (/ IZR (2 ^ 3)).
    replace (INR 7) with 7 by (cbn; lra). replace (INR 4) with 4 by (cbn; lra). cbv [Z.pow Z.pow_pos Pos.iter Z.mul Pos.mul] in *. lra.
Qed.
