(** C68: C60 with scalars f32: `to_ortho` and `from_ortho` of Space1, Space2 and
    Space3 return finite coefficients close to the exact change of basis
    (OrthoSpec.v). *)
From Coq Require Import List Arith ZArith Reals Bool Lra Lia.
From Flocq Require Import Core BinarySingleNaN.
From Verif Require Import Base Num Linalg Stencils ChebPoly ChebGrad Cheb ChebFacts Compo CompoProofs Fourier FourierF64 FourierFacts FourierProofs Bases BaseLin LibBase NdArray NdArrayFacts AxisFacts AxisProps PropAxis SpaceFacts SpaceBases SpaceStages SpaceOrder Space PropSpace PropSpace2 PropSpace3 PropSpace4 PropElements
  ExtLib AnyArith ExtFacts AnyBase PropAny PropAny2 Rounding LibAcc LibIdeal RndCheb RndFft RndR2c RndCompo RndFinite2 RndDirichlet RndNeumann RndGrad PropRound PropRound2 PropRound4 RndAxis RndOps RndAxis2 RndOps2 SpaceAcc RndSpace PropTrans3 SpaceAcc2 PropTrans4 SpaceVal RndVal RndVal2 PropTrans5 GradSpec GradOp RndGrad4 OrthoSpec RndOrtho PropOrtho PropGrad PropTrans6 SpaceVal32 RndVal32 PropTrans7 GradSpec32 RndGrad32 RndOrtho32.
Import ListNotations.
Local Open Scope R_scope.
Local Notation u32 := (bpow radix2 (-24)).
Local Notation eta32 := (bpow radix2 (-150)).

Lemma u6 : 6 * u32 <= / 100.
Proof. change u32 with (/ IZR (2 ^ 24)); cbv [Z.pow Z.pow_pos Pos.iter Z.mul Pos.mul]; lra. Qed.
Lemma eta_2 : 0 <= eta32 <= 2.
Proof. pose proof eta1. lra. Qed.

Theorem C68_space1_to_ortho_f32 :
  forall E : ext f32, ext_ok E -> forall F0 P S T (b0 : base_ops P S T) (e : fel T),
  f32_to_ortho E P S T b0 e F0 ->
  forall (dP : Dflt P) (dS : Dflt S) (dT : Dflt T) zo, zip_ok zo ->
  let sp := mk_space1 b0 in let n0 := len_phys b0 in let m0 := len_spec b0 in let o0 := len_orth b0 in
  forall a : arr T, proper [m0] a -> (forall p, (p < m0)%nat -> ef e (get a [p])) ->
  let Sum := rsum m0 (fun p => esize e (get a [p])) in Sum <= bpow radix2 60 ->
  exists y, s1_to_ortho zo sp a = Ok y /\ proper [o0] y /\
    forall i, (i < o0)%nat -> ef e (get y [i]) /\
      edist e (get y [i]) (F0 (fun p => ev e (get a [p])) i) <=
        6 * bpow radix2 (-24) * Sum + 18 * (INR n0) * bpow radix2 (-150).
Proof.
  intros E HE F0 P S T b0 e H0 dP dS dT zo HZ sp n0 m0 o0 a Pa Fa Sum Sa.
  destruct (C53_space1_applies_each_base_along_its_axis f32 _ _ E HE eq_refl P S T b0 (to_usable _ _ _ _ _ _ _ H0) dP dS dT zo HZ) as (_ & _ & HT & _).
  destruct (HT a (azeros dflt _) Pa (proper_zeros _ _)) as (y & _ & Ey & Py & Ay).
  exists y. split; [exact Ey|]. split; [exact Py|]. intros i Hi.
  pose proof (to_ortho_acc _ _ _ _ _ _ _ H0) as B0.
  pose proof u6 as HL0.
  pose proof (proj1 Pa) as Sha.
  assert (SW : Sum = rsum m0 (fun p => cn (ev e (get a [p])))).
  { reflexivity. }
  rewrite SW in Sa.
  assert (R0 : rows (fun _ : unit => True) (to_ortho_slice b0) m0 o0 (fun _ x => get a [x]) (fun _ x => get y [x])).
  { axr a y (fun _ : unit => @nil nat) (fun _ : unit => @nil nat). rewrite Sha. reflexivity. rewrite Sha. vrow. }
  destruct (va1 u32 eta32 (Rle_refl _)  _ _ _ _ _ _ _ _ _ (fun x => get a [x]) (fun x => get y [x]) B0 HL0 R0 Fa Sa i Hi) as (FY & EY & _).
  split; [exact FY|]. rewrite SW. eapply Rle_trans; [exact EY|]. right. unfold n0, m0, o0. field.
Qed.
Print Assumptions C68_space1_to_ortho_f32.

Theorem C68_space1_from_ortho_f32 :
  forall E : ext f32, ext_ok E -> forall K0 L0 F0 P S T (b0 : base_ops P S T) (e : fel T),
  f32_from_ortho E K0 L0 P S T b0 e F0 ->
  forall (dP : Dflt P) (dS : Dflt S) (dT : Dflt T) zo, zip_ok zo ->
  let sp := mk_space1 b0 in let n0 := len_phys b0 in let m0 := len_spec b0 in let o0 := len_orth b0 in
  forall a : arr T, proper [o0] a -> (forall p, (p < o0)%nat -> ef e (get a [p])) ->
  let Sum := rsum o0 (fun p => esize e (get a [p])) in Sum <= bpow radix2 60 ->
  exists y, s1_from_ortho zo sp a = Ok y /\ proper [m0] y /\
    forall i, (i < m0)%nat -> ef e (get y [i]) /\
      edist e (get y [i]) (F0 (fun p => ev e (get a [p])) i) <=
        L0 * (K0) * bpow radix2 (-24) * Sum + 3 * (L0) * (INR n0) * bpow radix2 (-150).
Proof.
  intros E HE K0 L0 F0 P S T b0 e H0 dP dS dT zo HZ sp n0 m0 o0 a Pa Fa Sum Sa.
  destruct (C53_space1_applies_each_base_along_its_axis f32 _ _ E HE eq_refl P S T b0 (from_usable _ _ _ _ _ _ _ _ _ H0) dP dS dT zo HZ) as (_ & _ & _ & HT).
  destruct (HT a (azeros dflt _) Pa (proper_zeros _ _)) as (y & _ & Ey & Py & Ay).
  exists y. split; [exact Ey|]. split; [exact Py|]. intros i Hi.
  pose proof (from_ortho_acc _ _ _ _ _ _ _ _ _ H0) as B0.
  pose proof (from_L_small _ _ _ _ _ _ _ _ _ H0) as HL0.
  pose proof (proj1 Pa) as Sha.
  assert (SW : Sum = rsum o0 (fun p => cn (ev e (get a [p])))).
  { reflexivity. }
  rewrite SW in Sa.
  assert (R0 : rows (fun _ : unit => True) (from_ortho_slice b0) o0 m0 (fun _ x => get a [x]) (fun _ x => get y [x])).
  { axr a y (fun _ : unit => @nil nat) (fun _ : unit => @nil nat). rewrite Sha. reflexivity. rewrite Sha. vrow. }
  destruct (va1 u32 eta32 (Rle_refl _)  _ _ _ _ _ _ _ _ _ (fun x => get a [x]) (fun x => get y [x]) B0 HL0 R0 Fa Sa i Hi) as (FY & EY & _).
  split; [exact FY|]. rewrite SW. eapply Rle_trans; [exact EY|]. right. unfold n0, m0, o0. field.
Qed.
Print Assumptions C68_space1_from_ortho_f32.

Theorem C68_space2_to_ortho_f32 :
  forall E : ext f32, ext_ok E -> forall F0 F1 P I S T (b0 : base_ops I S T) (b1 : base_ops P I T) (e : fel T),
  f32_to_ortho E I S T b0 e F0 -> f32_to_ortho E P I T b1 e F1 ->
  forall (dP : Dflt P) (dI : Dflt I) (dS : Dflt S) (dT : Dflt T) zo, zip_ok zo ->
  let sp := mk_space2 b0 b1 in let n0 := len_phys b0 in let m0 := len_spec b0 in let o0 := len_orth b0 in let n1 := len_phys b1 in let m1 := len_spec b1 in let o1 := len_orth b1 in
  forall a : arr T, proper [m0; m1] a -> (forall p q, (p < m0)%nat -> (q < m1)%nat -> ef e (get a [p; q])) ->
  let Sum := rsum m0 (fun p => rsum m1 (fun q => esize e (get a [p; q]))) in Sum <= bpow radix2 60 ->
  exists y, s2_to_ortho zo sp a = Ok y /\ proper [o0; o1] y /\
    forall i j, (i < o0)%nat -> (j < o1)%nat -> ef e (get y [i; j]) /\
      edist e (get y [i; j]) (F1 (fun q => F0 (fun p => ev e (get a [p; q])) i) j) <=
        63 / 5 * bpow radix2 (-24) * Sum + 108 * (INR n0 * INR n1) * bpow radix2 (-150).
Proof.
  intros E HE F0 F1 P I S T b0 b1 e H0 H1 dP dI dS dT zo HZ sp n0 m0 o0 n1 m1 o1 a Pa Fa Sum Sa.
  destruct (C53_space2_applies_each_base_along_its_axis f32 _ _ E HE eq_refl P I S T b0 b1 (to_usable _ _ _ _ _ _ _ H0) (to_usable _ _ _ _ _ _ _ H1) dP dI dS dT zo HZ) as (_ & _ & HT & _).
  destruct (HT a (azeros dflt _) Pa (proper_zeros _ _)) as (z & y & _ & Ey & Py & Az & Ay).
  exists y. split; [exact Ey|]. split; [exact Py|]. intros i j Hi Hj.
  pose proof (to_ortho_acc _ _ _ _ _ _ _ H0) as B0.
  pose proof u6 as HL0.
  pose proof (to_ortho_acc _ _ _ _ _ _ _ H1) as B1.
  pose proof u6 as HL1.
  pose proof (proper_op _ _ _ _ _ _ _ Az Pa eq_refl) as Pz.
  pose proof (proj1 Pa) as Sha.
  pose proof (proj1 Pz) as Shz.
  assert (SW : Sum = rsum m1 (fun q => rsum m0 (fun p => cn (ev e (get a [p; q]))))).
  { unfold Sum. rewrite rsum_swap. reflexivity. }
  rewrite SW in Sa.
  assert (R0 : forall q, (q < m1)%nat -> rows (fun _ : unit => True) (to_ortho_slice b0) m0 o0 (fun _ x => get a [x; q]) (fun _ x => get z [x; q])).
  { intros q Q1. axr a z (fun _ : unit => @nil nat) (fun _ : unit => [q]). rewrite Sha. reflexivity. rewrite Sha. vrow. }
  assert (R1 : forall p, (p < o0)%nat -> rows (fun _ : unit => True) (to_ortho_slice b1) m1 o1 (fun _ x => get z [p; x]) (fun _ x => get y [p; x])).
  { intros p Q0. axr z y (fun _ : unit => [p]) (fun _ : unit => @nil nat). rewrite Shz. reflexivity. rewrite Shz. vrow. }
  destruct (va2 u32 eta32 (Rle_refl _) eta_2 _ _ _ _ _ _ _ _ _ _ _ _ _ _ _ _ _ (fun x v => get a [x; v]) (fun x v => get z [x; v]) (fun x v => get y [x; v]) B0 HL0 B1 HL1 R0 R1 Fa Sa i j Hi Hj) as (FY & EY & _).
  split; [exact FY|]. rewrite SW. eapply Rle_trans; [exact EY|]. right. unfold n0, m0, o0, n1, m1, o1. field.
Qed.
Print Assumptions C68_space2_to_ortho_f32.

Theorem C68_space2_from_ortho_f32 :
  forall E : ext f32, ext_ok E -> forall K0 L0 F0 K1 L1 F1 P I S T (b0 : base_ops I S T) (b1 : base_ops P I T) (e : fel T),
  f32_from_ortho E K0 L0 I S T b0 e F0 -> f32_from_ortho E K1 L1 P I T b1 e F1 ->
  forall (dP : Dflt P) (dI : Dflt I) (dS : Dflt S) (dT : Dflt T) zo, zip_ok zo ->
  let sp := mk_space2 b0 b1 in let n0 := len_phys b0 in let m0 := len_spec b0 in let o0 := len_orth b0 in let n1 := len_phys b1 in let m1 := len_spec b1 in let o1 := len_orth b1 in
  forall a : arr T, proper [o0; o1] a -> (forall p q, (p < o0)%nat -> (q < o1)%nat -> ef e (get a [p; q])) ->
  let Sum := rsum o0 (fun p => rsum o1 (fun q => esize e (get a [p; q]))) in Sum <= bpow radix2 60 ->
  exists y, s2_from_ortho zo sp a = Ok y /\ proper [m0; m1] y /\
    forall i j, (i < m0)%nat -> (j < m1)%nat -> ef e (get y [i; j]) /\
      edist e (get y [i; j]) (F1 (fun q => F0 (fun p => ev e (get a [p; q])) i) j) <=
        21 / 20 * (L0 + L1) * (K0 * K1) * bpow radix2 (-24) * Sum + 3 * (L0 * L1) * (INR n0 * INR n1) * bpow radix2 (-150).
Proof.
  intros E HE K0 L0 F0 K1 L1 F1 P I S T b0 b1 e H0 H1 dP dI dS dT zo HZ sp n0 m0 o0 n1 m1 o1 a Pa Fa Sum Sa.
  destruct (C53_space2_applies_each_base_along_its_axis f32 _ _ E HE eq_refl P I S T b0 b1 (from_usable _ _ _ _ _ _ _ _ _ H0) (from_usable _ _ _ _ _ _ _ _ _ H1) dP dI dS dT zo HZ) as (_ & _ & _ & HT).
  destruct (HT a (azeros dflt _) Pa (proper_zeros _ _)) as (z & y & _ & Ey & Py & Az & Ay).
  exists y. split; [exact Ey|]. split; [exact Py|]. intros i j Hi Hj.
  pose proof (from_ortho_acc _ _ _ _ _ _ _ _ _ H0) as B0.
  pose proof (from_L_small _ _ _ _ _ _ _ _ _ H0) as HL0.
  pose proof (from_ortho_acc _ _ _ _ _ _ _ _ _ H1) as B1.
  pose proof (from_L_small _ _ _ _ _ _ _ _ _ H1) as HL1.
  pose proof (proper_op _ _ _ _ _ _ _ Az Pa eq_refl) as Pz.
  pose proof (proj1 Pa) as Sha.
  pose proof (proj1 Pz) as Shz.
  assert (SW : Sum = rsum o1 (fun q => rsum o0 (fun p => cn (ev e (get a [p; q]))))).
  { unfold Sum. rewrite rsum_swap. reflexivity. }
  rewrite SW in Sa.
  assert (R0 : forall q, (q < o1)%nat -> rows (fun _ : unit => True) (from_ortho_slice b0) o0 m0 (fun _ x => get a [x; q]) (fun _ x => get z [x; q])).
  { intros q Q1. axr a z (fun _ : unit => @nil nat) (fun _ : unit => [q]). rewrite Sha. reflexivity. rewrite Sha. vrow. }
  assert (R1 : forall p, (p < m0)%nat -> rows (fun _ : unit => True) (from_ortho_slice b1) o1 m1 (fun _ x => get z [p; x]) (fun _ x => get y [p; x])).
  { intros p Q0. axr z y (fun _ : unit => [p]) (fun _ : unit => @nil nat). rewrite Shz. reflexivity. rewrite Shz. vrow. }
  destruct (va2 u32 eta32 (Rle_refl _) eta_2 _ _ _ _ _ _ _ _ _ _ _ _ _ _ _ _ _ (fun x v => get a [x; v]) (fun x v => get z [x; v]) (fun x v => get y [x; v]) B0 HL0 B1 HL1 R0 R1 Fa Sa i j Hi Hj) as (FY & EY & _).
  split; [exact FY|]. rewrite SW. eapply Rle_trans; [exact EY|]. right. unfold n0, m0, o0, n1, m1, o1. field.
Qed.
Print Assumptions C68_space2_from_ortho_f32.

Theorem C68_space3_to_ortho_f32 :
  forall E : ext f32, ext_ok E -> forall F0 F1 F2 P I J S T (b0 : base_ops J S T) (b1 : base_ops I J T) (b2 : base_ops P I T) (e : fel T),
  f32_to_ortho E J S T b0 e F0 -> f32_to_ortho E I J T b1 e F1 -> f32_to_ortho E P I T b2 e F2 ->
  forall (dP : Dflt P) (dI : Dflt I) (dJ : Dflt J) (dS : Dflt S) (dT : Dflt T) zo, zip_ok zo ->
  let sp := mk_space3 b0 b1 b2 in let n0 := len_phys b0 in let m0 := len_spec b0 in let o0 := len_orth b0 in let n1 := len_phys b1 in let m1 := len_spec b1 in let o1 := len_orth b1 in let n2 := len_phys b2 in let m2 := len_spec b2 in let o2 := len_orth b2 in
  forall a : arr T, proper [m0; m1; m2] a -> (forall p q r, (p < m0)%nat -> (q < m1)%nat -> (r < m2)%nat -> ef e (get a [p; q; r])) ->
  let Sum := rsum m0 (fun p => rsum m1 (fun q => rsum m2 (fun r => esize e (get a [p; q; r])))) in Sum <= bpow radix2 60 ->
  exists y, s3_to_ortho zo sp a = Ok y /\ proper [o0; o1; o2] y /\
    forall i j k, (i < o0)%nat -> (j < o1)%nat -> (k < o2)%nat -> ef e (get y [i; j; k]) /\
      edist e (get y [i; j; k]) (F2 (fun r => F1 (fun q => F0 (fun p => ev e (get a [p; q; r])) i) j) k) <=
        99 / 5 * bpow radix2 (-24) * Sum + 648 * (INR n0 * INR n1 * INR n2) * bpow radix2 (-150).
Proof.
  intros E HE F0 F1 F2 P I J S T b0 b1 b2 e H0 H1 H2 dP dI dJ dS dT zo HZ sp n0 m0 o0 n1 m1 o1 n2 m2 o2 a Pa Fa Sum Sa.
  destruct (C53_space3_applies_each_base_along_its_axis f32 _ _ E HE eq_refl P I J S T b0 b1 b2 (to_usable _ _ _ _ _ _ _ H0) (to_usable _ _ _ _ _ _ _ H1) (to_usable _ _ _ _ _ _ _ H2) dP dI dJ dS dT zo HZ) as (_ & _ & HT & _).
  destruct (HT a (azeros dflt _) Pa (proper_zeros _ _)) as (z & u & y & _ & Ey & Py & Az & Au & Ay).
  exists y. split; [exact Ey|]. split; [exact Py|]. intros i j k Hi Hj Hk.
  pose proof (to_ortho_acc _ _ _ _ _ _ _ H0) as B0.
  pose proof u6 as HL0.
  pose proof (to_ortho_acc _ _ _ _ _ _ _ H1) as B1.
  pose proof u6 as HL1.
  pose proof (to_ortho_acc _ _ _ _ _ _ _ H2) as B2.
  pose proof u6 as HL2.
  pose proof (proper_op _ _ _ _ _ _ _ Az Pa eq_refl) as Pz.
  pose proof (proper_op _ _ _ _ _ _ _ Au Pz eq_refl) as Pu.
  pose proof (proj1 Pa) as Sha.
  pose proof (proj1 Pz) as Shz.
  pose proof (proj1 Pu) as Shu.
  assert (SW : Sum = rsum m2 (fun r => rsum m1 (fun q => rsum m0 (fun p => cn (ev e (get a [p; q; r])))))).
  { unfold Sum. transitivity (rsum m0 (fun p => rsum m2 (fun r => rsum m1 (fun q => esize e (get a [p; q; r]))))).
    apply rsum_ext; intros; apply rsum_swap. rewrite rsum_swap. apply rsum_ext; intros r Hr. rewrite rsum_swap. reflexivity. }
  rewrite SW in Sa.
  assert (R0 : forall q r, (q < m1)%nat -> (r < m2)%nat -> rows (fun _ : unit => True) (to_ortho_slice b0) m0 o0 (fun _ x => get a [x; q; r]) (fun _ x => get z [x; q; r])).
  { intros q r Q1 Q2. axr a z (fun _ : unit => @nil nat) (fun _ : unit => [q; r]). rewrite Sha. reflexivity. rewrite Sha. vrow. }
  assert (R1 : forall p r, (p < o0)%nat -> (r < m2)%nat -> rows (fun _ : unit => True) (to_ortho_slice b1) m1 o1 (fun _ x => get z [p; x; r]) (fun _ x => get u [p; x; r])).
  { intros p r Q0 Q2. axr z u (fun _ : unit => [p]) (fun _ : unit => [r]). rewrite Shz. reflexivity. rewrite Shz. vrow. }
  assert (R2 : forall p q, (p < o0)%nat -> (q < o1)%nat -> rows (fun _ : unit => True) (to_ortho_slice b2) m2 o2 (fun _ x => get u [p; q; x]) (fun _ x => get y [p; q; x])).
  { intros p q Q0 Q1. axr u y (fun _ : unit => [p; q]) (fun _ : unit => @nil nat). rewrite Shu. reflexivity. rewrite Shu. vrow. }
  destruct (va3 u32 eta32 (Rle_refl _) eta_2 _ _ _ _ _ _ _ _ _ _ _ _ _ _ _ _ _ _ _ _ _ _ _ _ _ (fun x v t => get a [x; v; t]) (fun x v t => get z [x; v; t]) (fun x v t => get u [x; v; t]) (fun x v t => get y [x; v; t]) B0 HL0 B1 HL1 B2 HL2 R0 R1 R2 Fa Sa i j k Hi Hj Hk) as (FY & EY & _).
  split; [exact FY|]. rewrite SW. eapply Rle_trans; [exact EY|]. right. unfold n0, m0, o0, n1, m1, o1, n2, m2, o2. field.
Qed.
Print Assumptions C68_space3_to_ortho_f32.

Theorem C68_space3_from_ortho_f32 :
  forall E : ext f32, ext_ok E -> forall K0 L0 F0 K1 L1 F1 K2 L2 F2 P I J S T (b0 : base_ops J S T) (b1 : base_ops I J T) (b2 : base_ops P I T) (e : fel T),
  f32_from_ortho E K0 L0 J S T b0 e F0 -> f32_from_ortho E K1 L1 I J T b1 e F1 -> f32_from_ortho E K2 L2 P I T b2 e F2 ->
  forall (dP : Dflt P) (dI : Dflt I) (dJ : Dflt J) (dS : Dflt S) (dT : Dflt T) zo, zip_ok zo ->
  let sp := mk_space3 b0 b1 b2 in let n0 := len_phys b0 in let m0 := len_spec b0 in let o0 := len_orth b0 in let n1 := len_phys b1 in let m1 := len_spec b1 in let o1 := len_orth b1 in let n2 := len_phys b2 in let m2 := len_spec b2 in let o2 := len_orth b2 in
  forall a : arr T, proper [o0; o1; o2] a -> (forall p q r, (p < o0)%nat -> (q < o1)%nat -> (r < o2)%nat -> ef e (get a [p; q; r])) ->
  let Sum := rsum o0 (fun p => rsum o1 (fun q => rsum o2 (fun r => esize e (get a [p; q; r])))) in Sum <= bpow radix2 60 ->
  exists y, s3_from_ortho zo sp a = Ok y /\ proper [m0; m1; m2] y /\
    forall i j k, (i < m0)%nat -> (j < m1)%nat -> (k < m2)%nat -> ef e (get y [i; j; k]) /\
      edist e (get y [i; j; k]) (F2 (fun r => F1 (fun q => F0 (fun p => ev e (get a [p; q; r])) i) j) k) <=
        11 / 10 * (L0 + L1 + L2) * (K0 * K1 * K2) * bpow radix2 (-24) * Sum + 3 * (L0 * L1 * L2) * (INR n0 * INR n1 * INR n2) * bpow radix2 (-150).
Proof.
  intros E HE K0 L0 F0 K1 L1 F1 K2 L2 F2 P I J S T b0 b1 b2 e H0 H1 H2 dP dI dJ dS dT zo HZ sp n0 m0 o0 n1 m1 o1 n2 m2 o2 a Pa Fa Sum Sa.
  destruct (C53_space3_applies_each_base_along_its_axis f32 _ _ E HE eq_refl P I J S T b0 b1 b2 (from_usable _ _ _ _ _ _ _ _ _ H0) (from_usable _ _ _ _ _ _ _ _ _ H1) (from_usable _ _ _ _ _ _ _ _ _ H2) dP dI dJ dS dT zo HZ) as (_ & _ & _ & HT).
  destruct (HT a (azeros dflt _) Pa (proper_zeros _ _)) as (z & u & y & _ & Ey & Py & Az & Au & Ay).
  exists y. split; [exact Ey|]. split; [exact Py|]. intros i j k Hi Hj Hk.
  pose proof (from_ortho_acc _ _ _ _ _ _ _ _ _ H0) as B0.
  pose proof (from_L_small _ _ _ _ _ _ _ _ _ H0) as HL0.
  pose proof (from_ortho_acc _ _ _ _ _ _ _ _ _ H1) as B1.
  pose proof (from_L_small _ _ _ _ _ _ _ _ _ H1) as HL1.
  pose proof (from_ortho_acc _ _ _ _ _ _ _ _ _ H2) as B2.
  pose proof (from_L_small _ _ _ _ _ _ _ _ _ H2) as HL2.
  pose proof (proper_op _ _ _ _ _ _ _ Az Pa eq_refl) as Pz.
  pose proof (proper_op _ _ _ _ _ _ _ Au Pz eq_refl) as Pu.
  pose proof (proj1 Pa) as Sha.
  pose proof (proj1 Pz) as Shz.
  pose proof (proj1 Pu) as Shu.
  assert (SW : Sum = rsum o2 (fun r => rsum o1 (fun q => rsum o0 (fun p => cn (ev e (get a [p; q; r])))))).
  { unfold Sum. transitivity (rsum o0 (fun p => rsum o2 (fun r => rsum o1 (fun q => esize e (get a [p; q; r]))))).
    apply rsum_ext; intros; apply rsum_swap. rewrite rsum_swap. apply rsum_ext; intros r Hr. rewrite rsum_swap. reflexivity. }
  rewrite SW in Sa.
  assert (R0 : forall q r, (q < o1)%nat -> (r < o2)%nat -> rows (fun _ : unit => True) (from_ortho_slice b0) o0 m0 (fun _ x => get a [x; q; r]) (fun _ x => get z [x; q; r])).
  { intros q r Q1 Q2. axr a z (fun _ : unit => @nil nat) (fun _ : unit => [q; r]). rewrite Sha. reflexivity. rewrite Sha. vrow. }
  assert (R1 : forall p r, (p < m0)%nat -> (r < o2)%nat -> rows (fun _ : unit => True) (from_ortho_slice b1) o1 m1 (fun _ x => get z [p; x; r]) (fun _ x => get u [p; x; r])).
  { intros p r Q0 Q2. axr z u (fun _ : unit => [p]) (fun _ : unit => [r]). rewrite Shz. reflexivity. rewrite Shz. vrow. }
  assert (R2 : forall p q, (p < m0)%nat -> (q < m1)%nat -> rows (fun _ : unit => True) (from_ortho_slice b2) o2 m2 (fun _ x => get u [p; q; x]) (fun _ x => get y [p; q; x])).
  { intros p q Q0 Q1. axr u y (fun _ : unit => [p; q]) (fun _ : unit => @nil nat). rewrite Shu. reflexivity. rewrite Shu. vrow. }
  destruct (va3 u32 eta32 (Rle_refl _) eta_2 _ _ _ _ _ _ _ _ _ _ _ _ _ _ _ _ _ _ _ _ _ _ _ _ _ (fun x v t => get a [x; v; t]) (fun x v t => get z [x; v; t]) (fun x v t => get u [x; v; t]) (fun x v t => get y [x; v; t]) B0 HL0 B1 HL1 B2 HL2 R0 R1 R2 Fa Sa i j k Hi Hj Hk) as (FY & EY & _).
  split; [exact FY|]. rewrite SW. eapply Rle_trans; [exact EY|]. right. unfold n0, m0, o0, n1, m1, o1, n2, m2, o2. field.
Qed.
Print Assumptions C68_space3_from_ortho_f32.

(** ** The premises are met *)
Theorem C68_bases_exist :
  forall (E : ext f32) n, (5 <= n)%nat -> (Z.of_nat n <= 2 ^ 7)%Z ->
  (forall T (V : Vec f32 T) e, exists b, new_chebyshev n = Ok b /\ f32_to_ortho E f32 f32 T (r2r_ops_x E b) e unchanged /\ f32_from_ortho E 1 4 f32 f32 T (r2r_ops_x E b) e unchanged) /\
  (forall T V e, f32_scalar T V e -> exists b, new_composite KDirichlet n = Ok b /\ f32_to_ortho E f32 f32 T (r2r_ops_x E b) e (compo_ortho n dir_q) /\
     exists F, fits_coefs n dir_q F /\ f32_from_ortho E ((INR n + 1) ^ 2) (8 * (INR n + 1) ^ 2) f32 f32 T (r2r_ops_x E b) e F) /\
  (forall T V e, f32_scalar T V e -> exists b, new_composite KNeumann n = Ok b /\ f32_to_ortho E f32 f32 T (r2r_ops_x E b) e (compo_ortho n neu_q) /\
     exists F, fits_coefs n neu_q F /\ f32_from_ortho E ((INR n + 1) ^ 2) (8 * (INR n + 1) ^ 2) f32 f32 T (r2r_ops_x E b) e F) /\
  (exists f, r2c_new n = Ok f /\ f32_to_ortho E f32 (cplx f32) (cplx f32) (r2c_ops_x E f) f32_cplx unchanged /\ f32_from_ortho E 1 4 f32 (cplx f32) (cplx f32) (r2c_ops_x E f) f32_cplx unchanged) /\
  (exists f, c2c_new n = Ok f /\ f32_to_ortho E (cplx f32) (cplx f32) (cplx f32) (c2c_ops_x E f) f32_cplx unchanged /\ f32_from_ortho E 1 4 (cplx f32) (cplx f32) (cplx f32) (c2c_ops_x E f) f32_cplx unchanged).
Proof.
  intros E n H5 HZ. assert (HZ' : (Z.of_nat n <= 2 ^ 10)%Z) by lia. split; [|split; [|split; [|split]]].
  - intros T V e. pose proof (proj1 (C53_constructors f32 num_f32) n) as K. destruct (new_chebyshev n) as [b| |] eqn:Eb; [|cbn in K; lia|tauto]. exists b. split; auto. split; econstructor; eauto.
  - intros T V e Hs. pose proof (proj1 (proj2 (C53_constructors f32 num_f32)) KDirichlet n) as K. destruct (new_composite KDirichlet n) as [b| |] eqn:Eb; [|cbn in K; lia|tauto]. exists b. split; auto.
    split. apply fto32_dirichlet; auto. assert (HF : fits_coefs n dir_q (both (sol (dirc n) n))). { intros a. split; apply dir_ls, dir_sol_rows; auto. }
    exists (both (sol (dirc n) n)). split; auto. apply ffo32_dirichlet; auto.
  - intros T V e Hs. pose proof (proj1 (proj2 (C53_constructors f32 num_f32)) KNeumann n) as K. destruct (new_composite KNeumann n) as [b| |] eqn:Eb; [|cbn in K; lia|tauto]. exists b. split; auto.
    split. apply fto32_neumann; auto. assert (HF : fits_coefs n neu_q (both (sol (neuc n) n))). { intros a. split; apply neu_ls, neu_sol_rows; auto. }
    exists (both (sol (neuc n) n)). split; auto. apply ffo32_neumann; auto.
  - exists (mk_r2c n (n / 2 + 1)). assert (HB : r2c_new n = Ok (mk_r2c n (n / 2 + 1))). { unfold r2c_new. destruct (Nat.leb_spec 1 n); [reflexivity|lia]. } split; auto. split; econstructor; eauto.
  - destruct (c2c_new n) as [f| |] eqn:Ef; [|exfalso|exfalso]. exists f. split; auto. split; econstructor; eauto.
    all: unfold c2c_new in Ef; destruct (Nat.leb_spec 1 n); try discriminate; lia.
Qed.
Print Assumptions C68_bases_exist.

(** `to_ortho` on Fourier (4 points) x Dirichlet (7 points), of the coefficients 0.1, 0.2, ... *)
Example C68_example_to_ortho :
  forall (E : ext f32), ext_ok E -> exists b1, let sp := mk_space2 (r2c_ops_x E (mk_r2c 4 3)) (r2r_ops_x E b1) in new_composite KDirichlet 7 = Ok b1 /\ exists zo, zip_ok zo /\
  exists y, s2_to_ortho zo sp coef35_32 = Ok y /\
    forall i j, (i < 3)%nat -> (j < 7)%nat -> is_finite (fst (get y [i; j])) = true /\ is_finite (snd (get y [i; j])) = true /\
      edist f32_cplx (get y [i; j]) (compo_ortho 7 dir_q (fun q => ev f32_cplx (get coef35_32 [i; q])) j) <= bpow radix2 (-16).
Proof.
  intros E HE. destruct (C68_bases_exist E 7 ltac:(lia) ltac:(lia)) as (_ & HC & _). destruct (HC (cplx f32) _ f32_cplx fs32_cplx) as (b1 & N1 & H1 & _). clear HC.
  assert (N0 : r2c_new 4 = Ok (mk_r2c 4 3)) by reflexivity. pose proof (fto32_r2c E f32_cplx 4 _ N0 ltac:(lia)) as H0.
  exists b1. intros sp. split; auto. destruct some_zip as [zo HZ]. exists zo. split; auto.
  assert (L1 : len_phys (r2r_ops_x (T := cplx f32) E b1) = 7%nat /\ len_spec (r2r_ops_x (T := cplx f32) E b1) = 5%nat /\ len_orth (r2r_ops_x (T := cplx f32) E b1) = 7%nat).
  { unfold new_composite in N1. destruct (compo_new KDirichlet 7) as [cc| |] eqn:Ec; cbn [bind] in N1; try discriminate. injection N1 as <-. destruct (dir_inv 7 cc Ec) as [_ ->]. repeat split; reflexivity. }
  destruct L1 as (L1 & L1' & L1'').
  assert (V : forall j, (j < 5)%nat -> is_finite tenths32.[j] = true /\ Rabs (B2R tenths32.[j]) <= 1).
  { intros j Hj. destruct j as [|[|[|[|[|]]]]]; try lia; (split; [vm_compute; reflexivity|]); rewrite <- SF2R_B2SF;
      match goal with |- Rabs (SF2R _ ?t) <= _ => let t' := eval vm_compute in t in replace t with t' by (vm_compute; reflexivity) end;
      cbn [SF2R SpecFloat.cond_Zopp]; unfold F2R; cbn [Fnum Fexp cond_Zopp]; rewrite Rabs_pos_eq; cbn; lra. }
  assert (VG : forall i j, (i < 3)%nat -> (j < 5)%nat -> get coef35_32 [i; j] = (tenths32.[j], n0)).
  { intros i j Hi Hj. destruct i as [|[|[|]]]; try lia; destruct j as [|[|[|[|[|]]]]]; try lia; reflexivity. }
  assert (Z0 : B2R (n0 (A := f32)) = 0) by reflexivity.
  set (S := rsum 3 (fun i => rsum 5 (fun j => esize f32_cplx (get coef35_32 [i; j])))).
  assert (S1 : 0 <= S <= 15). { split. apply rsum_pos; intros; apply rsum_pos; intros; apply esize_pos.
    eapply Rle_trans. apply (rsum_le 3 _ (fun _ => 5)). intros i Hi. eapply Rle_trans. apply (rsum_le 5 _ (fun _ => 1)). intros j Hj. rewrite VG by auto. unfold esize. cbn [ev f32_cplx fst snd]. unfold f32_val. rewrite Z0, Rabs_R0. destruct (V j Hj). lra.
    rewrite rsum_const. cbn; lra. rewrite rsum_const. cbn; lra. }
  destruct (C68_space2_to_ortho_f32 E HE _ _ _ _ _ _ _ _ f32_cplx H0 H1 dflt_num dflt_num dflt_vec dflt_vec zo HZ coef35_32) as (y & Ey & _ & H).
  - rewrite L1'. repeat split.
  - rewrite L1'. intros i j Hi Hj. rewrite (VG i j Hi Hj). split; [apply V; auto|reflexivity].
  - rewrite L1'. change (S <= bpow radix2 60). apply Rle_trans with (bpow radix2 17). change (bpow radix2 17) with (IZR (2 ^ 17)). cbv [Z.pow Z.pow_pos Pos.iter Z.mul Pos.mul]. lra. apply bpow_le; lia.
  - exists y. split; [exact Ey|]. intros i j Hi Hj. rewrite L1, ?L1', ?L1'' in H. destruct (H i j Hi Hj) as [F B]. destruct F as [F1 F2]. split; [exact F1|]. split; [exact F2|]. clear H Ey.
    change (edist f32_cplx (get y [i; j]) (compo_ortho 7 dir_q (fun q => ev f32_cplx (get coef35_32 [i; q])) j) <=
      63 / 5 * u32 * S + 108 * (INR 4 * INR 7) * eta32) in B.
    eapply Rle_trans; [exact B|]. clear B F1 F2 V VG.
    assert (E1 : eta32 <= bpow radix2 (-80)) by (apply bpow_le; lia). pose proof (bpow_gt_0 radix2 (-150)) as E0. revert S1. generalize S. revert E1 E0. generalize eta32. clear. intros et E1 E0 S S1.
    change (bpow radix2 (-80)) with (/ IZR (2 ^ 80)) in E1. change (bpow radix2 (-24)) with (/ IZR (2 ^ 24)). change (bpow radix2 (-16)) with (/ IZR (2 ^ 16)).
    replace (INR 7) with 7 by (cbn; lra). replace (INR 4) with 4 by (cbn; lra). cbv [Z.pow Z.pow_pos Pos.iter Z.mul Pos.mul] in *. lra.
Qed.
