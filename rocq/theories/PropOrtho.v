(** C60: in f64 `to_ortho` and `from_ortho` of Space1, Space2 and Space3 neither
    overflow nor stray: every coefficient they return is finite and close to the
    exact change of basis.  The exact maps are those of OrthoSpec.v. *)
From Coq Require Import List Arith ZArith Reals Bool Lra Lia.
From Flocq Require Import Core BinarySingleNaN.
From Verif Require Import Base Num Linalg Stencils ChebPoly Cheb ChebFacts Compo CompoProofs Fourier FourierF64 FourierFacts FourierProofs Bases BaseLin LibBase NdArray NdArrayFacts AxisFacts AxisProps PropAxis SpaceFacts SpaceBases SpaceStages SpaceOrder Space PropSpace PropSpace2 PropSpace3 PropSpace4 PropElements
  ExtLib AnyArith ExtFacts AnyBase PropAny PropAny2 Rounding LibAcc LibIdeal RndCheb RndFft RndR2c RndFinite2 RndDirichlet RndNeumann RndGrad PropRound PropRound2 PropRound4 PropTrans2 RndAxis RndOps RndAxis2 RndOps2 SpaceAcc RndSpace PropTrans3 SpaceAcc2 PropTrans4 SpaceVal RndVal RndVal2 PropTrans5 GradSpec GradOp RndGrad3 RndGrad4 RndGrad5 RndGrad6 OrthoSpec RndOrtho.
Import ListNotations.
Local Open Scope R_scope.
Local Notation u64 := (bpow radix2 (-53)).
Local Notation eta64 := (bpow radix2 (-1075)).

Lemma u6 : 6 * u64 <= / 100.
Proof. change u64 with (/ IZR (2 ^ 53)); cbv [Z.pow Z.pow_pos Pos.iter Z.mul Pos.mul]; lra. Qed.
Lemma eta_2 : 0 <= eta64 <= 2.
Proof. pose proof eta1. lra. Qed.

Theorem C60_space1_to_ortho_f64 :
  forall E : ext f64, ext_ok E -> forall F0 P S T (b0 : base_ops P S T) (e : fel T),
  f64_to_ortho E P S T b0 e F0 ->
  forall (dP : Dflt P) (dS : Dflt S) (dT : Dflt T) zo, zip_ok zo ->
  let sp := mk_space1 b0 in let n0 := len_phys b0 in let m0 := len_spec b0 in let o0 := len_orth b0 in
  forall a : arr T, proper [m0] a -> (forall p, (p < m0)%nat -> ef e (get a [p])) ->
  let Sum := rsum m0 (fun p => esize e (get a [p])) in Sum <= bpow radix2 800 ->
  exists y, s1_to_ortho zo sp a = Ok y /\ proper [o0] y /\
    forall i, (i < o0)%nat -> ef e (get y [i]) /\
      edist e (get y [i]) (F0 (fun p => ev e (get a [p])) i) <=
        6 * bpow radix2 (-53) * Sum + 18 * (INR n0) * bpow radix2 (-1075).
Proof.
  intros E HE F0 P S T b0 e H0 dP dS dT zo HZ sp n0 m0 o0 a Pa Fa Sum Sa.
  destruct (C53_space1_applies_each_base_along_its_axis f64 _ _ E HE eq_refl P S T b0 (to_usable _ _ _ _ _ _ _ H0) dP dS dT zo HZ) as (_ & _ & HT & _).
  destruct (HT a (azeros dflt _) Pa (proper_zeros _ _)) as (y & _ & Ey & Py & Ay).
  exists y. split; [exact Ey|]. split; [exact Py|]. intros i Hi.
  pose proof (to_ortho_acc _ _ _ _ _ _ _ H0) as B0.
  pose proof u6 as HL0.
  pose proof (proj1 Pa) as Sha.
  assert (SW : Sum = rsum m0 (fun p => cn (ev e (get a [p])))).
  { reflexivity. }
  rewrite SW in Sa.
  assert (R0 : rows (fun _ : unit => True) (to_ortho_slice b0) m0 o0 (fun _ x => get a [x]) (fun _ x => get y [x])).
  { axr a y (fun _ : unit => @nil nat) (fun _ : unit => @nil nat). rewrite Sha. reflexivity. rewrite Sha. vrow. }
  destruct (va1 u64 eta64 (Rle_refl _)  _ _ _ _ _ _ _ _ _ (fun x => get a [x]) (fun x => get y [x]) B0 HL0 R0 Fa Sa i Hi) as (FY & EY & _).
  split; [exact FY|]. rewrite SW. eapply Rle_trans; [exact EY|]. right. unfold n0, m0, o0. field.
Qed.
Print Assumptions C60_space1_to_ortho_f64.

Theorem C60_space1_from_ortho_f64 :
  forall E : ext f64, ext_ok E -> forall K0 L0 F0 P S T (b0 : base_ops P S T) (e : fel T),
  f64_from_ortho E K0 L0 P S T b0 e F0 ->
  forall (dP : Dflt P) (dS : Dflt S) (dT : Dflt T) zo, zip_ok zo ->
  let sp := mk_space1 b0 in let n0 := len_phys b0 in let m0 := len_spec b0 in let o0 := len_orth b0 in
  forall a : arr T, proper [o0] a -> (forall p, (p < o0)%nat -> ef e (get a [p])) ->
  let Sum := rsum o0 (fun p => esize e (get a [p])) in Sum <= bpow radix2 800 ->
  exists y, s1_from_ortho zo sp a = Ok y /\ proper [m0] y /\
    forall i, (i < m0)%nat -> ef e (get y [i]) /\
      edist e (get y [i]) (F0 (fun p => ev e (get a [p])) i) <=
        L0 * (K0) * bpow radix2 (-53) * Sum + 3 * (L0) * (INR n0) * bpow radix2 (-1075).
Proof.
  intros E HE K0 L0 F0 P S T b0 e H0 dP dS dT zo HZ sp n0 m0 o0 a Pa Fa Sum Sa.
  destruct (C53_space1_applies_each_base_along_its_axis f64 _ _ E HE eq_refl P S T b0 (from_usable _ _ _ _ _ _ _ _ _ H0) dP dS dT zo HZ) as (_ & _ & _ & HT).
  destruct (HT a (azeros dflt _) Pa (proper_zeros _ _)) as (y & _ & Ey & Py & Ay).
  exists y. split; [exact Ey|]. split; [exact Py|]. intros i Hi.
  pose proof (from_ortho_acc _ _ _ _ _ _ _ _ _ H0) as B0.
  pose proof (from_L_small _ _ _ _ _ _ _ _ _ H0) as HL0.
  pose proof (proj1 Pa) as Sha.
  assert (SW : Sum = rsum o0 (fun p => cn (ev e (get a [p])))).
  { reflexivity. }
  rewrite SW in Sa.
  assert (R0 : rows (fun _ : unit => True) (from_ortho_slice b0) o0 m0 (fun _ x => get a [x]) (fun _ x => get y [x])).
  { axr a y (fun _ : unit => @nil nat) (fun _ : unit => @nil nat). rewrite Sha. reflexivity. rewrite Sha. vrow. }
  destruct (va1 u64 eta64 (Rle_refl _)  _ _ _ _ _ _ _ _ _ (fun x => get a [x]) (fun x => get y [x]) B0 HL0 R0 Fa Sa i Hi) as (FY & EY & _).
  split; [exact FY|]. rewrite SW. eapply Rle_trans; [exact EY|]. right. unfold n0, m0, o0. field.
Qed.
Print Assumptions C60_space1_from_ortho_f64.

Theorem C60_space2_to_ortho_f64 :
  forall E : ext f64, ext_ok E -> forall F0 F1 P I S T (b0 : base_ops I S T) (b1 : base_ops P I T) (e : fel T),
  f64_to_ortho E I S T b0 e F0 -> f64_to_ortho E P I T b1 e F1 ->
  forall (dP : Dflt P) (dI : Dflt I) (dS : Dflt S) (dT : Dflt T) zo, zip_ok zo ->
  let sp := mk_space2 b0 b1 in let n0 := len_phys b0 in let m0 := len_spec b0 in let o0 := len_orth b0 in let n1 := len_phys b1 in let m1 := len_spec b1 in let o1 := len_orth b1 in
  forall a : arr T, proper [m0; m1] a -> (forall p q, (p < m0)%nat -> (q < m1)%nat -> ef e (get a [p; q])) ->
  let Sum := rsum m0 (fun p => rsum m1 (fun q => esize e (get a [p; q]))) in Sum <= bpow radix2 800 ->
  exists y, s2_to_ortho zo sp a = Ok y /\ proper [o0; o1] y /\
    forall i j, (i < o0)%nat -> (j < o1)%nat -> ef e (get y [i; j]) /\
      edist e (get y [i; j]) (F1 (fun q => F0 (fun p => ev e (get a [p; q])) i) j) <=
        63 / 5 * bpow radix2 (-53) * Sum + 108 * (INR n0 * INR n1) * bpow radix2 (-1075).
Proof.
  intros E HE F0 F1 P I S T b0 b1 e H0 H1 dP dI dS dT zo HZ sp n0 m0 o0 n1 m1 o1 a Pa Fa Sum Sa.
  destruct (C53_space2_applies_each_base_along_its_axis f64 _ _ E HE eq_refl P I S T b0 b1 (to_usable _ _ _ _ _ _ _ H0) (to_usable _ _ _ _ _ _ _ H1) dP dI dS dT zo HZ) as (_ & _ & HT & _).
  destruct (HT a (azeros dflt _) Pa (proper_zeros _ _)) as (z & y & _ & Ey & Py & Az & Ay).
  exists y. split; [exact Ey|]. split; [exact Py|]. intros i j Hi Hj.
  pose proof (to_ortho_acc _ _ _ _ _ _ _ H0) as B0.
  pose proof u6 as HL0.
  pose proof (to_ortho_acc _ _ _ _ _ _ _ H1) as B1.
  pose proof u6 as HL1.
  pose proof (proper_op _ _ _ _ _ _ _ Az Pa eq_refl) as Pz.
  pose proof (proj1 Pa) as Sha.
  pose proof (proj1 Pz) as Shz.
  assert (SW : Sum = rsum m1 (fun q => rsum m0 (fun p => cn (ev e (get a [p; q]))))).
  { unfold Sum. rewrite rsum_swap. reflexivity. }
  rewrite SW in Sa.
  assert (R0 : forall q, (q < m1)%nat -> rows (fun _ : unit => True) (to_ortho_slice b0) m0 o0 (fun _ x => get a [x; q]) (fun _ x => get z [x; q])).
  { intros q Q1. axr a z (fun _ : unit => @nil nat) (fun _ : unit => [q]). rewrite Sha. reflexivity. rewrite Sha. vrow. }
  assert (R1 : forall p, (p < o0)%nat -> rows (fun _ : unit => True) (to_ortho_slice b1) m1 o1 (fun _ x => get z [p; x]) (fun _ x => get y [p; x])).
  { intros p Q0. axr z y (fun _ : unit => [p]) (fun _ : unit => @nil nat). rewrite Shz. reflexivity. rewrite Shz. vrow. }
  destruct (va2 u64 eta64 (Rle_refl _) eta_2 _ _ _ _ _ _ _ _ _ _ _ _ _ _ _ _ _ (fun x v => get a [x; v]) (fun x v => get z [x; v]) (fun x v => get y [x; v]) B0 HL0 B1 HL1 R0 R1 Fa Sa i j Hi Hj) as (FY & EY & _).
  split; [exact FY|]. rewrite SW. eapply Rle_trans; [exact EY|]. right. unfold n0, m0, o0, n1, m1, o1. field.
Qed.
Print Assumptions C60_space2_to_ortho_f64.

Theorem C60_space2_from_ortho_f64 :
  forall E : ext f64, ext_ok E -> forall K0 L0 F0 K1 L1 F1 P I S T (b0 : base_ops I S T) (b1 : base_ops P I T) (e : fel T),
  f64_from_ortho E K0 L0 I S T b0 e F0 -> f64_from_ortho E K1 L1 P I T b1 e F1 ->
  forall (dP : Dflt P) (dI : Dflt I) (dS : Dflt S) (dT : Dflt T) zo, zip_ok zo ->
  let sp := mk_space2 b0 b1 in let n0 := len_phys b0 in let m0 := len_spec b0 in let o0 := len_orth b0 in let n1 := len_phys b1 in let m1 := len_spec b1 in let o1 := len_orth b1 in
  forall a : arr T, proper [o0; o1] a -> (forall p q, (p < o0)%nat -> (q < o1)%nat -> ef e (get a [p; q])) ->
  let Sum := rsum o0 (fun p => rsum o1 (fun q => esize e (get a [p; q]))) in Sum <= bpow radix2 800 ->
  exists y, s2_from_ortho zo sp a = Ok y /\ proper [m0; m1] y /\
    forall i j, (i < m0)%nat -> (j < m1)%nat -> ef e (get y [i; j]) /\
      edist e (get y [i; j]) (F1 (fun q => F0 (fun p => ev e (get a [p; q])) i) j) <=
        21 / 20 * (L0 + L1) * (K0 * K1) * bpow radix2 (-53) * Sum + 3 * (L0 * L1) * (INR n0 * INR n1) * bpow radix2 (-1075).
Proof.
  intros E HE K0 L0 F0 K1 L1 F1 P I S T b0 b1 e H0 H1 dP dI dS dT zo HZ sp n0 m0 o0 n1 m1 o1 a Pa Fa Sum Sa.
  destruct (C53_space2_applies_each_base_along_its_axis f64 _ _ E HE eq_refl P I S T b0 b1 (from_usable _ _ _ _ _ _ _ _ _ H0) (from_usable _ _ _ _ _ _ _ _ _ H1) dP dI dS dT zo HZ) as (_ & _ & _ & HT).
  destruct (HT a (azeros dflt _) Pa (proper_zeros _ _)) as (z & y & _ & Ey & Py & Az & Ay).
  exists y. split; [exact Ey|]. split; [exact Py|]. intros i j Hi Hj.
  pose proof (from_ortho_acc _ _ _ _ _ _ _ _ _ H0) as B0.
  pose proof (from_L_small _ _ _ _ _ _ _ _ _ H0) as HL0.
  pose proof (from_ortho_acc _ _ _ _ _ _ _ _ _ H1) as B1.
  pose proof (from_L_small _ _ _ _ _ _ _ _ _ H1) as HL1.
  pose proof (proper_op _ _ _ _ _ _ _ Az Pa eq_refl) as Pz.
  pose proof (proj1 Pa) as Sha.
  pose proof (proj1 Pz) as Shz.
  assert (SW : Sum = rsum o1 (fun q => rsum o0 (fun p => cn (ev e (get a [p; q]))))).
  { unfold Sum. rewrite rsum_swap. reflexivity. }
  rewrite SW in Sa.
  assert (R0 : forall q, (q < o1)%nat -> rows (fun _ : unit => True) (from_ortho_slice b0) o0 m0 (fun _ x => get a [x; q]) (fun _ x => get z [x; q])).
  { intros q Q1. axr a z (fun _ : unit => @nil nat) (fun _ : unit => [q]). rewrite Sha. reflexivity. rewrite Sha. vrow. }
  assert (R1 : forall p, (p < m0)%nat -> rows (fun _ : unit => True) (from_ortho_slice b1) o1 m1 (fun _ x => get z [p; x]) (fun _ x => get y [p; x])).
  { intros p Q0. axr z y (fun _ : unit => [p]) (fun _ : unit => @nil nat). rewrite Shz. reflexivity. rewrite Shz. vrow. }
  destruct (va2 u64 eta64 (Rle_refl _) eta_2 _ _ _ _ _ _ _ _ _ _ _ _ _ _ _ _ _ (fun x v => get a [x; v]) (fun x v => get z [x; v]) (fun x v => get y [x; v]) B0 HL0 B1 HL1 R0 R1 Fa Sa i j Hi Hj) as (FY & EY & _).
  split; [exact FY|]. rewrite SW. eapply Rle_trans; [exact EY|]. right. unfold n0, m0, o0, n1, m1, o1. field.
Qed.
Print Assumptions C60_space2_from_ortho_f64.

Theorem C60_space3_to_ortho_f64 :
  forall E : ext f64, ext_ok E -> forall F0 F1 F2 P I J S T (b0 : base_ops J S T) (b1 : base_ops I J T) (b2 : base_ops P I T) (e : fel T),
  f64_to_ortho E J S T b0 e F0 -> f64_to_ortho E I J T b1 e F1 -> f64_to_ortho E P I T b2 e F2 ->
  forall (dP : Dflt P) (dI : Dflt I) (dJ : Dflt J) (dS : Dflt S) (dT : Dflt T) zo, zip_ok zo ->
  let sp := mk_space3 b0 b1 b2 in let n0 := len_phys b0 in let m0 := len_spec b0 in let o0 := len_orth b0 in let n1 := len_phys b1 in let m1 := len_spec b1 in let o1 := len_orth b1 in let n2 := len_phys b2 in let m2 := len_spec b2 in let o2 := len_orth b2 in
  forall a : arr T, proper [m0; m1; m2] a -> (forall p q r, (p < m0)%nat -> (q < m1)%nat -> (r < m2)%nat -> ef e (get a [p; q; r])) ->
  let Sum := rsum m0 (fun p => rsum m1 (fun q => rsum m2 (fun r => esize e (get a [p; q; r])))) in Sum <= bpow radix2 800 ->
  exists y, s3_to_ortho zo sp a = Ok y /\ proper [o0; o1; o2] y /\
    forall i j k, (i < o0)%nat -> (j < o1)%nat -> (k < o2)%nat -> ef e (get y [i; j; k]) /\
      edist e (get y [i; j; k]) (F2 (fun r => F1 (fun q => F0 (fun p => ev e (get a [p; q; r])) i) j) k) <=
        99 / 5 * bpow radix2 (-53) * Sum + 648 * (INR n0 * INR n1 * INR n2) * bpow radix2 (-1075).
Proof.
  intros E HE F0 F1 F2 P I J S T b0 b1 b2 e H0 H1 H2 dP dI dJ dS dT zo HZ sp n0 m0 o0 n1 m1 o1 n2 m2 o2 a Pa Fa Sum Sa.
  destruct (C53_space3_applies_each_base_along_its_axis f64 _ _ E HE eq_refl P I J S T b0 b1 b2 (to_usable _ _ _ _ _ _ _ H0) (to_usable _ _ _ _ _ _ _ H1) (to_usable _ _ _ _ _ _ _ H2) dP dI dJ dS dT zo HZ) as (_ & _ & HT & _).
  destruct (HT a (azeros dflt _) Pa (proper_zeros _ _)) as (z & u & y & _ & Ey & Py & Az & Au & Ay).
  exists y. split; [exact Ey|]. split; [exact Py|]. intros i j k Hi Hj Hk.
  pose proof (to_ortho_acc _ _ _ _ _ _ _ H0) as B0.
  pose proof u6 as HL0.
  pose proof (to_ortho_acc _ _ _ _ _ _ _ H1) as B1.
  pose proof u6 as HL1.
  pose proof (to_ortho_acc _ _ _ _ _ _ _ H2) as B2.
  pose proof u6 as HL2.
  pose proof (proper_op _ _ _ _ _ _ _ Az Pa eq_refl) as Pz.
  pose proof (proper_op _ _ _ _ _ _ _ Au Pz eq_refl) as Pu.
  pose proof (proj1 Pa) as Sha.
  pose proof (proj1 Pz) as Shz.
  pose proof (proj1 Pu) as Shu.
  assert (SW : Sum = rsum m2 (fun r => rsum m1 (fun q => rsum m0 (fun p => cn (ev e (get a [p; q; r])))))).
  { unfold Sum. transitivity (rsum m0 (fun p => rsum m2 (fun r => rsum m1 (fun q => esize e (get a [p; q; r]))))).
    apply rsum_ext; intros; apply rsum_swap. rewrite rsum_swap. apply rsum_ext; intros r Hr. rewrite rsum_swap. reflexivity. }
  rewrite SW in Sa.
  assert (R0 : forall q r, (q < m1)%nat -> (r < m2)%nat -> rows (fun _ : unit => True) (to_ortho_slice b0) m0 o0 (fun _ x => get a [x; q; r]) (fun _ x => get z [x; q; r])).
  { intros q r Q1 Q2. axr a z (fun _ : unit => @nil nat) (fun _ : unit => [q; r]). rewrite Sha. reflexivity. rewrite Sha. vrow. }
  assert (R1 : forall p r, (p < o0)%nat -> (r < m2)%nat -> rows (fun _ : unit => True) (to_ortho_slice b1) m1 o1 (fun _ x => get z [p; x; r]) (fun _ x => get u [p; x; r])).
  { intros p r Q0 Q2. axr z u (fun _ : unit => [p]) (fun _ : unit => [r]). rewrite Shz. reflexivity. rewrite Shz. vrow. }
  assert (R2 : forall p q, (p < o0)%nat -> (q < o1)%nat -> rows (fun _ : unit => True) (to_ortho_slice b2) m2 o2 (fun _ x => get u [p; q; x]) (fun _ x => get y [p; q; x])).
  { intros p q Q0 Q1. axr u y (fun _ : unit => [p; q]) (fun _ : unit => @nil nat). rewrite Shu. reflexivity. rewrite Shu. vrow. }
  destruct (va3 u64 eta64 (Rle_refl _) eta_2 _ _ _ _ _ _ _ _ _ _ _ _ _ _ _ _ _ _ _ _ _ _ _ _ _ (fun x v t => get a [x; v; t]) (fun x v t => get z [x; v; t]) (fun x v t => get u [x; v; t]) (fun x v t => get y [x; v; t]) B0 HL0 B1 HL1 B2 HL2 R0 R1 R2 Fa Sa i j k Hi Hj Hk) as (FY & EY & _).
  split; [exact FY|]. rewrite SW. eapply Rle_trans; [exact EY|]. right. unfold n0, m0, o0, n1, m1, o1, n2, m2, o2. field.
Qed.
Print Assumptions C60_space3_to_ortho_f64.

Theorem C60_space3_from_ortho_f64 :
  forall E : ext f64, ext_ok E -> forall K0 L0 F0 K1 L1 F1 K2 L2 F2 P I J S T (b0 : base_ops J S T) (b1 : base_ops I J T) (b2 : base_ops P I T) (e : fel T),
  f64_from_ortho E K0 L0 J S T b0 e F0 -> f64_from_ortho E K1 L1 I J T b1 e F1 -> f64_from_ortho E K2 L2 P I T b2 e F2 ->
  forall (dP : Dflt P) (dI : Dflt I) (dJ : Dflt J) (dS : Dflt S) (dT : Dflt T) zo, zip_ok zo ->
  let sp := mk_space3 b0 b1 b2 in let n0 := len_phys b0 in let m0 := len_spec b0 in let o0 := len_orth b0 in let n1 := len_phys b1 in let m1 := len_spec b1 in let o1 := len_orth b1 in let n2 := len_phys b2 in let m2 := len_spec b2 in let o2 := len_orth b2 in
  forall a : arr T, proper [o0; o1; o2] a -> (forall p q r, (p < o0)%nat -> (q < o1)%nat -> (r < o2)%nat -> ef e (get a [p; q; r])) ->
  let Sum := rsum o0 (fun p => rsum o1 (fun q => rsum o2 (fun r => esize e (get a [p; q; r])))) in Sum <= bpow radix2 800 ->
  exists y, s3_from_ortho zo sp a = Ok y /\ proper [m0; m1; m2] y /\
    forall i j k, (i < m0)%nat -> (j < m1)%nat -> (k < m2)%nat -> ef e (get y [i; j; k]) /\
      edist e (get y [i; j; k]) (F2 (fun r => F1 (fun q => F0 (fun p => ev e (get a [p; q; r])) i) j) k) <=
        11 / 10 * (L0 + L1 + L2) * (K0 * K1 * K2) * bpow radix2 (-53) * Sum + 3 * (L0 * L1 * L2) * (INR n0 * INR n1 * INR n2) * bpow radix2 (-1075).
Proof.
  intros E HE K0 L0 F0 K1 L1 F1 K2 L2 F2 P I J S T b0 b1 b2 e H0 H1 H2 dP dI dJ dS dT zo HZ sp n0 m0 o0 n1 m1 o1 n2 m2 o2 a Pa Fa Sum Sa.
  destruct (C53_space3_applies_each_base_along_its_axis f64 _ _ E HE eq_refl P I J S T b0 b1 b2 (from_usable _ _ _ _ _ _ _ _ _ H0) (from_usable _ _ _ _ _ _ _ _ _ H1) (from_usable _ _ _ _ _ _ _ _ _ H2) dP dI dJ dS dT zo HZ) as (_ & _ & _ & HT).
  destruct (HT a (azeros dflt _) Pa (proper_zeros _ _)) as (z & u & y & _ & Ey & Py & Az & Au & Ay).
  exists y. split; [exact Ey|]. split; [exact Py|]. intros i j k Hi Hj Hk.
  pose proof (from_ortho_acc _ _ _ _ _ _ _ _ _ H0) as B0.
  pose proof (from_L_small _ _ _ _ _ _ _ _ _ H0) as HL0.
  pose proof (from_ortho_acc _ _ _ _ _ _ _ _ _ H1) as B1.
  pose proof (from_L_small _ _ _ _ _ _ _ _ _ H1) as HL1.
  pose proof (from_ortho_acc _ _ _ _ _ _ _ _ _ H2) as B2.
  pose proof (from_L_small _ _ _ _ _ _ _ _ _ H2) as HL2.
  pose proof (proper_op _ _ _ _ _ _ _ Az Pa eq_refl) as Pz.
  pose proof (proper_op _ _ _ _ _ _ _ Au Pz eq_refl) as Pu.
  pose proof (proj1 Pa) as Sha.
  pose proof (proj1 Pz) as Shz.
  pose proof (proj1 Pu) as Shu.
  assert (SW : Sum = rsum o2 (fun r => rsum o1 (fun q => rsum o0 (fun p => cn (ev e (get a [p; q; r])))))).
  { unfold Sum. transitivity (rsum o0 (fun p => rsum o2 (fun r => rsum o1 (fun q => esize e (get a [p; q; r]))))).
    apply rsum_ext; intros; apply rsum_swap. rewrite rsum_swap. apply rsum_ext; intros r Hr. rewrite rsum_swap. reflexivity. }
  rewrite SW in Sa.
  assert (R0 : forall q r, (q < o1)%nat -> (r < o2)%nat -> rows (fun _ : unit => True) (from_ortho_slice b0) o0 m0 (fun _ x => get a [x; q; r]) (fun _ x => get z [x; q; r])).
  { intros q r Q1 Q2. axr a z (fun _ : unit => @nil nat) (fun _ : unit => [q; r]). rewrite Sha. reflexivity. rewrite Sha. vrow. }
  assert (R1 : forall p r, (p < m0)%nat -> (r < o2)%nat -> rows (fun _ : unit => True) (from_ortho_slice b1) o1 m1 (fun _ x => get z [p; x; r]) (fun _ x => get u [p; x; r])).
  { intros p r Q0 Q2. axr z u (fun _ : unit => [p]) (fun _ : unit => [r]). rewrite Shz. reflexivity. rewrite Shz. vrow. }
  assert (R2 : forall p q, (p < m0)%nat -> (q < m1)%nat -> rows (fun _ : unit => True) (from_ortho_slice b2) o2 m2 (fun _ x => get u [p; q; x]) (fun _ x => get y [p; q; x])).
  { intros p q Q0 Q1. axr u y (fun _ : unit => [p; q]) (fun _ : unit => @nil nat). rewrite Shu. reflexivity. rewrite Shu. vrow. }
  destruct (va3 u64 eta64 (Rle_refl _) eta_2 _ _ _ _ _ _ _ _ _ _ _ _ _ _ _ _ _ _ _ _ _ _ _ _ _ (fun x v t => get a [x; v; t]) (fun x v t => get z [x; v; t]) (fun x v t => get u [x; v; t]) (fun x v t => get y [x; v; t]) B0 HL0 B1 HL1 B2 HL2 R0 R1 R2 Fa Sa i j k Hi Hj Hk) as (FY & EY & _).
  split; [exact FY|]. rewrite SW. eapply Rle_trans; [exact EY|]. right. unfold n0, m0, o0, n1, m1, o1, n2, m2, o2. field.
Qed.
Print Assumptions C60_space3_from_ortho_f64.

(** ** The exact maps *)
Lemma ls_self n q c : least_squares n q (compo_a n q c) c.
Proof. intros k Hk. cbv beta zeta. unfold compo_a. ring. Qed.
Lemma ls_unique n q a c d : q = dir_q \/ q = neu_q -> (5 <= n)%nat -> least_squares n q a c -> least_squares n q a d -> forall k, (k < n - 2)%nat -> c k = d k.
Proof.
  intros [-> | ->] Hn Hc Hd k Hk.
  - apply ls_dir in Hc. apply ls_dir in Hd. apply Rminus_diag_uniq, Rabs_le0. pose proof (dir_unique n a a c d 0 Hn Hc Hd ltac:(intros; rewrite Rminus_diag_eq by auto; rewrite Rabs_R0; lra) k Hk) as B. lra.
  - apply ls_neu in Hc. apply ls_neu in Hd. apply Rminus_diag_uniq, Rabs_le0. pose proof (neu_unique n a a c d 0 Hn Hc Hd ltac:(intros; rewrite Rminus_diag_eq by auto; rewrite Rabs_R0; lra) k Hk) as B. lra.
Qed.
Lemma ls_minimal n q a c d : (2 <= n)%nat -> least_squares n q a c -> rsum n (fun i => (a i - compo_a n q c i) ^ 2) <= rsum n (fun i => (a i - compo_a n q d i) ^ 2).
Proof.
  intros Hn H. set (r i := a i - compo_a n q c i). set (w k := c k - d k).
  assert (X : rsum n (fun i => compo_a n q w i * r i) = 0).
  { unfold compo_a at 1. rewrite (stencil_sum n q w r Hn). apply rsum_0. intros k Hk. specialize (H k Hk). cbv beta zeta in H. unfold r, compo_a. rewrite H. ring. }
  assert (D : forall i, a i - compo_a n q d i = r i + compo_a n q w i). { intros i. unfold r, w, compo_a. destruct (i <? n - 2)%nat, (i <? 2)%nat; ring. }
  rewrite (rsum_ext n (fun i => (a i - compo_a n q d i) ^ 2) (fun i => (r i ^ 2 + compo_a n q w i ^ 2) + (compo_a n q w i * r i + compo_a n q w i * r i))) by (intros; rewrite D; ring).
  rewrite !rsum_add, X. assert (0 <= rsum n (fun i => compo_a n q w i ^ 2)) by (apply rsum_pos; intros; apply pow2_ge_0). unfold r in *. lra.
Qed.

(** What the exact maps are: `to_ortho` expands sum_k c_k (T_k - q_k T_(k+2)) in
    Chebyshev polynomials; `from_ortho` is the unique best approximation of the
    coefficients in the mean square, and so the left inverse of `to_ortho`. *)
Theorem C60_exact_maps :
  (forall n q c x, (2 <= n)%nat ->
     rsum n (fun k => fst (compo_ortho n q c k) * TT k x) = rsum (n - 2) (fun k => fst (c k) * (TT k x - q k * TT (k + 2) x)) /\
     rsum n (fun k => snd (compo_ortho n q c k) * TT k x) = rsum (n - 2) (fun k => snd (c k) * (TT k x - q k * TT (k + 2) x))) /\
  (forall n q F a d, (2 <= n)%nat -> fits_coefs n q F -> let res2 (z w : R * R) := (fst z - fst w) ^ 2 + (snd z - snd w) ^ 2 in
     rsum n (fun i => res2 (a i) (compo_ortho n q (F a) i)) <= rsum n (fun i => res2 (a i) (compo_ortho n q d i))) /\
  (forall n q F, q = dir_q \/ q = neu_q -> (5 <= n)%nat -> fits_coefs n q F -> forall c k, (k < n - 2)%nat -> F (compo_ortho n q c) k = c k) /\
  (forall n q F G, q = dir_q \/ q = neu_q -> (5 <= n)%nat -> fits_coefs n q F -> fits_coefs n q G -> forall a k, (k < n - 2)%nat -> F a k = G a k).
Proof.
  split; [|split; [|split]].
  - intros n q c x Hn. split; [exact (stencil_sum n q (fun k => fst (c k)) (fun k => TT k x) Hn)|exact (stencil_sum n q (fun k => snd (c k)) (fun k => TT k x) Hn)].
  - intros n q F a d Hn HF res2. destruct (HF a) as [H1 H2]. unfold res2. rewrite !rsum_add. unfold compo_ortho. cbn [fst snd].
    pose proof (ls_minimal n q _ _ (fun k => fst (d k)) Hn H1). pose proof (ls_minimal n q _ _ (fun k => snd (d k)) Hn H2). lra.
  - intros n q F Hq Hn HF c k Hk. destruct (HF (compo_ortho n q c)) as [H1 H2]. unfold compo_ortho in H1, H2. cbn [fst snd] in H1, H2.
    assert (X1 := ls_unique n q _ _ _ Hq Hn H1 (ls_self n q (fun p => fst (c p))) k Hk). assert (X2 := ls_unique n q _ _ _ Hq Hn H2 (ls_self n q (fun p => snd (c p))) k Hk). cbv beta in X1, X2.
    apply injective_projections; assumption.
  - intros n q F G Hq Hn HF HG a k Hk. destruct (HF a) as [F1 F2]. destruct (HG a) as [G1 G2]. apply injective_projections.
    exact (ls_unique n q _ _ _ Hq Hn F1 G1 k Hk). exact (ls_unique n q _ _ _ Hq Hn F2 G2 k Hk).
Qed.
Print Assumptions C60_exact_maps.

(** ** The premises are met *)
Theorem C60_bases_exist :
  forall (E : ext f64) n, (5 <= n)%nat -> (Z.of_nat n <= 2 ^ 20)%Z ->
  (forall T (V : Vec f64 T) e, exists b, new_chebyshev n = Ok b /\ f64_to_ortho E f64 f64 T (r2r_ops_x E b) e unchanged /\ f64_from_ortho E 1 4 f64 f64 T (r2r_ops_x E b) e unchanged) /\
  (forall T V e, f64_scalar T V e -> exists b, new_composite KDirichlet n = Ok b /\ f64_to_ortho E f64 f64 T (r2r_ops_x E b) e (compo_ortho n dir_q) /\
     exists F, fits_coefs n dir_q F /\ f64_from_ortho E ((INR n + 1) ^ 2) (8 * (INR n + 1) ^ 2) f64 f64 T (r2r_ops_x E b) e F) /\
  (forall T V e, f64_scalar T V e -> exists b, new_composite KNeumann n = Ok b /\ f64_to_ortho E f64 f64 T (r2r_ops_x E b) e (compo_ortho n neu_q) /\
     exists F, fits_coefs n neu_q F /\ f64_from_ortho E ((INR n + 1) ^ 2) (8 * (INR n + 1) ^ 2) f64 f64 T (r2r_ops_x E b) e F) /\
  (exists f, r2c_new n = Ok f /\ f64_to_ortho E f64 (cplx f64) (cplx f64) (r2c_ops_x E f) f64_cplx unchanged /\ f64_from_ortho E 1 4 f64 (cplx f64) (cplx f64) (r2c_ops_x E f) f64_cplx unchanged) /\
  (exists f, c2c_new n = Ok f /\ f64_to_ortho E (cplx f64) (cplx f64) (cplx f64) (c2c_ops_x E f) f64_cplx unchanged /\ f64_from_ortho E 1 4 (cplx f64) (cplx f64) (cplx f64) (c2c_ops_x E f) f64_cplx unchanged).
Proof.
  intros E n H5 HZ. split; [|split; [|split; [|split]]].
  - intros T V e. pose proof (proj1 (C53_constructors f64 num_f64) n) as K. destruct (new_chebyshev n) as [b| |] eqn:Eb; [|cbn in K; lia|tauto]. exists b. split; auto. split; econstructor; eauto.
  - intros T V e Hs. pose proof (proj1 (proj2 (C53_constructors f64 num_f64)) KDirichlet n) as K. destruct (new_composite KDirichlet n) as [b| |] eqn:Eb; [|cbn in K; lia|tauto]. exists b. split; auto.
    split. apply fto_dirichlet; auto. assert (HF : fits_coefs n dir_q (both (sol (dirc n) n))). { intros a. split; apply dir_ls, dir_sol_rows; auto. }
    exists (both (sol (dirc n) n)). split; auto. apply ffo_dirichlet; auto.
  - intros T V e Hs. pose proof (proj1 (proj2 (C53_constructors f64 num_f64)) KNeumann n) as K. destruct (new_composite KNeumann n) as [b| |] eqn:Eb; [|cbn in K; lia|tauto]. exists b. split; auto.
    split. apply fto_neumann; auto. assert (HF : fits_coefs n neu_q (both (sol (neuc n) n))). { intros a. split; apply neu_ls, neu_sol_rows; auto. }
    exists (both (sol (neuc n) n)). split; auto. apply ffo_neumann; auto.
  - exists (mk_r2c n (n / 2 + 1)). assert (HB : r2c_new n = Ok (mk_r2c n (n / 2 + 1))). { unfold r2c_new. destruct (Nat.leb_spec 1 n); [reflexivity|lia]. } split; auto. split; econstructor; eauto.
  - destruct (c2c_new n) as [f| |] eqn:Ef; [|exfalso|exfalso]. exists f. split; auto. split; econstructor; eauto.
    all: unfold c2c_new in Ef; destruct (Nat.leb_spec 1 n); try discriminate; lia.
Qed.
Print Assumptions C60_bases_exist.

(** `to_ortho` on Fourier (4 points) x Dirichlet (7 points), of the coefficients 0.1, 0.2, ... *)
Example C60_example_space2 :
  forall (E : ext f64), ext_ok E -> exists b1, let sp := mk_space2 (r2c_ops_x E (mk_r2c 4 3)) (r2r_ops_x E b1) in new_composite KDirichlet 7 = Ok b1 /\ exists zo, zip_ok zo /\
  exists y, s2_to_ortho zo sp coef35 = Ok y /\
    forall i j, (i < 3)%nat -> (j < 7)%nat -> is_finite (fst (get y [i; j])) = true /\ is_finite (snd (get y [i; j])) = true /\
      edist f64_cplx (get y [i; j]) (compo_ortho 7 dir_q (fun q => ev f64_cplx (get coef35 [i; q])) j) <= bpow radix2 (-45).
Proof.
  intros E HE. destruct (C60_bases_exist E 7 ltac:(lia) ltac:(lia)) as (_ & HC & _). destruct (HC (cplx f64) _ f64_cplx fs_cplx) as (b1 & N1 & H1 & _). clear HC.
  assert (N0 : r2c_new 4 = Ok (mk_r2c 4 3)) by reflexivity. pose proof (fto_r2c E f64_cplx 4 _ N0 ltac:(lia)) as H0.
  exists b1. intros sp. split; auto. destruct some_zip as [zo HZ]. exists zo. split; auto.
  assert (L1 : len_phys (r2r_ops_x (T := cplx f64) E b1) = 7%nat /\ len_spec (r2r_ops_x (T := cplx f64) E b1) = 5%nat /\ len_orth (r2r_ops_x (T := cplx f64) E b1) = 7%nat).
  { unfold new_composite in N1. destruct (compo_new KDirichlet 7) as [cc| |] eqn:Ec; cbn [bind] in N1; try discriminate. injection N1 as <-. destruct (dir_inv 7 cc Ec) as [_ ->]. repeat split; reflexivity. }
  destruct L1 as (L1 & L1' & L1'').
  assert (V : forall j, (j < 5)%nat -> is_finite tenths.[j] = true /\ Rabs (B2R tenths.[j]) <= 1).
  { intros j Hj. destruct j as [|[|[|[|[|]]]]]; try lia; (split; [vm_compute; reflexivity|]); rewrite <- SF2R_B2SF;
      match goal with |- Rabs (SF2R _ ?t) <= _ => let t' := eval vm_compute in t in replace t with t' by (vm_compute; reflexivity) end;
      cbn [SF2R SpecFloat.cond_Zopp]; unfold F2R; cbn [Fnum Fexp cond_Zopp]; rewrite Rabs_pos_eq; cbn; lra. }
  assert (VG : forall i j, (i < 3)%nat -> (j < 5)%nat -> get coef35 [i; j] = (tenths.[j], n0)).
  { intros i j Hi Hj. destruct i as [|[|[|]]]; try lia; destruct j as [|[|[|[|[|]]]]]; try lia; reflexivity. }
  assert (Z0 : B2R (n0 (A := f64)) = 0) by reflexivity.
  set (S := rsum 3 (fun i => rsum 5 (fun j => esize f64_cplx (get coef35 [i; j])))).
  assert (S1 : 0 <= S <= 15). { split. apply rsum_pos; intros; apply rsum_pos; intros; apply esize_pos.
    eapply Rle_trans. apply (rsum_le 3 _ (fun _ => 5)). intros i Hi. eapply Rle_trans. apply (rsum_le 5 _ (fun _ => 1)). intros j Hj. rewrite VG by auto. unfold esize. cbn [ev f64_cplx fst snd]. unfold f64_val. rewrite Z0, Rabs_R0. destruct (V j Hj). lra.
    rewrite rsum_const. cbn; lra. rewrite rsum_const. cbn; lra. }
  destruct (C60_space2_to_ortho_f64 E HE _ _ _ _ _ _ _ _ f64_cplx H0 H1 dflt_num dflt_num dflt_vec dflt_vec zo HZ coef35) as (y & Ey & _ & H).
  - rewrite L1'. repeat split.
  - rewrite L1'. intros i j Hi Hj. rewrite (VG i j Hi Hj). split; [apply V; auto|reflexivity].
  - rewrite L1'. change (S <= bpow radix2 800). apply Rle_trans with (bpow radix2 17). change (bpow radix2 17) with (IZR (2 ^ 17)). cbv [Z.pow Z.pow_pos Pos.iter Z.mul Pos.mul]. lra. apply bpow_le; lia.
  - exists y. split; [exact Ey|]. intros i j Hi Hj. rewrite L1, ?L1', ?L1'' in H. destruct (H i j Hi Hj) as [F B]. destruct F as [F1 F2]. split; [exact F1|]. split; [exact F2|]. clear H Ey.
    change (edist f64_cplx (get y [i; j]) (compo_ortho 7 dir_q (fun q => ev f64_cplx (get coef35 [i; q])) j) <=
      63 / 5 * u64 * S + 108 * (INR 4 * INR 7) * eta64) in B.
    eapply Rle_trans; [exact B|]. clear B F1 F2 V VG.
    assert (E1 : eta64 <= bpow radix2 (-80)) by (apply bpow_le; lia). pose proof (bpow_gt_0 radix2 (-1075)) as E0. revert S1. generalize S. revert E1 E0. generalize eta64. clear. intros et E1 E0 S S1.
    change (bpow radix2 (-80)) with (/ IZR (2 ^ 80)) in E1. change (bpow radix2 (-53)) with (/ IZR (2 ^ 53)). change (bpow radix2 (-45)) with (/ IZR (2 ^ 45)).
    replace (INR 7) with 7 by (cbn; lra). replace (INR 4) with 4 by (cbn; lra). cbv [Z.pow Z.pow_pos Pos.iter Z.mul Pos.mul] in *. lra.
Qed.
