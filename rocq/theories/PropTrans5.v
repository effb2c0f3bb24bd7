(** C58: in f64 `backward` of Space1, Space2 and Space3 returns the values of the
    represented function at the grid points, and `forward` the coefficients of the
    function with the given values (on Dirichlet and Neumann axes: of the
    least-squares fit), both up to proved errors.  The exact values and
    coefficients are the sums of SpaceVal.v. *)
From Coq Require Import List Arith ZArith Reals Bool Lra Lia.
From Flocq Require Import Core BinarySingleNaN.
From Verif Require Import Base Num Linalg Stencils Cheb ChebFacts Compo CompoProofs Fourier FourierF64 FourierFacts FourierProofs Bases BaseLin LibBase NdArray NdArrayFacts AxisFacts AxisProps PropAxis SpaceFacts SpaceBases SpaceStages Space PropSpace PropSpace2 PropElements
  ExtLib AnyArith ExtFacts AnyBase PropAny PropAny2 Rounding LibAcc LibIdeal RndCheb RndFft RndR2c RndFinite2 RndDirichlet RndNeumann PropRound PropRound2 PropRound4 PropTrans2 RndAxis RndOps RndAxis2 RndOps2 SpaceAcc RndSpace PropTrans3 SpaceAcc2 PropTrans4 SpaceVal RndVal RndVal2.
Import ListNotations.
Local Open Scope R_scope.
Local Notation u64 := (bpow radix2 (-53)).
Local Notation eta64 := (bpow radix2 (-1075)).

Lemma w_small dl : 0 <= dl <= / 2000 -> 5 * (dl + u64) <= / 100.
Proof. intros. change u64 with (/ IZR (2 ^ 53)). cbv [Z.pow Z.pow_pos Pos.iter Z.mul Pos.mul]. lra. Qed.
Lemma w_ge dl : 0 <= dl -> u64 <= dl + u64.
Proof. intros. lra. Qed.
Lemma h_range zt : 0 <= zt <= 1 -> 0 <= eta64 + zt <= 2.
Proof. intros. pose proof eta1. lra. Qed.
Lemma L_small dl L : 0 <= dl -> 4 <= L -> L * (dl + u64) <= / 100 -> 0 <= dl <= / 16.
Proof. intros H0 H1 H. pose proof (bpow_gt_0 radix2 (-53)). assert (4 * (dl + u64) <= L * (dl + u64)) by (apply Rmult_le_compat_r; lra). lra. Qed.

Lemma L_ge4 n : 4 <= 16 * (INR n + 1) ^ 2.
Proof. pose proof (pos_INR n). assert (1 <= (INR n + 1) ^ 2). { replace 1 with (1 ^ 2) at 1 by ring. apply pow_incr. lra. } lra. Qed.

(** ** backward *)
Theorem C58_space1_backward_values_f64 :
  forall E : ext f64, ext_ok E -> forall dl zt, 0 <= dl <= / 2000 -> 0 <= zt <= 1 ->
  forall K0 F0 P S T (b0 : base_ops P S T) (eP : fel P) (eS : fel S),
  f64_values E dl zt K0 P S T b0 eP eS F0 ->
  forall (dP : Dflt P) (dS : Dflt S) (dT : Dflt T) zo, zip_ok zo ->
  let sp := mk_space1 b0 in let n0 := len_phys b0 in let m0 := len_spec b0 in
  forall a : arr S, proper [m0] a -> (forall p, (p < m0)%nat -> ef eS (get a [p])) ->
  let Sum := rsum m0 (fun p => esize eS (get a [p])) in Sum <= bpow radix2 800 ->
  exists y, s1_backward zo sp a = Ok y /\ proper [n0] y /\
    forall i, (i < n0)%nat -> ef eP (get y [i]) /\
      edist eP (get y [i]) (F0 (fun p => ev eS (get a [p])) i) <=
        5 * (K0) * (dl + bpow radix2 (-53)) * Sum + 15 * (INR n0) * (bpow radix2 (-1075) + zt).
Proof.
  intros E HE dl zt Hd Hz K0  F0 P S T b0 eP eS H0 dP dS dT zo HZ sp n0 m0 a Pa Fa Sum Sa.
  destruct (C53_space1_applies_each_base_along_its_axis f64 _ _ E HE eq_refl P S T b0 (values_usable E dl zt _ _ _ _ _ _ _ _ H0) dP dS dT zo HZ) as (HF & HB & _).
  destruct (HB a (azeros dflt _) Pa (proper_zeros _ _)) as (y & _ & Ey & Py & Ay).
  exists y. split; [exact Ey|]. split; [exact Py|]. intros i Hi.
  pose proof (values_acc E dl zt ltac:(lra) Hz _ _ _ _ _ _ _ _ H0) as A0.
  pose proof (proj1 Pa) as Sha.
  assert (SW : Sum = rsum m0 (fun p => cn (ev eS (get a [p])))).
  { reflexivity. }
  rewrite SW in Sa.
  assert (R0 : rows (fun _ : unit => True) (backward_slice b0) m0 n0 (fun _ x => get a [x]) (fun _ x => get y [x])).
  { axr a y (fun _ : unit => @nil nat) (fun _ : unit => @nil nat). rewrite Sha. reflexivity. rewrite Sha. vrow. }
  destruct (va1 (dl + u64) (eta64 + zt) (w_ge dl (proj1 Hd))  _ _ _ _ _ _ _ _ _ (fun x => get a [x]) (fun x => get y [x]) A0 (w_small dl Hd) R0 (fun p Qp => Fa p Qp) Sa i Hi) as (FY & EY & _).
  split; [exact FY|]. rewrite SW. eapply Rle_trans; [exact EY|]. right. unfold n0, m0. field.
Qed.
Print Assumptions C58_space1_backward_values_f64.

Theorem C58_space2_backward_values_f64 :
  forall E : ext f64, ext_ok E -> forall dl zt, 0 <= dl <= / 2000 -> 0 <= zt <= 1 ->
  forall K0 K1 F0 F1 P I S T (b0 : base_ops I S T) (b1 : base_ops P I T) (eP : fel P) (eI : fel I) (eS : fel S),
  f64_values E dl zt K0 I S T b0 eI eS F0 -> f64_values E dl zt K1 P I T b1 eP eI F1 ->
  forall (dP : Dflt P) (dI : Dflt I) (dS : Dflt S) (dT : Dflt T) zo, zip_ok zo ->
  let sp := mk_space2 b0 b1 in let n0 := len_phys b0 in let m0 := len_spec b0 in let n1 := len_phys b1 in let m1 := len_spec b1 in
  forall a : arr S, proper [m0; m1] a -> (forall p q, (p < m0)%nat -> (q < m1)%nat -> ef eS (get a [p; q])) ->
  let Sum := rsum m0 (fun p => rsum m1 (fun q => esize eS (get a [p; q]))) in Sum <= bpow radix2 800 ->
  exists y, s2_backward zo sp a = Ok y /\ proper [n0; n1] y /\
    forall i j, (i < n0)%nat -> (j < n1)%nat -> ef eP (get y [i; j]) /\
      edist eP (get y [i; j]) (F1 (fun q => F0 (fun p => ev eS (get a [p; q])) i) j) <=
        21 / 2 * (K0 * K1) * (dl + bpow radix2 (-53)) * Sum + 75 * (INR n0 * INR n1) * (bpow radix2 (-1075) + zt).
Proof.
  intros E HE dl zt Hd Hz K0 K1  F0 F1 P I S T b0 b1 eP eI eS H0 H1 dP dI dS dT zo HZ sp n0 m0 n1 m1 a Pa Fa Sum Sa.
  destruct (C53_space2_applies_each_base_along_its_axis f64 _ _ E HE eq_refl P I S T b0 b1 (values_usable E dl zt _ _ _ _ _ _ _ _ H0) (values_usable E dl zt _ _ _ _ _ _ _ _ H1) dP dI dS dT zo HZ) as (HF & HB & _).
  destruct (HB a (azeros dflt _) Pa (proper_zeros _ _)) as (z & y & _ & Ey & Py & Az & Ay).
  exists y. split; [exact Ey|]. split; [exact Py|]. intros i j Hi Hj.
  pose proof (values_acc E dl zt ltac:(lra) Hz _ _ _ _ _ _ _ _ H0) as A0.
  pose proof (values_acc E dl zt ltac:(lra) Hz _ _ _ _ _ _ _ _ H1) as A1.
  pose proof (proper_op _ _ _ _ _ _ _ Az Pa eq_refl) as Pz.
  pose proof (proj1 Pa) as Sha.
  pose proof (proj1 Pz) as Shz.
  assert (SW : Sum = rsum m1 (fun q => rsum m0 (fun p => cn (ev eS (get a [p; q]))))).
  { unfold Sum. rewrite rsum_swap. reflexivity. }
  rewrite SW in Sa.
  assert (R0 : forall q, (q < m1)%nat -> rows (fun _ : unit => True) (backward_slice b0) m0 n0 (fun _ x => get a [x; q]) (fun _ x => get z [x; q])).
  { intros q Q0. axr a z (fun _ : unit => @nil nat) (fun _ : unit => [q]). rewrite Sha. reflexivity. rewrite Sha. vrow. }
  assert (R1 : forall p, (p < n0)%nat -> rows (fun _ : unit => True) (backward_slice b1) m1 n1 (fun _ x => get z [p; x]) (fun _ x => get y [p; x])).
  { intros p Q0. axr z y (fun _ : unit => [p]) (fun _ : unit => @nil nat). rewrite Shz. reflexivity. rewrite Shz. vrow. }
  destruct (va2 (dl + u64) (eta64 + zt) (w_ge dl (proj1 Hd)) (h_range zt Hz) _ _ _ _ _ _ _ _ _ _ _ _ _ _ _ _ _ (fun x v => get a [x; v]) (fun x v => get z [x; v]) (fun x v => get y [x; v]) A0 (w_small dl Hd) A1 (w_small dl Hd) R0 R1 (fun p q Qp Qq => Fa p q Qp Qq) Sa i j Hi Hj) as (FY & EY & _).
  split; [exact FY|]. rewrite SW. eapply Rle_trans; [exact EY|]. right. unfold n0, m0, n1, m1. field.
Qed.
Print Assumptions C58_space2_backward_values_f64.

Theorem C58_space3_backward_values_f64 :
  forall E : ext f64, ext_ok E -> forall dl zt, 0 <= dl <= / 2000 -> 0 <= zt <= 1 ->
  forall K0 K1 K2 F0 F1 F2 P I J S T (b0 : base_ops J S T) (b1 : base_ops I J T) (b2 : base_ops P I T) (eP : fel P) (eI : fel I) (eJ : fel J) (eS : fel S),
  f64_values E dl zt K0 J S T b0 eJ eS F0 -> f64_values E dl zt K1 I J T b1 eI eJ F1 -> f64_values E dl zt K2 P I T b2 eP eI F2 ->
  forall (dP : Dflt P) (dI : Dflt I) (dJ : Dflt J) (dS : Dflt S) (dT : Dflt T) zo, zip_ok zo ->
  let sp := mk_space3 b0 b1 b2 in let n0 := len_phys b0 in let m0 := len_spec b0 in let n1 := len_phys b1 in let m1 := len_spec b1 in let n2 := len_phys b2 in let m2 := len_spec b2 in
  forall a : arr S, proper [m0; m1; m2] a -> (forall p q r, (p < m0)%nat -> (q < m1)%nat -> (r < m2)%nat -> ef eS (get a [p; q; r])) ->
  let Sum := rsum m0 (fun p => rsum m1 (fun q => rsum m2 (fun r => esize eS (get a [p; q; r])))) in Sum <= bpow radix2 800 ->
  exists y, s3_backward zo sp a = Ok y /\ proper [n0; n1; n2] y /\
    forall i j k, (i < n0)%nat -> (j < n1)%nat -> (k < n2)%nat -> ef eP (get y [i; j; k]) /\
      edist eP (get y [i; j; k]) (F2 (fun r => F1 (fun q => F0 (fun p => ev eS (get a [p; q; r])) i) j) k) <=
        33 / 2 * (K0 * K1 * K2) * (dl + bpow radix2 (-53)) * Sum + 375 * (INR n0 * INR n1 * INR n2) * (bpow radix2 (-1075) + zt).
Proof.
  intros E HE dl zt Hd Hz K0 K1 K2  F0 F1 F2 P I J S T b0 b1 b2 eP eI eJ eS H0 H1 H2 dP dI dJ dS dT zo HZ sp n0 m0 n1 m1 n2 m2 a Pa Fa Sum Sa.
  destruct (C53_space3_applies_each_base_along_its_axis f64 _ _ E HE eq_refl P I J S T b0 b1 b2 (values_usable E dl zt _ _ _ _ _ _ _ _ H0) (values_usable E dl zt _ _ _ _ _ _ _ _ H1) (values_usable E dl zt _ _ _ _ _ _ _ _ H2) dP dI dJ dS dT zo HZ) as (HF & HB & _).
  destruct (HB a (azeros dflt _) Pa (proper_zeros _ _)) as (z & u & y & _ & Ey & Py & Az & Au & Ay).
  exists y. split; [exact Ey|]. split; [exact Py|]. intros i j k Hi Hj Hk.
  pose proof (values_acc E dl zt ltac:(lra) Hz _ _ _ _ _ _ _ _ H0) as A0.
  pose proof (values_acc E dl zt ltac:(lra) Hz _ _ _ _ _ _ _ _ H1) as A1.
  pose proof (values_acc E dl zt ltac:(lra) Hz _ _ _ _ _ _ _ _ H2) as A2.
  pose proof (proper_op _ _ _ _ _ _ _ Az Pa eq_refl) as Pz.
  pose proof (proper_op _ _ _ _ _ _ _ Au Pz eq_refl) as Pu.
  pose proof (proj1 Pa) as Sha.
  pose proof (proj1 Pz) as Shz.
  pose proof (proj1 Pu) as Shu.
  assert (SW : Sum = rsum m2 (fun r => rsum m1 (fun q => rsum m0 (fun p => cn (ev eS (get a [p; q; r])))))).
  { unfold Sum. erewrite rsum_ext; [|intros; apply rsum_swap]. rewrite rsum_swap. apply rsum_ext; intros. apply rsum_swap. }
  rewrite SW in Sa.
  assert (R0 : forall q r, (q < m1)%nat -> (r < m2)%nat -> rows (fun _ : unit => True) (backward_slice b0) m0 n0 (fun _ x => get a [x; q; r]) (fun _ x => get z [x; q; r])).
  { intros q r Q0 Q1. axr a z (fun _ : unit => @nil nat) (fun _ : unit => [q; r]). rewrite Sha. reflexivity. rewrite Sha. vrow. }
  assert (R1 : forall p r, (p < n0)%nat -> (r < m2)%nat -> rows (fun _ : unit => True) (backward_slice b1) m1 n1 (fun _ x => get z [p; x; r]) (fun _ x => get u [p; x; r])).
  { intros p r Q0 Q1. axr z u (fun _ : unit => [p]) (fun _ : unit => [r]). rewrite Shz. reflexivity. rewrite Shz. vrow. }
  assert (R2 : forall p q, (p < n0)%nat -> (q < n1)%nat -> rows (fun _ : unit => True) (backward_slice b2) m2 n2 (fun _ x => get u [p; q; x]) (fun _ x => get y [p; q; x])).
  { intros p q Q0 Q1. axr u y (fun _ : unit => [p; q]) (fun _ : unit => @nil nat). rewrite Shu. reflexivity. rewrite Shu. vrow. }
  destruct (va3 (dl + u64) (eta64 + zt) (w_ge dl (proj1 Hd)) (h_range zt Hz) _ _ _ _ _ _ _ _ _ _ _ _ _ _ _ _ _ _ _ _ _ _ _ _ _ (fun x v t => get a [x; v; t]) (fun x v t => get z [x; v; t]) (fun x v t => get u [x; v; t]) (fun x v t => get y [x; v; t]) A0 (w_small dl Hd) A1 (w_small dl Hd) A2 (w_small dl Hd) R0 R1 R2 (fun p q r Qp Qq Qr => Fa p q r Qp Qq Qr) Sa i j k Hi Hj Hk) as (FY & EY & _).
  split; [exact FY|]. rewrite SW. eapply Rle_trans; [exact EY|]. right. unfold n0, m0, n1, m1, n2, m2. field.
Qed.
Print Assumptions C58_space3_backward_values_f64.


(** ** forward *)
Theorem C58_space1_forward_coefs_f64 :
  forall E : ext f64, ext_ok E -> forall dl zt, 0 <= dl -> 0 <= zt <= 1 ->
  forall K0 L0 F0 P S T (b0 : base_ops P S T) (eP : fel P) (eS : fel S),
  f64_coefs E dl zt K0 L0 P S T b0 eP eS F0 -> L0 * (dl + bpow radix2 (-53)) <= / 100 ->
  forall (dP : Dflt P) (dS : Dflt S) (dT : Dflt T) zo, zip_ok zo ->
  let sp := mk_space1 b0 in let n0 := len_phys b0 in let m0 := len_spec b0 in
  forall a : arr P, proper [n0] a -> (forall p, (p < n0)%nat -> ef eP (get a [p])) ->
  let Sum := rsum n0 (fun p => esize eP (get a [p])) in Sum <= bpow radix2 800 ->
  exists y, s1_forward zo sp a = Ok y /\ proper [m0] y /\
    forall i, (i < m0)%nat -> ef eS (get y [i]) /\
      edist eS (get y [i]) (F0 (fun p => ev eP (get a [p])) i) <=
        1 * (L0) * (K0) * (dl + bpow radix2 (-53)) * Sum + 3 * (L0) * (INR n0) * (bpow radix2 (-1075) + zt).
Proof.
  intros E HE dl zt Hd Hz K0 L0 F0 P S T b0 eP eS H0 HL0 dP dS dT zo HZ sp n0 m0 a Pa Fa Sum Sa.
  destruct (C53_space1_applies_each_base_along_its_axis f64 _ _ E HE eq_refl P S T b0 (coefs_usable E dl zt _ _ _ _ _ _ _ _ _ H0) dP dS dT zo HZ) as (HF & HB & _).
  destruct (HF a (azeros dflt _) Pa (proper_zeros _ _)) as (y & _ & Ey & Py & Ay).
  exists y. split; [exact Ey|]. split; [exact Py|]. intros i Hi.
  assert (Hd' : 0 <= dl <= / 16). { apply (L_small dl L0 Hd); auto. destruct H0; try lra; apply L_ge4. }
  pose proof (coefs_acc E dl zt Hd' Hz _ _ _ _ _ _ _ _ _ H0) as A0.
  pose proof (proj1 Pa) as Sha.
  assert (SW : Sum = rsum n0 (fun p => cn (ev eP (get a [p])))).
  { reflexivity. }
  rewrite SW in Sa.
  assert (R0 : rows (fun _ : unit => True) (forward_slice b0) n0 m0 (fun _ x => get a [x]) (fun _ x => get y [x])).
  { axr a y (fun _ : unit => @nil nat) (fun _ : unit => @nil nat). rewrite Sha. reflexivity. rewrite Sha. vrow. }
  destruct (va1 (dl + u64) (eta64 + zt) (w_ge dl Hd)  _ _ _ _ _ _ _ _ _ (fun x => get a [x]) (fun x => get y [x]) A0 HL0 R0 (fun p Qp => Fa p Qp) Sa i Hi) as (FY & EY & _).
  split; [exact FY|]. rewrite SW. eapply Rle_trans; [exact EY|]. right. unfold n0, m0. field.
Qed.
Print Assumptions C58_space1_forward_coefs_f64.

Theorem C58_space2_forward_coefs_f64 :
  forall E : ext f64, ext_ok E -> forall dl zt, 0 <= dl -> 0 <= zt <= 1 ->
  forall K0 K1 L0 L1 F0 F1 P I S T (b0 : base_ops I S T) (b1 : base_ops P I T) (eP : fel P) (eI : fel I) (eS : fel S),
  f64_coefs E dl zt K0 L0 I S T b0 eI eS F0 -> L0 * (dl + bpow radix2 (-53)) <= / 100 -> f64_coefs E dl zt K1 L1 P I T b1 eP eI F1 -> L1 * (dl + bpow radix2 (-53)) <= / 100 ->
  forall (dP : Dflt P) (dI : Dflt I) (dS : Dflt S) (dT : Dflt T) zo, zip_ok zo ->
  let sp := mk_space2 b0 b1 in let n0 := len_phys b0 in let m0 := len_spec b0 in let n1 := len_phys b1 in let m1 := len_spec b1 in
  forall a : arr P, proper [n0; n1] a -> (forall p q, (p < n0)%nat -> (q < n1)%nat -> ef eP (get a [p; q])) ->
  let Sum := rsum n0 (fun p => rsum n1 (fun q => esize eP (get a [p; q]))) in Sum <= bpow radix2 800 ->
  exists y, s2_forward zo sp a = Ok y /\ proper [m0; m1] y /\
    forall i j, (i < m0)%nat -> (j < m1)%nat -> ef eS (get y [i; j]) /\
      edist eS (get y [i; j]) (F0 (fun p => F1 (fun q => ev eP (get a [p; q])) j) i) <=
        21 / 20 * (L0 + L1) * (K0 * K1) * (dl + bpow radix2 (-53)) * Sum + 3 * (L0 * L1) * (INR n0 * INR n1) * (bpow radix2 (-1075) + zt).
Proof.
  intros E HE dl zt Hd Hz K0 K1 L0 L1 F0 F1 P I S T b0 b1 eP eI eS H0 HL0 H1 HL1 dP dI dS dT zo HZ sp n0 m0 n1 m1 a Pa Fa Sum Sa.
  destruct (C53_space2_applies_each_base_along_its_axis f64 _ _ E HE eq_refl P I S T b0 b1 (coefs_usable E dl zt _ _ _ _ _ _ _ _ _ H0) (coefs_usable E dl zt _ _ _ _ _ _ _ _ _ H1) dP dI dS dT zo HZ) as (HF & HB & _).
  destruct (HF a (azeros dflt _) Pa (proper_zeros _ _)) as (z & y & _ & Ey & Py & Az & Ay).
  exists y. split; [exact Ey|]. split; [exact Py|]. intros i j Hi Hj.
  assert (Hd' : 0 <= dl <= / 16). { apply (L_small dl L0 Hd); auto. destruct H0; try lra; apply L_ge4. }
  pose proof (coefs_acc E dl zt Hd' Hz _ _ _ _ _ _ _ _ _ H0) as A0.
  pose proof (coefs_acc E dl zt Hd' Hz _ _ _ _ _ _ _ _ _ H1) as A1.
  pose proof (proper_op _ _ _ _ _ _ _ Az Pa eq_refl) as Pz.
  pose proof (proj1 Pa) as Sha.
  pose proof (proj1 Pz) as Shz.
  assert (SW : Sum = rsum n0 (fun p => rsum n1 (fun q => cn (ev eP (get a [p; q]))))).
  { reflexivity. }
  rewrite SW in Sa.
  assert (R0 : forall p, (p < n0)%nat -> rows (fun _ : unit => True) (forward_slice b1) n1 m1 (fun _ x => get a [p; x]) (fun _ x => get z [p; x])).
  { intros p Q0. axr a z (fun _ : unit => [p]) (fun _ : unit => @nil nat). rewrite Sha. reflexivity. rewrite Sha. vrow. }
  assert (R1 : forall q, (q < m1)%nat -> rows (fun _ : unit => True) (forward_slice b0) n0 m0 (fun _ x => get z [x; q]) (fun _ x => get y [x; q])).
  { intros q Q0. axr z y (fun _ : unit => @nil nat) (fun _ : unit => [q]). rewrite Shz. reflexivity. rewrite Shz. vrow. }
  destruct (va2 (dl + u64) (eta64 + zt) (w_ge dl Hd) (h_range zt Hz) _ _ _ _ _ _ _ _ _ _ _ _ _ _ _ _ _ (fun x v => get a [v; x]) (fun x v => get z [v; x]) (fun x v => get y [v; x]) A1 HL1 A0 HL0 R0 R1 (fun q p Qq Qp => Fa p q Qp Qq) Sa j i Hj Hi) as (FY & EY & _).
  split; [exact FY|]. rewrite SW. eapply Rle_trans; [exact EY|]. right. unfold n0, m0, n1, m1. field.
Qed.
Print Assumptions C58_space2_forward_coefs_f64.

Theorem C58_space3_forward_coefs_f64 :
  forall E : ext f64, ext_ok E -> forall dl zt, 0 <= dl -> 0 <= zt <= 1 ->
  forall K0 K1 K2 L0 L1 L2 F0 F1 F2 P I J S T (b0 : base_ops J S T) (b1 : base_ops I J T) (b2 : base_ops P I T) (eP : fel P) (eI : fel I) (eJ : fel J) (eS : fel S),
  f64_coefs E dl zt K0 L0 J S T b0 eJ eS F0 -> L0 * (dl + bpow radix2 (-53)) <= / 100 -> f64_coefs E dl zt K1 L1 I J T b1 eI eJ F1 -> L1 * (dl + bpow radix2 (-53)) <= / 100 -> f64_coefs E dl zt K2 L2 P I T b2 eP eI F2 -> L2 * (dl + bpow radix2 (-53)) <= / 100 ->
  forall (dP : Dflt P) (dI : Dflt I) (dJ : Dflt J) (dS : Dflt S) (dT : Dflt T) zo, zip_ok zo ->
  let sp := mk_space3 b0 b1 b2 in let n0 := len_phys b0 in let m0 := len_spec b0 in let n1 := len_phys b1 in let m1 := len_spec b1 in let n2 := len_phys b2 in let m2 := len_spec b2 in
  forall a : arr P, proper [n0; n1; n2] a -> (forall p q r, (p < n0)%nat -> (q < n1)%nat -> (r < n2)%nat -> ef eP (get a [p; q; r])) ->
  let Sum := rsum n0 (fun p => rsum n1 (fun q => rsum n2 (fun r => esize eP (get a [p; q; r])))) in Sum <= bpow radix2 800 ->
  exists y, s3_forward zo sp a = Ok y /\ proper [m0; m1; m2] y /\
    forall i j k, (i < m0)%nat -> (j < m1)%nat -> (k < m2)%nat -> ef eS (get y [i; j; k]) /\
      edist eS (get y [i; j; k]) (F0 (fun p => F1 (fun q => F2 (fun r => ev eP (get a [p; q; r])) k) j) i) <=
        11 / 10 * (L0 + L1 + L2) * (K0 * K1 * K2) * (dl + bpow radix2 (-53)) * Sum + 3 * (L0 * L1 * L2) * (INR n0 * INR n1 * INR n2) * (bpow radix2 (-1075) + zt).
Proof.
  intros E HE dl zt Hd Hz K0 K1 K2 L0 L1 L2 F0 F1 F2 P I J S T b0 b1 b2 eP eI eJ eS H0 HL0 H1 HL1 H2 HL2 dP dI dJ dS dT zo HZ sp n0 m0 n1 m1 n2 m2 a Pa Fa Sum Sa.
  destruct (C53_space3_applies_each_base_along_its_axis f64 _ _ E HE eq_refl P I J S T b0 b1 b2 (coefs_usable E dl zt _ _ _ _ _ _ _ _ _ H0) (coefs_usable E dl zt _ _ _ _ _ _ _ _ _ H1) (coefs_usable E dl zt _ _ _ _ _ _ _ _ _ H2) dP dI dJ dS dT zo HZ) as (HF & HB & _).
  destruct (HF a (azeros dflt _) Pa (proper_zeros _ _)) as (z & u & y & _ & Ey & Py & Az & Au & Ay).
  exists y. split; [exact Ey|]. split; [exact Py|]. intros i j k Hi Hj Hk.
  assert (Hd' : 0 <= dl <= / 16). { apply (L_small dl L0 Hd); auto. destruct H0; try lra; apply L_ge4. }
  pose proof (coefs_acc E dl zt Hd' Hz _ _ _ _ _ _ _ _ _ H0) as A0.
  pose proof (coefs_acc E dl zt Hd' Hz _ _ _ _ _ _ _ _ _ H1) as A1.
  pose proof (coefs_acc E dl zt Hd' Hz _ _ _ _ _ _ _ _ _ H2) as A2.
  pose proof (proper_op _ _ _ _ _ _ _ Az Pa eq_refl) as Pz.
  pose proof (proper_op _ _ _ _ _ _ _ Au Pz eq_refl) as Pu.
  pose proof (proj1 Pa) as Sha.
  pose proof (proj1 Pz) as Shz.
  pose proof (proj1 Pu) as Shu.
  assert (SW : Sum = rsum n0 (fun p => rsum n1 (fun q => rsum n2 (fun r => cn (ev eP (get a [p; q; r])))))).
  { reflexivity. }
  rewrite SW in Sa.
  assert (R0 : forall q p, (q < n1)%nat -> (p < n0)%nat -> rows (fun _ : unit => True) (forward_slice b2) n2 m2 (fun _ x => get a [p; q; x]) (fun _ x => get z [p; q; x])).
  { intros q p Q0 Q1. axr a z (fun _ : unit => [p; q]) (fun _ : unit => @nil nat). rewrite Sha. reflexivity. rewrite Sha. vrow. }
  assert (R1 : forall r p, (r < m2)%nat -> (p < n0)%nat -> rows (fun _ : unit => True) (forward_slice b1) n1 m1 (fun _ x => get z [p; x; r]) (fun _ x => get u [p; x; r])).
  { intros r p Q0 Q1. axr z u (fun _ : unit => [p]) (fun _ : unit => [r]). rewrite Shz. reflexivity. rewrite Shz. vrow. }
  assert (R2 : forall r q, (r < m2)%nat -> (q < m1)%nat -> rows (fun _ : unit => True) (forward_slice b0) n0 m0 (fun _ x => get u [x; q; r]) (fun _ x => get y [x; q; r])).
  { intros r q Q0 Q1. axr u y (fun _ : unit => @nil nat) (fun _ : unit => [q; r]). rewrite Shu. reflexivity. rewrite Shu. vrow. }
  destruct (va3 (dl + u64) (eta64 + zt) (w_ge dl Hd) (h_range zt Hz) _ _ _ _ _ _ _ _ _ _ _ _ _ _ _ _ _ _ _ _ _ _ _ _ _ (fun x v t => get a [t; v; x]) (fun x v t => get z [t; v; x]) (fun x v t => get u [t; v; x]) (fun x v t => get y [t; v; x]) A2 HL2 A1 HL1 A0 HL0 R0 R1 R2 (fun r q p Qr Qq Qp => Fa p q r Qp Qq Qr) Sa k j i Hk Hj Hi) as (FY & EY & _).
  split; [exact FY|]. rewrite SW. eapply Rle_trans; [exact EY|]. right. unfold n0, m0, n1, m1, n2, m2. field.
Qed.
Print Assumptions C58_space3_forward_coefs_f64.

(** ** The hypotheses can be met *)
Lemma dir_ls n a c : dir_rows n a c -> least_squares n dir_q a c.
Proof.
  intros H j Hj. specialize (H j Hj). cbv beta zeta. unfold dir_q. unfold zprev, znext in H.
  destruct (Nat.ltb_spec j (n - 2)); try lia. destruct (Nat.ltb_spec (j + 2) 2); try lia. replace (j + 2 - 2)%nat with j by lia.
  destruct (Nat.ltb_spec j 2), (Nat.ltb_spec (j + 2) (n - 2)); lra.
Qed.
Lemma neu_ls n a c : neu_rows n a c -> least_squares n neu_q a c.
Proof.
  intros H j Hj. specialize (H j Hj). cbv beta zeta. rewrite !neu_q_eq. unfold neu_row, qprev, qnext in H.
  destruct (Nat.ltb_spec j (n - 2)); try lia. destruct (Nat.ltb_spec (j + 2) 2); try lia. replace (j + 2 - 2)%nat with j by lia.
  destruct (Nat.ltb_spec j 2), (Nat.ltb_spec (j + 2) (n - 2)); lra.
Qed.
Lemma least_squares_ext n q a a' c : (forall i, (i < n)%nat -> a i = a' i) -> least_squares n q a c -> least_squares n q a' c.
Proof. intros H L k Hk. specialize (L k Hk). cbv beta zeta in *. rewrite <- !H by lia. exact L. Qed.
Lemma fits_dir n : (5 <= n)%nat -> fits_values n dir_q (Bo n (sol (dirc n) n)).
Proof. intros Hn v. split; [reflexivity|]. apply (least_squares_ext n _ (Fex n (fun i => fst (v i)))). intros i Hi. rewrite cheb_coefs_eq by lia. reflexivity. apply dir_ls, dir_sol_rows; auto. Qed.
Lemma fits_neu n : (5 <= n)%nat -> fits_values n neu_q (Bo n (sol (neuc n) n)).
Proof. intros Hn v. split; [reflexivity|]. apply (least_squares_ext n _ (Fex n (fun i => fst (v i)))). intros i Hi. rewrite cheb_coefs_eq by lia. reflexivity. apply neu_ls, neu_sol_rows; auto. Qed.

(** Correctly rounding libraries make every base of up to 2^20 points one of those above. *)
Theorem C58_accurate_bases_exist :
  exists E : ext f64, ext_ok E /\ let dl := bpow radix2 (-52) in
    (forall n, (2 <= n)%nat -> (Z.of_nat n <= 2 ^ 20)%Z -> forall T (V : Vec f64 T), exists b, new_chebyshev n = Ok b /\
       f64_values E dl eta64 1 f64 f64 T (r2r_ops_x E b) f64_real f64_real (cheb_values n) /\
       f64_coefs E dl eta64 (2 / INR (n - 1)) 4 f64 f64 T (r2r_ops_x E b) f64_real f64_real (cheb_coefs n)) /\
    (forall n, (5 <= n)%nat -> (Z.of_nat n <= 2 ^ 20)%Z -> forall T (V : Vec f64 T), exists b b' F F',
       new_composite KDirichlet n = Ok b /\ f64_values E dl eta64 2 f64 f64 T (r2r_ops_x E b) f64_real f64_real (compo_values n dir_q) /\
       fits_values n dir_q F /\ f64_coefs E dl eta64 ((INR n + 1) ^ 2 * (2 / INR (n - 1))) (16 * (INR n + 1) ^ 2) f64 f64 T (r2r_ops_x E b) f64_real f64_real F /\
       new_composite KNeumann n = Ok b' /\ f64_values E dl eta64 2 f64 f64 T (r2r_ops_x E b') f64_real f64_real (compo_values n neu_q) /\
       fits_values n neu_q F' /\ f64_coefs E dl eta64 ((INR n + 1) ^ 2 * (2 / INR (n - 1))) (16 * (INR n + 1) ^ 2) f64 f64 T (r2r_ops_x E b') f64_real f64_real F') /\
    (forall n, (1 <= n)%nat -> (Z.of_nat n <= 2 ^ 20)%Z -> exists f, r2c_new n = Ok f /\
       f64_values E dl eta64 (2 / INR n) f64 (cplx f64) (cplx f64) (r2c_ops_x E f) f64_real f64_cplx (r2c_values n) /\
       f64_coefs E dl eta64 2 4 f64 (cplx f64) (cplx f64) (r2c_ops_x E f) f64_real f64_cplx (r2c_coefs n)) /\
    (forall n, (1 <= n)%nat -> (Z.of_nat n <= 2 ^ 20)%Z -> exists f, c2c_new n = Ok f /\
       f64_values E dl eta64 (2 / INR n) (cplx f64) (cplx f64) (cplx f64) (c2c_ops_x E f) f64_cplx f64_cplx (c2c_values n) /\
       f64_coefs E dl eta64 2 4 (cplx f64) (cplx f64) (cplx f64) (c2c_ops_x E f) f64_cplx f64_cplx (c2c_coefs n)).
Proof.
  exists (ideal 53 1024 eq_refl eq_refl). split. apply ideal_lengths.
  assert (E2 : bpow radix2 (-52) = 2 * ieee_u 53). { unfold ieee_u. change (-52)%Z with (1 + - (53))%Z. rewrite bpow_plus. reflexivity. }
  intros dl. unfold dl. clear dl. rewrite E2. change eta64 with (ieee_eta 53 1024). split; [|split; [|split]].
  - intros n Hn Hz T V. destruct (ideal_dct1_ok 53 1024 eq_refl eq_refl (ltac:(lia)) (ltac:(lia)) n) as [A1 A2].
    pose proof (proj1 (C53_constructors f64 num_f64) n) as K. destruct (new_chebyshev n) as [b| |] eqn:Eb; [|cbn in K; lia|tauto].
    exists b. split; [reflexivity|]. split; [eapply fv_chebyshev; eauto|eapply fc_chebyshev; eauto].
  - intros n Hn Hz T V. destruct (ideal_dct1_ok 53 1024 eq_refl eq_refl (ltac:(lia)) (ltac:(lia)) n) as [A1 A2].
    pose proof (proj1 (proj2 (C53_constructors f64 num_f64)) KDirichlet n) as K. destruct (new_composite KDirichlet n) as [b| |] eqn:Eb; [|cbn in K; lia|tauto]. clear K.
    pose proof (proj1 (proj2 (C53_constructors f64 num_f64)) KNeumann n) as K. destruct (new_composite KNeumann n) as [b'| |] eqn:Eb'; [|cbn in K; lia|tauto]. clear K.
    pose proof (fits_dir n Hn) as D1. pose proof (fits_neu n Hn) as D2.
    exists b, b', (Bo n (sol (dirc n) n)), (Bo n (sol (neuc n) n)). split; [reflexivity|]. split; [eapply fv_dirichlet; eauto|]. split; [exact D1|]. split; [eapply fc_dirichlet; eauto|]. split; [reflexivity|]. split; [eapply fv_neumann; eauto|]. split; [exact D2|]. eapply fc_neumann; eauto.
  - intros n Hn Hz. exists (mk_r2c n (n / 2 + 1)). assert (HB : r2c_new n = Ok (mk_r2c n (n / 2 + 1))). { unfold r2c_new. apply Nat.leb_le in Hn. rewrite Hn. reflexivity. }
    split; auto. destruct (ideal_r2c_ok 53 1024 eq_refl eq_refl (ltac:(lia)) (ltac:(lia)) n). destruct (ideal_c2r_ok 53 1024 eq_refl eq_refl (ltac:(lia)) (ltac:(lia)) n Hn). split; [eapply fv_r2c; eauto|eapply fc_r2c; eauto].
  - intros n Hn Hz. exists (mk_c2c n n). assert (HB : c2c_new n = Ok (mk_c2c n n)). { unfold c2c_new. apply Nat.leb_le in Hn. rewrite Hn. reflexivity. }
    split; auto. destruct (ideal_fft_ok 53 1024 eq_refl eq_refl (ltac:(lia)) (ltac:(lia)) false n). destruct (ideal_fft_ok 53 1024 eq_refl eq_refl (ltac:(lia)) (ltac:(lia)) true n). split; [eapply fv_c2c; eauto|eapply fc_c2c; eauto].
Qed.

(** The coefficients of the example of C57, on a real Fourier base of 4 points times
    a Dirichlet base of 7 points: all 28 values within 2^-44 of the exact sums. *)
Example C58_example_space2 :
  exists (E : ext f64) b1, let sp := mk_space2 (r2c_ops_x E (mk_r2c 4 3)) (r2r_ops_x E b1) in new_composite KDirichlet 7 = Ok b1 /\ exists zo, zip_ok zo /\
  exists y, s2_backward zo sp coef35 = Ok y /\
    forall i j, (i < 4)%nat -> (j < 7)%nat -> is_finite (get y [i; j]) = true /\
      Rabs (B2R (get y [i; j]) - fst (compo_values 7 dir_q (fun q => r2c_values 4 (fun p => ev f64_cplx (get coef35 [p; q])) i) j)) <= bpow radix2 (-44).
Proof.
  destruct C58_accurate_bases_exist as (E & HE & _ & HC & HR & _). destruct (HC 7%nat ltac:(lia) ltac:(cbn; lia) (cplx f64) _) as (b1 & _ & _ & _ & N1 & H1 & _). destruct (HR 4%nat ltac:(lia) ltac:(cbn; lia)) as (f & N0 & H0 & _). clear HC HR.
  exists E, b1. intros sp. split; auto. destruct some_zip as [zo HZ]. exists zo. split; auto. injection N0 as <-.
  assert (L1 : len_phys (r2r_ops_x (T := cplx f64) E b1) = 7%nat /\ len_spec (r2r_ops_x (T := cplx f64) E b1) = 5%nat).
  { unfold new_composite in N1. destruct (compo_new KDirichlet 7) as [cc| |] eqn:Ec; cbn [bind] in N1; try discriminate. injection N1 as <-. destruct (dir_inv 7 cc Ec) as [_ ->]. split; reflexivity. }
  destruct L1 as [L1 L1'].
  assert (V : forall j, (j < 5)%nat -> is_finite tenths.[j] = true /\ Rabs (B2R tenths.[j]) <= 1).
  { intros j Hj. destruct j as [|[|[|[|[|]]]]]; try lia; (split; [vm_compute; reflexivity|]); rewrite <- SF2R_B2SF;
      match goal with |- Rabs (SF2R _ ?t) <= _ => let t' := eval vm_compute in t in replace t with t' by (vm_compute; reflexivity) end;
      cbn [SF2R SpecFloat.cond_Zopp]; unfold F2R; cbn [Fnum Fexp cond_Zopp]; rewrite Rabs_pos_eq; cbn; lra. }
  assert (VG : forall i j, (i < 3)%nat -> (j < 5)%nat -> get coef35 [i; j] = (tenths.[j], n0)).
  { intros i j Hi Hj. destruct i as [|[|[|]]]; try lia; destruct j as [|[|[|[|[|]]]]]; try lia; reflexivity. }
  assert (Z0 : B2R (n0 (A := f64)) = 0) by reflexivity.
  set (S := rsum 3 (fun i => rsum 5 (fun j => esize f64_cplx (get coef35 [i; j])))).
  assert (S1 : 0 <= S <= 15). { split. apply rsum_pos; intros; apply rsum_pos; intros; apply esize_pos.
    eapply Rle_trans. apply (rsum_le 3 _ (fun _ => 5)). intros i Hi. eapply Rle_trans. apply (rsum_le 5 _ (fun _ => 1)). intros j Hj. rewrite VG by auto. unfold esize. cbn [ev f64_cplx fst snd]. unfold f64_val. rewrite Z0, Rabs_R0. destruct (V j Hj). lra.
    rewrite rsum_const. cbn; lra. rewrite rsum_const. cbn; lra. }
  destruct (C58_space2_backward_values_f64 E HE (bpow radix2 (-52)) eta64 ltac:(cbn; lra) ltac:(pose proof eta1; lra) _ _ _ _ _ _ _ _ _ _ f64_real f64_real f64_cplx H0 H1 dflt_num dflt_num dflt_vec dflt_vec zo HZ coef35) as (y & Ey & _ & H).
  - rewrite L1'. repeat split.
  - rewrite L1'. intros i j Hi Hj. rewrite (VG i j Hi Hj). split; [apply V; auto|reflexivity].
  - rewrite L1'. change (S <= R800). apply Rle_trans with (bpow radix2 4). change (bpow radix2 4) with 16. lra. apply bpow_le; lia.
  - exists y. split; [exact Ey|]. intros i j Hi Hj. rewrite L1, ?L1' in H. destruct (H i j Hi Hj) as [F B]. split; [exact F|]. clear H Ey.
    change (edist f64_real (get y [i; j]) (compo_values 7 dir_q (fun q => r2c_values 4 (fun p => ev f64_cplx (get coef35 [p; q])) i) j) <= 21 / 2 * (2 / INR 4 * 2) * (bpow radix2 (-52) + u64) * S + 75 * (INR 4 * INR 7) * (eta64 + eta64)) in B.
    unfold edist in B. cbn [ev f64_real] in B. unfold f64_val in B. cbn [fst snd] in B.
    match type of B with ?d + ?z <= _ => assert (Z1 : 0 <= z) by apply Rabs_pos; assert (B' : d <= 21 / 2 * (2 / INR 4 * 2) * (bpow radix2 (-52) + u64) * S + 75 * (INR 4 * INR 7) * (eta64 + eta64)) by (clear - B Z1; lra) end.
    eapply Rle_trans; [exact B'|]. clear B B' Z1 F V VG.
    assert (E1 : eta64 <= bpow radix2 (-80)) by (apply bpow_le; lia). pose proof (bpow_gt_0 radix2 (-1075)) as E0. revert S1. generalize S. revert E1 E0. generalize eta64. clear. intros et E1 E0 S S1.
    change (bpow radix2 (-80)) with (/ IZR (2 ^ 80)) in E1. change (bpow radix2 (-52)) with (/ IZR (2 ^ 52)). change (bpow radix2 (-53)) with (/ IZR (2 ^ 53)). change (bpow radix2 (-44)) with (/ IZR (2 ^ 44)).
    replace (INR 7) with 7 by (cbn; lra). replace (INR 4) with 4 by (cbn; lra). cbv [Z.pow Z.pow_pos Pos.iter Z.mul Pos.mul] in *. lra.
Qed.
Print Assumptions C58_accurate_bases_exist.
