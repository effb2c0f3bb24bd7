(** C63, with a scale: `gradient_mpi(.., Some(scale))` in f64. *)
From Coq Require Import List Arith ZArith Reals Bool Lra Lia.
From Flocq Require Import Core BinarySingleNaN.
From Verif Require Import Base Num Fourier FourierF64 FourierFacts Bases LibBase NdArray NdArrayFacts AxisFacts AxisProps PropAxis SpaceFacts Space PropSpace
  MpiSem Decomp MpiSpec SpaceMpi PropSpaceMpi
  ExtLib AnyArith ExtFacts AnyBase PropAny PropAny2 PropAny3 Rounding RndAxis SpaceAcc GradSpec RndGrad6 PropGrad RndScale PropGrad2 PropDistF64.
Import ListNotations.
Local Open Scope R_scope.

Theorem C63_scaled_gradient_mpi_f64 :
  forall E : ext f64, ext_ok E -> forall d0 d1 K0 L0 F0 K1 L1 F1 P I S (b0 : base_ops I S S) (b1 : base_ops P I S) (e : fel S),
  f64_gradient E d0 K0 L0 I S S b0 e F0 -> L0 * bpow radix2 (-53) <= / 100 -> f64_gradient E d1 K1 L1 P I S b1 e F1 -> L1 * bpow radix2 (-53) <= / 100 ->
  forall (dP : Dflt P) (dI : Dflt I) (dS : Dflt S) (D : DivInto f64 S), f64_division S e D ->
  let sp := mk_space2 b0 b1 in let n0 := len_phys b0 in let m0 := len_spec b0 in let o0 := len_orth b0 in let n1 := len_phys b1 in let m1 := len_spec b1 in let o1 := len_orth b1 in
  forall bm p, distributable sp p -> forall zo, (forall r, zip_ok (zo r)) ->
  forall (a : arr S) ins, proper [m0; m1] a -> (forall i j, (i < m0)%nat -> (j < m1)%nat -> ef e (get a [i; j])) ->
  let Sum := rsum m0 (fun i => rsum m1 (fun j => esize e (get a [i; j]))) in K0 * K1 * (1 + Sum) <= bpow radix2 700 ->
  x_pencils_of [m0; m1] p a ins ->
  forall s0 s1 : f64, fair_scale s0 d0 -> fair_scale s1 d1 -> let q := B2R s0 ^ d0 * B2R s1 ^ d1 in
  exists res, every_schedule (world bm p sp (fun r sm => gradient_mpi bm (zo r) sm (ins r) d0 d1 (Some (s0, s1)))) (map res (seq 0 p)) /\
    x_pencils_near e o0 o1 p (fun i j => divided_by q (F1 (fun y => F0 (fun x => ev e (get a [x; y])) i) j))
      ((6 / 5 * (L0 + L1 + INR d0 + INR d1 + 5) * (K0 * K1) * bpow radix2 (-53) * Sum + 2 * L0 * L1 * (K0 * K1) * (INR n0 * INR n1) * bpow radix2 (-1075)) / Rabs q + bpow radix2 (-450)) res.
Proof.
  intros E HE d0 d1 K0 L0 F0 K1 L1 F1 P I S b0 b1 e H0 HL0 H1 HL1 dP dI dS D HD sp n0 m0 o0 n1 m1 o1 bm p Hp zo HZ a ins Pa Fa Sum Sa Hi s0 s1 Hs0 Hs1 q.
  destruct (C53_distributed_gradient f64 _ _ E HE eq_refl P I S dP dI dS b0 b1 (gradient_usable _ _ _ _ _ _ _ _ _ _ H0) (gradient_usable _ _ _ _ _ _ _ _ _ _ H1) bm p Hp (zo O) zo (HZ O) HZ f64 num_f64 D d0 d1 (Some (s0, s1))
    (gradient_total _ _ _ _ _ _ _ _ _ _ H0) (gradient_total _ _ _ _ _ _ _ _ _ _ H1) a ins Pa Hi) as (h & res & Eh & X & W1).
  exists res. split; [exact W1|].
  destruct (C59_space2_scaled_gradient_f64 E HE d0 d1 K0 L0 F0 K1 L1 F1 P I S S b0 b1 e H0 HL0 H1 HL1 dP dI dS dS D (zo O) (HZ O) HD a Pa Fa Sa s0 s1 Hs0 Hs1) as (y & Ey & _ & G).
  rewrite Eh in Ey. injection Ey as <-. apply (x_near e o0 o1 p _ _ h res (proj1 Hp) X). exact G.
Qed.
Print Assumptions C63_scaled_gradient_mpi_f64.
