(** C63: the distributed transforms of Space2Mpi in f64.  The global field is split in
    pencils; whatever the schedule and the lane orders, every rank ends with its own
    pencil, and every element of it is finite and within the error of C58-C60 of the
    exact value at its GLOBAL position.  Composition of C53 (distributed = serial, in any
    arithmetic) with C56 and C58-C60 (serial accuracy). *)
From Coq Require Import List Arith ZArith Reals Bool Lra Lia.
From Flocq Require Import Core BinarySingleNaN.
From Verif Require Import Base Num Linalg Stencils Cheb ChebFacts Compo CompoProofs Fourier FourierF64 FourierFacts FourierProofs Bases BaseLin LibBase NdArray NdArrayFacts AxisFacts AxisProps PropAxis SpaceFacts SpaceBases SpaceStages Space PropSpace PropSpace2 PropElements
  MpiSem Decomp MpiSpec SpaceMpi PropSpaceMpi
  ExtLib AnyArith ExtFacts AnyBase PropAny PropAny2 PropAny3 Rounding LibAcc LibIdeal RndCheb RndFft RndR2c RndFinite2 RndDirichlet RndNeumann PropRound PropRound2 PropRound4 PropTrans2 RndAxis RndOps RndAxis2 RndOps2 SpaceAcc RndSpace PropTrans3 SpaceAcc2 PropTrans4 SpaceVal RndVal RndVal2 PropTrans5
  PropExample2 GradSpec GradOp RndGrad3 RndGrad4 RndGrad5 RndGrad6 PropGrad OrthoSpec RndOrtho PropOrtho.
Import ListNotations.
Local Open Scope R_scope.

(** Rank r of p holds [res r]: all of axis 0 and its share of axis 1 (x-pencils; for y-pencils the axes are
    exchanged).  Element by element it is finite and within [tol] of [exact] at the global position. *)
Definition x_pencils_near {T} {dT : Dflt T} (e : fel T) (m0 m1 p : nat) (exact : nat -> nat -> CR) (tol : R) (res : nat -> arr T) : Prop :=
  forall r, (r < p)%nat -> shp (res r) = [m0; blk_len m1 p r] /\
    forall i j, (i < m0)%nat -> (j < blk_len m1 p r)%nat ->
      ef e (get (res r) [i; j]) /\ edist e (get (res r) [i; j]) (exact i (blk_lo m1 p r + j)%nat) <= tol.
Definition y_pencils_near {T} {dT : Dflt T} (e : fel T) (n0 n1 p : nat) (exact : nat -> nat -> CR) (tol : R) (res : nat -> arr T) : Prop :=
  forall r, (r < p)%nat -> shp (res r) = [blk_len n0 p r; n1] /\
    forall i j, (i < blk_len n0 p r)%nat -> (j < n1)%nat ->
      ef e (get (res r) [i; j]) /\ edist e (get (res r) [i; j]) (exact (blk_lo n0 p r + i)%nat j) <= tol.

Lemma x_near {T} {dT : Dflt T} (e : fel T) m0 m1 p exact tol (h : arr T) res : (1 <= p)%nat -> x_pencils_of [m0; m1] p h res ->
  (forall i j, (i < m0)%nat -> (j < m1)%nat -> ef e (get h [i; j]) /\ edist e (get h [i; j]) (exact i j) <= tol) ->
  x_pencils_near e m0 m1 p exact tol res.
Proof.
  intros Hp X H r Hr. destruct (X r Hr) as ((Sh & _ & G) & _). cbn in Sh, G. split; [exact Sh|]. intros i j Hi Hj. rewrite (G i j Hi Hj).
  apply H; auto. pose proof (blk_end_le m1 p Hp r Hr). lia.
Qed.
Lemma y_near {T} {dT : Dflt T} (e : fel T) n0 n1 p exact tol (h : arr T) res : (1 <= p)%nat -> y_pencils_of [n0; n1] p h res ->
  (forall i j, (i < n0)%nat -> (j < n1)%nat -> ef e (get h [i; j]) /\ edist e (get h [i; j]) (exact i j) <= tol) ->
  y_pencils_near e n0 n1 p exact tol res.
Proof.
  intros Hp X H r Hr. destruct (X r Hr) as ((Sh & _ & G) & _). cbn in Sh, G. split; [exact Sh|]. intros i j Hi Hj. rewrite (G i j Hi Hj).
  apply H; auto. pose proof (blk_end_le n0 p Hp r Hr). lia.
Qed.

Theorem C63_forward_mpi_f64 :
  forall E : ext f64, ext_ok E -> forall dl zt, 0 <= dl -> 0 <= zt <= 1 ->
  forall K0 K1 L0 L1 F0 F1 P I S (b0 : base_ops I S S) (b1 : base_ops P I S) (eP : fel P) (eI : fel I) (eS : fel S),
  f64_coefs E dl zt K0 L0 I S S b0 eI eS F0 -> L0 * (dl + bpow radix2 (-53)) <= / 100 -> f64_coefs E dl zt K1 L1 P I S b1 eP eI F1 -> L1 * (dl + bpow radix2 (-53)) <= / 100 ->
  forall (dP : Dflt P) (dI : Dflt I) (dS : Dflt S),
  let sp := mk_space2 b0 b1 in let n0 := len_phys b0 in let m0 := len_spec b0 in let n1 := len_phys b1 in let m1 := len_spec b1 in
  forall bm p, distributable sp p -> forall zo, (forall r, zip_ok (zo r)) ->
  forall (a : arr P) ins outs, proper [n0; n1] a -> (forall i j, (i < n0)%nat -> (j < n1)%nat -> ef eP (get a [i; j])) ->
  let Sum := rsum n0 (fun i => rsum n1 (fun j => esize eP (get a [i; j]))) in Sum <= bpow radix2 800 ->
  y_pencils_of [n0; n1] p a ins -> (forall r, (r < p)%nat -> proper [m0; blk_len m1 p r] (outs r)) ->
  exists res, every_schedule (world bm p sp (fun r sm => forward_mpi bm (zo r) sm (ins r))) (map res (seq 0 p)) /\
    every_schedule (world bm p sp (fun r sm => forward_inplace_mpi bm (zo r) sm (ins r) (outs r))) (map res (seq 0 p)) /\
    x_pencils_near eS m0 m1 p (fun i j => F0 (fun x => F1 (fun y => ev eP (get a [x; y])) j) i)
      (21 / 20 * (L0 + L1) * (K0 * K1) * (dl + bpow radix2 (-53)) * Sum + 3 * (L0 * L1) * (INR n0 * INR n1) * (bpow radix2 (-1075) + zt)) res.
Proof.
  intros E HE dl zt Hd Hz K0 K1 L0 L1 F0 F1 P I S b0 b1 eP eI eS H0 HL0 H1 HL1 dP dI dS sp n0 m0 n1 m1 bm p Hp zo HZ a ins outs Pa Fa Sum Sa Hi Ho.
  destruct (C53_distributed_forward f64 _ _ E HE eq_refl P I S dP dI dS b0 b1 (coefs_usable E dl zt _ _ _ _ _ _ _ _ _ H0) (coefs_usable E dl zt _ _ _ _ _ _ _ _ _ H1) bm p Hp (zo O) zo (HZ O) HZ a ins outs Pa Hi Ho) as (h & res & Eh & X & W1 & W2).
  exists res. split; [exact W1|]. split; [exact W2|].
  destruct (C58_space2_forward_coefs_f64 E HE dl zt Hd Hz K0 K1 L0 L1 F0 F1 P I S S b0 b1 eP eI eS H0 HL0 H1 HL1 dP dI dS dS (zo O) (HZ O) a Pa Fa Sa) as (y & Ey & _ & G).
  rewrite Eh in Ey. injection Ey as <-. apply (x_near eS m0 m1 p _ _ h res (proj1 Hp) X). exact G.
Qed.
Print Assumptions C63_forward_mpi_f64.

Theorem C63_backward_mpi_f64 :
  forall E : ext f64, ext_ok E -> forall dl zt, 0 <= dl <= / 2000 -> 0 <= zt <= 1 ->
  forall K0 K1 F0 F1 P I S (b0 : base_ops I S S) (b1 : base_ops P I S) (eP : fel P) (eI : fel I) (eS : fel S),
  f64_values E dl zt K0 I S S b0 eI eS F0 -> f64_values E dl zt K1 P I S b1 eP eI F1 ->
  forall (dP : Dflt P) (dI : Dflt I) (dS : Dflt S),
  let sp := mk_space2 b0 b1 in let n0 := len_phys b0 in let m0 := len_spec b0 in let n1 := len_phys b1 in let m1 := len_spec b1 in
  forall bm p, distributable sp p -> forall zo, (forall r, zip_ok (zo r)) ->
  forall (a : arr S) ins outs, proper [m0; m1] a -> (forall i j, (i < m0)%nat -> (j < m1)%nat -> ef eS (get a [i; j])) ->
  let Sum := rsum m0 (fun i => rsum m1 (fun j => esize eS (get a [i; j]))) in Sum <= bpow radix2 800 ->
  x_pencils_of [m0; m1] p a ins -> (forall r, (r < p)%nat -> proper [blk_len n0 p r; n1] (outs r)) ->
  exists res, every_schedule (world bm p sp (fun r sm => backward_mpi bm (zo r) sm (ins r))) (map res (seq 0 p)) /\
    every_schedule (world bm p sp (fun r sm => backward_inplace_mpi bm (zo r) sm (ins r) (outs r))) (map res (seq 0 p)) /\
    y_pencils_near eP n0 n1 p (fun i j => F1 (fun y => F0 (fun x => ev eS (get a [x; y])) i) j)
      (21 / 2 * (K0 * K1) * (dl + bpow radix2 (-53)) * Sum + 75 * (INR n0 * INR n1) * (bpow radix2 (-1075) + zt)) res.
Proof.
  intros E HE dl zt Hd Hz K0 K1 F0 F1 P I S b0 b1 eP eI eS H0 H1 dP dI dS sp n0 m0 n1 m1 bm p Hp zo HZ a ins outs Pa Fa Sum Sa Hi Ho.
  destruct (C53_distributed_backward f64 _ _ E HE eq_refl P I S dP dI dS b0 b1 (values_usable E dl zt _ _ _ _ _ _ _ _ H0) (values_usable E dl zt _ _ _ _ _ _ _ _ H1) bm p Hp (zo O) zo (HZ O) HZ a ins outs Pa Hi Ho) as (h & res & Eh & X & W1 & W2).
  exists res. split; [exact W1|]. split; [exact W2|].
  destruct (C58_space2_backward_values_f64 E HE dl zt Hd Hz K0 K1 F0 F1 P I S S b0 b1 eP eI eS H0 H1 dP dI dS dS (zo O) (HZ O) a Pa Fa Sa) as (y & Ey & _ & G).
  rewrite Eh in Ey. injection Ey as <-. apply (y_near eP n0 n1 p _ _ h res (proj1 Hp) X). exact G.
Qed.
Print Assumptions C63_backward_mpi_f64.

Theorem C63_to_ortho_mpi_f64 :
  forall E : ext f64, ext_ok E -> forall F0 F1 P I S (b0 : base_ops I S S) (b1 : base_ops P I S) (e : fel S),
  f64_to_ortho E I S S b0 e F0 -> f64_to_ortho E P I S b1 e F1 ->
  forall (dP : Dflt P) (dI : Dflt I) (dS : Dflt S),
  let sp := mk_space2 b0 b1 in let n0 := len_phys b0 in let m0 := len_spec b0 in let o0 := len_orth b0 in let n1 := len_phys b1 in let m1 := len_spec b1 in let o1 := len_orth b1 in
  forall bm p, distributable sp p -> forall zo, (forall r, zip_ok (zo r)) ->
  forall (a : arr S) ins outs, proper [m0; m1] a -> (forall i j, (i < m0)%nat -> (j < m1)%nat -> ef e (get a [i; j])) ->
  let Sum := rsum m0 (fun i => rsum m1 (fun j => esize e (get a [i; j]))) in Sum <= bpow radix2 800 ->
  x_pencils_of [m0; m1] p a ins -> (forall r, (r < p)%nat -> proper [o0; blk_len o1 p r] (outs r)) ->
  exists res, every_schedule (world bm p sp (fun r sm => to_ortho_mpi bm (zo r) sm (ins r))) (map res (seq 0 p)) /\
    every_schedule (world bm p sp (fun r sm => to_ortho_inplace_mpi bm (zo r) sm (ins r) (outs r))) (map res (seq 0 p)) /\
    x_pencils_near e o0 o1 p (fun i j => F1 (fun y => F0 (fun x => ev e (get a [x; y])) i) j)
      (63 / 5 * bpow radix2 (-53) * Sum + 108 * (INR n0 * INR n1) * bpow radix2 (-1075)) res.
Proof.
  intros E HE F0 F1 P I S b0 b1 e H0 H1 dP dI dS sp n0 m0 o0 n1 m1 o1 bm p Hp zo HZ a ins outs Pa Fa Sum Sa Hi Ho.
  destruct (C53_distributed_to_ortho f64 _ _ E HE eq_refl P I S dP dI dS b0 b1 (to_usable _ _ _ _ _ _ _ H0) (to_usable _ _ _ _ _ _ _ H1) bm p Hp (zo O) zo (HZ O) HZ a ins outs Pa Hi Ho) as (h & res & Eh & X & W1 & W2).
  exists res. split; [exact W1|]. split; [exact W2|].
  destruct (C60_space2_to_ortho_f64 E HE F0 F1 P I S S b0 b1 e H0 H1 dP dI dS dS (zo O) (HZ O) a Pa Fa Sa) as (y & Ey & _ & G).
  rewrite Eh in Ey. injection Ey as <-. apply (x_near e o0 o1 p _ _ h res (proj1 Hp) X). exact G.
Qed.
Print Assumptions C63_to_ortho_mpi_f64.

Theorem C63_from_ortho_mpi_f64 :
  forall E : ext f64, ext_ok E -> forall K0 L0 F0 K1 L1 F1 P I S (b0 : base_ops I S S) (b1 : base_ops P I S) (e : fel S),
  f64_from_ortho E K0 L0 I S S b0 e F0 -> f64_from_ortho E K1 L1 P I S b1 e F1 ->
  forall (dP : Dflt P) (dI : Dflt I) (dS : Dflt S),
  let sp := mk_space2 b0 b1 in let n0 := len_phys b0 in let m0 := len_spec b0 in let o0 := len_orth b0 in let n1 := len_phys b1 in let m1 := len_spec b1 in let o1 := len_orth b1 in
  forall bm p, distributable sp p -> forall zo, (forall r, zip_ok (zo r)) ->
  forall (a : arr S) ins outs, proper [o0; o1] a -> (forall i j, (i < o0)%nat -> (j < o1)%nat -> ef e (get a [i; j])) ->
  let Sum := rsum o0 (fun i => rsum o1 (fun j => esize e (get a [i; j]))) in Sum <= bpow radix2 800 ->
  x_pencils_of [o0; o1] p a ins -> (forall r, (r < p)%nat -> proper [m0; blk_len m1 p r] (outs r)) ->
  exists res, every_schedule (world bm p sp (fun r sm => from_ortho_mpi bm (zo r) sm (ins r))) (map res (seq 0 p)) /\
    every_schedule (world bm p sp (fun r sm => from_ortho_inplace_mpi bm (zo r) sm (ins r) (outs r))) (map res (seq 0 p)) /\
    x_pencils_near e m0 m1 p (fun i j => F1 (fun y => F0 (fun x => ev e (get a [x; y])) i) j)
      (21 / 20 * (L0 + L1) * (K0 * K1) * bpow radix2 (-53) * Sum + 3 * (L0 * L1) * (INR n0 * INR n1) * bpow radix2 (-1075)) res.
Proof.
  intros E HE K0 L0 F0 K1 L1 F1 P I S b0 b1 e H0 H1 dP dI dS sp n0 m0 o0 n1 m1 o1 bm p Hp zo HZ a ins outs Pa Fa Sum Sa Hi Ho.
  destruct (C53_distributed_from_ortho f64 _ _ E HE eq_refl P I S dP dI dS b0 b1 (from_usable _ _ _ _ _ _ _ _ _ H0) (from_usable _ _ _ _ _ _ _ _ _ H1) bm p Hp (zo O) zo (HZ O) HZ a ins outs Pa Hi Ho) as (h & res & Eh & X & W1 & W2).
  exists res. split; [exact W1|]. split; [exact W2|].
  destruct (C60_space2_from_ortho_f64 E HE K0 L0 F0 K1 L1 F1 P I S S b0 b1 e H0 H1 dP dI dS dS (zo O) (HZ O) a Pa Fa Sa) as (y & Ey & _ & G).
  rewrite Eh in Ey. injection Ey as <-. apply (x_near e m0 m1 p _ _ h res (proj1 Hp) X). exact G.
Qed.
Print Assumptions C63_from_ortho_mpi_f64.

Theorem C63_gradient_mpi_f64 :
  forall E : ext f64, ext_ok E -> forall d0 d1 K0 L0 F0 K1 L1 F1 P I S (b0 : base_ops I S S) (b1 : base_ops P I S) (e : fel S),
  f64_gradient E d0 K0 L0 I S S b0 e F0 -> L0 * bpow radix2 (-53) <= / 100 -> f64_gradient E d1 K1 L1 P I S b1 e F1 -> L1 * bpow radix2 (-53) <= / 100 ->
  forall (dP : Dflt P) (dI : Dflt I) (dS : Dflt S) A' (N' : Num A') (D : DivInto A' S),
  let sp := mk_space2 b0 b1 in let n0 := len_phys b0 in let m0 := len_spec b0 in let o0 := len_orth b0 in let n1 := len_phys b1 in let m1 := len_spec b1 in let o1 := len_orth b1 in
  forall bm p, distributable sp p -> forall zo, (forall r, zip_ok (zo r)) ->
  forall (a : arr S) ins, proper [m0; m1] a -> (forall i j, (i < m0)%nat -> (j < m1)%nat -> ef e (get a [i; j])) ->
  let Sum := rsum m0 (fun i => rsum m1 (fun j => esize e (get a [i; j]))) in K0 * K1 * (1 + Sum) <= bpow radix2 900 ->
  x_pencils_of [m0; m1] p a ins ->
  exists res, every_schedule (world bm p sp (fun r sm => gradient_mpi bm (zo r) sm (ins r) d0 d1 (None (A := A' * A')))) (map res (seq 0 p)) /\
    x_pencils_near e o0 o1 p (fun i j => F1 (fun y => F0 (fun x => ev e (get a [x; y])) i) j)
      (21 / 20 * (L0 + L1) * (K0 * K1) * bpow radix2 (-53) * Sum + L0 * L1 * (K0 * K1) * (INR n0 * INR n1) * bpow radix2 (-1075)) res.
Proof.
  intros E HE d0 d1 K0 L0 F0 K1 L1 F1 P I S b0 b1 e H0 HL0 H1 HL1 dP dI dS A' N' D sp n0 m0 o0 n1 m1 o1 bm p Hp zo HZ a ins Pa Fa Sum Sa Hi.
  destruct (C53_distributed_gradient f64 _ _ E HE eq_refl P I S dP dI dS b0 b1 (gradient_usable _ _ _ _ _ _ _ _ _ _ H0) (gradient_usable _ _ _ _ _ _ _ _ _ _ H1) bm p Hp (zo O) zo (HZ O) HZ A' N' D d0 d1 None
    (gradient_total _ _ _ _ _ _ _ _ _ _ H0) (gradient_total _ _ _ _ _ _ _ _ _ _ H1) a ins Pa Hi) as (h & res & Eh & X & W1).
  exists res. split; [exact W1|].
  destruct (C59_space2_gradient_f64 E HE d0 d1 K0 L0 F0 K1 L1 F1 P I S S b0 b1 e H0 HL0 H1 HL1 dP dI dS dS A' N' D (zo O) (HZ O) a Pa Fa Sa) as (y & Ey & _ & G).
  rewrite Eh in Ey. injection Ey as <-. apply (x_near e o0 o1 p _ _ h res (proj1 Hp) X). exact G.
Qed.
Print Assumptions C63_gradient_mpi_f64.

(** Forward, then backward on what forward left: every rank has its pencil of values back. *)
Theorem C63_roundtrip_mpi_f64 :
  forall E : ext f64, ext_ok E -> forall dl zt, 0 <= dl <= / 2000 -> 0 <= zt <= 1 ->
  forall r0 r1 P I S (b0 : base_ops I S S) (b1 : base_ops P I S) (eP : fel P) (eI : fel I) (eS : fel S),
  f64_orthogonal E dl zt r0 I S S b0 eI eS -> f64_orthogonal E dl zt r1 P I S b1 eP eI ->
  forall (dP : Dflt P) (dI : Dflt I) (dS : Dflt S),
  let sp := mk_space2 b0 b1 in let n0 := len_phys b0 in let n1 := len_phys b1 in
  forall bm p, distributable sp p -> forall zo zo', (forall r, zip_ok (zo r)) -> (forall r, zip_ok (zo' r)) ->
  forall (a : arr P) ins, proper [n0; n1] a -> (forall i j, (i < n0)%nat -> (j < n1)%nat -> ef eP (get a [i; j])) ->
  let Sum := rsum n0 (fun i => rsum n1 (fun j => esize eP (get a [i; j]))) in Sum <= bpow radix2 800 ->
  y_pencils_of [n0; n1] p a ins ->
  exists cs ys, every_schedule (world bm p sp (fun r sm => forward_mpi bm (zo r) sm (ins r))) (map cs (seq 0 p)) /\
    every_schedule (world bm p sp (fun r sm => backward_mpi bm (zo' r) sm (cs r))) (map ys (seq 0 p)) /\
    forall r, (r < p)%nat -> shp (ys r) = shp (ins r) /\
      forall i j, (i < blk_len n0 p r)%nat -> (j < n1)%nat -> ef eP (get (ys r) [i; j]) /\
        edist eP (get (ys r) [i; j]) (ev eP (get (ins r) [i; j])) <= 178 * (dl + bpow radix2 (-53)) * Sum + 90 * (INR n0 * INR n1) ^ 2 * (bpow radix2 (-1075) + zt).
Proof.
  intros E HE dl zt Hd Hz r0 r1 P I S b0 b1 eP eI eS H0 H1 dP dI dS sp n0 n1 bm p Hp zo zo' HZ HZ' a ins Pa Fa Sum Sa Hi.
  pose proof (orth_usable E dl zt _ _ _ _ _ _ _ H0) as U0. pose proof (orth_usable E dl zt _ _ _ _ _ _ _ H1) as U1.
  destruct (C56_space2_backward_of_forward_f64 E HE dl zt Hd Hz r0 r1 P I S S b0 b1 eP eI eS H0 H1 dP dI dS dS (zo O) (HZ O) a Pa Fa Sa) as (c & y & Ec & Ey & Py & G).
  destruct (C53_distributed_forward f64 _ _ E HE eq_refl P I S dP dI dS b0 b1 U0 U1 bm p Hp (zo O) zo (HZ O) HZ a ins
    (fun r => azeros dflt [len_spec b0; blk_len (len_spec b1) p r]) Pa Hi (fun r _ => proper_zeros _ _)) as (h & cs & Eh & X & W1 & _).
  rewrite Eh in Ec. injection Ec as <-.
  assert (Ph : proper (s2_shape_spectral sp) h).
  { destruct (C53_space2_applies_each_base_along_its_axis f64 _ _ E HE eq_refl P I S S b0 b1 U0 U1 dP dI dS dS (zo O) (HZ O)) as (K & _).
    destruct (K a (azeros dflt (s2_shape_spectral (mk_space2 b0 b1))) Pa (proper_zeros _ _)) as (m & h' & _ & E' & Ph & _). rewrite Eh in E'. injection E' as <-. exact Ph. }
  destruct (C53_distributed_backward f64 _ _ E HE eq_refl P I S dP dI dS b0 b1 U0 U1 bm p Hp (zo O) zo' (HZ O) HZ' h cs
    (fun r => azeros dflt [blk_len (len_phys b0) p r; len_phys b1]) Ph X (fun r _ => proper_zeros _ _)) as (v & ys & Ev & Y & W2 & _).
  rewrite Ev in Ey. injection Ey as <-.
  exists cs, ys. split; [exact W1|]. split; [exact W2|]. intros r Hr.
  destruct (y_near eP n0 n1 p (fun i j => ev eP (get a [i; j])) _ v ys (proj1 Hp) Y G r Hr) as [Sh N]. destruct (Hi r Hr) as ((Si & _ & Gi) & _). cbn in Si, Gi.
  split. rewrite Sh, Si. reflexivity. intros i j Hi' Hj. rewrite (Gi i j Hi' Hj). apply N; auto.
Qed.
Print Assumptions C63_roundtrip_mpi_f64.

(** The hypotheses are met: the space of examples/space_mpi.rs (cheb_dirichlet(16) x cheb_dirichlet(10)) on 1 to 8
    ranks, with libraries that return the rounded exact sums: every coefficient of a field with values in [-1, 1] is
    right up to 2^-20. *)
Example C63_example :
  exists E : ext f64, ext_ok E /\ exists b0 b1 F0 F1, new_composite KDirichlet 16 = Ok b0 /\ new_composite KDirichlet 10 = Ok b1 /\ fits_values 16 dir_q F0 /\ fits_values 10 dir_q F1 /\
  forall bm p, (1 <= p <= 8)%nat -> forall zo : nat -> zip_order, (forall r, zip_ok (zo r)) ->
  forall (a : arr f64) ins, proper [16; 10]%nat a -> (forall i j, (i < 16)%nat -> (j < 10)%nat -> is_finite (get a [i; j]) = true /\ Rabs (B2R (get a [i; j])) <= 1) ->
  y_pencils_of [16; 10]%nat p a ins ->
  exists res, every_schedule (world bm p (mk_space2 (r2r_ops_x (T := f64) E b0) (r2r_ops_x (T := f64) E b1)) (fun r sm => forward_mpi bm (zo r) sm (ins r))) (map res (seq 0 p)) /\
    x_pencils_near f64_real 14 8 p (fun i j => F0 (fun x => F1 (fun y => ev f64_real (get a [x; y])) j) i) (bpow radix2 (-20)) res.
Proof.
  destruct C58_accurate_bases_exist as (E & HE & _ & HC & _). exists E. split; auto.
  destruct (HC 16%nat ltac:(lia) ltac:(cbn; lia) f64 _) as (b0 & _ & F0 & _ & N0 & _ & D0 & G0 & _).
  destruct (HC 10%nat ltac:(lia) ltac:(cbn; lia) f64 _) as (b1 & _ & F1 & _ & N1 & _ & D1 & G1 & _). clear HC.
  exists b0, b1, F0, F1. do 4 (split; [assumption|]). intros bm p Hp zo HZ a ins Pa Fa Hi.
  assert (I16 : INR 16 = 16) by (cbn; lra). assert (I10 : INR 10 = 10) by (cbn; lra). assert (I15 : INR (16 - 1) = 15) by (cbn; lra). assert (I9 : INR (10 - 1) = 9) by (cbn; lra).
  assert (W : bpow radix2 (-52) + bpow radix2 (-53) = 3 * / IZR (2 ^ 53)). { change (bpow radix2 (-53)) with (/ IZR (2 ^ 53)). change (bpow radix2 (-52)) with (/ IZR (2 ^ 52)). cbv [Z.pow Z.pow_pos Pos.iter Z.mul Pos.mul]. lra. }
  destruct (dirichlet_lengths (T := f64) E _ _ N0) as [P0 Q0]. destruct (dirichlet_lengths (T := f64) E _ _ N1) as [P1 Q1]. cbn [Nat.sub] in Q0, Q1.
  assert (SB : rsum 16 (fun i => rsum 10 (fun j => esize f64_real (get a [i; j]))) <= 160).
  { eapply Rle_trans. apply (rsum_le 16 _ (fun _ => 10)). intros i Hii. eapply Rle_trans. apply (rsum_le 10 _ (fun _ => 1)). intros j Hj. unfold esize. cbn [ev f64_real fst snd]. unfold f64_val. rewrite Rabs_R0. destruct (Fa i j Hii Hj). lra.
    rewrite rsum_const. rewrite I10. lra. rewrite rsum_const. rewrite I16. lra. }
  destruct (C63_forward_mpi_f64 E HE (bpow radix2 (-52)) (bpow radix2 (-1075)) ltac:(cbn; lra) ltac:(pose proof (bpow_gt_0 radix2 (-1075)); pose proof eta1; lra) _ _ _ _ _ _ _ _ _ _ _ f64_real f64_real f64_real G0
    ltac:(rewrite W, I16; cbv [Z.pow Z.pow_pos Pos.iter Z.mul Pos.mul]; lra) G1 ltac:(rewrite W, I10; cbv [Z.pow Z.pow_pos Pos.iter Z.mul Pos.mul]; lra) dflt_num dflt_num dflt_num bm p
    ltac:(eapply small_distributable; cbn [s2_base0 s2_base1]; eauto; cbn; lia) zo HZ a ins (fun r => azeros dflt [14; blk_len 8 p r]%nat)) as (res & W1 & _ & X).
  - rewrite P0, P1. exact Pa.
  - rewrite P0, P1. intros i j Hii Hj. apply Fa; auto.
  - rewrite P0, P1. apply Rle_trans with (bpow radix2 8). change (bpow radix2 8) with 256. lra. apply bpow_le; lia.
  - rewrite P0, P1. exact Hi.
  - intros r Hr. rewrite Q0, Q1. apply proper_zeros.
  - exists res. split; [exact W1|]. rewrite P0, P1, Q0, Q1 in X. intros r Hr. destruct (X r Hr) as [Sh XX]. split; [exact Sh|]. intros i j Hii Hj. destruct (XX i j Hii Hj) as [Fi B]. split; [exact Fi|].
    eapply Rle_trans; [exact B|]. rewrite W, I16, I10, I15, I9. assert (E1 : bpow radix2 (-1075) <= bpow radix2 (-80)) by (apply bpow_le; lia). pose proof (bpow_gt_0 radix2 (-1075)) as E0.
    assert (S0 : 0 <= rsum 16 (fun i => rsum 10 (fun j => esize f64_real (get a [i; j])))) by (apply rsum_pos; intros; apply rsum_pos; intros; apply esize_pos).
    revert S0 SB E1 E0. generalize (rsum 16 (fun i => rsum 10 (fun j => esize f64_real (get a [i; j])))), (bpow radix2 (-1075)). clear. intros s et S0 SB E1 E0.
    change (bpow radix2 (-80)) with (/ IZR (2 ^ 80)) in E1. change (bpow radix2 (-20)) with (/ IZR (2 ^ 20)). cbv [Z.pow Z.pow_pos Pos.iter Z.mul Pos.mul] in *. lra.
Qed.
