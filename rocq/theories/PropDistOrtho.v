(** C63: the distributed from_ortho after the distributed to_ortho, in f64 and f32:
    whatever the two schedules and lane orders, every rank gets its own pencil back, every
    coefficient finite and close to where it started.  Composition of C53 (distributed =
    serial, in any arithmetic) with the serial theorems of C60 and C68. *)
From Coq Require Import List Arith ZArith Reals Bool Lra Lia.
From Flocq Require Import Core BinarySingleNaN.
From Verif Require Import Base Num Linalg Stencils Cheb ChebFacts Compo CompoProofs Fourier FourierF64 FourierFacts FourierProofs Bases BaseLin LibBase NdArray NdArrayFacts AxisFacts AxisProps PropAxis SpaceFacts SpaceBases SpaceStages Space PropSpace PropSpace2 PropElements
  MpiSem Decomp MpiSpec SpaceMpi PropSpaceMpi
  ExtLib AnyArith ExtFacts AnyBase PropAny PropAny2 PropAny3 Rounding LibAcc LibIdeal RndCheb RndFft RndR2c RndFinite2 RndDirichlet RndNeumann PropRound PropRound2 PropRound4 PropTrans2 RndAxis RndOps RndAxis2 RndOps2 SpaceAcc RndSpace PropTrans3 SpaceAcc2 PropTrans4 SpaceVal RndVal RndVal2 PropTrans5
  PropExample2 GradSpec GradOp RndGrad3 RndGrad4 RndGrad5 RndGrad6 PropGrad OrthoSpec RndOrtho PropOrtho
  PropGrad2 PropDistF64 PropTrans6 SpaceVal32 RndVal32 PropTrans7 RndSpace32 PropTrans8 GradSpec32 RndGrad32 RndOrtho32 PropGrad3 PropOrtho2 RndScale32 PropGrad4 PropDistF32 RndOrtho3 PropOrtho3 RndOrtho4 PropOrtho4.
Import ListNotations.
Local Open Scope R_scope.

Theorem C63_ortho_there_and_back_mpi_f64 :
  forall E : ext f64, ext_ok E -> forall K0 L0 F0 K1 L1 F1 P I S (b0 : base_ops I S S) (b1 : base_ops P I S) (e : fel S),
  f64_from_ortho E K0 L0 I S S b0 e F0 -> f64_from_ortho E K1 L1 P I S b1 e F1 ->
  forall (dP : Dflt P) (dI : Dflt I) (dS : Dflt S),
  let sp := mk_space2 b0 b1 in let n0 := len_phys b0 in let m0 := len_spec b0 in let o0 := len_orth b0 in let n1 := len_phys b1 in let m1 := len_spec b1 in let o1 := len_orth b1 in
  forall bm p, distributable sp p -> forall zo zo', (forall r, zip_ok (zo r)) -> (forall r, zip_ok (zo' r)) ->
  forall (a : arr S) ins, proper [m0; m1] a -> (forall i j, (i < m0)%nat -> (j < m1)%nat -> ef e (get a [i; j])) ->
  let Sum := rsum m0 (fun i => rsum m1 (fun j => esize e (get a [i; j]))) in Sum <= bpow radix2 700 ->
  x_pencils_of [m0; m1] p a ins ->
  exists cs ys, every_schedule (world bm p sp (fun r sm => to_ortho_mpi bm (zo r) sm (ins r))) (map cs (seq 0 p)) /\
    every_schedule (world bm p sp (fun r sm => from_ortho_mpi bm (zo' r) sm (cs r))) (map ys (seq 0 p)) /\
    forall r, (r < p)%nat -> shp (ys r) = shp (ins r) /\
      forall i j, (i < m0)%nat -> (j < blk_len m1 p r)%nat -> ef e (get (ys r) [i; j]) /\
        edist e (get (ys r) [i; j]) (ev e (get (ins r) [i; j])) <=
          (K0 * K1) * (5 * (L0 + L1) + 13 * (INR o0 * INR o1)) * bpow radix2 (-53) * Sum + (111 * (K0 * K1) * (INR o0 * INR o1) + 3 * (L0 * L1)) * (INR n0 * INR n1) * bpow radix2 (-1075).
Proof.
  intros E HE K0 L0 F0 K1 L1 F1 P I S b0 b1 e H0 H1 dP dI dS sp n0 m0 o0 n1 m1 o1 bm p Hp zo zo' HZ HZ' a ins Pa Fa Sum Sa Hi.
  pose proof (RndOrtho.from_usable _ _ _ _ _ _ _ _ _ H0) as U0. pose proof (RndOrtho.from_usable _ _ _ _ _ _ _ _ _ H1) as U1.
  destruct (C60_space2_ortho_there_and_back_f64 E HE K0 L0 F0 K1 L1 F1 P I S S b0 b1 e H0 H1 dP dI dS dS (zo O) (HZ O) a Pa Fa Sa) as (c & y & Ec & Ey & Py & G).
  destruct (C53_distributed_to_ortho f64 _ _ E HE eq_refl P I S dP dI dS b0 b1 U0 U1 bm p Hp (zo O) zo (HZ O) HZ a ins
    (fun r => azeros dflt [len_orth b0; blk_len (len_orth b1) p r]) Pa Hi (fun r _ => proper_zeros _ _)) as (h & cs & Eh & X & W1 & _).
  rewrite Eh in Ec. injection Ec as <-.
  assert (Ph : proper [o0; o1] h).
  { destruct (undo_ex _ _ _ _ _ _ _ _ _ H0) as (T0 & HT0 & _). destruct (undo_ex _ _ _ _ _ _ _ _ _ H1) as (T1 & HT1 & _).
    destruct (C60_space2_to_ortho_f64 E HE T0 T1 P I S S b0 b1 e HT0 HT1 dP dI dS dS (zo O) (HZ O) a Pa Fa) as (y' & Ey' & Py' & _).
    { eapply Rle_trans; [exact Sa|]. apply bpow_le; lia. }
    rewrite Eh in Ey'. injection Ey' as <-. exact Py'. }
  destruct (C53_distributed_from_ortho f64 _ _ E HE eq_refl P I S dP dI dS b0 b1 U0 U1 bm p Hp (zo O) zo' (HZ O) HZ' h cs
    (fun r => azeros dflt [len_spec b0; blk_len (len_spec b1) p r]) Ph X (fun r _ => proper_zeros _ _)) as (v & ys & Ev & Y & W2 & _).
  rewrite Ev in Ey. injection Ey as <-.
  exists cs, ys. split; [exact W1|]. split; [exact W2|]. intros r Hr.
  destruct (x_near e m0 m1 p (fun i j => ev e (get a [i; j])) _ v ys (proj1 Hp) Y G r Hr) as [Sh N]. destruct (Hi r Hr) as ((Si & _ & Gi) & _). cbn in Si, Gi.
  split. rewrite Sh, Si. reflexivity. intros i j Hi' Hj. rewrite (Gi i j Hi' Hj). apply N; auto.
Qed.
Print Assumptions C63_ortho_there_and_back_mpi_f64.

Theorem C63_ortho_there_and_back_mpi_f32 :
  forall E : ext f32, ext_ok E -> forall K0 L0 F0 K1 L1 F1 P I S (b0 : base_ops I S S) (b1 : base_ops P I S) (e : fel S),
  f32_from_ortho E K0 L0 I S S b0 e F0 -> f32_from_ortho E K1 L1 P I S b1 e F1 ->
  forall (dP : Dflt P) (dI : Dflt I) (dS : Dflt S),
  let sp := mk_space2 b0 b1 in let n0 := len_phys b0 in let m0 := len_spec b0 in let o0 := len_orth b0 in let n1 := len_phys b1 in let m1 := len_spec b1 in let o1 := len_orth b1 in
  forall bm p, distributable sp p -> forall zo zo', (forall r, zip_ok (zo r)) -> (forall r, zip_ok (zo' r)) ->
  forall (a : arr S) ins, proper [m0; m1] a -> (forall i j, (i < m0)%nat -> (j < m1)%nat -> ef e (get a [i; j])) ->
  let Sum := rsum m0 (fun i => rsum m1 (fun j => esize e (get a [i; j]))) in Sum <= bpow radix2 45 ->
  x_pencils_of [m0; m1] p a ins ->
  exists cs ys, every_schedule (world bm p sp (fun r sm => to_ortho_mpi bm (zo r) sm (ins r))) (map cs (seq 0 p)) /\
    every_schedule (world bm p sp (fun r sm => from_ortho_mpi bm (zo' r) sm (cs r))) (map ys (seq 0 p)) /\
    forall r, (r < p)%nat -> shp (ys r) = shp (ins r) /\
      forall i j, (i < m0)%nat -> (j < blk_len m1 p r)%nat -> ef e (get (ys r) [i; j]) /\
        edist e (get (ys r) [i; j]) (ev e (get (ins r) [i; j])) <=
          (K0 * K1) * (5 * (L0 + L1) + 13 * (INR o0 * INR o1)) * bpow radix2 (-24) * Sum + (111 * (K0 * K1) * (INR o0 * INR o1) + 3 * (L0 * L1)) * (INR n0 * INR n1) * bpow radix2 (-150).
Proof.
  intros E HE K0 L0 F0 K1 L1 F1 P I S b0 b1 e H0 H1 dP dI dS sp n0 m0 o0 n1 m1 o1 bm p Hp zo zo' HZ HZ' a ins Pa Fa Sum Sa Hi.
  pose proof (RndOrtho32.from_usable _ _ _ _ _ _ _ _ _ H0) as U0. pose proof (RndOrtho32.from_usable _ _ _ _ _ _ _ _ _ H1) as U1.
  destruct (C68_space2_ortho_there_and_back_f32 E HE K0 L0 F0 K1 L1 F1 P I S S b0 b1 e H0 H1 dP dI dS dS (zo O) (HZ O) a Pa Fa Sa) as (c & y & Ec & Ey & Py & G).
  destruct (C53_distributed_to_ortho f32 _ _ E HE eq_refl P I S dP dI dS b0 b1 U0 U1 bm p Hp (zo O) zo (HZ O) HZ a ins
    (fun r => azeros dflt [len_orth b0; blk_len (len_orth b1) p r]) Pa Hi (fun r _ => proper_zeros _ _)) as (h & cs & Eh & X & W1 & _).
  rewrite Eh in Ec. injection Ec as <-.
  assert (Ph : proper [o0; o1] h).
  { destruct (undo32_ex _ _ _ _ _ _ _ _ _ H0) as (T0 & HT0 & _). destruct (undo32_ex _ _ _ _ _ _ _ _ _ H1) as (T1 & HT1 & _).
    destruct (C68_space2_to_ortho_f32 E HE T0 T1 P I S S b0 b1 e HT0 HT1 dP dI dS dS (zo O) (HZ O) a Pa Fa) as (y' & Ey' & Py' & _).
    { eapply Rle_trans; [exact Sa|]. apply bpow_le; lia. }
    rewrite Eh in Ey'. injection Ey' as <-. exact Py'. }
  destruct (C53_distributed_from_ortho f32 _ _ E HE eq_refl P I S dP dI dS b0 b1 U0 U1 bm p Hp (zo O) zo' (HZ O) HZ' h cs
    (fun r => azeros dflt [len_spec b0; blk_len (len_spec b1) p r]) Ph X (fun r _ => proper_zeros _ _)) as (v & ys & Ev & Y & W2 & _).
  rewrite Ev in Ey. injection Ey as <-.
  exists cs, ys. split; [exact W1|]. split; [exact W2|]. intros r Hr.
  destruct (x_near e m0 m1 p (fun i j => ev e (get a [i; j])) _ v ys (proj1 Hp) Y G r Hr) as [Sh N]. destruct (Hi r Hr) as ((Si & _ & Gi) & _). cbn in Si, Gi.
  split. rewrite Sh, Si. reflexivity. intros i j Hi' Hj. rewrite (Gi i j Hi' Hj). apply N; auto.
Qed.
Print Assumptions C63_ortho_there_and_back_mpi_f32.

(** The premises are met: the space of examples/space_mpi.rs (cheb_dirichlet(16) x cheb_dirichlet(10)) on 1 to 8
    ranks: coefficients in [-1, 1] come back within 2^-16. *)
Example C63_example_there_and_back :
  forall (E : ext f64), ext_ok E -> exists b0 b1, new_composite KDirichlet 16 = Ok b0 /\ new_composite KDirichlet 10 = Ok b1 /\
  let sp := mk_space2 (r2r_ops_x (T := f64) E b0) (r2r_ops_x (T := f64) E b1) in
  forall bm p, (1 <= p <= 8)%nat -> forall zo zo' : nat -> zip_order, (forall r, zip_ok (zo r)) -> (forall r, zip_ok (zo' r)) ->
  forall (a : arr f64) ins, proper [14; 8]%nat a -> (forall i j, (i < 14)%nat -> (j < 8)%nat -> is_finite (get a [i; j]) = true /\ Rabs (B2R (get a [i; j])) <= 1) ->
  x_pencils_of [14; 8]%nat p a ins ->
  exists cs ys, every_schedule (world bm p sp (fun r sm => to_ortho_mpi bm (zo r) sm (ins r))) (map cs (seq 0 p)) /\
    every_schedule (world bm p sp (fun r sm => from_ortho_mpi bm (zo' r) sm (cs r))) (map ys (seq 0 p)) /\
    forall r, (r < p)%nat -> forall i j, (i < 14)%nat -> (j < blk_len 8 p r)%nat ->
      is_finite (get (ys r) [i; j]) = true /\ Rabs (B2R (get (ys r) [i; j]) - B2R (get (ins r) [i; j])) <= bpow radix2 (-16).
Proof.
  intros E HE. destruct (C60_bases_exist E 16 ltac:(lia) ltac:(lia)) as (_ & HC0 & _). destruct (HC0 f64 _ f64_real fs_real) as (b0 & N0 & _ & F0 & _ & H0).
  destruct (C60_bases_exist E 10 ltac:(lia) ltac:(lia)) as (_ & HC1 & _). destruct (HC1 f64 _ f64_real fs_real) as (b1 & N1 & _ & F1 & _ & H1). clear HC0 HC1.
  exists b0, b1. split; [assumption|]. split; [assumption|]. intros sp bm p Hp zo zo' HZ HZ' a ins Pa Fa Hi.
  assert (LL : forall n b, new_composite KDirichlet n = Ok b -> len_phys (r2r_ops_x (T := f64) E b) = n /\ len_spec (r2r_ops_x (T := f64) E b) = (n - 2)%nat /\ len_orth (r2r_ops_x (T := f64) E b) = n).
  { intros n b Hb. unfold new_composite in Hb. destruct (compo_new KDirichlet n) as [cc| |] eqn:Ec; cbn [bind] in Hb; try discriminate. injection Hb as <-. destruct (dir_inv n cc Ec) as [_ ->]. repeat split; reflexivity. }
  destruct (LL _ _ N0) as (P0 & Q0 & O0). destruct (LL _ _ N1) as (P1 & Q1 & O1). clear LL. cbn [Nat.sub] in Q0, Q1.
  set (S := rsum 14 (fun i => rsum 8 (fun j => esize f64_real (get a [i; j])))).
  assert (S1 : 0 <= S <= 112). { split. apply rsum_pos; intros; apply rsum_pos; intros; apply esize_pos.
    eapply Rle_trans. apply (rsum_le 14 _ (fun _ => 8)). intros i Hii. eapply Rle_trans. apply (rsum_le 8 _ (fun _ => 1)). intros j Hj. unfold esize. cbn [ev f64_real fst snd]. unfold f64_val. rewrite Rabs_R0. destruct (Fa i j Hii Hj). lra.
    rewrite rsum_const. cbn; lra. rewrite rsum_const. cbn; lra. }
  destruct (C63_ortho_there_and_back_mpi_f64 E HE _ _ _ _ _ _ _ _ _ _ _ f64_real H0 H1 dflt_num dflt_num dflt_num bm p
    ltac:(eapply small_distributable; cbn [s2_base0 s2_base1]; eauto; cbn; lia) zo zo' HZ HZ' a ins) as (cs & ys & W1 & W2 & X).
  - rewrite Q0, Q1. exact Pa.
  - rewrite Q0, Q1. intros i j Hii Hj. apply Fa; auto.
  - rewrite Q0, Q1. change (S <= bpow radix2 700). apply Rle_trans with (bpow radix2 8). change (bpow radix2 8) with 256. lra. apply bpow_le; lia.
  - rewrite Q0, Q1. exact Hi.
  - exists cs, ys. split; [exact W1|]. split; [exact W2|]. intros r Hr i j Hii Hj. destruct (X r Hr) as [_ XX]. rewrite P0, P1, Q0, Q1, O0, O1 in XX. destruct (XX i j Hii Hj) as [Fi B]. split; [exact Fi|]. clear X XX W1 W2.
    assert (D : Rabs (B2R (get (ys r) [i; j]) - B2R (get (ins r) [i; j])) = edist f64_real (get (ys r) [i; j]) (ev f64_real (get (ins r) [i; j]))).
    { unfold edist. cbn [ev f64_real fst snd]. unfold f64_val. replace (Rabs (0 - 0)) with 0 by (rewrite Rminus_diag_eq, Rabs_R0; auto). lra. }
    rewrite D. eapply Rle_trans; [exact B|]. change (rsum 14 (fun i => rsum 8 (fun j => esize f64_real (get a [i; j])))) with S.
    assert (E1 : bpow radix2 (-1075) <= bpow radix2 (-80)) by (apply bpow_le; lia). pose proof (bpow_gt_0 radix2 (-1075)) as E0. revert S1. generalize S. revert E1 E0. generalize (bpow radix2 (-1075)). clear. intros et E1 E0 S S1.
    change (bpow radix2 (-80)) with (/ IZR (2 ^ 80)) in E1. change (bpow radix2 (-53)) with (/ IZR (2 ^ 53)). change (bpow radix2 (-16)) with (/ IZR (2 ^ 16)).
    replace (INR 16) with 16 by (cbn; lra). replace (INR 10) with 10 by (cbn; lra). cbv [Z.pow Z.pow_pos Pos.iter Z.mul Pos.mul] in *. lra.
Qed.
