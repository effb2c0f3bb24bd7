(** C71 with C69: a field - or coefficients - of Space1, Space2 or Space3 that is
    transformed there and back many times, each call serial or parallel as the
    user pleases: on every schedule the result is the same, finite, and within the
    drift bound of C69. *)
From Coq Require Import List Arith ZArith Reals Bool Lra Lia.
From Flocq Require Import Core BinarySingleNaN.

From Verif Require Import Base Num Linalg Stencils Cheb ChebFacts Compo CompoProofs Fourier FourierF64 FourierFacts FourierProofs Bases BaseLin LibBase NdArray NdArrayFacts AxisFacts AxisProps PropAxis SpaceFacts SpaceBases SpaceStages Space PropSpace PropSpace2 PropElements
  SpaceMpi PropSpaceMpi
  ExtLib AnyArith ExtFacts AnyBase PropAny PropAny2 PropAny3 Rounding LibAcc LibIdeal RndCheb RndFft RndR2c RndFinite2 RndDirichlet RndNeumann PropRound PropRound2 PropRound4 PropTrans2 RndAxis RndOps RndAxis2 RndOps2 SpaceAcc RndSpace RndSpace2 PropTrans3 SpaceAcc2 PropTrans4 SpaceVal RndVal RndVal2 PropTrans5
  GradSpec GradOp RndGrad3 RndGrad4 RndGrad5 RndGrad6 PropGrad OrthoSpec RndOrtho PropOrtho
  PropTrans6 SpaceVal32 RndVal32 PropTrans7 RndSpace32 PropTrans8 RndSpace2_32 PropTrans9 GradSpec32 RndGrad32 RndOrtho32 Trips PropTrips PropTrips2 PropTrips3 PropTrips4
  ParProgram PropParProgram.
Import ListNotations.
Local Open Scope R_scope.


(** a list tells which calls of the trips are parallel: (of forward, of backward) *)
Section Trips.
Context {A P S : Type} {N : Num A} {D : DivInto A S} {dP : Dflt P} {dS : Dflt S}.
(** values to coefficients and back, in array 0 *)
Fixpoint values_trips (par : list (bool * bool)) : @pprogram A P S :=
  match par with
  | [] => PStop
  | (f, b) :: par => PDo (PForward f false 0 0 0) (fun _ => PDo (PBackward b false 0 0 0) (fun _ => values_trips par))
  end.
(** coefficients to values and back *)
Fixpoint coefs_trips (par : list (bool * bool)) : @pprogram A P S :=
  match par with
  | [] => PStop
  | (f, b) :: par => PDo (PBackward b false 0 0 0) (fun _ => PDo (PForward f false 0 0 0) (fun _ => coefs_trips par))
  end.
Lemma values_sane par : sane (values_trips par).
Proof. induction par as [|[f b] par IH]; [exact Logic.I|]. split; [exact Logic.I|intros _]. split; [exact Logic.I|intros _; exact IH]. Qed.
Lemma coefs_sane par : sane (coefs_trips par).
Proof. induction par as [|[f b] par IH]; [exact Logic.I|]. split; [exact Logic.I|intros _]. split; [exact Logic.I|intros _; exact IH]. Qed.
Lemma values_serial (x : zip_order -> @api A P S) z y : forall par c (m : pstore P S),
  repeat_trip (length par) (fun u => let* h := forward_ser (x z) u in backward_ser (x z) h) (physical m 0) = Ok y ->
  exists m', serial_program (fun _ => z) [x] c (values_trips par) m = Ok m' /\ physical m' 0 = y.
Proof.
  induction par as [|[f b] par IH]; intros c m H.
  - cbn in H. injection H as <-. exists m. split; reflexivity.
  - cbn [length repeat_trip] in H. cbn [values_trips serial_program serial_call get_space nth_error bind].
    destruct (forward_ser (x z) (physical m 0)) as [h| |] eqn:E1; cbn [bind] in *; try discriminate.
    cbn [spectral put_spectral Nat.eqb]. destruct (backward_ser (x z) h) as [u| |] eqn:E2; cbn [bind] in *; try discriminate.
    apply IH. exact H.
Qed.
Lemma coefs_serial (x : zip_order -> @api A P S) z y : forall par c (m : pstore P S),
  repeat_trip (length par) (fun u => let* h := backward_ser (x z) u in forward_ser (x z) h) (spectral m 0) = Ok y ->
  exists m', serial_program (fun _ => z) [x] c (coefs_trips par) m = Ok m' /\ spectral m' 0 = y.
Proof.
  induction par as [|[f b] par IH]; intros c m H.
  - cbn in H. injection H as <-. exists m. split; reflexivity.
  - cbn [length repeat_trip] in H. cbn [coefs_trips serial_program serial_call get_space nth_error bind].
    destruct (backward_ser (x z) (spectral m 0)) as [h| |] eqn:E1; cbn [bind] in *; try discriminate.
    cbn [physical put_physical Nat.eqb]. destruct (forward_ser (x z) h) as [u| |] eqn:E2; cbn [bind] in *; try discriminate.
    apply IH. exact H.
Qed.
End Trips.

Theorem C71_space1_values_f64 :
  forall E : ext f64, ext_ok E -> forall dl zt, 0 <= dl <= / 2000 -> 0 <= zt <= 1 ->
  forall r0 P S (b0 : base_ops P S S) (eP : fel P) (eS : fel S),
  f64_orthogonal E dl zt r0 P S S b0 eP eS ->
  forall A (N : Num A) (D : DivInto A S) (dP : Dflt P) (dS : Dflt S) im0, base_implements im0 b0 -> forall zo, (forall c, zip_ok (zo c)) ->
  let n0 := len_phys b0 in
  forall m : pstore P S, all_wf m -> let a := physical m 0 in proper [n0] a -> (forall i, (i < n0)%nat -> ef eP (get a [i])) ->
  let Sum := rsum n0 (fun i => esize eP (get a [i])) in
  Sum <= bpow radix2 700 ->
  forall par, let q := length par in 2 * INR q * INR n0 * (33 * (dl + bpow radix2 (-53))) <= 1 ->
  exists m', (forall r, outcomes (A := A) zo [api1 b0 im0] 0 (values_trips par) m r <-> r = Ok m') /\ let y := physical m' 0 in proper [n0] y /\
    forall i, (i < n0)%nat -> ef eP (get y [i]) /\
      edist eP (get y [i]) (ev eP (get a [i])) <= 2 * INR q * (33 * (dl + bpow radix2 (-53)) * Sum + 29 * INR n0 ^ 2 * (bpow radix2 (-1075) + zt)).
Proof.
  intros E HE dl zt Hd Hz r0 P S b0 eP eS H0 A N D dP dS im0 I0 zo HZ n0 m Wm a Pa Fa Sum Sa par q HQ.
  destruct (C69_space1_values_f64 E HE dl zt Hd Hz r0 P S S b0 eP eS H0 dP dS dS (zo O) (HZ O) a Pa Fa Sa q HQ) as (y & Er & Py & G).
  destruct (values_serial (api1 b0 im0) (zo O) y par 0 m Er) as (m' & Es & Ey).
  exists m'. split; [|rewrite Ey; split; [exact Py|exact G]].
  intros r. rewrite <- Es. refine (C71_programs_of_serial_and_parallel_calls_have_one_outcome _ _ _ E HE eq_refl A P S N D dP dS [api1 b0 im0] _ zo (fun _ => zo O) HZ (fun _ => HZ O) (values_trips par) m Wm (values_sane par) r).
  intros sp [<-|[]]. apply lib1; auto; apply any_usable_base; eapply RndSpace.orth_usable; eauto.
Qed.
Print Assumptions C71_space1_values_f64.

Theorem C71_space2_values_f64 :
  forall E : ext f64, ext_ok E -> forall dl zt, 0 <= dl <= / 2000 -> 0 <= zt <= 1 ->
  forall r0 r1 P I S (b0 : base_ops I S S) (b1 : base_ops P I S) (eP : fel P) (eI : fel I) (eS : fel S),
  f64_orthogonal E dl zt r0 I S S b0 eI eS -> f64_orthogonal E dl zt r1 P I S b1 eP eI ->
  forall A (N : Num A) (D : DivInto A S) (dP : Dflt P) (dI : Dflt I) (dS : Dflt S) im0 im1, base_implements im0 b0 -> base_implements im1 b1 -> forall zo, (forall c, zip_ok (zo c)) ->
  let n0 := len_phys b0 in let n1 := len_phys b1 in
  forall m : pstore P S, all_wf m -> let a := physical m 0 in proper [n0; n1] a -> (forall i j, (i < n0)%nat -> (j < n1)%nat -> ef eP (get a [i; j])) ->
  let Sum := rsum n0 (fun i => rsum n1 (fun j => esize eP (get a [i; j]))) in
  Sum <= bpow radix2 700 ->
  forall par, let q := length par in 2 * INR q * (INR n0 * INR n1) * (178 * (dl + bpow radix2 (-53))) <= 1 ->
  exists m', (forall r, outcomes (A := A) zo [api2 b0 b1 im0 im1] 0 (values_trips par) m r <-> r = Ok m') /\ let y := physical m' 0 in proper [n0; n1] y /\
    forall i j, (i < n0)%nat -> (j < n1)%nat -> ef eP (get y [i; j]) /\
      edist eP (get y [i; j]) (ev eP (get a [i; j])) <= 2 * INR q * (178 * (dl + bpow radix2 (-53)) * Sum + 90 * (INR n0 * INR n1) ^ 2 * (bpow radix2 (-1075) + zt)).
Proof.
  intros E HE dl zt Hd Hz r0 r1 P I S b0 b1 eP eI eS H0 H1 A N D dP dI dS im0 im1 I0 I1 zo HZ n0 n1 m Wm a Pa Fa Sum Sa par q HQ.
  destruct (C69_space2_values_f64 E HE dl zt Hd Hz r0 r1 P I S S b0 b1 eP eI eS H0 H1 dP dI dS dS (zo O) (HZ O) a Pa Fa Sa q HQ) as (y & Er & Py & G).
  destruct (values_serial (api2 b0 b1 im0 im1) (zo O) y par 0 m Er) as (m' & Es & Ey).
  exists m'. split; [|rewrite Ey; split; [exact Py|exact G]].
  intros r. rewrite <- Es. refine (C71_programs_of_serial_and_parallel_calls_have_one_outcome _ _ _ E HE eq_refl A P S N D dP dS [api2 b0 b1 im0 im1] _ zo (fun _ => zo O) HZ (fun _ => HZ O) (values_trips par) m Wm (values_sane par) r).
  intros sp [<-|[]]. apply lib2; auto; apply any_usable_base; eapply RndSpace.orth_usable; eauto.
Qed.
Print Assumptions C71_space2_values_f64.

Theorem C71_space3_values_f64 :
  forall E : ext f64, ext_ok E -> forall dl zt, 0 <= dl <= / 2000 -> 0 <= zt <= 1 ->
  forall r0 r1 r2 P I J S (b0 : base_ops J S S) (b1 : base_ops I J S) (b2 : base_ops P I S) (eP : fel P) (eI : fel I) (eJ : fel J) (eS : fel S),
  f64_orthogonal E dl zt r0 J S S b0 eJ eS -> f64_orthogonal E dl zt r1 I J S b1 eI eJ -> f64_orthogonal E dl zt r2 P I S b2 eP eI ->
  forall A (N : Num A) (D : DivInto A S) (dP : Dflt P) (dI : Dflt I) (dJ : Dflt J) (dS : Dflt S) im0 im1 im2, base_implements im0 b0 -> base_implements im1 b1 -> base_implements im2 b2 -> forall zo, (forall c, zip_ok (zo c)) ->
  let n0 := len_phys b0 in let n1 := len_phys b1 in let n2 := len_phys b2 in
  forall m : pstore P S, all_wf m -> let a := physical m 0 in proper [n0; n1; n2] a -> (forall i j k, (i < n0)%nat -> (j < n1)%nat -> (k < n2)%nat -> ef eP (get a [i; j; k])) ->
  let Sum := rsum n0 (fun i => rsum n1 (fun j => rsum n2 (fun k => esize eP (get a [i; j; k])))) in
  Sum <= bpow radix2 700 ->
  forall par, let q := length par in 2 * INR q * (INR n0 * INR n1 * INR n2) * (816 * (dl + bpow radix2 (-53))) <= 1 ->
  exists m', (forall r, outcomes (A := A) zo [api3 b0 b1 b2 im0 im1 im2] 0 (values_trips par) m r <-> r = Ok m') /\ let y := physical m' 0 in proper [n0; n1; n2] y /\
    forall i j k, (i < n0)%nat -> (j < n1)%nat -> (k < n2)%nat -> ef eP (get y [i; j; k]) /\
      edist eP (get y [i; j; k]) (ev eP (get a [i; j; k])) <= 2 * INR q * (816 * (dl + bpow radix2 (-53)) * Sum + 218 * (INR n0 * INR n1 * INR n2) ^ 2 * (bpow radix2 (-1075) + zt)).
Proof.
  intros E HE dl zt Hd Hz r0 r1 r2 P I J S b0 b1 b2 eP eI eJ eS H0 H1 H2 A N D dP dI dJ dS im0 im1 im2 I0 I1 I2 zo HZ n0 n1 n2 m Wm a Pa Fa Sum Sa par q HQ.
  destruct (C69_space3_values_f64 E HE dl zt Hd Hz r0 r1 r2 P I J S S b0 b1 b2 eP eI eJ eS H0 H1 H2 dP dI dJ dS dS (zo O) (HZ O) a Pa Fa Sa q HQ) as (y & Er & Py & G).
  destruct (values_serial (api3 b0 b1 b2 im0 im1 im2) (zo O) y par 0 m Er) as (m' & Es & Ey).
  exists m'. split; [|rewrite Ey; split; [exact Py|exact G]].
  intros r. rewrite <- Es. refine (C71_programs_of_serial_and_parallel_calls_have_one_outcome _ _ _ E HE eq_refl A P S N D dP dS [api3 b0 b1 b2 im0 im1 im2] _ zo (fun _ => zo O) HZ (fun _ => HZ O) (values_trips par) m Wm (values_sane par) r).
  intros sp [<-|[]]. apply lib3; auto; apply any_usable_base; eapply RndSpace.orth_usable; eauto.
Qed.
Print Assumptions C71_space3_values_f64.

Theorem C71_space1_coefficients_f64 :
  forall E : ext f64, ext_ok E -> forall dl zt, 0 <= dl -> 0 <= zt <= 1 ->
  forall kap r0 P S (b0 : base_ops P S S) (eP : fel P) (eS : fel S),
  f64_transform E dl zt kap r0 P S S b0 eP eS -> kap * (dl + bpow radix2 (-53)) <= / 2000 ->
  forall A (N : Num A) (D : DivInto A S) (dP : Dflt P) (dS : Dflt S) im0, base_implements im0 b0 -> forall zo, (forall c, zip_ok (zo c)) ->
  let n0 := len_phys b0 in let m0 := len_spec b0 in
  forall m : pstore P S, all_wf m -> let a := spectral m 0 in proper [m0] a -> (forall i, (i < m0)%nat -> ef eS (get a [i])) ->
  let Sum := rsum m0 (fun i => esize eS (get a [i])) in
  Sum <= bpow radix2 700 ->
  forall par, let q := length par in (1 <= q)%nat -> 2 * INR q * INR n0 * (63 * kap * (dl + bpow radix2 (-53))) <= 1 ->
  exists m', (forall r, outcomes (A := A) zo [api1 b0 im0] 0 (coefs_trips par) m r <-> r = Ok m') /\ let y := spectral m' 0 in proper [m0] y /\
    forall i, (i < m0)%nat -> ef eS (get y [i]) /\
      edist eS (get y [i]) (kept b0 r0 i (ev eS (get a [i]))) <= 2 * INR q * (63 * kap * (dl + bpow radix2 (-53)) * Sum + 32 * kap * INR n0 ^ 2 * (bpow radix2 (-1075) + zt)).
Proof.
  intros E HE dl zt Hd Hz kap r0 P S b0 eP eS H0 HK A N D dP dS im0 I0 zo HZ n0 m0 m Wm a Pa Fa Sum Sa par q Hq1 HQ.
  destruct (C69_space1_coefficients_f64 E HE dl zt Hd Hz kap r0 P S S b0 eP eS H0 HK dP dS dS (zo O) (HZ O) a Pa Fa Sa q Hq1 HQ) as (y & Er & Py & G).
  destruct (coefs_serial (api1 b0 im0) (zo O) y par 0 m Er) as (m' & Es & Ey).
  exists m'. split; [|rewrite Ey; split; [exact Py|exact G]].
  intros r. rewrite <- Es. refine (C71_programs_of_serial_and_parallel_calls_have_one_outcome _ _ _ E HE eq_refl A P S N D dP dS [api1 b0 im0] _ zo (fun _ => zo O) HZ (fun _ => HZ O) (coefs_trips par) m Wm (coefs_sane par) r).
  intros sp [<-|[]]. apply lib1; auto; apply any_usable_base; eapply RndSpace2.tr_usable; eauto.
Qed.
Print Assumptions C71_space1_coefficients_f64.

Theorem C71_space2_coefficients_f64 :
  forall E : ext f64, ext_ok E -> forall dl zt, 0 <= dl -> 0 <= zt <= 1 ->
  forall k0 k1 r0 P I S (b0 : base_ops I S S) (b1 : base_ops P I S) (eP : fel P) (eI : fel I) (eS : fel S),
  f64_transform E dl zt k0 r0 I S S b0 eI eS -> f64_transform E dl zt k1 false P I S b1 eP eI -> k0 * k1 * (dl + bpow radix2 (-53)) <= / 2000 ->
  forall A (N : Num A) (D : DivInto A S) (dP : Dflt P) (dI : Dflt I) (dS : Dflt S) im0 im1, base_implements im0 b0 -> base_implements im1 b1 -> forall zo, (forall c, zip_ok (zo c)) ->
  let n0 := len_phys b0 in let n1 := len_phys b1 in let m0 := len_spec b0 in let m1 := len_spec b1 in
  forall m : pstore P S, all_wf m -> let a := spectral m 0 in proper [m0; m1] a -> (forall i j, (i < m0)%nat -> (j < m1)%nat -> ef eS (get a [i; j])) ->
  let Sum := rsum m0 (fun i => rsum m1 (fun j => esize eS (get a [i; j]))) in
  Sum <= bpow radix2 700 ->
  forall par, let q := length par in (1 <= q)%nat -> 2 * INR q * (INR n0 * INR n1) * (385 * (k0 * k1) * (dl + bpow radix2 (-53))) <= 1 ->
  exists m', (forall r, outcomes (A := A) zo [api2 b0 b1 im0 im1] 0 (coefs_trips par) m r <-> r = Ok m') /\ let y := spectral m' 0 in proper [m0; m1] y /\
    forall i j, (i < m0)%nat -> (j < m1)%nat -> ef eS (get y [i; j]) /\
      edist eS (get y [i; j]) (kept b0 r0 i (ev eS (get a [i; j]))) <= 2 * INR q * (385 * (k0 * k1) * (dl + bpow radix2 (-53)) * Sum + 100 * (k0 * k1) * (INR n0 * INR n1) ^ 2 * (bpow radix2 (-1075) + zt)).
Proof.
  intros E HE dl zt Hd Hz k0 k1 r0 P I S b0 b1 eP eI eS H0 H1 HK A N D dP dI dS im0 im1 I0 I1 zo HZ n0 n1 m0 m1 m Wm a Pa Fa Sum Sa par q Hq1 HQ.
  destruct (C69_space2_coefficients_f64 E HE dl zt Hd Hz k0 k1 r0 P I S S b0 b1 eP eI eS H0 H1 HK dP dI dS dS (zo O) (HZ O) a Pa Fa Sa q Hq1 HQ) as (y & Er & Py & G).
  destruct (coefs_serial (api2 b0 b1 im0 im1) (zo O) y par 0 m Er) as (m' & Es & Ey).
  exists m'. split; [|rewrite Ey; split; [exact Py|exact G]].
  intros r. rewrite <- Es. refine (C71_programs_of_serial_and_parallel_calls_have_one_outcome _ _ _ E HE eq_refl A P S N D dP dS [api2 b0 b1 im0 im1] _ zo (fun _ => zo O) HZ (fun _ => HZ O) (coefs_trips par) m Wm (coefs_sane par) r).
  intros sp [<-|[]]. apply lib2; auto; apply any_usable_base; eapply RndSpace2.tr_usable; eauto.
Qed.
Print Assumptions C71_space2_coefficients_f64.

Theorem C71_space3_coefficients_f64 :
  forall E : ext f64, ext_ok E -> forall dl zt, 0 <= dl -> 0 <= zt <= 1 ->
  forall k0 k1 k2 r0 P I J S (b0 : base_ops J S S) (b1 : base_ops I J S) (b2 : base_ops P I S) (eP : fel P) (eI : fel I) (eJ : fel J) (eS : fel S),
  f64_transform E dl zt k0 r0 J S S b0 eJ eS -> f64_transform E dl zt k1 false I J S b1 eI eJ -> f64_transform E dl zt k2 false P I S b2 eP eI -> k0 * k1 * k2 * (dl + bpow radix2 (-53)) <= / 2000 ->
  forall A (N : Num A) (D : DivInto A S) (dP : Dflt P) (dI : Dflt I) (dJ : Dflt J) (dS : Dflt S) im0 im1 im2, base_implements im0 b0 -> base_implements im1 b1 -> base_implements im2 b2 -> forall zo, (forall c, zip_ok (zo c)) ->
  let n0 := len_phys b0 in let n1 := len_phys b1 in let n2 := len_phys b2 in let m0 := len_spec b0 in let m1 := len_spec b1 in let m2 := len_spec b2 in
  forall m : pstore P S, all_wf m -> let a := spectral m 0 in proper [m0; m1; m2] a -> (forall i j k, (i < m0)%nat -> (j < m1)%nat -> (k < m2)%nat -> ef eS (get a [i; j; k])) ->
  let Sum := rsum m0 (fun i => rsum m1 (fun j => rsum m2 (fun k => esize eS (get a [i; j; k])))) in
  Sum <= bpow radix2 700 ->
  forall par, let q := length par in (1 <= q)%nat -> 2 * INR q * (INR n0 * INR n1 * INR n2) * (2027 * (k0 * k1 * k2) * (dl + bpow radix2 (-53))) <= 1 ->
  exists m', (forall r, outcomes (A := A) zo [api3 b0 b1 b2 im0 im1 im2] 0 (coefs_trips par) m r <-> r = Ok m') /\ let y := spectral m' 0 in proper [m0; m1; m2] y /\
    forall i j k, (i < m0)%nat -> (j < m1)%nat -> (k < m2)%nat -> ef eS (get y [i; j; k]) /\
      edist eS (get y [i; j; k]) (kept b0 r0 i (ev eS (get a [i; j; k]))) <= 2 * INR q * (2027 * (k0 * k1 * k2) * (dl + bpow radix2 (-53)) * Sum + 242 * (k0 * k1 * k2) * (INR n0 * INR n1 * INR n2) ^ 2 * (bpow radix2 (-1075) + zt)).
Proof.
  intros E HE dl zt Hd Hz k0 k1 k2 r0 P I J S b0 b1 b2 eP eI eJ eS H0 H1 H2 HK A N D dP dI dJ dS im0 im1 im2 I0 I1 I2 zo HZ n0 n1 n2 m0 m1 m2 m Wm a Pa Fa Sum Sa par q Hq1 HQ.
  destruct (C69_space3_coefficients_f64 E HE dl zt Hd Hz k0 k1 k2 r0 P I J S S b0 b1 b2 eP eI eJ eS H0 H1 H2 HK dP dI dJ dS dS (zo O) (HZ O) a Pa Fa Sa q Hq1 HQ) as (y & Er & Py & G).
  destruct (coefs_serial (api3 b0 b1 b2 im0 im1 im2) (zo O) y par 0 m Er) as (m' & Es & Ey).
  exists m'. split; [|rewrite Ey; split; [exact Py|exact G]].
  intros r. rewrite <- Es. refine (C71_programs_of_serial_and_parallel_calls_have_one_outcome _ _ _ E HE eq_refl A P S N D dP dS [api3 b0 b1 b2 im0 im1 im2] _ zo (fun _ => zo O) HZ (fun _ => HZ O) (coefs_trips par) m Wm (coefs_sane par) r).
  intros sp [<-|[]]. apply lib3; auto; apply any_usable_base; eapply RndSpace2.tr_usable; eauto.
Qed.
Print Assumptions C71_space3_coefficients_f64.

Theorem C71_space1_values_f32 :
  forall E : ext f32, ext_ok E -> forall dl zt, 0 <= dl <= / 2000 -> 0 <= zt <= 1 ->
  forall r0 P S (b0 : base_ops P S S) (eP : fel P) (eS : fel S),
  f32_orthogonal E dl zt r0 P S S b0 eP eS ->
  forall A (N : Num A) (D : DivInto A S) (dP : Dflt P) (dS : Dflt S) im0, base_implements im0 b0 -> forall zo, (forall c, zip_ok (zo c)) ->
  let n0 := len_phys b0 in
  forall m : pstore P S, all_wf m -> let a := physical m 0 in proper [n0] a -> (forall i, (i < n0)%nat -> ef eP (get a [i])) ->
  let Sum := rsum n0 (fun i => esize eP (get a [i])) in
  Sum <= bpow radix2 50 ->
  forall par, let q := length par in 2 * INR q * INR n0 * (33 * (dl + bpow radix2 (-24))) <= 1 ->
  exists m', (forall r, outcomes (A := A) zo [api1 b0 im0] 0 (values_trips par) m r <-> r = Ok m') /\ let y := physical m' 0 in proper [n0] y /\
    forall i, (i < n0)%nat -> ef eP (get y [i]) /\
      edist eP (get y [i]) (ev eP (get a [i])) <= 2 * INR q * (33 * (dl + bpow radix2 (-24)) * Sum + 29 * INR n0 ^ 2 * (bpow radix2 (-150) + zt)).
Proof.
  intros E HE dl zt Hd Hz r0 P S b0 eP eS H0 A N D dP dS im0 I0 zo HZ n0 m Wm a Pa Fa Sum Sa par q HQ.
  destruct (C69_space1_values_f32 E HE dl zt Hd Hz r0 P S S b0 eP eS H0 dP dS dS (zo O) (HZ O) a Pa Fa Sa q HQ) as (y & Er & Py & G).
  destruct (values_serial (api1 b0 im0) (zo O) y par 0 m Er) as (m' & Es & Ey).
  exists m'. split; [|rewrite Ey; split; [exact Py|exact G]].
  intros r. rewrite <- Es. refine (C71_programs_of_serial_and_parallel_calls_have_one_outcome _ _ _ E HE eq_refl A P S N D dP dS [api1 b0 im0] _ zo (fun _ => zo O) HZ (fun _ => HZ O) (values_trips par) m Wm (values_sane par) r).
  intros sp [<-|[]]. apply lib1; auto; apply any_usable_base; eapply RndSpace32.orth_usable; eauto.
Qed.
Print Assumptions C71_space1_values_f32.

Theorem C71_space2_values_f32 :
  forall E : ext f32, ext_ok E -> forall dl zt, 0 <= dl <= / 2000 -> 0 <= zt <= 1 ->
  forall r0 r1 P I S (b0 : base_ops I S S) (b1 : base_ops P I S) (eP : fel P) (eI : fel I) (eS : fel S),
  f32_orthogonal E dl zt r0 I S S b0 eI eS -> f32_orthogonal E dl zt r1 P I S b1 eP eI ->
  forall A (N : Num A) (D : DivInto A S) (dP : Dflt P) (dI : Dflt I) (dS : Dflt S) im0 im1, base_implements im0 b0 -> base_implements im1 b1 -> forall zo, (forall c, zip_ok (zo c)) ->
  let n0 := len_phys b0 in let n1 := len_phys b1 in
  forall m : pstore P S, all_wf m -> let a := physical m 0 in proper [n0; n1] a -> (forall i j, (i < n0)%nat -> (j < n1)%nat -> ef eP (get a [i; j])) ->
  let Sum := rsum n0 (fun i => rsum n1 (fun j => esize eP (get a [i; j]))) in
  Sum <= bpow radix2 50 ->
  forall par, let q := length par in 2 * INR q * (INR n0 * INR n1) * (178 * (dl + bpow radix2 (-24))) <= 1 ->
  exists m', (forall r, outcomes (A := A) zo [api2 b0 b1 im0 im1] 0 (values_trips par) m r <-> r = Ok m') /\ let y := physical m' 0 in proper [n0; n1] y /\
    forall i j, (i < n0)%nat -> (j < n1)%nat -> ef eP (get y [i; j]) /\
      edist eP (get y [i; j]) (ev eP (get a [i; j])) <= 2 * INR q * (178 * (dl + bpow radix2 (-24)) * Sum + 90 * (INR n0 * INR n1) ^ 2 * (bpow radix2 (-150) + zt)).
Proof.
  intros E HE dl zt Hd Hz r0 r1 P I S b0 b1 eP eI eS H0 H1 A N D dP dI dS im0 im1 I0 I1 zo HZ n0 n1 m Wm a Pa Fa Sum Sa par q HQ.
  destruct (C69_space2_values_f32 E HE dl zt Hd Hz r0 r1 P I S S b0 b1 eP eI eS H0 H1 dP dI dS dS (zo O) (HZ O) a Pa Fa Sa q HQ) as (y & Er & Py & G).
  destruct (values_serial (api2 b0 b1 im0 im1) (zo O) y par 0 m Er) as (m' & Es & Ey).
  exists m'. split; [|rewrite Ey; split; [exact Py|exact G]].
  intros r. rewrite <- Es. refine (C71_programs_of_serial_and_parallel_calls_have_one_outcome _ _ _ E HE eq_refl A P S N D dP dS [api2 b0 b1 im0 im1] _ zo (fun _ => zo O) HZ (fun _ => HZ O) (values_trips par) m Wm (values_sane par) r).
  intros sp [<-|[]]. apply lib2; auto; apply any_usable_base; eapply RndSpace32.orth_usable; eauto.
Qed.
Print Assumptions C71_space2_values_f32.

Theorem C71_space3_values_f32 :
  forall E : ext f32, ext_ok E -> forall dl zt, 0 <= dl <= / 2000 -> 0 <= zt <= 1 ->
  forall r0 r1 r2 P I J S (b0 : base_ops J S S) (b1 : base_ops I J S) (b2 : base_ops P I S) (eP : fel P) (eI : fel I) (eJ : fel J) (eS : fel S),
  f32_orthogonal E dl zt r0 J S S b0 eJ eS -> f32_orthogonal E dl zt r1 I J S b1 eI eJ -> f32_orthogonal E dl zt r2 P I S b2 eP eI ->
  forall A (N : Num A) (D : DivInto A S) (dP : Dflt P) (dI : Dflt I) (dJ : Dflt J) (dS : Dflt S) im0 im1 im2, base_implements im0 b0 -> base_implements im1 b1 -> base_implements im2 b2 -> forall zo, (forall c, zip_ok (zo c)) ->
  let n0 := len_phys b0 in let n1 := len_phys b1 in let n2 := len_phys b2 in
  forall m : pstore P S, all_wf m -> let a := physical m 0 in proper [n0; n1; n2] a -> (forall i j k, (i < n0)%nat -> (j < n1)%nat -> (k < n2)%nat -> ef eP (get a [i; j; k])) ->
  let Sum := rsum n0 (fun i => rsum n1 (fun j => rsum n2 (fun k => esize eP (get a [i; j; k])))) in
  Sum <= bpow radix2 50 ->
  forall par, let q := length par in 2 * INR q * (INR n0 * INR n1 * INR n2) * (816 * (dl + bpow radix2 (-24))) <= 1 ->
  exists m', (forall r, outcomes (A := A) zo [api3 b0 b1 b2 im0 im1 im2] 0 (values_trips par) m r <-> r = Ok m') /\ let y := physical m' 0 in proper [n0; n1; n2] y /\
    forall i j k, (i < n0)%nat -> (j < n1)%nat -> (k < n2)%nat -> ef eP (get y [i; j; k]) /\
      edist eP (get y [i; j; k]) (ev eP (get a [i; j; k])) <= 2 * INR q * (816 * (dl + bpow radix2 (-24)) * Sum + 218 * (INR n0 * INR n1 * INR n2) ^ 2 * (bpow radix2 (-150) + zt)).
Proof.
  intros E HE dl zt Hd Hz r0 r1 r2 P I J S b0 b1 b2 eP eI eJ eS H0 H1 H2 A N D dP dI dJ dS im0 im1 im2 I0 I1 I2 zo HZ n0 n1 n2 m Wm a Pa Fa Sum Sa par q HQ.
  destruct (C69_space3_values_f32 E HE dl zt Hd Hz r0 r1 r2 P I J S S b0 b1 b2 eP eI eJ eS H0 H1 H2 dP dI dJ dS dS (zo O) (HZ O) a Pa Fa Sa q HQ) as (y & Er & Py & G).
  destruct (values_serial (api3 b0 b1 b2 im0 im1 im2) (zo O) y par 0 m Er) as (m' & Es & Ey).
  exists m'. split; [|rewrite Ey; split; [exact Py|exact G]].
  intros r. rewrite <- Es. refine (C71_programs_of_serial_and_parallel_calls_have_one_outcome _ _ _ E HE eq_refl A P S N D dP dS [api3 b0 b1 b2 im0 im1 im2] _ zo (fun _ => zo O) HZ (fun _ => HZ O) (values_trips par) m Wm (values_sane par) r).
  intros sp [<-|[]]. apply lib3; auto; apply any_usable_base; eapply RndSpace32.orth_usable; eauto.
Qed.
Print Assumptions C71_space3_values_f32.

Theorem C71_space1_coefficients_f32 :
  forall E : ext f32, ext_ok E -> forall dl zt, 0 <= dl -> 0 <= zt <= 1 ->
  forall kap r0 P S (b0 : base_ops P S S) (eP : fel P) (eS : fel S),
  f32_transform E dl zt kap r0 P S S b0 eP eS -> kap * (dl + bpow radix2 (-24)) <= / 2000 ->
  forall A (N : Num A) (D : DivInto A S) (dP : Dflt P) (dS : Dflt S) im0, base_implements im0 b0 -> forall zo, (forall c, zip_ok (zo c)) ->
  let n0 := len_phys b0 in let m0 := len_spec b0 in
  forall m : pstore P S, all_wf m -> let a := spectral m 0 in proper [m0] a -> (forall i, (i < m0)%nat -> ef eS (get a [i])) ->
  let Sum := rsum m0 (fun i => esize eS (get a [i])) in
  Sum <= bpow radix2 50 ->
  forall par, let q := length par in (1 <= q)%nat -> 2 * INR q * INR n0 * (63 * kap * (dl + bpow radix2 (-24))) <= 1 ->
  exists m', (forall r, outcomes (A := A) zo [api1 b0 im0] 0 (coefs_trips par) m r <-> r = Ok m') /\ let y := spectral m' 0 in proper [m0] y /\
    forall i, (i < m0)%nat -> ef eS (get y [i]) /\
      edist eS (get y [i]) (kept b0 r0 i (ev eS (get a [i]))) <= 2 * INR q * (63 * kap * (dl + bpow radix2 (-24)) * Sum + 32 * kap * INR n0 ^ 2 * (bpow radix2 (-150) + zt)).
Proof.
  intros E HE dl zt Hd Hz kap r0 P S b0 eP eS H0 HK A N D dP dS im0 I0 zo HZ n0 m0 m Wm a Pa Fa Sum Sa par q Hq1 HQ.
  destruct (C69_space1_coefficients_f32 E HE dl zt Hd Hz kap r0 P S S b0 eP eS H0 HK dP dS dS (zo O) (HZ O) a Pa Fa Sa q Hq1 HQ) as (y & Er & Py & G).
  destruct (coefs_serial (api1 b0 im0) (zo O) y par 0 m Er) as (m' & Es & Ey).
  exists m'. split; [|rewrite Ey; split; [exact Py|exact G]].
  intros r. rewrite <- Es. refine (C71_programs_of_serial_and_parallel_calls_have_one_outcome _ _ _ E HE eq_refl A P S N D dP dS [api1 b0 im0] _ zo (fun _ => zo O) HZ (fun _ => HZ O) (coefs_trips par) m Wm (coefs_sane par) r).
  intros sp [<-|[]]. apply lib1; auto; apply any_usable_base; eapply RndSpace2_32.tr_usable; eauto.
Qed.
Print Assumptions C71_space1_coefficients_f32.

Theorem C71_space2_coefficients_f32 :
  forall E : ext f32, ext_ok E -> forall dl zt, 0 <= dl -> 0 <= zt <= 1 ->
  forall k0 k1 r0 P I S (b0 : base_ops I S S) (b1 : base_ops P I S) (eP : fel P) (eI : fel I) (eS : fel S),
  f32_transform E dl zt k0 r0 I S S b0 eI eS -> f32_transform E dl zt k1 false P I S b1 eP eI -> k0 * k1 * (dl + bpow radix2 (-24)) <= / 2000 ->
  forall A (N : Num A) (D : DivInto A S) (dP : Dflt P) (dI : Dflt I) (dS : Dflt S) im0 im1, base_implements im0 b0 -> base_implements im1 b1 -> forall zo, (forall c, zip_ok (zo c)) ->
  let n0 := len_phys b0 in let n1 := len_phys b1 in let m0 := len_spec b0 in let m1 := len_spec b1 in
  forall m : pstore P S, all_wf m -> let a := spectral m 0 in proper [m0; m1] a -> (forall i j, (i < m0)%nat -> (j < m1)%nat -> ef eS (get a [i; j])) ->
  let Sum := rsum m0 (fun i => rsum m1 (fun j => esize eS (get a [i; j]))) in
  Sum <= bpow radix2 50 ->
  forall par, let q := length par in (1 <= q)%nat -> 2 * INR q * (INR n0 * INR n1) * (385 * (k0 * k1) * (dl + bpow radix2 (-24))) <= 1 ->
  exists m', (forall r, outcomes (A := A) zo [api2 b0 b1 im0 im1] 0 (coefs_trips par) m r <-> r = Ok m') /\ let y := spectral m' 0 in proper [m0; m1] y /\
    forall i j, (i < m0)%nat -> (j < m1)%nat -> ef eS (get y [i; j]) /\
      edist eS (get y [i; j]) (kept b0 r0 i (ev eS (get a [i; j]))) <= 2 * INR q * (385 * (k0 * k1) * (dl + bpow radix2 (-24)) * Sum + 100 * (k0 * k1) * (INR n0 * INR n1) ^ 2 * (bpow radix2 (-150) + zt)).
Proof.
  intros E HE dl zt Hd Hz k0 k1 r0 P I S b0 b1 eP eI eS H0 H1 HK A N D dP dI dS im0 im1 I0 I1 zo HZ n0 n1 m0 m1 m Wm a Pa Fa Sum Sa par q Hq1 HQ.
  destruct (C69_space2_coefficients_f32 E HE dl zt Hd Hz k0 k1 r0 P I S S b0 b1 eP eI eS H0 H1 HK dP dI dS dS (zo O) (HZ O) a Pa Fa Sa q Hq1 HQ) as (y & Er & Py & G).
  destruct (coefs_serial (api2 b0 b1 im0 im1) (zo O) y par 0 m Er) as (m' & Es & Ey).
  exists m'. split; [|rewrite Ey; split; [exact Py|exact G]].
  intros r. rewrite <- Es. refine (C71_programs_of_serial_and_parallel_calls_have_one_outcome _ _ _ E HE eq_refl A P S N D dP dS [api2 b0 b1 im0 im1] _ zo (fun _ => zo O) HZ (fun _ => HZ O) (coefs_trips par) m Wm (coefs_sane par) r).
  intros sp [<-|[]]. apply lib2; auto; apply any_usable_base; eapply RndSpace2_32.tr_usable; eauto.
Qed.
Print Assumptions C71_space2_coefficients_f32.

Theorem C71_space3_coefficients_f32 :
  forall E : ext f32, ext_ok E -> forall dl zt, 0 <= dl -> 0 <= zt <= 1 ->
  forall k0 k1 k2 r0 P I J S (b0 : base_ops J S S) (b1 : base_ops I J S) (b2 : base_ops P I S) (eP : fel P) (eI : fel I) (eJ : fel J) (eS : fel S),
  f32_transform E dl zt k0 r0 J S S b0 eJ eS -> f32_transform E dl zt k1 false I J S b1 eI eJ -> f32_transform E dl zt k2 false P I S b2 eP eI -> k0 * k1 * k2 * (dl + bpow radix2 (-24)) <= / 2000 ->
  forall A (N : Num A) (D : DivInto A S) (dP : Dflt P) (dI : Dflt I) (dJ : Dflt J) (dS : Dflt S) im0 im1 im2, base_implements im0 b0 -> base_implements im1 b1 -> base_implements im2 b2 -> forall zo, (forall c, zip_ok (zo c)) ->
  let n0 := len_phys b0 in let n1 := len_phys b1 in let n2 := len_phys b2 in let m0 := len_spec b0 in let m1 := len_spec b1 in let m2 := len_spec b2 in
  forall m : pstore P S, all_wf m -> let a := spectral m 0 in proper [m0; m1; m2] a -> (forall i j k, (i < m0)%nat -> (j < m1)%nat -> (k < m2)%nat -> ef eS (get a [i; j; k])) ->
  let Sum := rsum m0 (fun i => rsum m1 (fun j => rsum m2 (fun k => esize eS (get a [i; j; k])))) in
  Sum <= bpow radix2 50 ->
  forall par, let q := length par in (1 <= q)%nat -> 2 * INR q * (INR n0 * INR n1 * INR n2) * (2027 * (k0 * k1 * k2) * (dl + bpow radix2 (-24))) <= 1 ->
  exists m', (forall r, outcomes (A := A) zo [api3 b0 b1 b2 im0 im1 im2] 0 (coefs_trips par) m r <-> r = Ok m') /\ let y := spectral m' 0 in proper [m0; m1; m2] y /\
    forall i j k, (i < m0)%nat -> (j < m1)%nat -> (k < m2)%nat -> ef eS (get y [i; j; k]) /\
      edist eS (get y [i; j; k]) (kept b0 r0 i (ev eS (get a [i; j; k]))) <= 2 * INR q * (2027 * (k0 * k1 * k2) * (dl + bpow radix2 (-24)) * Sum + 242 * (k0 * k1 * k2) * (INR n0 * INR n1 * INR n2) ^ 2 * (bpow radix2 (-150) + zt)).
Proof.
  intros E HE dl zt Hd Hz k0 k1 k2 r0 P I J S b0 b1 b2 eP eI eJ eS H0 H1 H2 HK A N D dP dI dJ dS im0 im1 im2 I0 I1 I2 zo HZ n0 n1 n2 m0 m1 m2 m Wm a Pa Fa Sum Sa par q Hq1 HQ.
  destruct (C69_space3_coefficients_f32 E HE dl zt Hd Hz k0 k1 k2 r0 P I J S S b0 b1 b2 eP eI eJ eS H0 H1 H2 HK dP dI dJ dS dS (zo O) (HZ O) a Pa Fa Sa q Hq1 HQ) as (y & Er & Py & G).
  destruct (coefs_serial (api3 b0 b1 b2 im0 im1 im2) (zo O) y par 0 m Er) as (m' & Es & Ey).
  exists m'. split; [|rewrite Ey; split; [exact Py|exact G]].
  intros r. rewrite <- Es. refine (C71_programs_of_serial_and_parallel_calls_have_one_outcome _ _ _ E HE eq_refl A P S N D dP dS [api3 b0 b1 b2 im0 im1 im2] _ zo (fun _ => zo O) HZ (fun _ => HZ O) (coefs_trips par) m Wm (coefs_sane par) r).
  intros sp [<-|[]]. apply lib3; auto; apply any_usable_base; eapply RndSpace2_32.tr_usable; eauto.
Qed.
Print Assumptions C71_space3_coefficients_f32.

(** The hypotheses are met: a thousand trips of the field of the C69 example on a
    FourierR2c(4) x Chebyshev(5) space, any of the two thousand calls parallel. *)
Local Notation u64 := (bpow radix2 (-53)).
Local Notation eta64 := (bpow radix2 (-1075)).
Example C71_example_thousand_trips :
  exists (E : ext f64) b1 im0 im1, ext_ok E /\ new_chebyshev 5 = Ok b1 /\
  let b0 := r2c_ops_x E (mk_r2c 4 3) in let b1 := r2r_ops_x (T := cplx f64) E b1 in base_implements im0 b0 /\ base_implements im1 b1 /\
  exists m : pstore f64 (cplx f64), all_wf m /\ physical m 0 = field45 /\
  forall zo, (forall c, zip_ok (zo c)) -> forall par, length par = 1000%nat ->
  exists m', (forall r, outcomes (A := f64) zo [api2 b0 b1 im0 im1] 0 (values_trips par) m r <-> r = Ok m') /\
    forall i j, (i < 4)%nat -> (j < 5)%nat -> is_finite (get (physical m' 0) [i; j]) = true /\ Rabs (B2R (get (physical m' 0) [i; j]) - B2R (get field45 [i; j])) <= bpow radix2 (-27).
Proof.
  destruct C56_accurate_bases_exist as (E & HE & HC & HR & _). destruct (HC 5%nat ltac:(lia) ltac:(cbn; lia) (cplx f64) _) as (b1 & N1 & H1). destruct (HR 4%nat ltac:(lia) ltac:(cbn; lia)) as (f & N0 & H0).
  injection N0 as <-.
  destruct (C53_implementation_exists f64 _ _ E HE eq_refl _ _ _ _ (any_usable_base _ _ _ _ _ (RndSpace.orth_usable _ _ _ _ _ _ _ _ _ _ H0)) dflt_num dflt_vec dflt_vec) as [im0 I0].
  destruct (C53_implementation_exists f64 _ _ E HE eq_refl _ _ _ _ (any_usable_base _ _ _ _ _ (RndSpace.orth_usable _ _ _ _ _ _ _ _ _ _ H1)) dflt_num dflt_num dflt_vec) as [im1 I1].
  exists E, b1, im0, im1. split; [exact HE|]. split; [exact N1|]. intros b0 b1'. split; [exact I0|]. split; [exact I1|].
  set (m := mk_pstore (fun _ => field45) (fun _ => azeros dflt [3; 5]%nat) : pstore f64 (cplx f64)).
  assert (Wm : all_wf m) by (intros k; split; [reflexivity|apply azeros_wf]).
  exists m. split; [exact Wm|]. split; [reflexivity|]. intros zo HZO par HL. unfold b0, b1' in *. clear b0 b1'.
  apply new_chebyshev_inv in N1 as [_ ->].
  assert (V : forall j, (j < 5)%nat -> is_finite tenths.[j] = true /\ Rabs (B2R tenths.[j]) <= 1).
  { intros j Hj. destruct j as [|[|[|[|[|]]]]]; try lia; (split; [vm_compute; reflexivity|]); rewrite <- SF2R_B2SF;
      match goal with |- Rabs (SF2R _ ?t) <= _ => let t' := eval vm_compute in t in replace t with t' by (vm_compute; reflexivity) end;
      cbn [SF2R SpecFloat.cond_Zopp]; unfold F2R; cbn [Fnum Fexp cond_Zopp]; rewrite Rabs_pos_eq; cbn; lra. }
  assert (VG : forall i j, (i < 4)%nat -> (j < 5)%nat -> get field45 [i; j] = tenths.[j]).
  { intros i j Hi Hj. destruct i as [|[|[|[|]]]]; try lia; destruct j as [|[|[|[|[|]]]]]; try lia; reflexivity. }
  set (S := rsum 4 (fun i => rsum 5 (fun j => esize f64_real (get field45 [i; j])))).
  assert (S1 : 0 <= S <= 32). { split. apply rsum_pos; intros; apply rsum_pos; intros; apply esize_pos.
    eapply Rle_trans. apply (rsum_le 4 _ (fun _ => 5)). intros i Hi. eapply Rle_trans. apply (rsum_le 5 _ (fun _ => 1)). intros j Hj. rewrite VG by auto. unfold esize. cbn [ev f64_real fst snd]. rewrite Rabs_R0. destruct (V j Hj). unfold f64_val. lra.
    rewrite rsum_const. cbn; lra. rewrite rsum_const. cbn; lra. }
  assert (I : INR 1000 = 1000) by (rewrite INR_IZR_INZ; reflexivity).
  destruct (C71_space2_values_f64 E HE (bpow radix2 (-52)) eta64 ltac:(cbn; lra) ltac:(pose proof PropTrans2.eta1; lra) true false _ _ _ _ _ f64_real f64_real f64_cplx H0 H1 f64 _ _ dflt_num dflt_num dflt_vec im0 im1 I0 I1 zo HZO m Wm) with (par := par) as (m' & Ey & _ & H).
  - repeat split.
  - intros i j Hi Hj. change (ef f64_real (get field45 [i; j])). rewrite (VG i j Hi Hj). apply V; auto.
  - change (S <= bpow radix2 700). apply Rle_trans with (bpow radix2 5). change (bpow radix2 5) with 32. apply S1. apply bpow_le; lia.
  - rewrite HL, I. change (2 * 1000 * (INR 4 * INR 5) * (178 * (bpow radix2 (-52) + bpow radix2 (-53))) <= 1).
    replace (INR 5) with 5 by (cbn; lra). replace (INR 4) with 4 by (cbn; lra). change (bpow radix2 (-52)) with (/ IZR (2 ^ 52)). change (bpow radix2 (-53)) with (/ IZR (2 ^ 53)). cbv [Z.pow Z.pow_pos Pos.iter Z.mul Pos.mul]. lra.
  - exists m'. split; [exact Ey|]. intros i j Hi Hj. destruct (H i j Hi Hj) as [F B]. split; [exact F|]. clear H Ey. rewrite HL, I in B.
    change (edist f64_real (get (physical m' 0) [i; j]) (ev f64_real (get field45 [i; j])) <= 2 * 1000 * (178 * (bpow radix2 (-52) + u64) * S + 90 * (INR 4 * INR 5) ^ 2 * (eta64 + eta64))) in B.
    unfold edist in B. cbn [ev f64_real fst snd] in B. rewrite (Rminus_diag_eq 0 0 eq_refl), Rabs_R0, Rplus_0_r in B. eapply Rle_trans; [exact B|]. clear B F V VG.
    assert (E1 : eta64 <= bpow radix2 (-60)) by (apply bpow_le; lia). pose proof (bpow_gt_0 radix2 (-1075)) as E0. revert S1. generalize S. revert E1 E0. generalize eta64. clear. intros et E1 E0 S S1.
    change (bpow radix2 (-60)) with (/ IZR (2 ^ 60)) in E1. change (bpow radix2 (-52)) with (/ IZR (2 ^ 52)). change (bpow radix2 (-53)) with (/ IZR (2 ^ 53)). change (bpow radix2 (-27)) with (/ IZR (2 ^ 27)).
    replace (INR 5) with 5 by (cbn; lra). replace (INR 4) with 4 by (cbn; lra). cbv [Z.pow Z.pow_pos Pos.iter Z.mul Pos.mul] in *. lra.
Qed.
