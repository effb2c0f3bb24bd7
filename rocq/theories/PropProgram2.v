(** C70: whole MPI programs of [q] round trips, end to end: the root scatters a
    field, all ranks transform it there and back [q] times, and every rank
    gathers the result. In f64 and f32 the gathered field is the one the serial
    library computes, so the drift bound of C69 holds for it on every rank,
    under every schedule, for every number of ranks. *)
From Coq Require Import List Arith ZArith Reals Bool Lra Lia.
From Flocq Require Import Core BinarySingleNaN.
From Verif Require Import Base Num Linalg Stencils Cheb ChebFacts Compo CompoProofs Fourier FourierF64 FourierFacts FourierProofs Bases BaseLin LibBase NdArray NdArrayFacts AxisFacts AxisProps PropAxis SpaceFacts SpaceBases SpaceStages Space PropSpace PropSpace2 PropElements
  MpiSem Decomp MpiSpec SpaceMpi PropSpaceMpi
  ExtLib AnyArith ExtFacts AnyBase PropAny PropAny2 PropAny3 Rounding LibAcc LibIdeal RndCheb RndFft RndR2c RndFinite2 RndDirichlet RndNeumann PropRound PropRound2 PropRound4 PropTrans2 RndAxis RndOps RndAxis2 RndOps2 SpaceAcc RndSpace RndSpace2 PropTrans3 SpaceAcc2 PropTrans4 SpaceVal RndVal RndVal2 PropTrans5
  GradSpec GradOp RndGrad3 RndGrad4 RndGrad5 RndGrad6 PropGrad OrthoSpec RndOrtho PropOrtho
  PropTrans6 SpaceVal32 RndVal32 PropTrans7 RndSpace32 PropTrans8 RndSpace2_32 PropTrans9 GradSpec32 RndGrad32 RndOrtho32 Trips PropTrips PropTrips2 PropTrips3 PropTrips4
  PropExample2 DistFacts TabFacts MpiRuns MpiMix MpiProgram PropProgram.
Import ListNotations.
Local Open Scope nat_scope.

(** ** The programs. [round q a b k] performs the steps [a], [b] [q] times, then [k]. *)
Section Prog.
Context {A P S : Type}.
Fixpoint round (q : nat) (a b : step A P S) (k : program A P S) : program A P S :=
  match q with 0 => k | Datatypes.S q => Do a (fun _ => Do b (fun _ => round q a b k)) end.
(** values to coefficients and back *)
Definition values_program (q : nat) (u : arr P) : program A P S :=
  Do (ScatterPhys InY 0 u 0) (fun _ => round q (Forward false 0 0 0) (Backward false 0 0 0) (Do (AllGatherPhys InY 0 0) (fun _ => Stop))).
(** coefficients to values and back *)
Definition coefs_program (q : nat) (u : arr S) : program A P S :=
  Do (ScatterSpec InX 0 u 0) (fun _ => round q (Backward false 0 0 0) (Forward false 0 0 0) (Do (AllGatherSpec InX 0 0) (fun _ => Stop))).
(** coefficients to the orthogonal basis and back *)
Definition ortho_program (q : nat) (u : arr S) : program A P S :=
  Do (ScatterSpec InX 0 u 0) (fun _ => round q (ToOrtho false 0 0 1) (FromOrtho false 0 1 0) (Do (AllGatherSpec InX 0 0) (fun _ => Stop))).
End Prog.

Section Serial.
Context {A P I S : Type} {N : Num A} {D : DivInto A S} {dP : Dflt P} {dI : Dflt I} {dS : Dflt S}.
Variables (z : zip_order) (sp : space2 P I S S).
Notation b0 := (s2_base0 sp). Notation b1 := (s2_base1 sp).
Notation run := (serial_run (A := A) (fun _ => z) [sp]).
Lemma same_reg {T} (f : layout -> nat -> nat -> nat -> arr T) l n0 n1 j a : set_reg f l n0 n1 j a l n0 n1 j = a.
Proof. unfold set_reg. rewrite !Nat.eqb_refl. destruct l; reflexivity. Qed.
Lemma other_reg {T} (f : layout -> nat -> nat -> nat -> arr T) l n0 n1 j k a m0 m1 : k <> j -> set_reg f l n0 n1 j a l m0 m1 k = f l m0 m1 k.
Proof. intros H. unfold set_reg. apply Nat.eqb_neq in H. rewrite H, andb_false_r. reflexivity. Qed.
Notation V m := (phys_arr m InY (len_phys b0) (len_phys b1) 0).
Notation C m := (spec_arr m InX (len_spec b0) (len_spec b1) 0).
Lemma one_step c (st : step A P S) k m log m' : serial_step z [sp] st m = Ok (m', []) -> run c (Do st k) m log = run (Datatypes.S c) (k log) m' log.
Proof. intros E. cbn [serial_run]. rewrite E. cbn [bind fst snd]. rewrite app_nil_r. reflexivity. Qed.

Lemma values_run q k : forall c m log y, repeat_trip q (fun x => let* h := s2_forward z sp x in s2_backward z sp h) (V m) = Ok y ->
  exists c' m', run c (round q (Forward false 0 0 0) (Backward false 0 0 0) k) m log = run c' k m' log /\ V m' = y.
Proof.
  induction q as [|q IH]; intros c m log y E. { cbn in E. injection E as <-. exists c, m. split; reflexivity. }
  cbn [repeat_trip] in E. destruct (s2_forward z sp (V m)) as [h| |] eqn:E1; cbn [bind] in E; try discriminate.
  destruct (s2_backward z sp h) as [w| |] eqn:E2; cbn [bind] in E; try discriminate. cbn [round].
  rewrite (one_step _ _ _ _ _ (set_spec m InX (len_spec b0) (len_spec b1) 0 h)).
  2:{ cbn [serial_step find nth_error bind]. rewrite E1. reflexivity. }
  rewrite (one_step _ _ _ _ _ (set_phys (set_spec m InX (len_spec b0) (len_spec b1) 0 h) InY (len_phys b0) (len_phys b1) 0 w)).
  2:{ cbn [serial_step find nth_error bind set_spec set_phys spec_arr phys_arr]. rewrite same_reg, E2. reflexivity. }
  apply IH. cbn [set_spec set_phys spec_arr phys_arr]. rewrite same_reg. exact E.
Qed.
Lemma coefs_run q k : forall c m log y, repeat_trip q (fun x => let* h := s2_backward z sp x in s2_forward z sp h) (C m) = Ok y ->
  exists c' m', run c (round q (Backward false 0 0 0) (Forward false 0 0 0) k) m log = run c' k m' log /\ C m' = y.
Proof.
  induction q as [|q IH]; intros c m log y E. { cbn in E. injection E as <-. exists c, m. split; reflexivity. }
  cbn [repeat_trip] in E. destruct (s2_backward z sp (C m)) as [h| |] eqn:E1; cbn [bind] in E; try discriminate.
  destruct (s2_forward z sp h) as [w| |] eqn:E2; cbn [bind] in E; try discriminate. cbn [round].
  rewrite (one_step _ _ _ _ _ (set_phys m InY (len_phys b0) (len_phys b1) 0 h)).
  2:{ cbn [serial_step find nth_error bind]. rewrite E1. reflexivity. }
  rewrite (one_step _ _ _ _ _ (set_spec (set_phys m InY (len_phys b0) (len_phys b1) 0 h) InX (len_spec b0) (len_spec b1) 0 w)).
  2:{ cbn [serial_step find nth_error bind set_spec set_phys spec_arr phys_arr]. rewrite same_reg, E2. reflexivity. }
  apply IH. cbn [set_spec set_phys spec_arr phys_arr]. rewrite same_reg. exact E.
Qed.
Lemma ortho_run q k : forall c m log y, repeat_trip q (fun x => let* h := s2_to_ortho z sp x in s2_from_ortho z sp h) (C m) = Ok y ->
  exists c' m', run c (round q (ToOrtho false 0 0 1) (FromOrtho false 0 1 0) k) m log = run c' k m' log /\ C m' = y.
Proof.
  induction q as [|q IH]; intros c m log y E. { cbn in E. injection E as <-. exists c, m. split; reflexivity. }
  cbn [repeat_trip] in E. destruct (s2_to_ortho z sp (C m)) as [h| |] eqn:E1; cbn [bind] in E; try discriminate.
  destruct (s2_from_ortho z sp h) as [w| |] eqn:E2; cbn [bind] in E; try discriminate. cbn [round].
  rewrite (one_step _ _ _ _ _ (set_spec m InX (len_orth b0) (len_orth b1) 1 h)).
  2:{ cbn [serial_step find nth_error bind]. rewrite E1. reflexivity. }
  rewrite (one_step _ _ _ _ _ (set_spec (set_spec m InX (len_orth b0) (len_orth b1) 1 h) InX (len_spec b0) (len_spec b1) 0 w)).
  2:{ cbn [serial_step find nth_error bind set_spec set_phys spec_arr phys_arr]. rewrite same_reg, E2. reflexivity. }
  apply IH. cbn [set_spec set_phys spec_arr phys_arr]. rewrite same_reg. exact E.
Qed.
(** both steps need nothing but the space *)
Lemma round_ok q (a b : step A P S) k : step_ok [sp] a -> step_ok [sp] b -> (forall c m log, admissible (fun _ => z) [sp] c k m log) ->
  forall c m log, admissible (fun _ => z) [sp] c (round q a b k) m log.
Proof.
  intros Ha Hb Hk. induction q as [|q IH]; intros c m log; [apply Hk|]. cbn [round admissible]. split; [exact Ha|]. intros m1 l1 _. split; [exact Hb|]. intros m2 l2 _. apply IH.
Qed.
End Serial.

(** ** Any arithmetic: the gathered field is the serial result of the [q] trips *)
Section AnyProgram.
Context {A0 : Type} {N0 : Num A0} {Z0 : EqZ A0} (E : ext A0).
Hypothesis HE : ext_ok E.
Hypothesis HZ : is0 (n0 (A := A0)) = true.
Context {A P I S : Type} {N : Num A} {D : DivInto A S} {dP : Dflt P} {dI : Dflt I} {dS : Dflt S}.
Variables (b0 : base_ops I S S) (b1 : base_ops P I S).
Hypothesis U0 : any_usable E I S S b0.
Hypothesis U1 : any_usable E P I S b1.
Notation sp := (mk_space2 b0 b1).
Variables (bm : bmode) (p : nat).
Hypothesis Hp : distributable sp p.
Variables (z : zip_order) (zo : nat -> nat -> zip_order).
Hypothesis Hz : zip_ok z.
Hypothesis Hzo : forall r c, zip_ok (zo r c).
Variables (m : store P S) (par : nat -> store P S).
Hypothesis Hm : well_shaped [sp] m.
Hypothesis Hpar : pencils [sp] p m par.
Lemma mpi_of_serial (pr : program A P S) log m' : admissible (fun _ => z) [sp] 0 pr m [] -> serial_run (fun _ => z) [sp] 0 pr m [] = Ok (m', log) ->
  exists par', every_schedule (mpi_program bm zo p [sp] pr par) (map (fun r => (par' r, log)) (seq 0 p)).
Proof.
  intros Ha Er. destruct (C70_mpi_programs_behave_like_serial_programs A0 N0 Z0 E HE HZ A P I S N D dP dI dS [sp] bm p) with (zs := fun _ : nat => z) (zo := zo) (pr := pr) (m := m) (par := par) as (m1 & l1 & par' & E1 & _ & W); auto.
  { intros s [<-|[]]. auto. }
  rewrite Er in E1. injection E1 as <- <-. exists par'. exact W.
Qed.

Theorem C70_values_program : forall q (u y : arr P), proper [len_phys b0; len_phys b1] u -> (Z.of_nat (len_phys b0 * len_phys b1) < 2 ^ 31)%Z ->
  repeat_trip q (fun x => let* h := s2_forward z sp x in s2_backward z sp h) u = Ok y ->
  exists par', every_schedule (mpi_program (A := A) bm zo p [sp] (values_program q u) par) (map (fun r => (par' r, [SeenPhys y])) (seq 0 p)).
Proof.
  intros q u y Pu Hc Er.
  destruct (values_run (A := A) z sp q (Do (AllGatherPhys InY 0 0) (fun _ => Stop)) 1 (set_phys m InY (len_phys b0) (len_phys b1) 0 u) [] y) as (c' & m' & E1 & E2).
  { cbn [s2_base0 s2_base1 set_phys phys_arr spec_arr]. rewrite same_reg. exact Er. }
  apply (mpi_of_serial _ [SeenPhys y] m').
  - unfold values_program. cbn [admissible step_ok nth_error]. split. { exists sp. auto. } intros m1 l1 _. apply round_ok; try (exists sp; reflexivity).
    intros c m2 log. cbn [admissible step_ok nth_error]. split; [exists sp; auto|]. intros; exact Logic.I.
  - unfold values_program. rewrite (one_step z sp 0 _ _ _ _ (set_phys m InY (len_phys b0) (len_phys b1) 0 u)) by reflexivity. rewrite E1.
    cbn [serial_run serial_step find nth_error bind fst snd app s2_base0 s2_base1]. cbn [s2_base0 s2_base1] in E2. rewrite E2. reflexivity.
Qed.
Theorem C70_coefs_program : forall q (u y : arr S), proper [len_spec b0; len_spec b1] u -> (Z.of_nat (len_spec b0 * len_spec b1) < 2 ^ 31)%Z ->
  repeat_trip q (fun x => let* h := s2_backward z sp x in s2_forward z sp h) u = Ok y ->
  exists par', every_schedule (mpi_program (A := A) bm zo p [sp] (coefs_program q u) par) (map (fun r => (par' r, [SeenSpec y])) (seq 0 p)).
Proof.
  intros q u y Pu Hc Er.
  destruct (coefs_run (A := A) z sp q (Do (AllGatherSpec InX 0 0) (fun _ => Stop)) 1 (set_spec m InX (len_spec b0) (len_spec b1) 0 u) [] y) as (c' & m' & E1 & E2).
  { cbn [s2_base0 s2_base1 set_spec phys_arr spec_arr]. rewrite same_reg. exact Er. }
  apply (mpi_of_serial _ [SeenSpec y] m').
  - unfold coefs_program. cbn [admissible step_ok nth_error]. split. { exists sp. auto. } intros m1 l1 _. apply round_ok; try (exists sp; reflexivity).
    intros c m2 log. cbn [admissible step_ok nth_error]. split; [exists sp; auto|]. intros; exact Logic.I.
  - unfold coefs_program. rewrite (one_step z sp 0 _ _ _ _ (set_spec m InX (len_spec b0) (len_spec b1) 0 u)) by reflexivity. rewrite E1.
    cbn [serial_run serial_step find nth_error bind fst snd app s2_base0 s2_base1]. cbn [s2_base0 s2_base1] in E2. rewrite E2. reflexivity.
Qed.
Theorem C70_ortho_program : forall q (u y : arr S), proper [len_spec b0; len_spec b1] u -> (Z.of_nat (len_spec b0 * len_spec b1) < 2 ^ 31)%Z ->
  repeat_trip q (fun x => let* h := s2_to_ortho z sp x in s2_from_ortho z sp h) u = Ok y ->
  exists par', every_schedule (mpi_program (A := A) bm zo p [sp] (ortho_program q u) par) (map (fun r => (par' r, [SeenSpec y])) (seq 0 p)).
Proof.
  intros q u y Pu Hc Er.
  destruct (ortho_run (A := A) z sp q (Do (AllGatherSpec InX 0 0) (fun _ => Stop)) 1 (set_spec m InX (len_spec b0) (len_spec b1) 0 u) [] y) as (c' & m' & E1 & E2).
  { cbn [s2_base0 s2_base1 set_spec phys_arr spec_arr]. rewrite same_reg. exact Er. }
  apply (mpi_of_serial _ [SeenSpec y] m').
  - unfold ortho_program. cbn [admissible step_ok nth_error]. split. { exists sp. auto. } intros m1 l1 _. apply round_ok; try (exists sp; reflexivity).
    intros c m2 log. cbn [admissible step_ok nth_error]. split; [exists sp; auto|]. intros; exact Logic.I.
  - unfold ortho_program. rewrite (one_step z sp 0 _ _ _ _ (set_spec m InX (len_spec b0) (len_spec b1) 0 u)) by reflexivity. rewrite E1.
    cbn [serial_run serial_step find nth_error bind fst snd app s2_base0 s2_base1]. cbn [s2_base0 s2_base1] in E2. rewrite E2. reflexivity.
Qed.
End AnyProgram.
Print Assumptions C70_values_program.
Print Assumptions C70_coefs_program.
Print Assumptions C70_ortho_program.

(** ** In f64 and f32: end to end accuracy *)
Local Open Scope R_scope.

Theorem C70_values_program_f64 :
  forall E : ext f64, ext_ok E -> forall dl zt, 0 <= dl <= / 2000 -> 0 <= zt <= 1 ->
  forall r0 r1 P I S (b0 : base_ops I S S) (b1 : base_ops P I S) (eP : fel P) (eI : fel I) (eS : fel S),
  f64_orthogonal E dl zt r0 I S S b0 eI eS -> f64_orthogonal E dl zt r1 P I S b1 eP eI ->
  forall A (N : Num A) (D : DivInto A S) (dP : Dflt P) (dI : Dflt I) (dS : Dflt S),
  let sp := mk_space2 b0 b1 in let n0 := len_phys b0 in let n1 := len_phys b1 in
  forall bm p, distributable sp p -> (Z.of_nat (n0 * n1) < 2 ^ 31)%Z -> forall zo, (forall r c, zip_ok (zo r c)) ->
  forall (m : store P S) par, well_shaped [sp] m -> pencils [sp] p m par ->
  forall u : arr P, proper [n0; n1] u -> (forall i j, (i < n0)%nat -> (j < n1)%nat -> ef eP (get u [i; j])) ->
  let Sum := rsum n0 (fun i => rsum n1 (fun j => esize eP (get u [i; j]))) in Sum <= bpow radix2 700 ->
  forall q, 2 * INR q * (INR n0 * INR n1) * (178 * (dl + bpow radix2 (-53))) <= 1 ->
  exists y par', every_schedule (mpi_program (A := A) bm zo p [sp] (values_program q u) par) (map (fun r => (par' r, [SeenPhys y])) (seq 0 p)) /\ proper [n0; n1] y /\
    forall i j, (i < n0)%nat -> (j < n1)%nat -> ef eP (get y [i; j]) /\
      edist eP (get y [i; j]) (ev eP (get u [i; j])) <= 2 * INR q * (178 * (dl + bpow radix2 (-53)) * Sum + 90 * (INR n0 * INR n1) ^ 2 * (bpow radix2 (-1075) + zt)).
Proof.
  intros E HE dl zt Hd Hzt r0 r1 P I S b0 b1 eP eI eS H0 H1 A N D dP dI dS sp n0 n1 bm p Hp Hc zo Hzo m par Hm Hpar u Pu Fu Sum Su q HQ.
  destruct (C69_space2_values_f64 E HE dl zt Hd Hzt r0 r1 P I S S b0 b1 eP eI eS H0 H1 dP dI dS dS (zo O O) (Hzo O O) u Pu Fu Su q HQ) as (y & Er & Py & G).
  destruct (C70_values_program E HE eq_refl (A := A) b0 b1 (RndSpace.orth_usable _ _ _ _ _ _ _ _ _ _ H0) (RndSpace.orth_usable _ _ _ _ _ _ _ _ _ _ H1) bm p Hp (zo O O) zo (Hzo O O) Hzo m par Hm Hpar q u y Pu Hc Er) as (par' & W).
  exists y, par'. split; [exact W|]. split; [exact Py|]. exact G.
Qed.
Print Assumptions C70_values_program_f64.

Theorem C70_coefs_program_f64 :
  forall E : ext f64, ext_ok E -> forall dl zt, 0 <= dl -> 0 <= zt <= 1 ->
  forall k0 k1 r0 P I S (b0 : base_ops I S S) (b1 : base_ops P I S) (eP : fel P) (eI : fel I) (eS : fel S),
  f64_transform E dl zt k0 r0 I S S b0 eI eS -> f64_transform E dl zt k1 false P I S b1 eP eI -> k0 * k1 * (dl + bpow radix2 (-53)) <= / 2000 ->
  forall A (N : Num A) (D : DivInto A S) (dP : Dflt P) (dI : Dflt I) (dS : Dflt S),
  let sp := mk_space2 b0 b1 in let n0 := len_phys b0 in let n1 := len_phys b1 in let m0 := len_spec b0 in let m1 := len_spec b1 in
  forall bm p, distributable sp p -> (Z.of_nat (m0 * m1) < 2 ^ 31)%Z -> forall zo, (forall r c, zip_ok (zo r c)) ->
  forall (m : store P S) par, well_shaped [sp] m -> pencils [sp] p m par ->
  forall u : arr S, proper [m0; m1] u -> (forall i j, (i < m0)%nat -> (j < m1)%nat -> ef eS (get u [i; j])) ->
  let Sum := rsum m0 (fun i => rsum m1 (fun j => esize eS (get u [i; j]))) in Sum <= bpow radix2 700 ->
  forall q, (1 <= q)%nat -> 2 * INR q * (INR n0 * INR n1) * (385 * (k0 * k1) * (dl + bpow radix2 (-53))) <= 1 ->
  exists y par', every_schedule (mpi_program (A := A) bm zo p [sp] (coefs_program q u) par) (map (fun r => (par' r, [SeenSpec y])) (seq 0 p)) /\ proper [m0; m1] y /\
    forall i j, (i < m0)%nat -> (j < m1)%nat -> ef eS (get y [i; j]) /\
      edist eS (get y [i; j]) (kept b0 r0 i (ev eS (get u [i; j]))) <= 2 * INR q * (385 * (k0 * k1) * (dl + bpow radix2 (-53)) * Sum + 100 * (k0 * k1) * (INR n0 * INR n1) ^ 2 * (bpow radix2 (-1075) + zt)).
Proof.
  intros E HE dl zt Hd Hzt k0 k1 r0 P I S b0 b1 eP eI eS H0 H1 HK A N D dP dI dS sp n0 n1 m0 m1 bm p Hp Hc zo Hzo m par Hm Hpar u Pu Fu Sum Su q Hq HQ.
  destruct (C69_space2_coefficients_f64 E HE dl zt Hd Hzt k0 k1 r0 P I S S b0 b1 eP eI eS H0 H1 HK dP dI dS dS (zo O O) (Hzo O O) u Pu Fu Su q Hq HQ) as (y & Er & Py & G).
  destruct (C70_coefs_program E HE eq_refl (A := A) b0 b1 (RndSpace2.tr_usable _ _ _ _ _ _ _ _ _ _ _ H0) (RndSpace2.tr_usable _ _ _ _ _ _ _ _ _ _ _ H1) bm p Hp (zo O O) zo (Hzo O O) Hzo m par Hm Hpar q u y Pu Hc Er) as (par' & W).
  exists y, par'. split; [exact W|]. split; [exact Py|]. exact G.
Qed.
Print Assumptions C70_coefs_program_f64.

Theorem C70_ortho_program_f64 :
  forall E : ext f64, ext_ok E -> forall K0 L0 F0 K1 L1 F1 P I S (b0 : base_ops I S S) (b1 : base_ops P I S) (e : fel S),
  f64_from_ortho E K0 L0 I S S b0 e F0 -> f64_from_ortho E K1 L1 P I S b1 e F1 ->
  forall A (N : Num A) (D : DivInto A S) (dP : Dflt P) (dI : Dflt I) (dS : Dflt S),
  let sp := mk_space2 b0 b1 in let n0 := len_phys b0 in let m0 := len_spec b0 in let o0 := len_orth b0 in let n1 := len_phys b1 in let m1 := len_spec b1 in let o1 := len_orth b1 in
  forall bm p, distributable sp p -> (Z.of_nat (m0 * m1) < 2 ^ 31)%Z -> forall zo, (forall r c, zip_ok (zo r c)) ->
  forall (m : store P S) par, well_shaped [sp] m -> pencils [sp] p m par ->
  forall u : arr S, proper [m0; m1] u -> (forall i j, (i < m0)%nat -> (j < m1)%nat -> ef e (get u [i; j])) ->
  let Sum := rsum m0 (fun i => rsum m1 (fun j => esize e (get u [i; j]))) in Sum <= bpow radix2 600 ->
  forall q, 2 * INR q * (INR m0 * INR m1) * ((K0 * K1) * (5 * (L0 + L1) + 13 * (INR o0 * INR o1)) * bpow radix2 (-53)) <= 1 ->
  exists y par', every_schedule (mpi_program (A := A) bm zo p [sp] (ortho_program q u) par) (map (fun r => (par' r, [SeenSpec y])) (seq 0 p)) /\ proper [m0; m1] y /\
    forall i j, (i < m0)%nat -> (j < m1)%nat -> ef e (get y [i; j]) /\
      edist e (get y [i; j]) (ev e (get u [i; j])) <= 2 * INR q * ((K0 * K1) * (5 * (L0 + L1) + 13 * (INR o0 * INR o1)) * bpow radix2 (-53) * Sum + (111 * (K0 * K1) * (INR o0 * INR o1) + 3 * (L0 * L1)) * (INR n0 * INR n1) * bpow radix2 (-1075)).
Proof.
  intros E HE K0 L0 F0 K1 L1 F1 P I S b0 b1 e H0 H1 A N D dP dI dS sp n0 m0 o0 n1 m1 o1 bm p Hp Hc zo Hzo m par Hm Hpar u Pu Fu Sum Su q HQ.
  destruct (C69_space2_ortho_f64 E HE K0 L0 F0 K1 L1 F1 P I S S b0 b1 e H0 H1 dP dI dS dS (zo O O) (Hzo O O) u Pu Fu Su q HQ) as (y & Er & Py & G).
  destruct (C70_ortho_program E HE eq_refl (A := A) b0 b1 (RndOrtho.from_usable _ _ _ _ _ _ _ _ _ H0) (RndOrtho.from_usable _ _ _ _ _ _ _ _ _ H1) bm p Hp (zo O O) zo (Hzo O O) Hzo m par Hm Hpar q u y Pu Hc Er) as (par' & W).
  exists y, par'. split; [exact W|]. split; [exact Py|]. exact G.
Qed.
Print Assumptions C70_ortho_program_f64.

Theorem C70_values_program_f32 :
  forall E : ext f32, ext_ok E -> forall dl zt, 0 <= dl <= / 2000 -> 0 <= zt <= 1 ->
  forall r0 r1 P I S (b0 : base_ops I S S) (b1 : base_ops P I S) (eP : fel P) (eI : fel I) (eS : fel S),
  f32_orthogonal E dl zt r0 I S S b0 eI eS -> f32_orthogonal E dl zt r1 P I S b1 eP eI ->
  forall A (N : Num A) (D : DivInto A S) (dP : Dflt P) (dI : Dflt I) (dS : Dflt S),
  let sp := mk_space2 b0 b1 in let n0 := len_phys b0 in let n1 := len_phys b1 in
  forall bm p, distributable sp p -> (Z.of_nat (n0 * n1) < 2 ^ 31)%Z -> forall zo, (forall r c, zip_ok (zo r c)) ->
  forall (m : store P S) par, well_shaped [sp] m -> pencils [sp] p m par ->
  forall u : arr P, proper [n0; n1] u -> (forall i j, (i < n0)%nat -> (j < n1)%nat -> ef eP (get u [i; j])) ->
  let Sum := rsum n0 (fun i => rsum n1 (fun j => esize eP (get u [i; j]))) in Sum <= bpow radix2 50 ->
  forall q, 2 * INR q * (INR n0 * INR n1) * (178 * (dl + bpow radix2 (-24))) <= 1 ->
  exists y par', every_schedule (mpi_program (A := A) bm zo p [sp] (values_program q u) par) (map (fun r => (par' r, [SeenPhys y])) (seq 0 p)) /\ proper [n0; n1] y /\
    forall i j, (i < n0)%nat -> (j < n1)%nat -> ef eP (get y [i; j]) /\
      edist eP (get y [i; j]) (ev eP (get u [i; j])) <= 2 * INR q * (178 * (dl + bpow radix2 (-24)) * Sum + 90 * (INR n0 * INR n1) ^ 2 * (bpow radix2 (-150) + zt)).
Proof.
  intros E HE dl zt Hd Hzt r0 r1 P I S b0 b1 eP eI eS H0 H1 A N D dP dI dS sp n0 n1 bm p Hp Hc zo Hzo m par Hm Hpar u Pu Fu Sum Su q HQ.
  destruct (C69_space2_values_f32 E HE dl zt Hd Hzt r0 r1 P I S S b0 b1 eP eI eS H0 H1 dP dI dS dS (zo O O) (Hzo O O) u Pu Fu Su q HQ) as (y & Er & Py & G).
  destruct (C70_values_program E HE eq_refl (A := A) b0 b1 (RndSpace32.orth_usable _ _ _ _ _ _ _ _ _ _ H0) (RndSpace32.orth_usable _ _ _ _ _ _ _ _ _ _ H1) bm p Hp (zo O O) zo (Hzo O O) Hzo m par Hm Hpar q u y Pu Hc Er) as (par' & W).
  exists y, par'. split; [exact W|]. split; [exact Py|]. exact G.
Qed.
Print Assumptions C70_values_program_f32.

Theorem C70_coefs_program_f32 :
  forall E : ext f32, ext_ok E -> forall dl zt, 0 <= dl -> 0 <= zt <= 1 ->
  forall k0 k1 r0 P I S (b0 : base_ops I S S) (b1 : base_ops P I S) (eP : fel P) (eI : fel I) (eS : fel S),
  f32_transform E dl zt k0 r0 I S S b0 eI eS -> f32_transform E dl zt k1 false P I S b1 eP eI -> k0 * k1 * (dl + bpow radix2 (-24)) <= / 2000 ->
  forall A (N : Num A) (D : DivInto A S) (dP : Dflt P) (dI : Dflt I) (dS : Dflt S),
  let sp := mk_space2 b0 b1 in let n0 := len_phys b0 in let n1 := len_phys b1 in let m0 := len_spec b0 in let m1 := len_spec b1 in
  forall bm p, distributable sp p -> (Z.of_nat (m0 * m1) < 2 ^ 31)%Z -> forall zo, (forall r c, zip_ok (zo r c)) ->
  forall (m : store P S) par, well_shaped [sp] m -> pencils [sp] p m par ->
  forall u : arr S, proper [m0; m1] u -> (forall i j, (i < m0)%nat -> (j < m1)%nat -> ef eS (get u [i; j])) ->
  let Sum := rsum m0 (fun i => rsum m1 (fun j => esize eS (get u [i; j]))) in Sum <= bpow radix2 50 ->
  forall q, (1 <= q)%nat -> 2 * INR q * (INR n0 * INR n1) * (385 * (k0 * k1) * (dl + bpow radix2 (-24))) <= 1 ->
  exists y par', every_schedule (mpi_program (A := A) bm zo p [sp] (coefs_program q u) par) (map (fun r => (par' r, [SeenSpec y])) (seq 0 p)) /\ proper [m0; m1] y /\
    forall i j, (i < m0)%nat -> (j < m1)%nat -> ef eS (get y [i; j]) /\
      edist eS (get y [i; j]) (kept b0 r0 i (ev eS (get u [i; j]))) <= 2 * INR q * (385 * (k0 * k1) * (dl + bpow radix2 (-24)) * Sum + 100 * (k0 * k1) * (INR n0 * INR n1) ^ 2 * (bpow radix2 (-150) + zt)).
Proof.
  intros E HE dl zt Hd Hzt k0 k1 r0 P I S b0 b1 eP eI eS H0 H1 HK A N D dP dI dS sp n0 n1 m0 m1 bm p Hp Hc zo Hzo m par Hm Hpar u Pu Fu Sum Su q Hq HQ.
  destruct (C69_space2_coefficients_f32 E HE dl zt Hd Hzt k0 k1 r0 P I S S b0 b1 eP eI eS H0 H1 HK dP dI dS dS (zo O O) (Hzo O O) u Pu Fu Su q Hq HQ) as (y & Er & Py & G).
  destruct (C70_coefs_program E HE eq_refl (A := A) b0 b1 (RndSpace2_32.tr_usable _ _ _ _ _ _ _ _ _ _ _ H0) (RndSpace2_32.tr_usable _ _ _ _ _ _ _ _ _ _ _ H1) bm p Hp (zo O O) zo (Hzo O O) Hzo m par Hm Hpar q u y Pu Hc Er) as (par' & W).
  exists y, par'. split; [exact W|]. split; [exact Py|]. exact G.
Qed.
Print Assumptions C70_coefs_program_f32.

Theorem C70_ortho_program_f32 :
  forall E : ext f32, ext_ok E -> forall K0 L0 F0 K1 L1 F1 P I S (b0 : base_ops I S S) (b1 : base_ops P I S) (e : fel S),
  f32_from_ortho E K0 L0 I S S b0 e F0 -> f32_from_ortho E K1 L1 P I S b1 e F1 ->
  forall A (N : Num A) (D : DivInto A S) (dP : Dflt P) (dI : Dflt I) (dS : Dflt S),
  let sp := mk_space2 b0 b1 in let n0 := len_phys b0 in let m0 := len_spec b0 in let o0 := len_orth b0 in let n1 := len_phys b1 in let m1 := len_spec b1 in let o1 := len_orth b1 in
  forall bm p, distributable sp p -> (Z.of_nat (m0 * m1) < 2 ^ 31)%Z -> forall zo, (forall r c, zip_ok (zo r c)) ->
  forall (m : store P S) par, well_shaped [sp] m -> pencils [sp] p m par ->
  forall u : arr S, proper [m0; m1] u -> (forall i j, (i < m0)%nat -> (j < m1)%nat -> ef e (get u [i; j])) ->
  let Sum := rsum m0 (fun i => rsum m1 (fun j => esize e (get u [i; j]))) in Sum <= bpow radix2 40 ->
  forall q, 2 * INR q * (INR m0 * INR m1) * ((K0 * K1) * (5 * (L0 + L1) + 13 * (INR o0 * INR o1)) * bpow radix2 (-24)) <= 1 ->
  exists y par', every_schedule (mpi_program (A := A) bm zo p [sp] (ortho_program q u) par) (map (fun r => (par' r, [SeenSpec y])) (seq 0 p)) /\ proper [m0; m1] y /\
    forall i j, (i < m0)%nat -> (j < m1)%nat -> ef e (get y [i; j]) /\
      edist e (get y [i; j]) (ev e (get u [i; j])) <= 2 * INR q * ((K0 * K1) * (5 * (L0 + L1) + 13 * (INR o0 * INR o1)) * bpow radix2 (-24) * Sum + (111 * (K0 * K1) * (INR o0 * INR o1) + 3 * (L0 * L1)) * (INR n0 * INR n1) * bpow radix2 (-150)).
Proof.
  intros E HE K0 L0 F0 K1 L1 F1 P I S b0 b1 e H0 H1 A N D dP dI dS sp n0 m0 o0 n1 m1 o1 bm p Hp Hc zo Hzo m par Hm Hpar u Pu Fu Sum Su q HQ.
  destruct (C69_space2_ortho_f32 E HE K0 L0 F0 K1 L1 F1 P I S S b0 b1 e H0 H1 dP dI dS dS (zo O O) (Hzo O O) u Pu Fu Su q HQ) as (y & Er & Py & G).
  destruct (C70_ortho_program E HE eq_refl (A := A) b0 b1 (RndOrtho32.from_usable _ _ _ _ _ _ _ _ _ H0) (RndOrtho32.from_usable _ _ _ _ _ _ _ _ _ H1) bm p Hp (zo O O) zo (Hzo O O) Hzo m par Hm Hpar q u y Pu Hc Er) as (par' & W).
  exists y, par'. split; [exact W|]. split; [exact Py|]. exact G.
Qed.
Print Assumptions C70_ortho_program_f32.

(** The hypotheses are met: a thousand trips of the field of the C69 example on a
    FourierR2c(4) x Chebyshev(5) space, on one, two or three ranks: the field that
    every rank gathers is within 2^-27 of the one the root scattered. *)
Local Notation u64 := (bpow radix2 (-53)).
Local Notation eta64 := (bpow radix2 (-1075)).
Example C70_example_thousand_trips :
  exists (E : ext f64) b1, ext_ok E /\ let sp := mk_space2 (r2c_ops_x E (mk_r2c 4 3)) (r2r_ops_x (T := cplx f64) E b1) in new_chebyshev 5 = Ok b1 /\
  exists m par, (forall p, well_shaped [sp] m /\ pencils [sp] p m (par p)) /\
  forall p, (1 <= p <= 3)%nat -> forall bm zo, (forall r c, zip_ok (zo r c)) ->
  exists y par', every_schedule (mpi_program (A := f64) bm zo p [sp] (values_program 1000 field45) (par p)) (map (fun r => (par' r, [SeenPhys y])) (seq 0 p)) /\
    forall i j, (i < 4)%nat -> (j < 5)%nat -> is_finite (get y [i; j]) = true /\ Rabs (B2R (get y [i; j]) - B2R (get field45 [i; j])) <= bpow radix2 (-27).
Proof.
  destruct C56_accurate_bases_exist as (E & HE & HC & HR & _). destruct (HC 5%nat ltac:(lia) ltac:(cbn; lia) (cplx f64) _) as (b1 & N1 & H1). destruct (HR 4%nat ltac:(lia) ltac:(cbn; lia)) as (f & N0 & H0).
  exists E, b1. split; [exact HE|]. intros sp. split; auto. injection N0 as <-.
  set (m := mk_store (fun _ n0 n1 _ => azeros dflt [n0; n1]) (fun _ n0 n1 _ => azeros dflt [n0; n1]) : store f64 (cplx f64)).
  set (par := (fun p r => mk_store (fun l n0 n1 _ => match l with InX => xpen n0 n1 p (azeros dflt [n0; n1]) r true | InY => ypen n0 n1 p (azeros dflt [n0; n1]) r true end)
                                   (fun l n0 n1 _ => match l with InX => xpen n0 n1 p (azeros dflt [n0; n1]) r true | InY => ypen n0 n1 p (azeros dflt [n0; n1]) r true end)) : nat -> nat -> store f64 (cplx f64)).
  exists m, par.
  assert (HM : forall p, well_shaped [sp] m /\ pencils [sp] p m (par p)).
  { intros p. split; [split; intros; apply proper_zeros|]. split; intros n0 n1 j _; (split; [apply outx|apply outy]). }
  split; [exact HM|]. intros p Hp bm zo HZO.
  apply new_chebyshev_inv in N1 as [_ ->].
  assert (V : forall j, (j < 5)%nat -> is_finite tenths.[j] = true /\ Rabs (B2R tenths.[j]) <= 1).
  { intros j Hj. destruct j as [|[|[|[|[|]]]]]; try lia; (split; [vm_compute; reflexivity|]); rewrite <- SF2R_B2SF;
      match goal with |- Rabs (SF2R _ ?t) <= _ => let t' := eval vm_compute in t in replace t with t' by (vm_compute; reflexivity) end;
      cbn [SF2R SpecFloat.cond_Zopp]; unfold F2R; cbn [Fnum Fexp cond_Zopp]; rewrite Rabs_pos_eq; cbn; lra. }
  assert (VG : forall i j, (i < 4)%nat -> (j < 5)%nat -> get field45 [i; j] = tenths.[j]).
  { intros i j Hi Hj. destruct i as [|[|[|[|]]]]; try lia; destruct j as [|[|[|[|[|]]]]]; try lia; reflexivity. }
  set (S := rsum 4 (fun i => rsum 5 (fun j => esize f64_real (get field45 [i; j])))).
  assert (S1 : 0 <= S <= 32). { split. apply rsum_pos; intros; apply rsum_pos; intros; apply esize_pos.
    eapply Rle_trans. apply (rsum_le 4 _ (fun _ => 5)). intros i Hi. eapply Rle_trans. apply (rsum_le 5 _ (fun _ => 1)). intros j Hj. rewrite VG by auto. unfold esize. cbn [ev f64_real fst snd]. rewrite Rabs_R0. destruct (V j Hj). unfold f64_val. lra.
    rewrite rsum_const. cbn; lra. rewrite rsum_const. cbn; lra. }
  assert (I : INR 1000 = 1000) by (rewrite INR_IZR_INZ; reflexivity).
  destruct (C70_values_program_f64 E HE (bpow radix2 (-52)) eta64 ltac:(cbn; lra) ltac:(pose proof PropTrans2.eta1; lra) true false _ _ _ _ _ f64_real f64_real f64_cplx H0 H1 f64 _ _ dflt_num dflt_num dflt_vec bm p) with (zo := zo) (m := m) (par := par p) (u := field45) (q := 1000%nat) as (y & par' & Ey & _ & H); [| |exact HZO|exact (proj1 (HM p))|exact (proj2 (HM p))|..].
  - apply (small_distributable _ p 4 5 3 5); try reflexivity; try lia.
  - reflexivity.
  - repeat split.
  - intros i j Hi Hj. rewrite (VG i j Hi Hj). apply V; auto.
  - change (S <= bpow radix2 700). apply Rle_trans with (bpow radix2 5). change (bpow radix2 5) with 32. apply S1. apply bpow_le; lia.
  - rewrite I. change (2 * 1000 * (INR 4 * INR 5) * (178 * (bpow radix2 (-52) + bpow radix2 (-53))) <= 1).
    replace (INR 5) with 5 by (cbn; lra). replace (INR 4) with 4 by (cbn; lra). change (bpow radix2 (-52)) with (/ IZR (2 ^ 52)). change (bpow radix2 (-53)) with (/ IZR (2 ^ 53)). cbv [Z.pow Z.pow_pos Pos.iter Z.mul Pos.mul]. lra.
  - exists y, par'. split; [exact Ey|]. intros i j Hi Hj. destruct (H i j Hi Hj) as [F B]. split; [exact F|]. clear H Ey. rewrite I in B.
    change (edist f64_real (get y [i; j]) (ev f64_real (get field45 [i; j])) <= 2 * 1000 * (178 * (bpow radix2 (-52) + u64) * S + 90 * (INR 4 * INR 5) ^ 2 * (eta64 + eta64))) in B.
    unfold edist in B. cbn [ev f64_real fst snd] in B. rewrite (Rminus_diag_eq 0 0 eq_refl), Rabs_R0, Rplus_0_r in B. eapply Rle_trans; [exact B|]. clear B F V VG.
    assert (E1 : eta64 <= bpow radix2 (-60)) by (apply bpow_le; lia). pose proof (bpow_gt_0 radix2 (-1075)) as E0. revert S1. generalize S. revert E1 E0. generalize eta64. clear. intros et E1 E0 S S1.
    change (bpow radix2 (-60)) with (/ IZR (2 ^ 60)) in E1. change (bpow radix2 (-52)) with (/ IZR (2 ^ 52)). change (bpow radix2 (-53)) with (/ IZR (2 ^ 53)). change (bpow radix2 (-27)) with (/ IZR (2 ^ 27)).
    replace (INR 5) with 5 by (cbn; lra). replace (INR 4) with 4 by (cbn; lra). cbv [Z.pow Z.pow_pos Pos.iter Z.mul Pos.mul] in *. lra.
Qed.
