(** C71: a program that mixes the serial methods of any spaces of one, two or
    three axes with their parallel variants has exactly one outcome: that of
    the program in which every call is serial. *)
From Coq Require Import List Arith Lia Bool ZArith Reals FunctionalExtensionality.
From Verif Require Import Base Num Linalg Stencils Cheb Compo CompoProofs Fourier FourierF64 NdArray NdArrayFacts AxisFacts Bases BaseLin LibBase AxisProps PropAxis Space
  SpaceFacts SpaceBases SpaceStages PropSpace PropSpace4 ExtLib AnyArith ExtFacts AnyBase PropAny PropAny2 PropAny3 PropSpace6 ParProgram.
Import ListNotations.
Local Open Scope nat_scope.

(** ** The methods keep the arrays within what ndarray can hold *)
Lemma put_lane_length {T} sh ax (s : list T) : forall l j, length (put_lane sh ax l j s) = length l.
Proof.
  intros l j. unfold put_lane. generalize (combine (seq 0 (axlen sh ax)) s). intros c. revert l.
  induction c as [|[k x] c IH]; intros l; cbn [fold_left]; auto. rewrite IH. apply upd_length.
Qed.
Lemma for_each_inv {I S} (Q : S -> Prop) (body : I -> S -> res S) :
  (forall i s s', Q s -> body i s = Ok s' -> Q s') -> forall l s s', Q s -> for_each l body s = Ok s' -> Q s'.
Proof.
  intros H l. induction l as [|i l IH]; intros s s' Hs E; cbn [for_each] in E; [injection E as <-; auto|].
  destruct (body i s) as [s1| |] eqn:E1; cbn [bind] in E; try discriminate. eauto.
Qed.
Ltac splitb H := match type of H with
  | bind ?m _ = Ok _ => let E := fresh "E" in destruct m eqn:E; cbn [bind] in H; try discriminate H
  end.
Ltac inv_each Q := match goal with
  | E : for_each ?l ?b ?s = Ok ?x |- _ => refine (for_each_inv Q b _ l s x eq_refl E)
  end.
Lemma apply_wf {T1 T2} {d1 : Dflt T1} {d2 : Dflt T2} z f l1 l2 order (i : arr T1) (o : arr T2) ax r :
  wf o -> apply_along_axis z f l1 l2 order i o ax = Ok r -> wf r.
Proof.
  intros Ho H. unfold apply_along_axis in H. do 5 splitb H. destruct (ax =? _).
  - do 2 splitb H. injection H as <-. unfold wf in *. cbn [dat shp]. rewrite <- Ho.
    inv_each (fun l : list T2 => length l = length (dat o)).
    intros j s s' Hs X. cbv beta iota in X. splitb X. injection X as <-. rewrite put_lane_length. auto.
  - do 3 splitb H. injection H as <-. unfold wf in *. cbn [dat shp]. rewrite <- Ho.
    inv_each (fun st : list T2 * list T2 => length (fst st) = length (dat o)).
    intros j [s sc] [s' sc'] Hs X. cbv beta iota in X. splitb X. injection X as <- <-. cbn [fst] in *. rewrite put_lane_length. auto.
Qed.
Lemma gradient_axis_wf {T1 T2} {d1 : Dflt T1} {d2 : Dflt T2} z f l1 l2 order (i : arr T1) (o : arr T2) ax r :
  wf o -> gradient_along_axis z f l1 l2 order i o ax = Ok r -> wf r.
Proof.
  intros Ho H. unfold gradient_along_axis in H. do 5 splitb H. destruct (ax =? _).
  - do 2 splitb H. injection H as <-. unfold wf in *. cbn [dat shp]. rewrite <- Ho.
    inv_each (fun l : list T2 => length l = length (dat o)).
    intros j s s' Hs X. cbv beta iota in X. splitb X. injection X as <-. rewrite put_lane_length. auto.
  - do 3 splitb H. injection H as <-. unfold wf in *. cbn [dat shp]. rewrite <- Ho.
    inv_each (fun st : list T2 * list T2 => length (fst st) = length (dat o)).
    intros j [s sc] [s' sc'] Hs X. cbv beta iota in X. splitb X. injection X as <- <-. cbn [fst] in *. rewrite put_lane_length. auto.
Qed.
Lemma azeros_wf {T} (z : T) sh : wf (azeros z sh).
Proof. unfold wf, azeros. cbn. apply repeat_length. Qed.
Lemma resized_wf {T1 T2} (z : T2) (a : arr T1) n ax o : array_resized_axis z a n ax = Ok o -> wf o.
Proof. unfold array_resized_axis. intros H. splitb H. injection H as <-. apply azeros_wf. Qed.
Lemma gradient_wf {P S T} {dT : Dflt T} zo (b : base_ops P S T) i n ax r : gradient zo b i n ax = Ok r -> wf r.
Proof.
  unfold gradient, gradient_inplace. intros H. splitb H. apply resized_wf in E. eapply gradient_axis_wf; eauto.
Qed.
Lemma scale_wf {A T} {D : DivInto A T} (o : arr T) (sc : A) : wf o -> wf (scale_arr o sc).
Proof. unfold wf, scale_arr. cbn. rewrite map_length. auto. Qed.

Section Main.
Context {A P S : Type} {N : Num A} {D : DivInto A S} {dP : Dflt P} {dS : Dflt S}.
Notation api := (@api A P S).

(** what C53 says of each space, for the serial methods in any order of lanes *)
Definition same_api (x y : api) : Prop :=
  (forall i o r, wf o -> (forward_inplace_par_ x i o r <-> r = forward_inplace_ser y i o)) /\
  (forall i o r, wf o -> (backward_inplace_par_ x i o r <-> r = backward_inplace_ser y i o)) /\
  (forall i o r, wf o -> (to_ortho_inplace_par_ x i o r <-> r = to_ortho_inplace_ser y i o)) /\
  (forall i o r, wf o -> (from_ortho_inplace_par_ x i o r <-> r = from_ortho_inplace_ser y i o)) /\
  (forall i r, forward_par_ x i r <-> r = forward_ser y i) /\
  (forall i r, backward_par_ x i r <-> r = backward_ser y i) /\
  (forall i r, to_ortho_par_ x i r <-> r = to_ortho_ser y i) /\
  (forall i r, from_ortho_par_ x i r <-> r = from_ortho_ser y i) /\
  (forall i g r, gradient_par_ x i g r <-> r = gradient_ser y i g).
Definition keeps_api (x : api) : Prop :=
  (forall i o r, wf o -> forward_inplace_ser x i o = Ok r -> wf r) /\
  (forall i o r, wf o -> backward_inplace_ser x i o = Ok r -> wf r) /\
  (forall i o r, wf o -> to_ortho_inplace_ser x i o = Ok r -> wf r) /\
  (forall i o r, wf o -> from_ortho_inplace_ser x i o = Ok r -> wf r) /\
  (forall i r, forward_ser x i = Ok r -> wf r) /\
  (forall i r, backward_ser x i = Ok r -> wf r) /\
  (forall i r, to_ortho_ser x i = Ok r -> wf r) /\
  (forall i r, from_ortho_ser x i = Ok r -> wf r) /\
  (forall i g r, gradient_ser x i g = Ok r -> wf r).
Definition good (sp : zip_order -> api) : Prop :=
  forall zo zs, zip_ok zo -> zip_ok zs -> same_api (sp zo) (sp zs) /\ keeps_api (sp zs).

Ltac nine := split; [|split; [|split; [|split; [|split; [|split; [|split; [|split]]]]]]].
Ltac keep H := cbn [forward_ser forward_inplace_ser backward_ser backward_inplace_ser to_ortho_ser to_ortho_inplace_ser from_ortho_ser from_ortho_inplace_ser api1 api2 api3] in H;
  unfold s1_forward, s1_forward_inplace, s1_backward, s1_backward_inplace, s1_to_ortho, s1_to_ortho_inplace, s1_from_ortho, s1_from_ortho_inplace, s2_forward, s2_forward_inplace, s2_backward, s2_backward_inplace, s2_to_ortho, s2_to_ortho_inplace, s2_from_ortho, s2_from_ortho_inplace, s3_forward, s3_forward_inplace, s3_backward, s3_backward_inplace, s3_to_ortho, s3_to_ortho_inplace, s3_from_ortho, s3_from_ortho_inplace in H;
  repeat splitb H; unfold forward_inplace, backward_inplace, to_ortho_inplace, from_ortho_inplace in H; apply apply_wf in H; auto using azeros_wf.

Lemma lib_good {A0} {N0 : Num A0} {Z0 : EqZ A0} (E : ext A0) (sp : zip_order -> api) :
  ext_ok E -> is0 (n0 (A := A0)) = true -> library_space E sp -> good sp.
Proof.
  intros HE HZ L zo zs Ho Hs. destruct L as [b0 im0 H0 I0 | I dI b0 b1 im0 im1 H0 H1 I0 I1 | I J dI dJ b0 b1 b2 im0 im1 im2 H0 H1 H2 I0 I1 I2].
  - split.
    + destruct (C53_space1_par_equals_serial A0 N0 Z0 E HE HZ _ _ _ b0 H0 _ _ _ zs im0 Hs I0) as (X1 & X2 & X3 & X4 & X5 & X6 & X7 & X8 & X9).
      nine; auto. intros i g r. apply X9.
    + unfold keeps_api. nine; [intros i o r W X; keep X .. | intros i r X; keep X | intros i r X; keep X | intros i r X; keep X | intros i r X; keep X | intros i g r X].
      cbn [gradient_ser api1] in X. unfold s1_gradient in X. splitb X. injection X as <-. apply gradient_wf in E0.
      destruct (opt_map _ _); auto using scale_wf.
  - split.
    + destruct (C53_space2_par_equals_serial A0 N0 Z0 E HE HZ _ _ _ _ b0 b1 H0 H1 _ _ _ _ zs im0 im1 Hs I0 I1) as (X1 & X2 & X3 & X4 & X5 & X6 & X7 & X8 & X9).
      nine; auto. intros i g r. apply X9.
    + unfold keeps_api. nine; [intros i o r W X; keep X .. | intros i r X; keep X | intros i r X; keep X | intros i r X; keep X | intros i r X; keep X | intros i g r X].
      cbn [gradient_ser api2] in X. unfold s2_gradient in X. splitb X. splitb X. injection X as <-. apply gradient_wf in E1.
      unfold s2_scale. destruct (opt_map _ _) as [[s0 s1]|]; auto using scale_wf.
  - split.
    + destruct (C53_space3_par_equals_serial A0 N0 Z0 E HE HZ _ _ _ _ _ b0 b1 b2 H0 H1 H2 _ _ _ _ _ zs im0 im1 im2 Hs I0 I1 I2) as (X1 & X2 & X3 & X4 & X5 & X6 & X7 & X8 & X9).
      nine; auto. intros i g r. apply X9.
    + unfold keeps_api. nine; [intros i o r W X; keep X .. | intros i r X; keep X | intros i r X; keep X | intros i r X; keep X | intros i r X; keep X | intros i g r X].
      cbn [gradient_ser api3] in X. unfold s3_gradient in X. splitb X. splitb X. splitb X. injection X as <-. apply gradient_wf in E2.
      unfold s3_scale. destruct (snd g) as [[[s0 s1] s2]|]; auto using scale_wf.
Qed.
(** ** One call *)
Notation to_spec m j outs := (par_then outs (fun a r => r = Ok (put_spectral m j a))).
Lemma call_eq {X} par (ser ser' : res X) outs : (forall r, outs r <-> r = ser) -> (forall r, outs r <-> r = ser') ->
  forall r, call par ser outs r <-> r = ser'.
Proof.
  intros H H' r. destruct par; cbn [call]; auto. assert (E : ser = ser') by (apply H', H; reflexivity). rewrite E. reflexivity.
Qed.
Lemma put_spectral_wf (m : pstore P S) j a : all_wf m -> wf a -> all_wf (put_spectral m j a).
Proof. intros H Ha k. cbn. split; [apply H|]. destruct (k =? j); [auto|apply H]. Qed.
Lemma put_physical_wf (m : pstore P S) j a : all_wf m -> wf a -> all_wf (put_physical m j a).
Proof. intros H Ha k. cbn. split; [|apply H]. destruct (k =? j); [auto|apply H]. Qed.

Variable sps : list (zip_order -> api).
Hypothesis Hsps : forall sp, In sp sps -> good sp.
Lemma get_good s sp : get_space sps s = Ok sp -> good sp.
Proof. unfold get_space. destruct (nth_error sps s) eqn:E; intros H; [injection H as <-|discriminate]. apply Hsps. eapply nth_error_In; eauto. Qed.
Lemma bind_eq {X Y} (m : res X) (k : X -> res Y -> Prop) (k' : X -> res Y) r :
  (forall a, m = Ok a -> (k a r <-> r = k' a)) -> (then_par m k r <-> r = bind m k').
Proof. intros H. destruct m; cbn [then_par bind]; auto; reflexivity. Qed.

Lemma step_eq zo zs st m : zip_ok zo -> zip_ok zs -> all_wf m ->
  forall r, step_outcomes zo sps st m r <-> r = serial_call zs sps st m.
Proof.
  intros Ho Hs W r. assert (Wp : forall k, wf (physical m k)) by (intros; apply W). assert (Ws : forall k, wf (spectral m k)) by (intros; apply W).
  destruct st as [par inp s i j | par inp s i j | par inp s i j | par inp s i j | par s i j g | f]; cbn [step_outcomes serial_call]; [..|reflexivity];
    apply bind_eq; intros sp Hsp; destruct (get_good _ _ Hsp zo zs Ho Hs) as [(X1 & X2 & X3 & X4 & X5 & X6 & X7 & X8 & X9) _];
    destruct (get_good _ _ Hsp zo zo Ho Ho) as [(Y1 & Y2 & Y3 & Y4 & Y5 & Y6 & Y7 & Y8 & Y9) _];
    apply par_then_eq; try (intros; reflexivity); try destruct inp; apply call_eq; auto.
Qed.
Lemma step_wf zs st m m' : zip_ok zs -> all_wf m -> (match st with PUser f => f m = Ok m' -> all_wf m' | _ => True end) ->
  serial_call zs sps st m = Ok m' -> all_wf m'.
Proof.
  intros Hs W U. assert (Wp : forall k, wf (physical m k)) by (intros; apply W). assert (Ws : forall k, wf (spectral m k)) by (intros; apply W).
  destruct st as [par inp s i j | par inp s i j | par inp s i j | par inp s i j | par s i j g | f]; cbn [serial_call]; [..|auto];
    intros H; splitb H; splitb H; injection H as <-;
    destruct (get_good _ _ E zs zs Hs Hs) as [_ (X1 & X2 & X3 & X4 & X5 & X6 & X7 & X8 & X9)];
    first [apply put_spectral_wf | apply put_physical_wf]; auto; try destruct inp; eauto.
Qed.

Lemma program_eq zo zs pr : (forall c, zip_ok (zo c)) -> (forall c, zip_ok (zs c)) -> sane pr ->
  forall c m, all_wf m -> forall r, outcomes zo sps c pr m r <-> r = serial_program zs sps c pr m.
Proof.
  intros Ho Hs. induction pr as [|st k IH]; intros Sn c m W r; cbn [outcomes serial_program]; [reflexivity|].
  destruct Sn as [U Sk]. apply par_then_eq.
  - apply step_eq; auto.
  - intros m' E. apply IH; auto. eapply step_wf; [apply (Hs c)|exact W| |exact E]. destruct st; auto. eauto.
Qed.
End Main.

(** A program whose calls are any mix of serial and parallel methods has, on
    every schedule of the threads and in every order of the lanes, exactly one
    outcome: that of its serial version. *)
Theorem C71_programs_of_serial_and_parallel_calls_have_one_outcome :
  forall A0 (N0 : Num A0) (Z0 : EqZ A0) (E : ext A0), ext_ok E -> is0 (n0 (A := A0)) = true ->
  forall A P S (N : Num A) (D : DivInto A S) (dP : Dflt P) (dS : Dflt S) (sps : list (zip_order -> @api A P S)),
  (forall sp, In sp sps -> library_space E sp) ->
  forall zo zs, (forall c, zip_ok (zo c)) -> (forall c, zip_ok (zs c)) ->
  forall (pr : @pprogram A P S) m, all_wf m -> sane pr ->
  forall r, outcomes zo sps 0 pr m r <-> r = serial_program zs sps 0 pr m.
Proof.
  intros A0 N0 Z0 E HE HZ A P S N D dP dS sps H zo zs Ho Hs pr m W Sn. apply program_eq; auto.
  intros sp I. eapply lib_good; eauto.
Qed.
Print Assumptions C71_programs_of_serial_and_parallel_calls_have_one_outcome.

(** ** The hypotheses are met *)
Section Example.
Context (stop : pstore f64 (cplx f64) -> bool) (s : f64) (f : pstore f64 (cplx f64) -> res (pstore f64 (cplx f64))).
(** A time loop on a FourierR2c x ChebDirichlet space (space 0), with the mean
    flow on a FourierR2c space (space 1): parallel transforms and gradients,
    serial ones, a step of the user, and a stopping criterion. *)
Fixpoint mixed_loop (n : nat) : @pprogram f64 f64 (cplx f64) :=
  match n with
  | 0 => PStop
  | Datatypes.S n =>
      PDo (PForward true true 0 0 0) (fun _ =>
      PDo (PGradient true 0 0 1 ((1, 0, 0), Some (s, s, s))) (fun _ =>
      PDo (PGradient false 0 0 2 ((0, 2, 0), None)) (fun _ =>
      PDo (PUser f) (fun _ =>
      PDo (PBackward true false 0 0 0) (fun _ =>
      PDo (PForward false false 1 1 3) (fun _ =>
      PDo (PBackward true true 1 3 1) (fun m => if stop m then PStop else mixed_loop n)))))))
  end.
Definition round_trip : @pprogram f64 f64 (cplx f64) :=
  PDo (PForward true true 0 0 0) (fun _ =>
  PDo (PBackward false false 0 0 0) (fun m => if stop m then PStop else PDo (PForward true false 0 0 0) (fun _ => PStop))).
End Example.
Lemma mixed_loop_sane stop s f n : (forall m m', all_wf m -> f m = Ok m' -> all_wf m') -> sane (mixed_loop stop s f n).
Proof.
  intros Hf. induction n as [|n IH]; cbn [mixed_loop sane]; [exact Logic.I|]. repeat (split; [exact Logic.I|intros _]).
  split; [exact Hf|intros _]. do 2 (split; [exact Logic.I|intros _]). split; [exact Logic.I|intros m]. destruct (stop m); [exact Logic.I|exact IH].
Qed.
Example C71_hyps_met : forall Tr : Trig f64, exists (E : ext f64) f b im0 im1, ext_ok E /\ is0 (n0 (A := f64)) = true /\
  r2c_new 6 = Ok f /\ new_composite KDirichlet 7 = Ok b /\
  let sps := [api2 (r2c_ops_x E f) (r2r_ops_x E (T := cplx f64) b) im0 im1; api1 (r2c_ops_x E f) im0] in
  (forall sp, In sp sps -> library_space E sp) /\
  (forall stop s g n, (forall m m', all_wf m -> g m = Ok m' -> all_wf m') -> sane (mixed_loop stop s g n)) /\
  exists m : pstore f64 (cplx f64), all_wf m /\ shp (physical m 0) = [6; 7] /\
  forall stop, sane (round_trip stop) /\ forall zs, (forall c, zip_ok (zs c)) ->
    exists m', serial_program zs sps 0 (round_trip stop) m = Ok m' /\ shp (spectral m' 0) = [4; 5].
Proof.
  intros Tr. exists documented. pose proof (documented_ok (A := f64)) as HE. assert (HZ : is0 (n0 (A := f64)) = true) by reflexivity.
  destruct (r2c_new 6) as [f| |] eqn:Ef; try discriminate.
  destruct (C53_constructors f64 num_f64) as (KC & KK & _). specialize (KK KDirichlet 7). destruct (new_composite KDirichlet 7) as [b| |] eqn:Eb; [|cbn in KK; lia|tauto].
  destruct (proj1 (C53_fourier_slices f64 _ _ documented HE HZ) 6 f Ef) as (P0 & S0 & O0 & _ & _ & _ & _ & G0).
  destruct (C53_composite_slices f64 _ documented HE (cplx f64) vec_cplx KDirichlet 7 b Eb) as (P1 & S1 & O1 & _ & _ & _ & G1).
  change (6 / 2 + 1) with 4 in *. change (sdim KDirichlet 7) with 5 in *.
  assert (U0 : any_usable documented f64 (cplx f64) (cplx f64) (r2c_ops_x documented f)) by (eapply aus_r2c; eauto).
  assert (U1 : any_usable documented f64 f64 (cplx f64) (r2r_ops_x documented b)) by (apply (aus_composite documented _ _ KDirichlet 7); auto).
  pose proof (any_usable_base _ _ _ _ _ U0) as B0. pose proof (any_usable_base _ _ _ _ _ U1) as B1.
  destruct (C53_implementation_exists f64 _ _ documented HE HZ _ _ _ _ B0 _ _ _) as [im0 I0].
  destruct (C53_implementation_exists f64 _ _ documented HE HZ _ _ _ _ B1 _ _ _) as [im1 I1].
  exists f, b, im0, im1. do 4 (split; [assumption || reflexivity|]). intros sps.
  split. { intros sp [<-|[<-|[]]]; [apply (lib2 documented f64 _ _ _ im0 im1)|apply lib1]; auto. }
  split. { intros; apply mixed_loop_sane; auto. }
  set (u := mk_arr [6; 7] true (map (fun k => nofZ (Z.of_nat k)) (seq 0 42)) : arr f64).
  exists (mk_pstore (fun _ => u) (fun _ => azeros dflt [4; 5])).
  split. { intros k. split; [unfold wf; cbn [u physical dat shp]; rewrite map_length, seq_length; reflexivity|apply azeros_wf]. }
  split; [reflexivity|]. intros stop. split. { split; [exact Logic.I|intros _]. split; [exact Logic.I|intros m]. destruct (stop m); [exact Logic.I|split; [exact Logic.I|intros _; exact Logic.I]]. }
  intros zs Hz.
  pose proof (fun c => C53_space2_applies_each_base_along_its_axis f64 _ _ documented HE HZ _ _ _ _ _ _ U0 U1 _ _ _ _ (zs c) (Hz c)) as H. cbv zeta in H.
  unfold s2_shape_physical, s2_shape_spectral in H. cbn [s2_base0 s2_base1] in H. rewrite P0, S0, P1, S1 in H.
  assert (Pu : proper [6; 7] u) by (split; [reflexivity|split; [reflexivity|unfold wf; cbn [u dat shp]; rewrite map_length, seq_length; reflexivity]]).
  destruct (proj1 (H 0) u (azeros dflt [4; 5]) Pu (proper_zeros _ _)) as (m0 & r & E1 & _ & Pr & _).
  destruct (proj1 (proj2 (H 1)) r (azeros dflt [6; 7]) Pr (proper_zeros _ _)) as (m1 & v & _ & E2 & Pv & _).
  destruct (proj1 (H 2) v (azeros dflt [4; 5]) Pv (proper_zeros _ _)) as (m2 & w & _ & E3 & Pw & _).
  unfold round_trip. cbn [serial_program serial_call get_space sps nth_error bind api2 forward_inplace_ser backward_ser forward_ser physical spectral put_spectral put_physical Nat.eqb].
  rewrite E1. cbn [bind physical spectral put_spectral put_physical Nat.eqb]. rewrite E2. cbn [bind physical spectral put_spectral put_physical Nat.eqb].
  destruct (stop _).
  - eexists. split; [reflexivity|]. cbn. apply Pr.
  - cbn [serial_program serial_call get_space sps nth_error bind api2 forward_ser physical spectral put_spectral put_physical Nat.eqb].
    rewrite E3. cbn [bind serial_program]. eexists. split; [reflexivity|]. cbn. apply Pw.
Qed.
