(** C62, continued: the ingredients of the solvers and the main program of
    examples/field.rs. *)
From Coq Require Import List Arith Lia Bool ZArith Reals Lra.
From Flocq Require Import Core BinarySingleNaN.
From Verif Require Import Base Num Linalg Stencils Cheb ChebFacts Compo CompoProofs Fourier FourierF64 FourierFacts FourierProofs FourierOps FourierSpec PropCheb PropCompo PropFourier NdArray NdArrayFacts AxisFacts Bases BaseLin LibBase AxisProps
  PropAxis SpaceFacts SpaceBases SpaceStages Space PropSpace PropSpace2 PropSpace3 Elements ElemFacts PropElements PropElements2 ExtLib AnyArith ExtFacts AnyBase PropAny PropAny2 PropSpace6
  ArithSteps Rounding PropTrans2 RndAxis RndVal SpaceAcc SpaceVal PropTrans5 PropRound RndDirichlet PropExample2 Field FieldFacts PropField.
Import ListNotations.
Local Open Scope nat_scope.
Local Notation u64 := (bpow radix2 (-53)).
Local Notation eta64 := (bpow radix2 (-1075)).

(** ** The ingredients of the solvers *)
(** What a field asks its space about one axis is what the base [e] answers. *)
Definition asks {A T1 T2 D Sc} (fs : field_space A T1 T2 D Sc) (ax : nat) (e : elems A) : Prop :=
  fs_base_kind fs ax = Ok (e_kind e) /\ fs_stencil fs ax = e_stencil e /\ fs_laplacian fs ax = e_laplacian e /\ fs_laplacian_pinv fs ax = e_laplacian_pinv e.
Theorem C62_a_field_asks_the_base_of_the_axis :
  forall A (N : Num A) P I J S (dP : Dflt P) (dI : Dflt I) (dJ : Dflt J) (dS : Dflt S) (DV : DivInto A S) (e0 e1 e2 : elems A) ax,
  (forall (b0 : base_ops P S S) im0, asks (fs1 b0 im0 e0) ax e0) /\
  (forall (b0 : base_ops I S S) (b1 : base_ops P I S) im0 im1, asks (fs2 b0 b1 im0 im1 e0 e1) ax (nth ax [e0] e1)) /\
  (forall (b0 : base_ops J S S) (b1 : base_ops I J S) (b2 : base_ops P I S) im0 im1 im2, ax <= 2 -> asks (fs3 b0 b1 b2 im0 im1 im2 e0 e1 e2) ax (nth ax [e0; e1; e2] e2)).
Proof.
  intros. split; [|split].
  - intros. repeat split.
  - intros. destruct ax as [|[|ax]]; repeat split.
  - intros. destruct ax as [|[|[|ax]]]; [repeat split..|lia].
Qed.
Print Assumptions C62_a_field_asks_the_base_of_the_axis.

(** On a Fourier axis: the identity, the diagonal matrix of the squared frequencies,
    no preconditioner; already diagonal. *)
Theorem C62_ingredients_fourier : forall bm k n (e : elems R), elems_new bm k n = Ok e -> transform_of k <> TkR2r ->
  forall T1 T2 D Sc (fs : field_space R T1 T2 D Sc) ax, asks fs ax e ->
  exists a b, ingredients_for_hholtz fs ax = Ok (a, b, None) /\ ingredients_for_poisson fs ax = Ok (a, b, None, true) /\
    let m := n_coeffs k n in mat_dims a m m /\ mat_dims b m m /\
    forall i j, i < m -> j < m -> a.[i].[j] = (if i =? j then 1%R else 0%R) /\ b.[i].[j] = (if i =? j then (- (frequency k n i) ^ 2)%R else 0%R).
Proof.
  intros bm k n e He Ht T1 T2 D Sc fs ax (Ek & Es & El & _).
  assert (G : forall m wr kk, wp wr (fun w => length w = m /\ forall k, (k < m)%nat -> w.[k] = iR (kk k)) -> (e_kind e = BkFourierR2c \/ e_kind e = BkFourierC2c) ->
    e_stencil e = Ok (eye m) -> e_laplacian e = f_laplacian m wr ->
    exists a b, ingredients_for_hholtz fs ax = Ok (a, b, None) /\ ingredients_for_poisson fs ax = Ok (a, b, None, true) /\ mat_dims a m m /\ mat_dims b m m /\
    forall i j, i < m -> j < m -> a.[i].[j] = (if i =? j then 1%R else 0%R) /\ b.[i].[j] = (if i =? j then (- (kk i) ^ 2)%R else 0%R)).
  { intros m wr kk Hw Hk E1 E2. pose proof (f_laplacian_val m wr kk Hw) as W. apply wp_Ok in W as (L & EL & DL & VL). rewrite E1 in Es. rewrite E2, EL in El. exists (eye m), L.
    assert (HH : ingredients_for_hholtz fs ax = Ok (eye m, L, None)). { unfold ingredients_for_hholtz. rewrite Ek, Es, El. cbn [bind]. destruct Hk as [-> | ->]; reflexivity. }
    split; auto. split. { unfold ingredients_for_poisson. rewrite HH. cbn [bind]. rewrite Ek. cbn [bind]. destruct Hk as [-> | ->]; reflexivity. }
    split. apply eye_dims. split; auto. intros i j Hi Hj. split. exact (eye_at (NB := num_R) m i j Hi Hj). rewrite VL by auto. destruct (i =? j); auto. cbn [pow]. ring. }
  destruct k as [|k| |]; try (exfalso; apply Ht; reflexivity); cbn [elems_new n_coeffs frequency] in *.
  - destruct (r2c_new n) as [f| |] eqn:E; try discriminate. injection He as <-. apply r2c_new_inv in E as [Hn ->]. cbv zeta.
    eapply (G _ _ INR (r2c_wavenumber_val n)); auto; reflexivity.
  - destruct (c2c_new n) as [f| |] eqn:E; try discriminate. injection He as <-. apply c2c_new_inv in E as [Hn ->]. cbv zeta.
    eapply (G _ _ (freq n) (c2c_wavenumber_val n Hn)); auto; reflexivity.
Qed.
Print Assumptions C62_ingredients_fourier.

(** On every other axis, of any size: both panic. *)
Lemma compo_new_ortho {A} {N : Num A} k n (c : compo A) : compo_new k n = Ok c -> 2 <= n /\ p_ortho c = mk_cheb n n.
Proof.
  unfold compo_new. intros H. destruct (stencil_new k n) as [s| |]; cbn [bind] in H; try discriminate. destruct (get_m k n) as [m| |]; cbn [bind] in H; try discriminate.
  unfold cheb_new in H. destruct (Nat.leb_spec 2 n) as [Hn|]; cbn [assertb bind] in H; [|discriminate]. injection H as <-. auto.
Qed.
Theorem C62_ingredients_panic_on_every_chebyshev_axis :
  forall A (N : Num A) (Tr : Trig A) (C : Ceil A) bm k n (e : elems A), elems_new bm k n = Ok e -> transform_of k = TkR2r ->
  forall T1 T2 D Sc (fs : field_space A T1 T2 D Sc) ax, asks fs ax e ->
  ingredients_for_hholtz fs ax = Panic /\ ingredients_for_poisson fs ax = Panic.
Proof.
  intros A NN Tr C bm k n e He Ht T1 T2 D Sc fs ax (Ek & Es & El & Ep).
  assert (HH : ingredients_for_hholtz fs ax = Panic).
  { unfold ingredients_for_hholtz. rewrite Ek, Es, El, Ep. cbn [bind]. destruct k as [|k| |]; try discriminate Ht; cbn [elems_new] in He.
    - unfold new_chebyshev, cheb_new in He. destruct (Nat.leb_spec 2 n) as [Hn|]; cbn [assertb bind] in He; [|discriminate]. injection He as <-.
      cbn [r2r_elems e_kind e_stencil e_laplacian e_laplacian_pinv bind]. eapply noub_panic. apply noub_lap. intros L _. apply (pinv_stage bm n); auto.
    - unfold new_composite in He. destruct (compo_new k n) as [c| |] eqn:E; cbn [bind] in He; try discriminate. injection He as <-. apply compo_new_ortho in E as [Hn Eo].
      cbn [r2r_elems e_kind e_stencil e_laplacian e_laplacian_pinv]. eapply noub_panic. apply noub_stencil. intros s _. unfold compo_laplacian, compo_diffmat, compo_laplacian_pinv, compo_diffmat_pinv. rewrite Eo.
      eapply noub_panic. apply noub_lap. intros L _. unfold compo_kind. destruct (p_st c); apply (pinv_stage bm n); auto. }
  split; auto. unfold ingredients_for_poisson. rewrite HH. reflexivity.
Qed.
Print Assumptions C62_ingredients_panic_on_every_chebyshev_axis.

(** ** The main program *)
Definition filled {T} (sh : list nat) (v : T) : arr T := mk_arr sh true (repeat v (size sh)).
Lemma filled_zeros {T} (z v : T) sh : mk_arr (shp (azeros z sh)) (std (azeros z sh)) (map (fun _ => v) (dat (azeros z sh))) = filled sh v.
Proof. unfold filled, azeros. cbn [shp std dat]. f_equal. induction (size sh); cbn; congruence. Qed.
Lemma filled_proper {T} sh (v : T) : proper sh (filled sh v).
Proof. split; [reflexivity|]. split; [reflexivity|]. unfold wf, filled. cbn [dat shp]. apply repeat_length. Qed.
Lemma filled_get {T} {dT : Dflt T} n0 n1 (v : T) i j : i < n0 -> j < n1 -> get (filled [n0; n1] v) [i; j] = v.
Proof.
  intros Hi Hj. unfold get, filled, at_. cbn [dat shp]. assert (X : (i * n1 + j < n0 * n1)%nat). { apply Nat.lt_le_trans with (i * n1 + n1)%nat. lia. replace (i * n1 + n1)%nat with ((i + 1) * n1)%nat by ring. apply Nat.mul_le_mono_r. lia. }
  replace (ravel _ _) with (i * n1 + j)%nat by (cbn; lia). replace (size [n0; n1]) with (n0 * n1)%nat by (cbn; lia).
  generalize dependent (i * n1 + j). generalize (n0 * n1). induction n as [|m IH]; intros [|q] Hq; cbn; auto; try lia. apply IH. lia.
Qed.
Lemma par_then_iff {X Y} (m : res X -> Prop) (k : X -> res Y -> Prop) a : (forall r, m r <-> r = Ok a) -> forall r, par_then m k r <-> k a r.
Proof. intros H r. unfold par_then. split. intros (ra & Hm & Hk). apply H in Hm as ->. exact Hk. intros Hk. exists (Ok a). split. apply H; auto. exact Hk. Qed.

(** Whatever the worker threads do, `main` ends with the field whose coefficients are
    those of the constant [one], and whose values are their backward transform. *)
Theorem C62_main :
  forall A (N : Num A) (Z0 : EqZ A) (E : ext A), ext_ok E -> is0 (n0 (A := A)) = true ->
  forall P I S (dP : Dflt P) (dI : Dflt I) (dS : Dflt S) (DV : DivInto A S) (e0 e1 : elems A) x0 x1 zo, zip_ok zo -> e_coords e0 = Ok x0 -> e_coords e1 = Ok x1 ->
  forall (b0 : base_ops I S S) (b1 : base_ops P I S) im0 im1, any_usable E I S S b0 -> any_usable E P I S b1 -> base_implements im0 b0 -> base_implements im1 b1 ->
  forall one : P, let sp := mk_space2 b0 b1 in
  exists vhat v dx0 dx1, s2_forward zo sp (filled [len_phys b0; len_phys b1] one) = Ok vhat /\ s2_backward zo sp vhat = Ok v /\ proper [len_spec b0; len_spec b1] vhat /\ proper [len_phys b0; len_phys b1] v /\ dx_axis x0 = Ok dx0 /\ dx_axis x1 = Ok dx1 /\
    forall r, field_main (fs2 b0 b1 im0 im1 e0 e1) one r <-> r = Ok (mk_field 2 v vhat [x0; x1] [dx0; dx1]).
Proof.
  intros A NN Z0 E HE HZ P I S dP dI dS DV e0 e1 x0 x1 zo Hz X0 X1 b0 b1 im0 im1 U0 U1 I0 I1 one sp.
  destruct (C62_field_methods_are_the_serial_ones A NN Z0 E HE HZ P I I S dP dI dI dS DV e0 e1 e1 zo Hz) as (_ & SF & _). specialize (SF b0 b1 im0 im1 U0 U1 I0 I1). cbv zeta in SF. fold sp in SF.
  pose proof (dx_axis_val x0) as W0. apply wp_Ok in W0 as (dx0 & D0 & _). pose proof (dx_axis_val x1) as W1. apply wp_Ok in W1 as (dx1 & D1 & _).
  set (fs := fs2 b0 b1 im0 im1 e0 e1) in *.
  assert (FN : field_new fs = Ok (mk_field 2 (s2_ndarray_physical sp) (s2_ndarray_spectral sp) [x0; x1] [dx0; dx1])).
  { unfold field_new. assert (FC : fs_coords fs = Ok [x0; x1]). { unfold fs, fs2, s2_coords, s2_coords_axis, s2_method, s2_axis. cbn [fs_coords bind Nat.eqb]. rewrite X0. cbn [bind]. rewrite X1. reflexivity. }
    rewrite FC. cbn [bind]. unfold get_dx. cbn [for_each]. rewrite D0. cbn [bind]. rewrite D1. reflexivity. }
  set (f := mk_field 2 (filled [len_phys b0; len_phys b1] one) (s2_ndarray_spectral sp) [x0; x1] [dx0; dx1]).
  destruct (SF f) as ((vhat & E1 & Pv & H1) & _ & _). { apply filled_proper. } { apply proper_zeros. } cbn [f fl_v fl_vhat fl_ndim fl_x fl_dx] in E1, H1.
  destruct (SF (mk_field 2 (filled [len_phys b0; len_phys b1] one) vhat [x0; x1] [dx0; dx1])) as (_ & (v & E2 & Pv2 & H2) & _). { apply filled_proper. } { exact Pv. } cbn [fl_v fl_vhat fl_ndim fl_x fl_dx] in E2, H2.
  exists vhat, v, dx0, dx1. do 6 (split; [assumption|]). intros r. unfold field_main. rewrite FN. cbn [then_par]. cbn [fl_ndim fl_v fl_vhat fl_x fl_dx].
  change (s2_ndarray_physical sp) with (azeros (dflt : P) [len_phys b0; len_phys b1]). rewrite filled_zeros.
  refine (iff_trans (par_then_iff _ _ _ H1 r) _). apply H2.
Qed.
Print Assumptions C62_main.

(** The program as written, in f64: fourier_r2c(10) x cheb_dirichlet(10). *)
Theorem C62_main_f64 :
  exists E : ext f64, ext_ok E /\ exists b1, new_composite KDirichlet 10 = Ok b1 /\ let b0 := r2c_ops_x E (mk_r2c 10 6) in let b1 := r2r_ops_x (T := cplx f64) E b1 in
  (exists im0 im1, base_implements im0 b0 /\ base_implements im1 b1) /\
  forall (Tr : Trig f64) (C : Ceil f64) bm e0 e1, elems_new bm FourierR2c 10 = Ok e0 -> elems_new bm (ChebComposite KDirichlet) 10 = Ok e1 ->
  forall im0 im1, base_implements im0 b0 -> base_implements im1 b1 ->
  exists f, (forall r, field_main (fs2 b0 b1 im0 im1 e0 e1) (n1 : f64) r <-> r = Ok f) /\ length (dat (fl_v f)) = 100 /\ forall x, In x (dat (fl_v f)) -> is_finite x = true.
Proof.
  destruct C58_accurate_bases_exist as (E & HE & _ & HC & HR & _). exists E. split; auto.
  destruct (HC 10%nat ltac:(lia) ltac:(cbn; lia) (cplx f64) _) as (b1 & _ & F1 & _ & N1 & V1 & _ & G1 & _).
  destruct (HR 10%nat ltac:(lia) ltac:(cbn; lia)) as (f & Nf & Vf & Gf). injection Nf as <-. change (10 / 2 + 1)%nat with 6%nat in *.
  exists b1. split; auto. intros b0 b1'. pose proof (coefs_usable E _ _ _ _ _ _ _ _ _ _ _ Gf) as U0. pose proof (coefs_usable E _ _ _ _ _ _ _ _ _ _ _ G1) as U1.
  split. { destruct (C53_implementation_exists f64 _ _ E HE eq_refl _ _ _ _ (any_usable_base E _ _ _ _ U0) _ _ _) as (im0 & I0). destruct (C53_implementation_exists f64 _ _ E HE eq_refl _ _ _ _ (any_usable_base E _ _ _ _ U1) _ _ _) as (im1 & I1). exists im0, im1. split; assumption. }
  intros Tr C bm e0 e1 H0 H1 im0 im1 I0 I1. destruct some_zip as [zs Hzs].
  assert (X0 : exists x, e_coords e0 = Ok x). { cbn [elems_new] in H0. destruct (r2c_new 10) as [g| |]; cbn [bind] in H0; try discriminate. injection H0 as <-. eexists. reflexivity. }
  assert (X1 : exists x, e_coords e1 = Ok x). { cbn [elems_new] in H1. rewrite N1 in H1. cbn [bind] in H1. injection H1 as <-. unfold new_composite in N1. destruct (compo_new KDirichlet 10) as [cc| |] eqn:Ec; cbn [bind] in N1; try discriminate. injection N1 as <-.
    cbn [r2r_elems e_coords]. unfold compo_coords. destruct (dir_inv 10 cc Ec) as [_ ->]. eexists. reflexivity. }
  destruct X0 as [x0 X0], X1 as [x1 X1].
  destruct (C62_main f64 _ _ E HE eq_refl f64 f64 (cplx f64) _ _ _ _ e0 e1 x0 x1 zs Hzs X0 X1 b0 b1' im0 im1 U0 U1 I0 I1 n1) as (vhat & v & dx0 & dx1 & EF & EB & _ & Pv & _ & _ & HM).
  exists (mk_field 2 v vhat [x0; x1] [dx0; dx1]). split; [exact HM|]. cbn [fl_v].
  destruct (dirichlet_lengths (T := cplx f64) E _ _ N1) as [P1 Q1].
  assert (Ls : len_phys b0 = 10 /\ len_phys b1' = 10) by (split; [reflexivity|exact P1]). destruct Ls as [Q0 Q1'].
  assert (D0 : (0 <= bpow radix2 (-52) <= / 2000)%R) by (cbn; lra). assert (D1 : (0 <= eta64 <= 1)%R) by (pose proof (bpow_gt_0 radix2 (-1075)); pose proof eta1; lra).
  assert (I10 : INR 10 = 10%R) by (cbn; lra).
  assert (W : (bpow radix2 (-52) + u64 = 3 * / IZR (2 ^ 53))%R). { change u64 with (/ IZR (2 ^ 53))%R. change (bpow radix2 (-52)) with (/ IZR (2 ^ 52))%R. cbv [Z.pow Z.pow_pos Pos.iter Z.mul Pos.mul]. lra. }
  assert (S1 : (16 * (INR 10 + 1) ^ 2 * (bpow radix2 (-52) + u64) <= / 100)%R) by (rewrite W, I10; cbv [Z.pow Z.pow_pos Pos.iter Z.mul Pos.mul]; lra).
  assert (S2 : (4 * (bpow radix2 (-52) + u64) <= / 100)%R) by (rewrite W; cbv [Z.pow Z.pow_pos Pos.iter Z.mul Pos.mul]; lra).
  rewrite Q0, Q1' in EF.
  split.
  - destruct Pv as (Sv & _ & Wv). unfold wf in Wv. rewrite Wv, Sv, Q0, Q1'. reflexivity.
  - eapply (fwd_bwd_finite E HE _ _ D0 D1 _ _ _ _ _ _ _ _ _ _ _ _ b0 b1' _ _ Gf S2 Vf G1 S1 V1 _ _); [|apply filled_proper| |exact Hzs| |exact EB].
    + rewrite Q0, Q1'. cbn. lia.
    + intros i j Hi Hj. rewrite filled_get by auto. destruct (nof_val 1 ltac:(lia)) as [V Fi]. split; [exact Fi|]. unfold f64_val. change (@Num.n1 f64 _) with (nofZ (A := f64) 1). rewrite V, Rabs_pos_eq; apply IZR_le; lia.
    + rewrite Q0, Q1'. exact EF.
Qed.
Print Assumptions C62_main_f64.

(** The hypotheses of the theorems on the ingredients are met: fourier_r2c(8) x cheb_dirichlet(8). *)
Example C62_ingredients_example : exists e0 e1 : elems R, elems_new Debug FourierR2c 8 = Ok e0 /\ elems_new Debug (ChebComposite KDirichlet) 8 = Ok e1 /\
  forall (b0 : base_ops R (cplx R) (cplx R)) (b1 : base_ops R R (cplx R)) im0 im1, let fs := fs2 b0 b1 im0 im1 e0 e1 in
  (exists a b, ingredients_for_hholtz fs 0 = Ok (a, b, None) /\ mat_dims b 5 5 /\ b.[3].[3] = (-9)%R) /\ ingredients_for_hholtz fs 1 = Panic.
Proof.
  destruct (new_composite (A := R) KDirichlet 8) as [b| |] eqn:Nb; [|discriminate Nb|discriminate Nb].
  exists (r2c_elems (mk_r2c 8 5)), (r2r_elems Debug b). assert (H1 : elems_new (A := R) Debug (ChebComposite KDirichlet) 8 = Ok (r2r_elems Debug b)) by (cbn [elems_new]; rewrite Nb; reflexivity).
  split; [reflexivity|]. split; auto. intros b0 b1 im0 im1 fs.
  destruct (C62_a_field_asks_the_base_of_the_axis R _ R R R (cplx R) _ _ _ _ _ (r2c_elems (mk_r2c 8 5)) (r2r_elems Debug b) (r2r_elems Debug b) 0) as (_ & K0 & _).
  destruct (C62_a_field_asks_the_base_of_the_axis R _ R R R (cplx R) _ _ _ _ _ (r2c_elems (mk_r2c 8 5)) (r2r_elems Debug b) (r2r_elems Debug b) 1) as (_ & K1 & _).
  split.
  - destruct (C62_ingredients_fourier Debug FourierR2c 8 (r2c_elems (mk_r2c 8 5)) eq_refl ltac:(discriminate) _ _ _ _ fs 0 (K0 b0 b1 im0 im1)) as (a & bb & E & _ & _ & Db & V).
    exists a, bb. split; auto. split; [exact Db|]. destruct (V 3 3) as [_ ->]; [cbn; lia..|]. cbn. ring.
  - eapply (C62_ingredients_panic_on_every_chebyshev_axis R _ _ _ Debug (ChebComposite KDirichlet) 8); [exact H1|reflexivity|apply (K1 b0 b1 im0 im1)].
Qed.
