(** The DirichletNeumann base in floating point (C54, C55) and as an axis of the
    f64 spaces (C58, C59, C60) and the f32 spaces (C67, C68).  dn_r, dn_s and dn_values are in SpaceVal.v,
    dn_ortho in GradSpec.v. *)
From Coq Require Import List Arith ZArith Reals Bool Lra Lia.
From Flocq Require Import Core BinarySingleNaN.
From Verif Require Import Base Num Linalg Stencils ChebPoly ChebGrad Cheb ChebFacts Compo CompoProofs Fourier FourierF64 FourierFacts FourierProofs Bases BaseLin LibBase NdArray NdArrayFacts AxisFacts AxisProps PropAxis SpaceFacts SpaceBases SpaceStages SpaceOrder Space PropSpace PropSpace2 PropSpace3 PropSpace4 PropElements
  ExtLib AnyArith ExtFacts AnyBase PropAny PropAny2 Rounding LibAcc LibIdeal RndCheb RndFft RndR2c RndFinite2 RndDirichlet RndNeumann RndGrad PropRound PropRound2 PropRound4 PropTrans2 RndAxis RndOps RndAxis2 RndOps2 SpaceAcc RndSpace PropTrans3 SpaceAcc2 PropTrans4 SpaceVal RndVal RndVal2 PropTrans5 GradSpec GradOp RndGrad3 RndGrad4 RndGrad5 RndGrad6 OrthoSpec RndOrtho ChebDct CompoFacts RndTdma RndCompo RndDN RndDN2 PropTrans PropOrtho PropTrans6 SpaceVal32 RndVal32 GradSpec32 PropTrans7.
Import ListNotations.
Local Open Scope R_scope.
Local Notation u64 := (bpow radix2 (-53)).
Local Notation eta64 := (bpow radix2 (-1075)).

Lemma dn_stencil n c (Y : nat -> R) : (4 <= n)%nat -> rsum n (fun k => dn_coef n c k * Y k) = rsum (n - 2) (fun k => c k * (Y k + dn_r k * Y (k + 1)%nat - dn_s k * Y (k + 2)%nat)).
Proof.
  intros Hn.
  rewrite (rsum_ext n _ (fun k => (if (k <? n - 2)%nat then c k * Y k else 0) + (if ((0 <? k) && (k <? n - 1))%nat then dr (k - 1)%nat * c (k - 1)%nat * Y (k - 1 + 1)%nat else 0) - (if (k <? 2)%nat then 0 else ds (k - 2)%nat * c (k - 2)%nat * Y (k - 2 + 2)%nat))).
  - rewrite rsum_sub, rsum_add. rewrite (rsum_head2 n (fun k => c k * Y k)), (rsum_mid n (fun k => dr k * c k * Y (k + 1)%nat)), (rsum_tail2 n (fun k => ds k * c k * Y (k + 2)%nat)) by lia.
    rewrite <- rsum_add, <- rsum_sub. apply rsum_ext. intros k Hk. rewrite dn_r_eq, dn_s_eq. ring.
  - intros k Hk. unfold dn_coef. destruct (Nat.ltb_spec k (n - 2)), (Nat.ltb_spec 0 k), (Nat.ltb_spec k (n - 1)), (Nat.ltb_spec k 2); cbn [andb]; try lia;
    repeat match goal with |- context [(?a - ?b + ?b)%nat] => replace (a - b + b)%nat with a by lia end; ring.
Qed.

(** ** C54: to_ortho of one lane, in any floating-point arithmetic *)
Theorem C54_dirichlet_neumann_to_ortho :
  forall A (N : Num A) u eta rnd zmax inr fin val, float_arith N u eta rnd zmax inr fin val ->
  forall T (V : Vec A T) (VC : VecC N T V) n b (v o a : list T), (2 * (Z.of_nat n * Z.of_nat n) <= zmax)%Z -> compo_new KDirichletNeumann n = Ok b ->
  length v = (n - 2)%nat -> length o = n -> compo_to_ortho b v o = Ok a ->
  forall p k, (k < n)%nat -> fin (cp p a.[k]) ->
  let x j := val (cp p v.[j]) in
  let own := if (k <? n - 2)%nat then x k else 0 in
  let mid := if ((1 <=? k) && (k <? n - 1))%nat then dn_r (k - 1) * x (k - 1)%nat else 0 in
  let low := if (2 <=? k)%nat then dn_s (k - 2) * x (k - 2)%nat else 0 in
  Rabs (val (cp p a.[k]) - (own + mid - low)) <= 5 * u * (Rabs own + Rabs mid + Rabs low) +
    2 * eta * ((if ((1 <=? k) && (k <? n - 1))%nat then 1 + Rabs (x (k - 1)%nat) else 0) + (if (2 <=? k)%nat then 1 + Rabs (x (k - 2)%nat) else 0)).
Proof.
  intros A N u eta rnd zmax inr fin val FA T V VC n b v o a Hz Hb Lv Lo E p k Hk F x own mid low. destruct (dn_inv n b Hb) as (Hn & h & -> & Hh).
  pose proof (rn_u _ _ _ (fa_rnd _ _ _ _ _ _ _ _ FA)) as [U _]. pose proof (rn_eta _ _ _ (fa_rnd _ _ _ _ _ _ _ _ FA)) as H0.
  pose proof (proj1 (dn_to_ortho_err FA n h v o a p Hn Hz Hh Lv Lo E k Hk F)) as H. unfold dn_coef, X in H. fold x in H.
  unfold own, mid, low. rewrite dn_r_eq, dn_s_eq. pose proof (dr_range (k - 1)) as R1. pose proof (ds_range (k - 2)) as R2.
  assert (P1 : forall y, 0 <= u * Rabs y) by (intros; apply Rmult_le_pos; [lra|apply Rabs_pos]). assert (P2 : forall y, 0 <= eta * (1 + Rabs y)) by (intros y; pose proof (Rabs_pos y); apply Rmult_le_pos; lra).
  assert (P3 : 0 <= u * (dr (k - 1) * Rabs (x (k - 1)%nat))) by (apply Rmult_le_pos; [lra|apply Rmult_le_pos; [lra|apply Rabs_pos]]). assert (P4 : 0 <= u * (ds (k - 2) * Rabs (x (k - 2)%nat))) by (apply Rmult_le_pos; [lra|apply Rmult_le_pos; [lra|apply Rabs_pos]]).
  pose proof (P1 (x k)) as Q1. pose proof (P2 (x (k - 1)%nat)) as Q2. pose proof (P2 (x (k - 2)%nat)) as Q3. clear P1 P2.
  assert (A1 : Rabs (dr (k - 1) * x (k - 1)%nat) = dr (k - 1) * Rabs (x (k - 1)%nat)) by (rewrite Rabs_mult, (Rabs_pos_eq (dr (k - 1))); lra).
  assert (A2 : Rabs (ds (k - 2) * x (k - 2)%nat) = ds (k - 2) * Rabs (x (k - 2)%nat)) by (rewrite Rabs_mult, (Rabs_pos_eq (ds (k - 2))); lra).
  destruct (Nat.ltb_spec k (n - 2)), (Nat.ltb_spec 0 k), (Nat.leb_spec 1 k), (Nat.ltb_spec k (n - 1)), (Nat.ltb_spec k 2), (Nat.leb_spec 2 k); cbn [andb] in *; try lia;
    rewrite ?A1, ?A2, ?Rabs_R0; (eapply Rle_trans; [exact H|]); unfold x in *; lra.
Qed.

(** ** C55: backward, in any floating-point arithmetic *)
Theorem C55_dirichlet_neumann_backward :
  forall A (N : Num A) u eta rnd zmax inr fin val, float_arith N u eta rnd zmax inr fin val ->
  forall (E : ext A) n b ch dl zt (c o y : list A) (xs : list R),
  (2 * (Z.of_nat n * Z.of_nat n) <= zmax)%Z -> 100 * eta <= u ->
  compo_new KDirichletNeumann n = Ok b -> 0 <= dl <= 1 -> 0 <= zt -> dct1_accurate E fin val n dl zt ->
  length c = (n - 2)%nat -> length o = n -> compo_backward_x E b c o = Ok y -> (forall k, (k < n)%nat -> fin y.[k]) ->
  cheb_new n = Ok ch -> cheb_coords (A := R) ch = Ok xs ->
  length y = n /\ (forall k, (k < n - 2)%nat -> fin c.[k]) /\
  forall j, (j < n)%nat -> Rabs (val y.[j] - rsum (n - 2) (fun k => val c.[k] * (TT k xs.[j] + dn_r k * TT (k + 1) xs.[j] - dn_s k * TT (k + 2) xs.[j]))) <=
    (5 * dl + 9 * u) * rsum (n - 2) (fun k => Rabs (val c.[k])) + 12 * INR n * eta + zt.
Proof.
  intros A N u eta rnd zmax inr fin val FA E n b ch dl zt c o y xs Hz Hs Hb Hd Hzt HE Lc Lo Ey Fy Hch Ex. destruct (dn_inv n b Hb) as (Hn & h & -> & Hh).
  pose proof (coords_ok n ch Hch) as W. rewrite Ex in W. destruct W as [Lx Hx].
  destruct (dn_backward_err FA E n h dl zt c o y Hn Hz Hs Hd Hzt HE Hh Lc Lo Ey Fy) as (Ly & Fc & HB). split; auto. split; auto. intros j Hj.
  rewrite (Hx j Hj). rewrite <- (dn_stencil n (fun k => val c.[k]) (fun k => TT k (node n j)) Hn). exact (HB j Hj).
Qed.

(** ** The basis functions: u(-1) = 0 and u'(1) = 0 *)
Theorem C58_dirichlet_neumann_functions : forall k, let f x := TT k x + dn_r k * TT (k + 1) x - dn_s k * TT (k + 2) x in
  f (-1) = 0 /\ derivable_pt_lim f 1 0 /\ 0 <= dn_r k /\ 0 <= dn_s k /\ dn_r k + dn_s k = 1.
Proof.
  intros k f. rewrite dn_r_eq, dn_s_eq. pose proof (dr_range k). pose proof (ds_range k). pose proof (drs k) as S. pose proof (dden_pos k) as D. split; [|split; [|lra]].
  - unfold f. rewrite dn_r_eq, dn_s_eq, !TT_m1, !pow_add. replace (dr k) with (1 - ds k) by lra. ring.
  - eapply dlim_ext; [intros; reflexivity| |].
    2: { apply derivable_pt_lim_minus; [apply derivable_pt_lim_plus; [apply TT_deriv|apply derivable_pt_lim_scal, TT_deriv]|apply derivable_pt_lim_scal, TT_deriv]. }
    rewrite dn_r_eq, dn_s_eq, !VV_p1, !plus_INR. cbn [INR]. unfold dr, ds. field. lra.
Qed.

(** the coefficients [dn_ortho] describe the same function *)
Theorem C60_dirichlet_neumann_map :
  forall n c x, (4 <= n)%nat ->
     rsum n (fun k => fst (dn_ortho n c k) * TT k x) = rsum (n - 2) (fun k => fst (c k) * (TT k x + dn_r k * TT (k + 1) x - dn_s k * TT (k + 2) x)) /\
     rsum n (fun k => snd (dn_ortho n c k) * TT k x) = rsum (n - 2) (fun k => snd (c k) * (TT k x + dn_r k * TT (k + 1) x - dn_s k * TT (k + 2) x)).
Proof.
  intros n c x Hn. split.
  - rewrite <- (dn_stencil n (fun k => fst (c k)) (fun k => TT k x) Hn). apply rsum_ext. intros k Hk. rewrite dn_ortho_eq. reflexivity.
  - rewrite <- (dn_stencil n (fun k => snd (c k)) (fun k => TT k x) Hn). apply rsum_ext. intros k Hk. rewrite dn_ortho_eq. reflexivity.
Qed.

(** ** Bases that meet the premises of C58, C59 and C60 *)
Lemma dn_new n : (6 <= n)%nat -> exists b, new_composite (A := f64) KDirichletNeumann n = Ok b.
Proof.
  intros Hn. pose proof (proj1 (proj2 (C53_constructors f64 num_f64)) KDirichletNeumann n) as K. destruct (new_composite KDirichletNeumann n) as [b| |] eqn:Eb; [|cbn in K; lia|tauto]. eauto.
Qed.
Theorem C58_dirichlet_neumann_exist :
  exists E : ext f64, ext_ok E /\ forall n, (6 <= n)%nat -> (Z.of_nat n <= 2 ^ 20)%Z -> forall T (V : Vec f64 T), exists b, new_composite KDirichletNeumann n = Ok b /\
    f64_values E (bpow radix2 (-52)) eta64 2 f64 f64 T (r2r_ops_x E b) f64_real f64_real (dn_values n).
Proof.
  exists (ideal 53 1024 eq_refl eq_refl). split. apply ideal_lengths.
  assert (E2 : bpow radix2 (-52) = 2 * ieee_u 53). { unfold ieee_u. change (-52)%Z with (1 + - (53))%Z. rewrite bpow_plus. reflexivity. }
  rewrite E2. change eta64 with (ieee_eta 53 1024). intros n Hn Hz T V. destruct (ideal_dct1_ok 53 1024 eq_refl eq_refl (ltac:(lia)) (ltac:(lia)) n) as [A1 A2].
  destruct (dn_new n Hn) as [b Eb]. exists b. split; auto. eapply fv_dirichlet_neumann; eauto.
Qed.
Theorem C59_dirichlet_neumann_exist :
  forall (E : ext f64) d n T V e, f64_scalar T V e -> (6 <= n)%nat -> (2 * (Z.of_nat n * Z.of_nat n) <= 2 ^ 53)%Z -> exists b, new_composite KDirichletNeumann n = Ok b /\
    f64_gradient E d (4 * INR n ^ (2 * d - 1)) (4 * INR (d + 1) * INR n) f64 f64 T (r2r_ops_x E b) e (fun c => times d (cheb_derivative n) (dn_ortho n c)).
Proof. intros E d n T V e Hs Hn Hz. destruct (dn_new n Hn) as [b Eb]. exists b. split; auto. apply fg_dirichlet_neumann; auto. Qed.
Theorem C60_dirichlet_neumann_exist :
  forall (E : ext f64) n T V e, f64_scalar T V e -> (6 <= n)%nat -> (Z.of_nat n <= 2 ^ 20)%Z -> exists b, new_composite KDirichletNeumann n = Ok b /\ f64_to_ortho E f64 f64 T (r2r_ops_x E b) e (dn_ortho n).
Proof. intros E n T V e Hs Hn Hz. destruct (dn_new n Hn) as [b Eb]. exists b. split; auto. apply fto_dirichlet_neumann; auto. Qed.

(** ** ... and, in f32, of C67 and C68 *)
Lemma dn_new32 n : (6 <= n)%nat -> exists b, new_composite (A := f32) KDirichletNeumann n = Ok b.
Proof.
  intros Hn. pose proof (proj1 (proj2 (C53_constructors f32 num_f32)) KDirichletNeumann n) as K. destruct (new_composite KDirichletNeumann n) as [b| |] eqn:Eb; [|cbn in K; lia|tauto]. eauto.
Qed.
Theorem C67_dirichlet_neumann_exist :
  exists E : ext f32, ext_ok E /\ forall n, (6 <= n)%nat -> (Z.of_nat n <= 2 ^ 10)%Z -> forall T (V : Vec f32 T), exists b, new_composite KDirichletNeumann n = Ok b /\
    f32_values E (bpow radix2 (-23)) (bpow radix2 (-150)) 2 f32 f32 T (r2r_ops_x E b) f32_real f32_real (dn_values n).
Proof.
  exists (ideal 24 128 eq_refl eq_refl). split. apply ideal_lengths32.
  assert (E2 : bpow radix2 (-23) = 2 * ieee_u 24). { unfold ieee_u. change (-23)%Z with (1 + - (24))%Z. rewrite bpow_plus. reflexivity. }
  rewrite E2. change (bpow radix2 (-150)) with (ieee_eta 24 128). intros n Hn Hz T V. destruct (ideal_dct1_ok 24 128 eq_refl eq_refl (ltac:(lia)) (ltac:(lia)) n) as [A1 A2].
  destruct (dn_new32 n Hn) as [b Eb]. exists b. split; auto. eapply fv32_dirichlet_neumann; eauto.
Qed.
Theorem C68_dirichlet_neumann_exist :
  forall (E : ext f32) n T V e, f32_scalar T V e -> (6 <= n)%nat ->
  (forall d, (2 * (Z.of_nat n * Z.of_nat n) <= 2 ^ 24)%Z -> exists b, new_composite KDirichletNeumann n = Ok b /\
     f32_gradient E d (4 * INR n ^ (2 * d - 1)) (4 * INR (d + 1) * INR n) f32 f32 T (r2r_ops_x E b) e (fun c => times d (cheb_derivative n) (dn_ortho n c))) /\
  ((Z.of_nat n <= 2 ^ 10)%Z -> exists b, new_composite KDirichletNeumann n = Ok b /\ f32_to_ortho E f32 f32 T (r2r_ops_x E b) e (dn_ortho n)).
Proof.
  intros E n T V e Hs Hn. destruct (dn_new32 n Hn) as [b Eb]. split.
  - intros d Hz. exists b. split; auto. apply fg32_dirichlet_neumann; auto.
  - intros Hz. exists b. split; auto. apply fto32_dirichlet_neumann; auto.
Qed.
