(** Concrete cases of the theorems on single bases: each [Cnn_case] runs the operations
    on literal coefficients of a base of a literal size, so the hypotheses of the
    theorems named in the proofs are met there, and states what comes out. *)
From Coq Require Import List Arith Lia Bool ZArith Reals Lra.
From Verif Require Import Base Num Linalg LinalgSpec Stencils StencilProofs Cheb ChebPoly ChebFacts Compo CompoProofs CompoFacts CompoFacts2 CompoFacts3 Fourier FourierFacts FourierProofs FourierOps FourierSpec PropCheb PropCompo PropFourier
  NdArray NdArrayFacts AxisFacts Bases BaseLin LibBase AxisProps PropAxis SpaceBases Space Elements ElemFacts PropElements PropElements2 Witness.
Import ListNotations.
Local Open Scope R_scope.

Definition a5 : list R := [1; 0; -2; 3; / 2].
Definition z5 : list R := [0; 0; 0; 0; 0].
Lemma run2 {X Y} (m : res X) (k : X -> res Y) Q : wp (bind m k) Q -> exists x y, m = Ok x /\ k x = Ok y /\ Q y.
Proof. destruct m as [x| |]; cbn; try tauto. destruct (k x) as [y| |] eqn:E; cbn; try tauto. eauto. Qed.
Lemma run1 {X} (m : res X) Q : wp m Q -> exists x, m = Ok x /\ Q x.
Proof. destruct m; cbn; try tauto. eauto. Qed.

Example C01_case : exists c y, cheb_new 5 = Ok c /\ cheb_backward c a5 z5 = Ok y /\ cheb_forward c y z5 = Ok a5.
Proof.
  eexists. destruct (run2 _ _ _ (C01_cheb_forward_of_backward 5 (mk_cheb 5 5) a5 z5 z5 eq_refl eq_refl eq_refl eq_refl)) as (y & z & E1 & E2 & ->).
  exists y. split; [reflexivity|]. split; eassumption.
Qed.
Example C02_case : exists c a, cheb_new 5 = Ok c /\ cheb_forward c a5 z5 = Ok a /\ cheb_backward c a z5 = Ok a5.
Proof.
  eexists. destruct (run2 _ _ _ (C02_cheb_backward_of_forward 5 (mk_cheb 5 5) a5 z5 z5 eq_refl eq_refl eq_refl eq_refl)) as (y & z & E1 & E2 & ->).
  exists y. split; [reflexivity|]. split; eassumption.
Qed.
(** T_0 - 2 T_2 + 3 T_3 + T_4/2 is -7/2 at the first grid point -1 and 5/2 at the last *)
Example C03_case : exists y, cheb_backward (mk_cheb 5 5) a5 z5 = Ok y /\ y.[0] = - 7 / 2 /\ y.[4] = 5 / 2.
Proof.
  destruct (run1 _ _ (C03_cheb_backward_evaluates 5 (mk_cheb 5 5) a5 z5 eq_refl eq_refl eq_refl)) as (xs & Ex & W). destruct (run1 _ _ W) as (y & Ey & _ & V).
  destruct (run1 _ _ (C04_cheb_coords 5 (mk_cheb 5 5) eq_refl)) as (xs' & Ex' & G). assert (xs' = xs) by congruence. subst. destruct G as (_ & _ & G0 & G1 & _). cbn [Nat.sub] in G1.
  exists y. split; auto. rewrite !V by lia. rewrite G0, G1. cbn [rsum TT a5]. split; cbn; field.
Qed.
Example C04_case : exists xs, cheb_coords (A := R) (mk_cheb 3 3) = Ok xs /\ xs.[0] = -1 /\ xs.[1] = 0 /\ xs.[2] = 1.
Proof.
  destruct (run1 _ _ (C04_cheb_coords 3 (mk_cheb 3 3) eq_refl)) as (xs & Ex & G). destruct G as (_ & _ & G0 & G1 & _ & G2). exists xs. repeat split; auto. specialize (G2 1%nat ltac:(lia)). cbn [Nat.sub] in G2. lra.
Qed.

(** Composite bases *)
Definition v5 : list R := [1; 2; -3; 4; 5].
Definition z7 : list R := repeat 0 7.
Definition u7 : list R := [1; 2; 3; 4; 5; 6; 7].
Lemma dir7 : exists c, compo_new (A := R) KDirichlet 7 = Ok c /\ compo_len_spec c = 5%nat.
Proof. destruct (compo_new_ok KDirichlet 7) as [c Hc]; [cbn; lia|]. exists c. split; auto. apply (len_spec_eq KDirichlet 7 c Hc). Qed.
Lemma bih14 : exists c, compo_new (A := R) KBiHarmonicA 14 = Ok c /\ compo_len_spec c = 10%nat.
Proof. destruct (compo_new_ok KBiHarmonicA 14) as [c Hc]; [cbn; lia|]. exists c. split; auto. apply (len_spec_eq KBiHarmonicA 14 c Hc). Qed.
Lemma bihB14 : exists c, compo_new (A := R) KBiHarmonicB 14 = Ok c /\ compo_len_spec c = 10%nat.
Proof. destruct (compo_new_ok KBiHarmonicB 14) as [c Hc]; [cbn; lia|]. exists c. split; auto. apply (len_spec_eq KBiHarmonicB 14 c Hc). Qed.
Example C10_case : exists c u, compo_new (A := R) KDirichlet 7 = Ok c /\ compo_to_ortho c v5 z7 = Ok u /\
  peval (V := vec_self) u tt (-1) = 0 /\ peval (V := vec_self) u tt 1 = 0.
Proof.
  destruct dir7 as (c & Hc & Lc). destruct (run1 _ _ (C10_to_ortho_boundary_conditions R vec_self vecR_R KDirichlet 7 c v5 z7 Hc eq_refl (eq_sym Lc) eq_refl)) as (u & Eu & B).
  exists c, u. split; auto. split; auto. exact (B tt).
Qed.
(** 1 .. 7 is not in the range of the stencil: the fit is unique and the best *)
Example C11_case : exists c S w, compo_new (A := R) KDirichlet 7 = Ok c /\ compo_stencil c = Ok S /\ compo_from_ortho c u7 v5 = Ok w /\ normal_equations (V := vec_self) S 7 5 u7 w.
Proof.
  destruct dir7 as (c & Hc & Lc). destruct (run1 _ _ (C11_from_ortho_least_squares R vec_self vecR_R KDirichlet 7 c u7 v5 Hc ltac:(cbn; lia) eq_refl (eq_sym Lc))) as (S & ES & _ & W).
  destruct (run1 _ _ W) as (w & Ew & Nw & _). rewrite Lc in Nw. exists c, S, w. auto.
Qed.
Example C12_C18_case : exists c u x y, compo_new (A := R) KDirichlet 7 = Ok c /\ compo_to_ortho c v5 z7 = Ok u /\ compo_from_ortho c u z5 = Ok v5 /\
  compo_backward c v5 z7 = Ok x /\ compo_forward c x z5 = Ok v5 /\ compo_forward c u7 z5 = Ok y.
Proof.
  destruct dir7 as (c & Hc & Lc).
  pose proof (C12_from_ortho_of_to_ortho R vec_self vecR_R KDirichlet 7 c v5 z7 z5 Hc eq_refl ltac:(cbn; lia) (eq_sym Lc) eq_refl (eq_sym Lc)) as H1.
  pose proof (C18_forward_of_backward KDirichlet 7 c Hc v5 z7 z5 eq_refl ltac:(cbn; lia) (eq_sym Lc) eq_refl (eq_sym Lc)) as H2.
  destruct (C44_usable KDirichlet 7 c Hc eq_refl ltac:(cbn; lia) v5 u7 z5 z7 1 (eq_sym Lc) eq_refl (eq_sym Lc) eq_refl) as (_ & _ & H3 & _). destruct (run1 _ _ H3) as (y & Ey & _).
  destruct (compo_to_ortho c v5 z7) as [u| |] eqn:Eu; try discriminate H1. destruct (compo_backward c v5 z7) as [x| |] eqn:Eb; try discriminate H2. exists c, u, x, y. auto 7.
Qed.
Example C13_C14_case : exists c S P, compo_new (A := R) KDirichlet 7 = Ok c /\ compo_stencil c = Ok S /\ compo_stencil_inv c = Ok P /\ rsum 7 (fun r => P.[3].[r] * S.[r].[3]) = 1 /\
  exists u w w', length u = 7%nat /\ mat_mul (V := vec_self) P 5 7 u w /\ compo_from_ortho c u z5 = Ok w' /\ w' <> w.
Proof.
  destruct dir7 as (c & Hc & Lc). pose proof (C13_stencil_inv_left_inverse KDirichlet 7 c Hc) as W. apply run1 in W as (S & ES & W). apply run1 in W as (P & EP & _ & _ & I). rewrite Lc in I.
  destruct (C14_differ_off_range KDirichlet 7 c z5 Hc ltac:(cbn; lia) (eq_sym Lc)) as (u & Lu & W). rewrite EP in W. cbn [wp] in W. destruct W as (w & Mw & W). apply run1 in W as (w' & Ew & Ne). rewrite Lc in Mw.
  exists c, S, P. repeat (split; auto). rewrite I by lia. reflexivity. exists u, w, w'. auto.
Qed.
Example C16_C17_case : exists c cA cB, compo_new (A := R) KDirichlet 7 = Ok c /\ compo_new (A := R) KBiHarmonicA 14 = Ok cA /\ compo_new (A := R) KBiHarmonicB 14 = Ok cB /\
  compo_from_ortho c u7 v5 <> UB /\ compo_to_ortho cA (repeat 1 10) (repeat 0 14) = UB /\ compo_backward cB (repeat 1 10) (repeat 0 14) = UB /\
  compo_to_ortho c v5 (repeat 0 8) = UB /\ compo_from_ortho c v5 z5 = UB /\ cheb_gradient (mk_cheb 2 2) [1; 2] [0; 0] 1 = UB /\ cheb_gradient (mk_cheb 5 5) a5 z5 3 <> UB.
Proof.
  destruct dir7 as (c & Hc & Lc), bih14 as (cA & HA & LA), bihB14 as (cB & HB & LB). exists c, cA, cB. do 3 (split; auto).
  split. { apply (C16_from_ortho_no_UB R vec_self vecR_R KDirichlet 7 c u7 v5 Hc eq_refl). rewrite Lc. reflexivity. }
  split. { apply (C16_biharmonic_out_of_bounds KBiHarmonicA 14 cA (repeat 1 10) (repeat 0 14) 0 HA eq_refl). rewrite LA. reflexivity. reflexivity. }
  split. { apply (C16_biharmonic_out_of_bounds KBiHarmonicB 14 cB (repeat 1 10) (repeat 0 14) 0 HB eq_refl). rewrite LB. reflexivity. reflexivity. }
  split. { apply (C17_to_ortho_slice_long_output_UB R vec_self KDirichlet 7 c v5 (repeat 0 8) Hc). rewrite Lc. reflexivity. cbn; lia. }
  split. { apply (C17_from_ortho_slice_short_input_UB R vec_self KDirichlet 7 c v5 z5 Hc). cbn; lia. rewrite Lc. reflexivity. }
  split. { apply (C16_cheb_gradient_out_of_bounds_iff R vec_self vecR_R 2 (mk_cheb 2 2) [1; 2] [0; 0] 1); auto. }
  intros K. apply (C16_cheb_gradient_out_of_bounds_iff R vec_self vecR_R 5 (mk_cheb 5 5) a5 z5 3) in K; auto. destruct K; lia.
Qed.

(** Fourier bases: c has an imaginary mean and an imaginary Nyquist part, which do not
    survive; differentiation multiplies by i k. *)
Definition c3 : list CR := [(1, 5); (2, 3); (4, 7)].
Definition o3 : list CR := [(0, 0); (0, 0); (0, 0)].
Example C19_case : exists c, r2c_forward (mk_r2c 4 3) [1; 2; 3; 4] o3 = Ok c /\ r2c_backward (mk_r2c 4 3) c [0; 0; 0; 0] = Ok [1; 2; 3; 4].
Proof.
  destruct (run2 _ _ _ (C19_r2c_backward_of_forward 4 (mk_r2c 4 3) [1; 2; 3; 4] o3 [0; 0; 0; 0] eq_refl eq_refl eq_refl eq_refl)) as (c & y & E1 & E2 & ->). eauto.
Qed.
Example C20_case : exists y, r2c_backward (mk_r2c 4 3) c3 [0; 0; 0; 0] = Ok y /\ r2c_forward (mk_r2c 4 3) y o3 = Ok [(1, 0); (2, 3); (4, 0)].
Proof.
  destruct (run2 _ _ _ (C20_r2c_forward_of_backward 4 (mk_r2c 4 3) c3 [0; 0; 0; 0] o3 eq_refl eq_refl eq_refl eq_refl)) as (y & c' & E1 & E2 & L & V). exists y. split; auto. rewrite E2. f_equal.
  change (4 / 2 + 1)%nat with 3%nat in *. destruct c' as [|p0 [|p1 [|p2 [|]]]]; try discriminate L. pose proof (V 0%nat ltac:(lia)) as K0. pose proof (V 1%nat ltac:(lia)) as K1. pose proof (V 2%nat ltac:(lia)) as K2.
  cbn in K0, K1, K2. subst. reflexivity.
Qed.
Example C21_case : exists c, c2c_forward (mk_c2c 3 3) c3 o3 = Ok c /\ c2c_backward (mk_c2c 3 3) c o3 = Ok c3.
Proof.
  destruct (run2 _ _ _ (C21_c2c_backward_of_forward 3 (mk_c2c 3 3) c3 o3 o3 eq_refl eq_refl eq_refl eq_refl)) as (c & y & E1 & E2 & ->). eauto.
Qed.
Example C22_case : r2c_gradient (mk_r2c 4 3) c3 o3 1 = Ok [(0, 0); (-3, 2); (-14, 8)].
Proof.
  destruct (run1 _ _ (C22_r2c_gradient_is_derivative 4 (mk_r2c 4 3) c3 o3 1 eq_refl eq_refl eq_refl)) as (b & Eb & L & V & _). rewrite Eb. f_equal. change (4 / 2 + 1)%nat with 3%nat in *. destruct b as [|p0 [|p1 [|p2 [|]]]]; try discriminate L.
  pose proof (V 0%nat ltac:(lia)) as K0. pose proof (V 1%nat ltac:(lia)) as K1. pose proof (V 2%nat ltac:(lia)) as K2. cbn in K0, K1, K2. rewrite K0, K1, K2. unfold cmul; cbn. repeat f_equal; ring.
Qed.
(** frequencies 0, 1, -1: the mode -1 is lost instead of multiplied by -i *)
Example C23_case : exists b D, c2c_gradient (mk_c2c 3 3) c3 o3 1 = Ok b /\ b.[2] = (0, 0) /\ c2c_diffmat (mk_c2c 3 3) 1 = Ok D /\ cmatvec 3 D c3 2 <> (0, 0).
Proof.
  destruct (run1 _ _ (C23_c2c_gradient_loses_mode 3 (mk_c2c 3 3) c3 o3 1 eq_refl eq_refl eq_refl ltac:(lia) ltac:(lia))) as (b & Eb & Z & _).
  pose proof (C23_c2c_gradient_right_iff 3 (mk_c2c 3 3) c3 o3 1 eq_refl eq_refl eq_refl ltac:(lia) ltac:(cbn; lia)) as W. apply run1 in W as (D & ED & W). rewrite Eb in W. cbn [wp] in W. destruct W as [_ W].
  exists b, D. split; auto. split; auto. split; auto. intros K. destruct (W 2%nat ltac:(lia)) as [W1 _]. cbn [Nat.sub] in Z. rewrite Z in W1. destruct (W1 (eq_sym K)) as [X|X]; [cbn in X; lia|]. cbn in X. injection X. intros. lra.
Qed.
Example C24_case : exists L P J, r2c_laplacian (A := R) (mk_r2c 6 4) = Ok L /\ r2c_laplacian_pinv (A := R) (mk_r2c 6 4) = Ok (P, J) /\ rpinv 4 L P J.
Proof.
  destruct (C24_r2c_pinv 6 (mk_r2c 6 4) eq_refl) as [_ W]. apply run1 in W as (L & EL & W). apply run1 in W as ([P J] & EP & H). exists L, P, J. auto.
Qed.
(** the interpolant takes the value 2 at the second point *)
Example C47_case : exists c, r2c_forward (mk_r2c 4 3) [1; 2; 3; 4] o3 = Ok c /\ rinterp 4 c (PI / 2) = 2.
Proof.
  destruct (run1 _ _ (C47_r2c_forward_interpolates 4 (mk_r2c 4 3) [1; 2; 3; 4] o3 eq_refl eq_refl eq_refl)) as (c & Ec & _ & V). exists c. split; auto.
  specialize (V 1%nat ltac:(lia)). cbn [at_ nth] in V. replace (PI / 2) with (2 * PI * INR 1 / INR 4) by (cbn; field). rewrite V. reflexivity.
Qed.

(** Axis methods on a 7 x 2 array along axis 0 and a 2 x 7 array along axis 1 *)
Example C25_C28_case : exists b, new_composite (A := R) KDirichlet 7 = Ok b /\ let b := r2r_ops (T := R) b in lib_base R R R vec_self vec_self vec_self b /\
  fits (len_phys b) (len_spec b) (mk_arr [7; 2]%nat true (repeat 1 14)) (mk_arr [5; 2]%nat true (repeat 0 10)) 0 /\
  fits (len_phys b) (len_spec b) (mk_arr [2; 7]%nat true (repeat 1 14)) (mk_arr [2; 5]%nat true (repeat 0 10)) 1 /\
  ~ fits (len_phys b) (len_spec b) (mk_arr [7; 2]%nat true (repeat 1 14)) (mk_arr [6; 2]%nat true (repeat 0 12)) 0 /\
  ~ fits (len_phys b) (len_spec b) (mk_arr [7; 2]%nat false (repeat 1 14)) (mk_arr [5; 2]%nat true (repeat 0 10)) 0 /\
  same_layout (mk_arr [5; 2]%nat true (repeat 0 10)) (mk_arr [5; 2]%nat true (repeat 3 10)).
Proof.
  destruct witness_dirichlet as (b & Hb & U & _ & Lb). destruct (Lb R vec_self) as (P & S & O). exists b. split; auto. cbv zeta. rewrite P, S.
  split. { apply usable_lib; auto. } unfold fits, same_layout, wf; cbn; repeat split; try lia; intuition (try discriminate).
Qed.

(** Elements *)
Example C49_C51_case : exists (e0 e1 : elems R) b, elems_new Debug FourierR2c 6 = Ok e0 /\ elems_new Debug (ChebComposite KDirichlet) 7 = Ok e1 /\
  made Debug FourierR2c 6 R (cplx R) (cplx R) vec_self vec_cplx vec_cplx (r2c_ops (mk_r2c 6 4)) e0 /\
  made Debug (ChebComposite KDirichlet) 7 R R (cplx R) vec_self vec_self vec_cplx (r2r_ops b) e1 /\
  ctor_usable FourierR2c 6 /\ ctor_usable (ChebComposite KDirichlet) 7 /\ lap_size FourierR2c 6 /\ lap_size (ChebComposite KDirichlet) 7 /\
  e_kind e0 = BkFourierR2c /\ e_kind e1 = BkChebDirichlet /\ s2_base_kind e0 e1 0 = Ok BkFourierR2c /\ s2_base_kind e0 e1 1 = Ok BkChebDirichlet /\ s2_base_kind e0 e1 5 = Ok BkChebDirichlet /\
  s3_base_kind e0 e1 e1 3 = Panic.
Proof.
  destruct witness_dirichlet as (b & Hb & _). exists (r2c_elems (mk_r2c 6 4)), (r2r_elems Debug b), b.
  assert (H1 : elems_new (A := R) Debug (ChebComposite KDirichlet) 7 = Ok (r2r_elems Debug b)) by (cbn [elems_new]; rewrite Hb; reflexivity).
  assert (Ek : e_kind (r2r_elems Debug b) = BkChebDirichlet). { destruct (C49_base_accessors Debug (ChebComposite KDirichlet) 7 _ H1) as (K & _). exact K. }
  split; [reflexivity|]. split; auto. split; [apply made_fourier_r2c; reflexivity|]. split; [apply (made_composite Debug (cplx R) vec_cplx vecR_C KDirichlet 7 b Hb)|].
  split; [exact Logic.I|]. split; [cbn; split; auto|]. split; [exact Logic.I|]. split; [cbn; lia|]. split; [reflexivity|]. split; auto.
  unfold s2_base_kind, s2_method, s2_axis. cbn [bind Nat.eqb]. rewrite Ek. auto 6.
Qed.
