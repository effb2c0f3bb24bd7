(** C67: the stages of C58 (RndVal.v, RndVal2.v) with scalars f32: unit roundoff
    2^-24, half the smallest subnormal 2^-150, up to 2^10 points per axis,
    intermediate sums up to 2^100. *)
From Coq Require Import List Arith ZArith Reals Bool Lra Lia.
From Flocq Require Import Core BinarySingleNaN.
From Verif Require Import Base Num Linalg Stencils ChebPoly Cheb ChebDct ChebFacts Compo CompoProofs Fourier FourierF64 FourierFacts FourierProofs Bases BaseLin LibBase NdArray NdArrayFacts AxisFacts AxisProps PropAxis SpaceFacts SpaceBases Space
  ExtLib AnyArith ExtFacts AnyBase PropAny PropAny2 Rounding LibAcc RndDirichlet RndNeumann RndCheb RndFft RndR2c RndCompo RndFinite2 PropRound PropRound2 RndAxis RndOps RndAxis2 RndOps2 RndDN RndDN2 RndSpace SpaceAcc SpaceVal RndVal RndVal2 PropTrans6 SpaceVal32.
Import ListNotations.
Local Open Scope R_scope.
Local Notation u32 := (bpow radix2 (-24)).
Local Notation eta32 := (bpow radix2 (-150)).
Local Notation FA := f32_float_arith.
Notation R100 := (bpow radix2 100).

Lemma bp32 (a b : Z) : bpow radix2 a * bpow radix2 b = bpow radix2 (a + b).
Proof. symmetry. apply bpow_plus. Qed.
Lemma f32_eta100 : 100 * eta32 <= u32.
Proof. pose proof (bpow_gt_0 radix2 (-150)). replace u32 with (bpow radix2 126 * eta32) by (rewrite <- bpow_plus; reflexivity). apply Rmult_le_compat_r; [lra|]. apply Rle_trans with (bpow radix2 7). change (bpow radix2 7) with 128. lra. apply bpow_le. lia. Qed.
Lemma f32_dn10 n : (Z.of_nat n <= 2 ^ 10)%Z -> (2 * (Z.of_nat n * Z.of_nat n) <= 2 ^ 24)%Z.
Proof. intros H. assert (0 <= Z.of_nat n)%Z by lia. change (2 ^ 10)%Z with 1024%Z in H. change (2 ^ 24)%Z with 16777216%Z. nia. Qed.
Lemma f32_range K x B : 0 <= x <= K * B -> K < bpow radix2 27 -> 0 <= B <= R100 -> ieee_inr 128 x.
Proof.
  intros [H0 H1] HK [B0 B1]. unfold ieee_inr. rewrite Rabs_pos_eq by auto. apply Rle_lt_trans with (1 := H1). apply Rle_lt_trans with (bpow radix2 27 * R100).
  - apply Rle_trans with (bpow radix2 27 * B). apply Rmult_le_compat_r; lra. apply Rmult_le_compat_l; auto. apply bpow_ge_0.
  - rewrite <- bpow_plus. apply bpow_lt. lia.
Qed.
Lemma B100 : 1 <= R100.
Proof. change 1 with (bpow radix2 0). apply bpow_le. lia. Qed.
Lemma q10 q : (Z.of_nat q <= 2 ^ 10)%Z -> 0 <= INR q <= bpow radix2 10.
Proof. intros H. split. apply pos_INR. apply n_bounds in H. exact H. Qed.
Lemma range100 zt : 0 <= zt <= 1 -> ieee_inr 128 (9 * R100 + zt).
Proof. intros Hz. pose proof B100. apply (f32_range 10 _ R100); [lra|cbn; lra|lra]. Qed.

(** ** One base: [f] computes [F] *)
Record acc_op {T1 T2} (f : list T1 -> list T2 -> res (list T2)) (l1 l2 q : nat) (e1 : fel T1) (e2 : fel T2) (F : (nat -> CR) -> nat -> CR) (K L w h : R) : Prop := {
  ao_near : near f l1 l2 e1 e2 F R100 (L * w * K) (3 * L * INR q * h);
  ao_bounded : bounded F l1 l2 K;
  ao_K : 0 <= K <= L / 2; ao_L : 4 <= L;
  ao_len : (1 <= l1 <= q)%nat; ao_q : (Z.of_nat q <= 2 ^ 10)%Z }.
Section F32.
Context (E : ext f32) (dl zt : R) (Hd : 0 <= dl <= / 16) (Hz : 0 <= zt <= 1).
Let w := dl + u32.
Let h := eta32 + zt.
Lemma q_basics q : (1 <= q)%nat -> 1 <= INR q /\ 0 <= INR q * eta32 /\ zt <= INR q * zt.
Proof. intros Hq. pose proof eta1. assert (1 <= INR q) by (change 1 with (INR 1); apply le_INR; lia). split; auto. split. apply Rmult_le_pos; lra. rewrite <- (Rmult_1_l zt) at 1. apply Rmult_le_compat_r; lra. Qed.
Lemma crange n : (5 <= n)%nat -> (Z.of_nat n <= 2 ^ 10)%Z -> ieee_inr 128 (27 * INR n * INR n * (R100 + 3 * (INR n * eta32) + zt)).
Proof.
  intros Hn Hq. apply q10 in Hq. assert (B1 : 4 <= R100) by (change 4 with (bpow radix2 2); apply bpow_le; lia). pose proof eta1 as E1. assert (0 <= INR n * INR n <= 1048576). { pose proof (mul_up _ _ _ _ Hq Hq) as M. change (bpow radix2 10) with 1024 in M. lra. }
  assert (0 <= INR n * eta32 <= 1). { pose proof (mul_up _ _ _ _ Hq (Logic.conj (bpow_ge_0 _ _) (Rle_refl eta32))) as M. rewrite bp32 in M. change 1 with (bpow radix2 0). split; [lra|]. eapply Rle_trans; [apply M|]. apply bpow_le. lia. }
  apply (f32_range (28 * 1048576 * 4) _ R100); [|cbn; lra|lra]. rewrite !(Rmult_assoc 27). set (P := INR n * INR n) in *. set (Q := INR n * eta32) in *. assert (0 <= P * (R100 + 3 * Q + zt)) by (apply Rmult_le_pos; lra).
  assert (P * (R100 + 3 * Q + zt) <= 1048576 * (R100 + 3 * Q + zt)) by (apply Rmult_le_compat_r; lra). lra.
Qed.
Lemma values_usable K P S T b eP eS F : f32_values E dl zt K P S T b eP eS F -> any_usable E P S T b.
Proof. intros []; [eapply aus_chebyshev|eapply aus_composite|eapply aus_composite|eapply aus_composite|eapply aus_r2c|eapply aus_c2c]; eauto; cbn [ssolve]; lia. Qed.
Lemma coefs_usable K L P S T b eP eS F : f32_coefs E dl zt K L P S T b eP eS F -> any_usable E P S T b.
Proof. intros []; [eapply aus_chebyshev|eapply aus_composite|eapply aus_composite|eapply aus_r2c|eapply aus_c2c]; eauto; cbn [ssolve]; lia. Qed.

Lemma values_acc K P S T b eP eS F : f32_values E dl zt K P S T b eP eS F -> acc_op (backward_slice b) (len_spec b) (len_phys b) (len_phys b) eS eP F K 5 w h.
Proof.
  intros H. pose proof (range100 zt Hz) as HI. pose proof (bpow_gt_0 radix2 (-24)) as U0. pose proof eta1 as E1. destruct H as [T V n b H Hn HE HR|T V n b H H5 Hn HE HR|T V n b H H5 Hn HE HR|T V n b H H6 Hn HE HR|n f H Hn HE HR|n f H Hn HE HR].
  - apply new_chebyshev_inv in H as [H2 ->]. cbn [r2r_ops_x len_phys len_spec backward_slice cheb_len_phys cheb_len_spec c_n c_m]. destruct (q_basics n ltac:(lia)) as (N1 & NE & NZ).
    split; auto; try lra; try lia; try (intros; apply cheb_values_eq).
    + eapply near_weak; [apply (cheb_bwd_near FA E n dl zt R100 _ H2 ltac:(lra) ltac:(lra) HE HR HI (Rle_refl _))| | |intros; apply cheb_values_eq]; unfold w, h; lra.
    + eapply bounded_same; [apply Bc_bounded; auto|intros; apply cheb_values_eq].
  - unfold new_composite in H. destruct (compo_new KDirichlet n) as [c| |] eqn:Ec; cbn [bind] in H; try discriminate. injection H as <-. destruct (dir_inv n c Ec) as [_ ->].
    cbn [r2r_ops_x len_phys len_spec backward_slice compo_len_phys compo_len_spec p_n p_m]. change (compo_len_phys (dirc n)) with n. change (compo_len_spec (dirc n)) with (n - 2)%nat. destruct (q_basics n ltac:(lia)) as (N1 & NE & NZ).
    split; auto; try lra; try lia.
    + eapply near_weak; [apply (dir_bwd_near FA E n dl zt R100 H5 (f32_n_eta n ltac:(lia)) ltac:(lra) ltac:(lra) HE HR (crange n H5 Hn))| | |intros; apply dir_values_eq; lia]; unfold w, h; lra.
    + eapply bounded_same; [apply (Fo_bounded n (dir_coef n)); auto|intros; apply dir_values_eq; lia].
      intros c d k. unfold dir_coef. destruct (k <? n - 2)%nat, (k <? 2)%nat; ring. intros c. apply dir_coef_abs. lia.
  - unfold new_composite in H. destruct (compo_new KNeumann n) as [c| |] eqn:Ec; cbn [bind] in H; try discriminate. injection H as <-. destruct (neu_inv n c Ec) as [_ ->].
    cbn [r2r_ops_x len_phys len_spec backward_slice compo_len_phys compo_len_spec p_n p_m]. change (compo_len_phys (neuc n)) with n. change (compo_len_spec (neuc n)) with (n - 2)%nat. destruct (q_basics n ltac:(lia)) as (N1 & NE & NZ).
    split; auto; try lra; try lia.
    + destruct (f32_n10 n ltac:(lia)) as [A1 A2]. eapply near_weak; [apply (neu_bwd_near FA E n dl zt R100 H5 A1 (f32_n_eta n ltac:(lia)) ltac:(lra) ltac:(lra) HE HR (crange n H5 Hn))| | |intros; apply neu_values_eq; lia]; unfold w, h; lra.
    + eapply bounded_same; [apply (Fo_bounded n (neu_coef n)); auto|intros; apply neu_values_eq; lia].
      intros c d k. unfold neu_coef. destruct (k <? n - 2)%nat, (k <? 2)%nat; ring. intros c. apply neu_coef_abs. lia.
  - unfold new_composite in H. destruct (compo_new KDirichletNeumann n) as [c| |] eqn:Ec; cbn [bind] in H; try discriminate. injection H as <-. destruct (dn_inv n c Ec) as (_ & st & -> & HD).
    cbn [r2r_ops_x len_phys len_spec backward_slice compo_len_phys compo_len_spec p_n p_m]. change (compo_len_phys (dnc n st)) with n. change (compo_len_spec (dnc n st)) with (n - 2)%nat. destruct (q_basics n ltac:(lia)) as (N1 & NE & NZ).
    split; auto; try lra; try lia.
    + eapply near_weak; [apply (dn_bwd_near FA E n st dl zt R100 ltac:(lia) ltac:(apply f32_dn10; lia) f32_eta100 HD ltac:(lra) ltac:(lra) HE HR (crange n ltac:(lia) Hn))| | |intros; apply dn_values_eq; lia]; unfold w, h; lra.
    + eapply bounded_same; [apply (Fo_bounded n (dn_coef n)); auto|intros; apply dn_values_eq; lia]; try lia.
      intros; apply dn_coef_sub. intros c. apply dn_coef_abs. lia.
  - apply r2c_new_inv in H as [H2 ->]. cbn [r2c_ops_x len_phys len_spec backward_slice r2c_len_phys r2c_len_spec r_n r_m]. destruct (q_basics n H2) as (N1 & NE & NZ). destruct (ninv_le n H2) as [C C2]. assert (IN : 0 <= / INR n) by (unfold Rdiv in C; lra). pose proof (div2_lt1 n H2) as DN.
    split; auto; try lra; try lia.
    + eapply near_weak; [apply (r2c_bwd_near FA E (Z0 := eqz_f32) n dl zt R100 _ eq_refl H2 ltac:(lia) (f32_n_eta n ltac:(lia)) ltac:(lra) ltac:(lra) HE HR HI (Rle_refl _))| | |intros; apply r2c_values_eq]; unfold w, h; [|lra].
      unfold Rdiv. rewrite <- Rmult_assoc. apply Rmult_le_compat_r; lra.
    + eapply bounded_same; [apply Br_bounded; auto|intros; apply r2c_values_eq].
  - apply c2c_new_inv in H as [H2 ->]. cbn [c2c_ops_x len_phys len_spec backward_slice c2c_len_phys c2c_len_spec cc_n cc_m]. destruct (q_basics n H2) as (N1 & NE & NZ). destruct (ninv_le n H2) as [C C2].
    split; auto; try lra; try lia.
    + eapply near_weak; [apply (c2c_bwd_near FA E n dl zt R100 _ H2 ltac:(lia) (f32_n_eta n ltac:(lia)) ltac:(lra) ltac:(lra) HE HR HI (Rle_refl _))| | |intros; apply c2c_values_eq]; unfold w, h; [|lra].
      apply Rmult_le_compat_r; lra.
    + eapply bounded_same; [apply Bd_bounded; auto|intros; apply c2c_values_eq].
Qed.

Lemma fit_unique n q F (RW : (nat -> R) -> (nat -> R) -> Prop) Sl kap : (2 <= n)%nat -> fits_values n q F -> (forall a c, least_squares n q a c -> RW a c) -> (forall g, RW g (Sl g)) ->
  (forall g h c d G, RW g c -> RW h d -> (forall j, (j < n)%nat -> Rabs (g j - h j) <= G) -> forall k, (k < n - 2)%nat -> Rabs (c k - d k) <= kap * G) ->
  forall g k, (k < n - 2)%nat -> F g k = Bo n Sl g k.
Proof.
  intros Hn HF HR HS HU g k Hk. destruct (HF g) as [F0 F1]. unfold Bo. rewrite (surjective_pairing (F g k)), F0. f_equal. apply Rminus_diag_uniq, Rabs_le0. rewrite <- (Rmult_0_r kap).
  apply (HU _ _ _ _ 0 (HR _ _ F1) (HS (Fex n (fun i => fst (g i))))); auto. intros j Hj. rewrite cheb_coefs_eq by auto. unfold Fc. cbn [fst]. rewrite (Rminus_diag_eq _ _ eq_refl), Rabs_R0. lra.
Qed.
Lemma compo_acc n f F Sl kap : (5 <= n)%nat -> (Z.of_nat n <= 2 ^ 10)%Z -> 1 <= kap ->
  near_sol f n (n - 2) f32_real f32_real (Bo n Sl) R100 (kap * ((dl + 4 * u32) * (2 / INR (n - 1)))) (kap * (12 * u32)) (kap * (3 * INR n * eta32 + zt)) -> bounded (Bo n Sl) n (n - 2) (kap * (2 / INR (n - 1))) ->
  (forall g k, (k < n - 2)%nat -> F g k = Bo n Sl g k) -> acc_op f n (n - 2) n f32_real f32_real F (kap * (2 / INR (n - 1))) (16 * kap) w h.
Proof.
  intros H5 Hq K1 HN HB HE. destruct (q_basics n ltac:(lia)) as (N1 & NE & NZ). destruct (n1_le n ltac:(lia)) as [C C2]. pose proof (bpow_gt_0 radix2 (-24)) as U0. pose proof eta1 as E1. set (r := 2 / INR (n - 1)) in *.
  assert (KR : 0 <= kap * r <= 2 * kap) by (split; [apply Rmult_le_pos; lra|rewrite (Rmult_comm 2); apply Rmult_le_compat_l; lra]).
  split; auto; try lra; try lia.
  - eapply near_weak; [exact (near_of_sol _ _ _ _ _ _ _ _ _ _ _ HN HB)| | |exact HE].
    + replace (kap * ((dl + 4 * u32) * r) + kap * (12 * u32) * (kap * r)) with ((dl + 4 * u32) * (kap * r) + 12 * u32 * (kap * (kap * r))) by ring. replace (16 * kap * w * (kap * r)) with (16 * w * (kap * (kap * r))) by ring.
      assert (KK : kap * r <= kap * (kap * r)) by (rewrite <- (Rmult_1_l (kap * r)) at 1; apply Rmult_le_compat_r; lra).
      apply Rle_trans with ((dl + 4 * u32) * (kap * (kap * r)) + 12 * u32 * (kap * (kap * r))). apply Rplus_le_compat_r. apply Rmult_le_compat_l; lra. rewrite <- Rmult_plus_distr_r. apply Rmult_le_compat_r. lra. unfold w. lra.
    + replace (3 * (16 * kap) * INR n * h) with (kap * (48 * (INR n * eta32) + 48 * (INR n * zt))) by (unfold h; ring). apply Rmult_le_compat_l; lra.
  - eapply bounded_same; [exact HB|exact HE].
Qed.
Lemma coefs_acc K L P S T b eP eS F : f32_coefs E dl zt K L P S T b eP eS F -> acc_op (forward_slice b) (len_phys b) (len_spec b) (len_phys b) eP eS F K L w h.
Proof.
  intros H. pose proof (range100 zt Hz) as HI. pose proof (bpow_gt_0 radix2 (-24)) as U0. pose proof eta1 as E1. destruct H as [T V n b H Hn HE HR|T V n b F H H5 Hn HE HR HF|T V n b F H H5 Hn HE HR HF|n f H Hn HE HR|n f H Hn HE HR].
  - apply new_chebyshev_inv in H as [H2 ->]. cbn [r2r_ops_x len_phys len_spec forward_slice cheb_len_phys cheb_len_spec c_n c_m]. destruct (q_basics n ltac:(lia)) as (N1 & NE & NZ). destruct (n1_le n H2) as [C C2].
    split; auto; try lra; try lia.
    + eapply near_weak; [apply (cheb_fwd_near FA E n dl zt R100 _ H2 ltac:(lia) (f32_n_eta n ltac:(lia)) ltac:(lra) ltac:(lra) HE HR HI (Rle_refl _))| | |intros; apply cheb_coefs_eq; auto]; unfold w, h; [|lra]. apply Rmult_le_compat_r; lra.
    + eapply bounded_same; [apply Fc_bounded; auto|intros; apply cheb_coefs_eq; auto].
  - unfold new_composite in H. destruct (compo_new KDirichlet n) as [c| |] eqn:Ec; cbn [bind] in H; try discriminate. injection H as <-. destruct (dir_inv n c Ec) as [_ ->].
    cbn [r2r_ops_x len_phys len_spec forward_slice compo_len_phys compo_len_spec p_n p_m]. change (compo_len_phys (dirc n)) with n. change (compo_len_spec (dirc n)) with (n - 2)%nat.
    assert (K2 : (INR n + 1) ^ 2 = (INR n + 1) * (INR n + 1)) by ring. rewrite K2. destruct (f32_n11 n ltac:(lia)) as [A1 A2].
    assert (UQ : forall g h c d G, dir_rows n g c -> dir_rows n h d -> (forall j, (j < n)%nat -> Rabs (g j - h j) <= G) -> forall k, (k < n - 2)%nat -> Rabs (c k - d k) <= (INR n + 1) * (INR n + 1) * G) by (intros; eapply dir_unique; eauto).
    apply (compo_acc n _ F (sol (dirc n) n)); auto.
    + pose proof (pos_INR n). replace 1 with (1 * 1) at 1 by ring. apply Rmult_le_compat; lra.
    + apply (dir_fwd_near FA E n dl zt R100 H5 ltac:(lia) (f32_n_eta n ltac:(lia)) A2 A1 Hd ltac:(lra) HE HR (crange n H5 Hn)).
    + apply (Bo_bounded n (sol (dirc n) n) (dir_rows n)); auto. intros; apply dir_sol_rows; auto.
      intros j Hj. unfold zprev, znext. destruct (j <? 2)%nat, (j + 2 <? n - 2)%nat; ring.
      intros g h' c d Hc Hd' j Hj. specialize (Hc j Hj). specialize (Hd' j Hj). unfold zprev, znext in *. destruct (j <? 2)%nat, (j + 2 <? n - 2)%nat; lra.
    + apply (fit_unique n dir_q F (dir_rows n) _ ((INR n + 1) * (INR n + 1)) ltac:(lia) HF); auto. apply ls_dir. intros; apply dir_sol_rows; auto.
  - unfold new_composite in H. destruct (compo_new KNeumann n) as [c| |] eqn:Ec; cbn [bind] in H; try discriminate. injection H as <-. destruct (neu_inv n c Ec) as [_ ->].
    cbn [r2r_ops_x len_phys len_spec forward_slice compo_len_phys compo_len_spec p_n p_m]. change (compo_len_phys (neuc n)) with n. change (compo_len_spec (neuc n)) with (n - 2)%nat.
    assert (K2 : (INR n + 1) ^ 2 = (INR n + 1) * (INR n + 1)) by ring. rewrite K2. destruct (f32_n10 n ltac:(lia)) as [A1 A2].
    assert (UQ : forall g h c d G, neu_rows n g c -> neu_rows n h d -> (forall j, (j < n)%nat -> Rabs (g j - h j) <= G) -> forall k, (k < n - 2)%nat -> Rabs (c k - d k) <= (INR n + 1) * (INR n + 1) * G) by (intros; eapply neu_unique; eauto).
    apply (compo_acc n _ F (sol (neuc n) n)); auto.
    + pose proof (pos_INR n). replace 1 with (1 * 1) at 1 by ring. apply Rmult_le_compat; lra.
    + apply (neu_fwd_near FA E n dl zt R100 H5 A1 (f32_n_eta n ltac:(lia)) A2 Hd ltac:(lra) HE HR (crange n H5 Hn)).
    + apply (Bo_bounded n (sol (neuc n) n) (neu_rows n)); auto. intros; apply neu_sol_rows; auto.
      intros j Hj. unfold neu_row. ring.
      intros g h' c d Hc Hd' j Hj. specialize (Hc j Hj). specialize (Hd' j Hj). unfold neu_row in *. lra.
    + apply (fit_unique n neu_q F (neu_rows n) _ ((INR n + 1) * (INR n + 1)) ltac:(lia) HF); auto. apply ls_neu. intros; apply neu_sol_rows; auto.
  - apply r2c_new_inv in H as [H2 ->]. cbn [r2c_ops_x len_phys len_spec forward_slice r2c_len_phys r2c_len_spec r_n r_m]. destruct (q_basics n H2) as (N1 & NE & NZ).
    split; auto; try lra; try lia.
    + eapply near_weak; [apply (r2c_fwd_near FA E n dl zt R100 _ ltac:(lra) ltac:(lra) HE HR HI (Rle_refl _))| | |intros; apply r2c_coefs_eq]; unfold w, h; lra.
    + eapply bounded_same; [apply Fr_bounded; auto|intros; apply r2c_coefs_eq].
  - apply c2c_new_inv in H as [H2 ->]. cbn [c2c_ops_x len_phys len_spec forward_slice c2c_len_phys c2c_len_spec cc_n cc_m]. destruct (q_basics n H2) as (N1 & NE & NZ).
    split; auto; try lra; try lia.
    + eapply near_weak; [apply (c2c_fwd_near FA E n dl zt R100 _ ltac:(lra) ltac:(lra) HE HR HI (Rle_refl _))| | |intros; apply c2c_coefs_eq]; unfold w, h; lra.
    + eapply bounded_same; [apply Dft_bounded; auto|intros; apply c2c_coefs_eq].
Qed.
End F32.

Lemma stage {T1 T2} f l1 l2 q (e1 : fel T1) (e2 : fel T2) F K L w h (X : nat -> T1) (Z : nat -> T2) (t : nat -> CR) (s : nat -> R) lam Kt b :
  acc_op f l1 l2 q e1 e2 F K L w h -> 0 <= w -> 0 <= lam -> 0 <= Kt -> 0 <= b ->
  rows (fun _ : unit => True) f l1 l2 (fun _ => X) (fun _ => Z) ->
  (forall l, (l < l1)%nat -> 0 <= s l /\ close e1 (X l) (t l) lam Kt (s l) b) -> (1 + lam) * Kt * rsum l1 s + INR q * b <= R100 ->
  forall k, (k < l2)%nat -> close e2 (Z k) (F t k) (lam + L * w * (1 + lam)) (Kt * K) (rsum l1 s) (3 * L * INR q * h + (1 + L * w) * K * (INR q * b)).
Proof.
  intros A Hw Hl HKt Hb RX HX HR k Hk. pose proof (ao_K _ _ _ _ _ _ _ _ _ _ _ A) as HK. pose proof (ao_L _ _ _ _ _ _ _ _ _ _ _ A) as HL. pose proof (ao_len _ _ _ _ _ _ _ _ _ _ _ A) as Hlen. pose proof (ao_bounded _ _ _ _ _ _ _ _ _ _ _ A) as HB.
  assert (S0 : 0 <= rsum l1 s) by (apply rsum_pos; intros; apply HX; auto). assert (LQ : INR l1 <= INR q) by (apply le_INR; lia).
  assert (DB : rsum l1 (fun l => cn (csub (ev e1 (X l)) (t l))) <= lam * Kt * rsum l1 s + INR q * b).
  { apply Rle_trans with (rsum l1 (fun l => lam * Kt * s l + b)). apply rsum_le. intros l Hl'. apply HX; auto. rewrite rsum_add, rsum_scal_l, rsum_const. apply Rplus_le_compat_l. apply Rmult_le_compat_r; auto. }
  assert (TB : rsum l1 (fun l => cn (t l)) <= Kt * rsum l1 s). { rewrite <- rsum_scal_l. apply rsum_le. intros l Hl'. apply HX; auto. }
  assert (XB : rsum l1 (fun l => cn (ev e1 (X l))) <= (1 + lam) * Kt * rsum l1 s + INR q * b).
  { eapply Rle_trans. apply rsum_le. intros l Hl'. apply (cn_split _ (t l)). rewrite rsum_add. lra. }
  destruct (near_rows (fun _ : unit => True) f l1 l2 e1 e2 F K R100 _ _ (fun _ => X) (fun _ => Z) ltac:(lia) (ao_near _ _ _ _ _ _ _ _ _ _ _ A) HB RX tt I) with (k := k) as [FZ EZ]; auto.
  { intros j Hj. apply HX; auto. } { eapply Rle_trans; [exact XB|exact HR]. }
  split; auto. split.
  - eapply Rle_trans; [apply (cn_csub _ (F (fun j => ev e1 (X j)) k))|]. assert (LK : 0 <= L * w * K) by (apply Rmult_le_pos; [apply Rmult_le_pos|]; lra).
    apply (Rmult_le_compat_l (L * w * K)) in XB; auto.
    assert (FB : cn (csub (F (fun j => ev e1 (X j)) k) (F t k)) <= K * (lam * Kt * rsum l1 s + INR q * b)). { rewrite <- (proj1 HB) by auto. eapply Rle_trans; [apply (proj2 HB); auto|]. apply Rmult_le_compat_l; lra. }
    lra.
  - eapply Rle_trans; [apply (proj2 HB); auto|]. apply (Rmult_le_compat_l K) in TB; lra.
Qed.

Section Axes.
Context (w h : R) (Hw : u32 <= w) (Hh : 0 <= h <= 2).
Notation acc f l1 l2 q e1 e2 F K L := (acc_op f l1 l2 q e1 e2 F K L w h).
Lemma L18 L : L * w <= / 100 -> 4 <= L -> L <= bpow radix2 18.
Proof.
  intros H HL. pose proof (bpow_gt_0 radix2 (-24)). assert (L * u32 <= / 100). { eapply Rle_trans; [|exact H]. apply Rmult_le_compat_l; lra. }
  change u32 with (/ IZR (2 ^ 24)) in *. change (bpow radix2 18) with (IZR (2 ^ 18)). cbv [Z.pow Z.pow_pos Pos.iter Z.mul Pos.mul] in *. lra.
Qed.
Lemma tiny K L q Lp Qp : 0 <= K <= L / 2 -> 4 <= L -> L * w <= / 100 -> 4 <= Lp -> 1 <= Qp ->
  3 * L * INR q * h + (1 + L * w) * K * (INR q * (3 * Lp * Qp * h)) <= 3 * (Lp * L) * (Qp * INR q) * h.
Proof.
  intros HK HL HLw H4 H1. pose proof (pos_INR q) as q0. pose proof (bpow_gt_0 radix2 (-24)) as U0. assert (LP : 4 <= Lp * Qp). { replace 4 with (4 * 1) by ring. apply Rmult_le_compat; lra. }
  assert (QH : 0 <= INR q * h) by (apply Rmult_le_pos; lra). assert (LW : 0 <= L * w) by (apply Rmult_le_pos; lra). assert (LL : 4 * L <= (Lp * Qp) * L) by (apply Rmult_le_compat_r; lra).
  assert (M1 : (1 + L * w) * K <= 101 / 200 * L). { apply Rle_trans with (101 / 100 * (L / 2)). apply Rmult_le_compat; lra. lra. } assert (M0 : 0 <= (1 + L * w) * K) by (apply Rmult_le_pos; lra).
  assert (M2 : (1 + L * w) * K * (Lp * Qp) <= 101 / 200 * L * (Lp * Qp)) by (apply Rmult_le_compat_r; lra).
  replace (3 * L * INR q * h + (1 + L * w) * K * (INR q * (3 * Lp * Qp * h))) with (3 * (INR q * h) * (L + (1 + L * w) * K * (Lp * Qp))) by ring. replace (3 * (Lp * L) * (Qp * INR q) * h) with (3 * (INR q * h) * (Lp * Qp * L)) by ring.
  apply Rmult_le_compat_l; lra.
Qed.
Lemma acc_facts {T1 T2} f l1 l2 q (e1 : fel T1) (e2 : fel T2) F K L : acc f l1 l2 q e1 e2 F K L -> L * w <= / 100 ->
  0 <= K <= L / 2 /\ 4 <= L /\ 0 <= L * w <= / 100 /\ L <= bpow radix2 18 /\ 1 <= INR q <= bpow radix2 10.
Proof.
  intros A HL. pose proof (ao_K _ _ _ _ _ _ _ _ _ _ _ A) as HK. pose proof (ao_L _ _ _ _ _ _ _ _ _ _ _ A) as H4. pose proof (ao_len _ _ _ _ _ _ _ _ _ _ _ A) as Hlen. pose proof (ao_q _ _ _ _ _ _ _ _ _ _ _ A) as Hq.
  pose proof (bpow_gt_0 radix2 (-24)) as U0. split; auto. split; auto. split. split; auto. apply Rmult_le_pos; lra. split. apply L18; auto. split. change 1 with (INR 1). apply le_INR. lia. apply q10; auto.
Qed.
Lemma range_ok lam Kt S Q Lp Qp : 0 <= lam <= / 4 -> 0 <= Kt <= bpow radix2 37 -> 0 <= S <= bpow radix2 60 -> 0 <= Q <= bpow radix2 10 -> 0 <= Lp <= bpow radix2 37 -> 0 <= Qp <= bpow radix2 20 ->
  (1 + lam) * Kt * S + Q * (3 * Lp * Qp * h) <= R100.
Proof.
  intros Hl HK HS HQ HL HP. pose proof (mul_up _ _ _ _ HK HS) as A1. rewrite bp32 in A1. change (37 + 60)%Z with 97%Z in A1. pose proof (mul_up _ _ _ _ HQ (mul_up _ _ _ _ (mul_up _ _ _ _ HL HP) Hh)) as A2. rewrite (bp32 37 20) in A2. change (37 + 20)%Z with 57%Z in A2.
  replace (bpow radix2 10 * (bpow radix2 57 * 2)) with (2 * (bpow radix2 10 * bpow radix2 57)) in A2 by ring. rewrite (bp32 10 57) in A2. change (10 + 57)%Z with 67%Z in A2.
  assert (A3 : bpow radix2 67 <= bpow radix2 97) by (apply bpow_le; lia). assert (A4 : R100 = bpow radix2 97 * 8) by (change 100%Z with (97 + 3)%Z; rewrite bpow_plus; f_equal).
  assert (A6 : bpow radix2 67 * 1024 <= bpow radix2 97). { change 1024 with (bpow radix2 10). rewrite bp32. apply bpow_le. lia. }
  pose proof (bpow_gt_0 radix2 67). pose proof (bpow_gt_0 radix2 97). assert (A5 : (1 + lam) * (Kt * S) <= 5 / 4 * (Kt * S)) by (apply Rmult_le_compat_r; lra).
  rewrite A4. set (B := bpow radix2 97) in *. set (C := bpow radix2 67) in *. clearbody B C. replace (Q * (3 * Lp * Qp * h)) with (3 * (Q * (Lp * Qp * h))) by ring. lra.
Qed.

Lemma va1 {T1 T2} f l1 l2 q (e1 : fel T1) (e2 : fel T2) F K L (X : nat -> T1) (Z : nat -> T2) : acc f l1 l2 q e1 e2 F K L -> L * w <= / 100 ->
  rows (fun _ : unit => True) f l1 l2 (fun _ => X) (fun _ => Z) -> (forall i, (i < l1)%nat -> ef e1 (X i)) -> rsum l1 (fun i => cn (ev e1 (X i))) <= bpow radix2 60 ->
  forall k, (k < l2)%nat -> close e2 (Z k) (F (fun i => ev e1 (X i)) k) (L * w) K (rsum l1 (fun i => cn (ev e1 (X i)))) (3 * L * INR q * h).
Proof.
  intros A HL RX FX SX k Hk. destruct (acc_facts _ _ _ _ _ _ _ _ _ A HL) as (HK & H4 & HLw & H47 & Hq). assert (S0 : 0 <= rsum l1 (fun i => cn (ev e1 (X i)))) by (apply rsum_pos; intros; apply cn_pos).
  pose proof (bpow_gt_0 radix2 (-24)) as U0.
  pose proof (stage f l1 l2 q e1 e2 F K L w h X Z (fun i => ev e1 (X i)) (fun i => cn (ev e1 (X i))) 0 1 0 A ltac:(lra) (Rle_refl 0) ltac:(lra) (Rle_refl 0) RX) as G.
  specialize (G ltac:(intros l Hl; split; [apply cn_pos|]; split; [auto|]; split; [rewrite cn_csub_self; lra|lra])).
  assert (R9 : (1 + 0) * 1 * rsum l1 (fun i => cn (ev e1 (X i))) + INR q * 0 <= R100).
  { assert (bpow radix2 60 <= R100) by (apply bpow_le; lia). lra. }
  specialize (G R9 k Hk). replace (1 * K) with K in G by ring. eapply close_weak; [exact G|lra|lra|apply Rmult_le_pos; lra].
Qed.

Lemma va2 {T1 T2 T3} f l1 l2 q (e1 : fel T1) (e2 : fel T2) F K L f' l1' l2' q' (e3 : fel T3) F' K' L' (X : nat -> nat -> T1) (Z : nat -> nat -> T2) (Y : nat -> nat -> T3) :
  acc f l1 l2 q e1 e2 F K L -> L * w <= / 100 -> acc f' l1' l2' q' e2 e3 F' K' L' -> L' * w <= / 100 ->
  (forall p, (p < l1')%nat -> rows (fun _ : unit => True) f l1 l2 (fun _ i => X i p) (fun _ k => Z k p)) ->
  (forall k, (k < l2)%nat -> rows (fun _ : unit => True) f' l1' l2' (fun _ p => Z k p) (fun _ j => Y k j)) ->
  (forall i p, (i < l1)%nat -> (p < l1')%nat -> ef e1 (X i p)) ->
  let Sum := rsum l1' (fun p => rsum l1 (fun i => cn (ev e1 (X i p)))) in Sum <= bpow radix2 60 ->
  forall k j, (k < l2)%nat -> (j < l2')%nat -> close e3 (Y k j) (F' (fun p => F (fun i => ev e1 (X i p)) k) j) (21 / 20 * (L + L') * w) (K * K') Sum (3 * (L * L') * (INR q * INR q') * h).
Proof.
  intros A HL A' HL' RX RZ FX Sum SX k j Hk Hj. destruct (acc_facts _ _ _ _ _ _ _ _ _ A HL) as (HK & H4 & HLw & H47 & Hq). destruct (acc_facts _ _ _ _ _ _ _ _ _ A' HL') as (HK' & H4' & HLw' & H47' & Hq').
  pose proof (bpow_gt_0 radix2 (-24)) as U0. assert (R0 : forall p, 0 <= rsum l1 (fun i => cn (ev e1 (X i p)))) by (intros; apply rsum_pos; intros; apply cn_pos). assert (S0 : 0 <= Sum) by (apply rsum_pos; auto).
  assert (P0 : 0 <= 3 * L * INR q * h). { apply Rmult_le_pos; [apply Rmult_le_pos|]; lra. }
  pose proof (stage f' l1' l2' q' e2 e3 F' K' L' w h (fun p => Z k p) (fun j => Y k j) (fun p => F (fun i => ev e1 (X i p)) k) (fun p => rsum l1 (fun i => cn (ev e1 (X i p)))) (L * w) K (3 * L * INR q * h)
    A' ltac:(lra) ltac:(lra) ltac:(lra) P0 (RZ k Hk)) as G.
  specialize (G ltac:(intros p Hp; split; [auto|]; apply (va1 f l1 l2 q e1 e2 F K L (fun i => X i p) (fun k => Z k p) A HL (RX p Hp)); [intros; apply FX; auto| |auto]; eapply Rle_trans; [|exact SX]; apply (rsum_pick l1' (fun p => rsum l1 (fun i => cn (ev e1 (X i p))))); auto)).
  assert (B47 : bpow radix2 18 <= bpow radix2 37) by (apply bpow_le; lia). assert (B20 : bpow radix2 10 <= bpow radix2 20) by (apply bpow_le; lia).
  specialize (G ltac:(apply range_ok; split; try lra; auto) j Hj). eapply close_weak; [exact G| | |].
  - assert (L' * w * (1 + L * w) <= L' * w * (1 + / 100)) by (apply Rmult_le_compat_l; lra). lra.
  - apply tiny; auto; lra.
  - apply Rmult_le_pos; auto. apply Rmult_le_pos; lra.
Qed.

Lemma va3 {T1 T2 T3 T4} f l1 l2 q (e1 : fel T1) (e2 : fel T2) F K L f' l1' l2' q' (e3 : fel T3) F' K' L' f2 m1 m2 q2 (e4 : fel T4) F2 K2 L2
    (X : nat -> nat -> nat -> T1) (Z : nat -> nat -> nat -> T2) (U : nat -> nat -> nat -> T3) (Y : nat -> nat -> nat -> T4) :
  acc f l1 l2 q e1 e2 F K L -> L * w <= / 100 -> acc f' l1' l2' q' e2 e3 F' K' L' -> L' * w <= / 100 -> acc f2 m1 m2 q2 e3 e4 F2 K2 L2 -> L2 * w <= / 100 ->
  (forall p r, (p < l1')%nat -> (r < m1)%nat -> rows (fun _ : unit => True) f l1 l2 (fun _ i => X i p r) (fun _ k => Z k p r)) ->
  (forall k r, (k < l2)%nat -> (r < m1)%nat -> rows (fun _ : unit => True) f' l1' l2' (fun _ p => Z k p r) (fun _ j => U k j r)) ->
  (forall k j, (k < l2)%nat -> (j < l2')%nat -> rows (fun _ : unit => True) f2 m1 m2 (fun _ r => U k j r) (fun _ s => Y k j s)) ->
  (forall i p r, (i < l1)%nat -> (p < l1')%nat -> (r < m1)%nat -> ef e1 (X i p r)) ->
  let Sum := rsum m1 (fun r => rsum l1' (fun p => rsum l1 (fun i => cn (ev e1 (X i p r))))) in Sum <= bpow radix2 60 ->
  forall k j s, (k < l2)%nat -> (j < l2')%nat -> (s < m2)%nat ->
    close e4 (Y k j s) (F2 (fun r => F' (fun p => F (fun i => ev e1 (X i p r)) k) j) s) (11 / 10 * (L + L' + L2) * w) (K * K' * K2) Sum (3 * (L * L' * L2) * (INR q * INR q' * INR q2) * h).
Proof.
  intros A HL A' HL' A2 HL2 RX RZ RU FX Sum SX k j s Hk Hj Hs. destruct (acc_facts _ _ _ _ _ _ _ _ _ A HL) as (HK & H4 & HLw & H47 & Hq). destruct (acc_facts _ _ _ _ _ _ _ _ _ A' HL') as (HK' & H4' & HLw' & H47' & Hq'). destruct (acc_facts _ _ _ _ _ _ _ _ _ A2 HL2) as (HK2 & H42 & HLw2 & H472 & Hq2).
  pose proof (bpow_gt_0 radix2 (-24)) as U0. assert (R0 : forall r, 0 <= rsum l1' (fun p => rsum l1 (fun i => cn (ev e1 (X i p r))))) by (intros; apply rsum_pos; intros; apply rsum_pos; intros; apply cn_pos). assert (S0 : 0 <= Sum) by (apply rsum_pos; auto).
  assert (QQ : 1 <= INR q * INR q' <= bpow radix2 20). { split. replace 1 with (1 * 1) by ring. apply Rmult_le_compat; lra. change 20%Z with (10 + 10)%Z. rewrite bpow_plus. apply mul_up; lra. }
  assert (LL : 16 <= L * L' <= bpow radix2 36). { split. replace 16 with (4 * 4) by ring. apply Rmult_le_compat; lra. change 36%Z with (18 + 18)%Z. rewrite bpow_plus. apply mul_up; lra. }
  assert (KK : 0 <= K * K' <= bpow radix2 36). { split. apply Rmult_le_pos; lra. change 36%Z with (18 + 18)%Z. rewrite bpow_plus. apply mul_up; lra. }
  assert (B94 : bpow radix2 36 <= bpow radix2 37) by (apply bpow_le; lia).
  assert (P0 : 0 <= 3 * (L * L') * (INR q * INR q') * h). { apply Rmult_le_pos; [apply Rmult_le_pos|]; lra. }
  set (lam := 21 / 20 * (L + L') * w). assert (LAM : 0 <= lam <= 21 / 1000) by (unfold lam; lra).
  pose proof (stage f2 m1 m2 q2 e3 e4 F2 K2 L2 w h (fun r => U k j r) (fun s => Y k j s) (fun r => F' (fun p => F (fun i => ev e1 (X i p r)) k) j) (fun r => rsum l1' (fun p => rsum l1 (fun i => cn (ev e1 (X i p r))))) lam (K * K') (3 * (L * L') * (INR q * INR q') * h)
    A2 ltac:(lra) ltac:(lra) ltac:(lra) P0 (RU k j Hk Hj)) as G.
  specialize (G ltac:(intros r Hr; split; [auto|]; apply (va2 f l1 l2 q e1 e2 F K L f' l1' l2' q' e3 F' K' L' (fun i p => X i p r) (fun k p => Z k p r) (fun k j => U k j r) A HL A' HL'); auto;
     eapply Rle_trans; [|exact SX]; apply (rsum_pick m1 (fun r => rsum l1' (fun p => rsum l1 (fun i => cn (ev e1 (X i p r)))))); auto)).
  specialize (G ltac:(apply range_ok; split; try lra; auto) s Hs). eapply close_weak; [exact G| | |].
  - assert (L2 * w * (1 + lam) <= L2 * w * (1 + 21 / 1000)) by (apply Rmult_le_compat_l; lra). unfold lam at 1. lra.
  - apply tiny; auto; lra.
  - apply Rmult_le_pos; auto. apply Rmult_le_pos; lra.
Qed.
End Axes.
