(** C58: the exact maps of SpaceVal.v are the ones the error analysis of the
    transforms uses, and errors along one more axis. *)
From Coq Require Import List Arith ZArith Reals Bool Lra Lia.
From Flocq Require Import Core BinarySingleNaN.
From Verif Require Import Base Num Linalg Stencils ChebPoly Cheb ChebDct ChebFacts Compo CompoProofs Fourier FourierF64 FourierFacts FourierProofs Bases BaseLin LibBase NdArray NdArrayFacts AxisFacts AxisProps PropAxis SpaceFacts SpaceBases Space
  ExtLib AnyArith ExtFacts AnyBase PropAny PropAny2 Rounding LibAcc RndDirichlet RndNeumann RndCheb RndFft RndR2c RndCompo RndFinite2 PropRound PropRound2 PropTrans2 RndAxis RndOps RndAxis2 RndOps2 RndDN RndDN2 SpaceAcc RndSpace SpaceVal.
Import ListNotations.
Local Open Scope R_scope.
Local Notation u64 := (bpow radix2 (-53)).
Local Notation eta64 := (bpow radix2 (-1075)).
Local Notation FA := f64_float_arith.

(** ** The exact maps *)
Lemma node_angle n j : node n j = cos (angle n j).
Proof. unfold node, angle. rewrite Rtrigo_facts.cos_pi_minus. reflexivity. Qed.
Lemma half_wgt n k : half n k = ChebDct.wgt (n - 1) k.
Proof. reflexivity. Qed.
Lemma cheb_values_eq n c j : cheb_values n c j = Bc n c j.
Proof. unfold cheb_values, Bc, Bex. f_equal. apply rsum_ext. intros k Hk. rewrite node_angle, TT_cos. auto. Qed.
Lemma half_rev n j : (j < n)%nat -> half n (n - 1 - j) = half n j.
Proof. intros. unfold half. f_equal. destruct (Nat.eqb_spec (n - 1 - j) 0), (Nat.eqb_spec (n - 1 - j) (n - 1)), (Nat.eqb_spec j 0), (Nat.eqb_spec j (n - 1)); cbn [orb]; auto; lia. Qed.
Lemma cheb_coefs_eq n v k : (2 <= n)%nat -> cheb_coefs n v k = Fc n v k.
Proof.
  intros Hn. unfold cheb_coefs, Fc, Fex. f_equal. rewrite half_wgt. f_equal. rewrite rsum_rev. apply rsum_ext. intros j Hj. rewrite half_rev by auto. rewrite half_wgt.
  assert (EA : cos (INR k * angle n (n - 1 - j)) = cc (n - 1) j k).
  { unfold angle, cc. f_equal. rewrite minus_INR, mult_INR by lia. assert (0 < INR (n - 1)) by (apply lt_0_INR; lia). field. lra. }
  rewrite EA. ring.
Qed.
Lemma stencil_sum n (q c t : nat -> R) : (2 <= n)%nat ->
  rsum n (fun k => ((if (k <? n - 2)%nat then c k else 0) - (if (k <? 2)%nat then 0 else q (k - 2)%nat * c (k - 2)%nat)) * t k) = rsum (n - 2) (fun k => c k * (t k - q k * t (k + 2)%nat)).
Proof.
  intros Hn. rewrite (rsum_ext n _ (fun k => (if (k <? n - 2)%nat then c k * t k else 0) - (if (k <? 2)%nat then 0 else q (k - 2)%nat * c (k - 2)%nat * t k))).
  2: { intros k _. destruct (k <? n - 2)%nat, (k <? 2)%nat; ring. }
  rewrite rsum_sub. replace (rsum n (fun k => if (k <? n - 2)%nat then c k * t k else 0)) with (rsum (n - 2) (fun k => c k * t k)).
  2: { replace n with ((n - 2) + 2)%nat at 2 by lia. rewrite rsum_split. rewrite (rsum_0 2), Rplus_0_r. apply rsum_ext. intros k Hk. destruct (Nat.ltb_spec k (n - 2)); auto; lia. intros k Hk. destruct (Nat.ltb_spec (n - 2 + k) (n - 2)); auto; lia. }
  replace (rsum n (fun k => if (k <? 2)%nat then 0 else q (k - 2)%nat * c (k - 2)%nat * t k)) with (rsum (n - 2) (fun k => q k * c k * t (k + 2)%nat)).
  2: { replace n with (2 + (n - 2))%nat at 2 by lia. rewrite rsum_split. rewrite (rsum_0 2), Rplus_0_l. apply rsum_ext. intros k Hk. destruct (Nat.ltb_spec (2 + k) 2); try lia. replace (2 + k - 2)%nat with k by lia. rewrite (Nat.add_comm 2 k). auto. intros k Hk. destruct (Nat.ltb_spec k 2); auto; lia. }
  rewrite <- rsum_sub. apply rsum_ext. intros; ring.
Qed.
Lemma neu_q_eq k : neu_q k = nq k.
Proof. unfold neu_q, nq. rewrite plus_INR. cbn [INR]. pose proof (pos_INR k). field. lra. Qed.
Lemma dir_values_eq n c j : (2 <= n)%nat -> compo_values n dir_q c j = Fo n (dir_coef n) c j.
Proof.
  intros Hn. unfold compo_values, Fo, Bex. f_equal. rewrite (rsum_ext n _ (fun k => ((if (k <? n - 2)%nat then fst (c k) else 0) - (if (k <? 2)%nat then 0 else dir_q (k - 2)%nat * fst (c (k - 2)%nat))) * cos (INR k * angle n j))).
  rewrite (stencil_sum n dir_q (fun k => fst (c k)) (fun k => cos (INR k * angle n j)) Hn). reflexivity.
  intros k Hk. rewrite node_angle, TT_cos. f_equal. unfold dir_coef, dir_q. destruct (k <? n - 2)%nat, (k <? 2)%nat; ring.
Qed.
Lemma neu_values_eq n c j : (2 <= n)%nat -> compo_values n neu_q c j = Fo n (neu_coef n) c j.
Proof.
  intros Hn. unfold compo_values, Fo, Bex. f_equal. rewrite (rsum_ext n _ (fun k => ((if (k <? n - 2)%nat then fst (c k) else 0) - (if (k <? 2)%nat then 0 else neu_q (k - 2)%nat * fst (c (k - 2)%nat))) * cos (INR k * angle n j))).
  rewrite (stencil_sum n neu_q (fun k => fst (c k)) (fun k => cos (INR k * angle n j)) Hn). reflexivity.
  intros k Hk. rewrite node_angle, TT_cos. f_equal. unfold neu_coef. rewrite neu_q_eq. auto.
Qed.
Lemma dn_r_eq k : dn_r k = dr k.
Proof. unfold dn_r, dr. rewrite !plus_INR. cbn [INR]. pose proof (dden_pos k). f_equal; [ring|f_equal; ring]. Qed.
Lemma dn_s_eq k : dn_s k = ds k.
Proof. unfold dn_s, ds. rewrite !plus_INR. cbn [INR]. f_equal; [ring|f_equal; ring]. Qed.
Lemma dn_coef_sub n c d k : dn_coef n (fun i => c i - d i) k = dn_coef n c k - dn_coef n d k.
Proof. unfold dn_coef. destruct (k <? n - 2)%nat, ((0 <? k) && (k <? n - 1))%nat, (k <? 2)%nat; ring. Qed.
Lemma dn_values_eq n c j : (4 <= n)%nat -> dn_values n c j = Fo n (dn_coef n) c j.
Proof.
  intros Hn. unfold dn_values, Fo, Bex. f_equal. set (T := fun k => cos (INR k * angle n j)).
  rewrite (rsum_ext n _ (fun k => (if (k <? n - 2)%nat then fst (c k) * T k else 0) + (if ((0 <? k) && (k <? n - 1))%nat then dr (k - 1)%nat * fst (c (k - 1)%nat) * T (k - 1 + 1)%nat else 0) - (if (k <? 2)%nat then 0 else ds (k - 2)%nat * fst (c (k - 2)%nat) * T (k - 2 + 2)%nat))).
  - rewrite rsum_sub, rsum_add. rewrite (rsum_head2 n (fun k => fst (c k) * T k)), (rsum_mid n (fun k => dr k * fst (c k) * T (k + 1)%nat)), (rsum_tail2 n (fun k => ds k * fst (c k) * T (k + 2)%nat)) by lia.
    rewrite <- rsum_add, <- rsum_sub. apply rsum_ext. intros k Hk. rewrite dn_r_eq, dn_s_eq. unfold T. ring.
  - intros k Hk. rewrite node_angle, TT_cos. fold (T k). unfold dn_coef. destruct (Nat.ltb_spec k (n - 2)), (Nat.ltb_spec 0 k), (Nat.ltb_spec k (n - 1)), (Nat.ltb_spec k 2); cbn [andb]; try lia;
    repeat match goal with |- context [(?a - ?b + ?b)%nat] => replace (a - b + b)%nat with a by lia end; ring.
Qed.
Lemma f64_eta100 : 100 * eta64 <= u64.
Proof. pose proof (bpow_gt_0 radix2 (-1075)). replace u64 with (bpow radix2 1022 * eta64) by (rewrite <- bpow_plus; reflexivity). apply Rmult_le_compat_r; [lra|]. apply Rle_trans with (bpow radix2 7). change (bpow radix2 7) with 128. lra. apply bpow_le. lia. Qed.
Lemma f64_dn20 n : (Z.of_nat n <= 2 ^ 20)%Z -> (2 * (Z.of_nat n * Z.of_nat n) <= 2 ^ 53)%Z.
Proof. intros H. assert (0 <= Z.of_nat n)%Z by lia. change (2 ^ 20)%Z with 1048576%Z in H. change (2 ^ 53)%Z with 9007199254740992%Z. nia. Qed.
Lemma E_phase n j k : FourierFacts.E n (Z.of_nat j * Z.of_nat k) = (cos (phase n j k), sin (phase n j k)).
Proof. unfold FourierFacts.E, arg, phase. rewrite (INR_IZR_INZ (j * k)), Nat2Z.inj_mul. auto. Qed.
Lemma E_phase_neg n j k : FourierFacts.E n (- (Z.of_nat j * Z.of_nat k)) = (cos (phase n j k), - sin (phase n j k)).
Proof.
  unfold FourierFacts.E, arg, phase. rewrite (INR_IZR_INZ (j * k)), Nat2Z.inj_mul. rewrite opp_IZR. replace (2 * PI * - IZR (Z.of_nat j * Z.of_nat k) / INR n) with (- (2 * PI * IZR (Z.of_nat j * Z.of_nat k) / INR n)) by (unfold Rdiv; ring).
  rewrite cos_neg, sin_neg. auto.
Qed.
Lemma phase_comm n j k : phase n j k = phase n k j.
Proof. unfold phase. rewrite Nat.mul_comm. auto. Qed.
Lemma c2c_values_eq n c j : c2c_values n c j = Bd n c j.
Proof.
  unfold c2c_values, Bd, Dft, over, csum. cbn [fst snd sgn]. f_equal; f_equal; apply rsum_ext; intros k Hk; rewrite E_phase, (phase_comm n k j); unfold cmul; cbn [fst snd nmul nsub nadd num_R]; ring.
Qed.
Lemma c2c_coefs_eq n v k : c2c_coefs n v k = Dft n false v k.
Proof.
  unfold c2c_coefs, Dft, csum. cbn [fst snd sgn]. f_equal; apply rsum_ext; intros j Hj; rewrite E_phase_neg; unfold cmul; cbn [fst snd nmul nsub nadd num_R]; ring.
Qed.
Lemma r2c_coefs_eq n v k : r2c_coefs n v k = Fr n v k.
Proof.
  unfold r2c_coefs, Fr, RF, Dft, csum. cbn [fst snd sgn]. rewrite <- rsum_opp. f_equal; apply rsum_ext; intros j Hj; rewrite E_phase_neg; unfold cmul; cbn [fst snd nmul nsub nadd num_R]; ring.
Qed.
Lemma r2c_values_eq n c j : r2c_values n c j = Br n c j.
Proof.
  unfold r2c_values, Br, RB. f_equal. f_equal. apply rsum_ext. intros k Hk. rewrite E_phase, (phase_comm n k j). unfold FourierProofs.wgt, selfc, cmul. cbn [fst snd nmul nsub nadd num_R]. auto.
Qed.

(** least-squares fits are the solutions of the normal equations *)
Lemma ls_dir n a c : least_squares n dir_q a c -> dir_rows n a c.
Proof.
  intros H j Hj. specialize (H j Hj). cbv beta zeta in H. unfold dir_q in H. unfold zprev, znext.
  destruct (Nat.ltb_spec j (n - 2)); try lia. destruct (Nat.ltb_spec (j + 2) 2); try lia. replace (j + 2 - 2)%nat with j in H by lia.
  destruct (Nat.ltb_spec j 2), (Nat.ltb_spec (j + 2) (n - 2)); lra.
Qed.
Lemma ls_neu n a c : least_squares n neu_q a c -> neu_rows n a c.
Proof.
  intros H j Hj. specialize (H j Hj). cbv beta zeta in H. rewrite !neu_q_eq in H. unfold neu_row, qprev, qnext.
  destruct (Nat.ltb_spec j (n - 2)); try lia. destruct (Nat.ltb_spec (j + 2) 2); try lia. replace (j + 2 - 2)%nat with j in H by lia.
  destruct (Nat.ltb_spec j 2), (Nat.ltb_spec (j + 2) (n - 2)); lra.
Qed.

(** ** One base: [f] computes [F] *)
Record acc_op {T1 T2} (f : list T1 -> list T2 -> res (list T2)) (l1 l2 q : nat) (e1 : fel T1) (e2 : fel T2) (F : (nat -> CR) -> nat -> CR) (K L w h : R) : Prop := {
  ao_near : near f l1 l2 e1 e2 F R900 (L * w * K) (3 * L * INR q * h);
  ao_bounded : bounded F l1 l2 K;
  ao_K : 0 <= K <= L / 2; ao_L : 4 <= L;
  ao_len : (1 <= l1 <= q)%nat; ao_q : (Z.of_nat q <= 2 ^ 20)%Z }.
Lemma near_weak {T1 T2} f l1 l2 (e1 : fel T1) (e2 : fel T2) F F' Rg al be al' be' : near f l1 l2 e1 e2 F Rg al be -> al <= al' -> be <= be' ->
  (forall g k, (k < l2)%nat -> F' g k = F g k) -> near f l1 l2 e1 e2 F' Rg al' be'.
Proof.
  intros H Ha Hb HE d1 d2 x o Lx Lo Fx Sx. destruct (H d1 d2 x o Lx Lo Fx Sx) as (y & Ey & Ly & Hy). exists y. split; auto. split; auto. intros k Hk. destruct (Hy k Hk) as [F1 G]. split; auto. rewrite HE by auto.
  eapply Rle_trans; [exact G|]. assert (0 <= rsum l1 (fun j => cn (ev e1 x.[j]))) by (apply rsum_pos; intros; apply cn_pos). apply Rplus_le_compat; auto. apply Rmult_le_compat_r; auto.
Qed.
Lemma bounded_same F F' l1 l2 K : bounded F l1 l2 K -> (forall g k, (k < l2)%nat -> F' g k = F g k) -> bounded F' l1 l2 K.
Proof. intros [H1 H2] HE. split; intros; rewrite ?HE by auto; auto. Qed.
(** a solver whose error grows with its solution *)
Lemma near_of_sol {T1 T2} f l1 l2 (e1 : fel T1) (e2 : fel T2) F K Rg al ac be : near_sol f l1 l2 e1 e2 F Rg al ac be -> bounded F l1 l2 K -> near f l1 l2 e1 e2 F Rg (al + ac * K) be.
Proof.
  intros H [_ HB] d1 d2 x o Lx Lo Fx Sx. destruct (H d1 d2 x o Lx Lo Fx Sx) as (y & Ey & Ly & Hy). exists y. split; auto. split; auto. intros k Hk.
  destruct (Hy (K * rsum l1 (fun j => cn (ev e1 x.[j]))) (fun k Hk => HB _ k Hk) k Hk) as [F1 G]. split; auto. eapply Rle_trans; [exact G|]. lra.
Qed.

Section F64.
Context (E : ext f64) (dl zt : R) (Hd : 0 <= dl <= / 16) (Hz : 0 <= zt <= 1).
Let w := dl + u64.
Let h := eta64 + zt.
Lemma q_basics q : (1 <= q)%nat -> 1 <= INR q /\ 0 <= INR q * eta64 /\ zt <= INR q * zt.
Proof. intros Hq. pose proof eta1. assert (1 <= INR q) by (change 1 with (INR 1); apply le_INR; lia). split; auto. split. apply Rmult_le_pos; lra. rewrite <- (Rmult_1_l zt) at 1. apply Rmult_le_compat_r; lra. Qed.
Lemma crange n : (5 <= n)%nat -> (Z.of_nat n <= 2 ^ 20)%Z -> ieee_inr 1024 (27 * INR n * INR n * (R900 + 3 * (INR n * eta64) + zt)).
Proof.
  intros Hn Hq. pose proof (compo_range n R900 zt ltac:(lia) Hz ltac:(pose proof B900; lra)) as CR. eapply (inr_down FA); [|exact CR]. pose proof B900. pose proof (pos_INR n) as N0. pose proof eta1. assert (0 <= INR n * eta64) by (apply Rmult_le_pos; lra). assert (0 <= INR n * INR n) by (apply Rmult_le_pos; auto).
  rewrite !(Rmult_assoc 27). split. apply Rmult_le_pos; [lra|]. apply Rmult_le_pos; lra. apply Rmult_le_compat_l; [lra|]. apply Rmult_le_compat_l; lra.
Qed.
Lemma values_usable K P S T b eP eS F : f64_values E dl zt K P S T b eP eS F -> any_usable E P S T b.
Proof. intros []; [eapply aus_chebyshev|eapply aus_composite|eapply aus_composite|eapply aus_composite|eapply aus_r2c|eapply aus_c2c]; eauto; cbn [ssolve]; lia. Qed.
Lemma coefs_usable K L P S T b eP eS F : f64_coefs E dl zt K L P S T b eP eS F -> any_usable E P S T b.
Proof. intros []; [eapply aus_chebyshev|eapply aus_composite|eapply aus_composite|eapply aus_r2c|eapply aus_c2c]; eauto; cbn [ssolve]; lia. Qed.

Lemma values_acc K P S T b eP eS F : f64_values E dl zt K P S T b eP eS F -> acc_op (backward_slice b) (len_spec b) (len_phys b) (len_phys b) eS eP F K 5 w h.
Proof.
  intros H. pose proof (range900 zt Hz) as HI. pose proof (bpow_gt_0 radix2 (-53)) as U0. pose proof eta1 as E1. destruct H as [T V n b H Hn HE HR|T V n b H H5 Hn HE HR|T V n b H H5 Hn HE HR|T V n b H H6 Hn HE HR|n f H Hn HE HR|n f H Hn HE HR].
  - apply new_chebyshev_inv in H as [H2 ->]. cbn [r2r_ops_x len_phys len_spec backward_slice cheb_len_phys cheb_len_spec c_n c_m]. destruct (q_basics n ltac:(lia)) as (N1 & NE & NZ).
    split; auto; try lra; try lia; try (intros; apply cheb_values_eq).
    + eapply near_weak; [apply (cheb_bwd_near FA E n dl zt R900 _ H2 ltac:(lra) ltac:(lra) HE HR HI (Rle_refl _))| | |intros; apply cheb_values_eq]; unfold w, h; lra.
    + eapply bounded_same; [apply Bc_bounded; auto|intros; apply cheb_values_eq].
  - unfold new_composite in H. destruct (compo_new KDirichlet n) as [c| |] eqn:Ec; cbn [bind] in H; try discriminate. injection H as <-. destruct (dir_inv n c Ec) as [_ ->].
    cbn [r2r_ops_x len_phys len_spec backward_slice compo_len_phys compo_len_spec p_n p_m]. change (compo_len_phys (dirc n)) with n. change (compo_len_spec (dirc n)) with (n - 2)%nat. destruct (q_basics n ltac:(lia)) as (N1 & NE & NZ).
    split; auto; try lra; try lia.
    + eapply near_weak; [apply (dir_bwd_near FA E n dl zt R900 H5 (f64_n_eta n ltac:(lia)) ltac:(lra) ltac:(lra) HE HR (crange n H5 Hn))| | |intros; apply dir_values_eq; lia]; unfold w, h; lra.
    + eapply bounded_same; [apply (Fo_bounded n (dir_coef n)); auto|intros; apply dir_values_eq; lia].
      intros c d k. unfold dir_coef. destruct (k <? n - 2)%nat, (k <? 2)%nat; ring. intros c. apply dir_coef_abs. lia.
  - unfold new_composite in H. destruct (compo_new KNeumann n) as [c| |] eqn:Ec; cbn [bind] in H; try discriminate. injection H as <-. destruct (neu_inv n c Ec) as [_ ->].
    cbn [r2r_ops_x len_phys len_spec backward_slice compo_len_phys compo_len_spec p_n p_m]. change (compo_len_phys (neuc n)) with n. change (compo_len_spec (neuc n)) with (n - 2)%nat. destruct (q_basics n ltac:(lia)) as (N1 & NE & NZ).
    split; auto; try lra; try lia.
    + destruct (f64_n24 n ltac:(lia)) as [A1 A2]. eapply near_weak; [apply (neu_bwd_near FA E n dl zt R900 H5 A1 (f64_n_eta n ltac:(lia)) ltac:(lra) ltac:(lra) HE HR (crange n H5 Hn))| | |intros; apply neu_values_eq; lia]; unfold w, h; lra.
    + eapply bounded_same; [apply (Fo_bounded n (neu_coef n)); auto|intros; apply neu_values_eq; lia].
      intros c d k. unfold neu_coef. destruct (k <? n - 2)%nat, (k <? 2)%nat; ring. intros c. apply neu_coef_abs. lia.
  - unfold new_composite in H. destruct (compo_new KDirichletNeumann n) as [c| |] eqn:Ec; cbn [bind] in H; try discriminate. injection H as <-. destruct (dn_inv n c Ec) as (_ & st & -> & HD).
    cbn [r2r_ops_x len_phys len_spec backward_slice compo_len_phys compo_len_spec p_n p_m]. change (compo_len_phys (dnc n st)) with n. change (compo_len_spec (dnc n st)) with (n - 2)%nat. destruct (q_basics n ltac:(lia)) as (N1 & NE & NZ).
    split; auto; try lra; try lia.
    + eapply near_weak; [apply (dn_bwd_near FA E n st dl zt R900 ltac:(lia) ltac:(apply f64_dn20; lia) f64_eta100 HD ltac:(lra) ltac:(lra) HE HR (crange n ltac:(lia) Hn))| | |intros; apply dn_values_eq; lia]; unfold w, h; lra.
    + eapply bounded_same; [apply (Fo_bounded n (dn_coef n)); auto|intros; apply dn_values_eq; lia]; try lia.
      intros; apply dn_coef_sub. intros c. apply dn_coef_abs. lia.
  - apply r2c_new_inv in H as [H2 ->]. cbn [r2c_ops_x len_phys len_spec backward_slice r2c_len_phys r2c_len_spec r_n r_m]. destruct (q_basics n H2) as (N1 & NE & NZ). destruct (ninv_le n H2) as [C C2]. assert (IN : 0 <= / INR n) by (unfold Rdiv in C; lra). pose proof (div2_lt1 n H2) as DN.
    split; auto; try lra; try lia.
    + eapply near_weak; [apply (r2c_bwd_near FA E (Z0 := eqz_f64) n dl zt R900 _ eq_refl H2 ltac:(lia) (f64_n_eta n ltac:(lia)) ltac:(lra) ltac:(lra) HE HR HI (Rle_refl _))| | |intros; apply r2c_values_eq]; unfold w, h; [|lra].
      unfold Rdiv. rewrite <- Rmult_assoc. apply Rmult_le_compat_r; lra.
    + eapply bounded_same; [apply Br_bounded; auto|intros; apply r2c_values_eq].
  - apply c2c_new_inv in H as [H2 ->]. cbn [c2c_ops_x len_phys len_spec backward_slice c2c_len_phys c2c_len_spec cc_n cc_m]. destruct (q_basics n H2) as (N1 & NE & NZ). destruct (ninv_le n H2) as [C C2].
    split; auto; try lra; try lia.
    + eapply near_weak; [apply (c2c_bwd_near FA E n dl zt R900 _ H2 ltac:(lia) (f64_n_eta n ltac:(lia)) ltac:(lra) ltac:(lra) HE HR HI (Rle_refl _))| | |intros; apply c2c_values_eq]; unfold w, h; [|lra].
      apply Rmult_le_compat_r; lra.
    + eapply bounded_same; [apply Bd_bounded; auto|intros; apply c2c_values_eq].
Qed.

Lemma fit_unique n q F (RW : (nat -> R) -> (nat -> R) -> Prop) Sl kap : (2 <= n)%nat -> fits_values n q F -> (forall a c, least_squares n q a c -> RW a c) -> (forall g, RW g (Sl g)) ->
  (forall g h c d G, RW g c -> RW h d -> (forall j, (j < n)%nat -> Rabs (g j - h j) <= G) -> forall k, (k < n - 2)%nat -> Rabs (c k - d k) <= kap * G) ->
  forall g k, (k < n - 2)%nat -> F g k = Bo n Sl g k.
Proof.
  intros Hn HF HR HS HU g k Hk. destruct (HF g) as [F0 F1]. unfold Bo. rewrite (surjective_pairing (F g k)), F0. f_equal. apply Rminus_diag_uniq, Rabs_le0. rewrite <- (Rmult_0_r kap).
  apply (HU _ _ _ _ 0 (HR _ _ F1) (HS (Fex n (fun i => fst (g i))))); auto. intros j Hj. rewrite cheb_coefs_eq by auto. unfold Fc. cbn [fst]. rewrite (Rminus_diag_eq _ _ eq_refl), Rabs_R0. lra.
Qed.
Lemma compo_acc n f F Sl kap : (5 <= n)%nat -> (Z.of_nat n <= 2 ^ 20)%Z -> 1 <= kap ->
  near_sol f n (n - 2) f64_real f64_real (Bo n Sl) R900 (kap * ((dl + 4 * u64) * (2 / INR (n - 1)))) (kap * (12 * u64)) (kap * (3 * INR n * eta64 + zt)) -> bounded (Bo n Sl) n (n - 2) (kap * (2 / INR (n - 1))) ->
  (forall g k, (k < n - 2)%nat -> F g k = Bo n Sl g k) -> acc_op f n (n - 2) n f64_real f64_real F (kap * (2 / INR (n - 1))) (16 * kap) w h.
Proof.
  intros H5 Hq K1 HN HB HE. destruct (q_basics n ltac:(lia)) as (N1 & NE & NZ). destruct (n1_le n ltac:(lia)) as [C C2]. pose proof (bpow_gt_0 radix2 (-53)) as U0. pose proof eta1 as E1. set (r := 2 / INR (n - 1)) in *.
  assert (KR : 0 <= kap * r <= 2 * kap) by (split; [apply Rmult_le_pos; lra|rewrite (Rmult_comm 2); apply Rmult_le_compat_l; lra]).
  split; auto; try lra; try lia.
  - eapply near_weak; [exact (near_of_sol _ _ _ _ _ _ _ _ _ _ _ HN HB)| | |exact HE].
    + replace (kap * ((dl + 4 * u64) * r) + kap * (12 * u64) * (kap * r)) with ((dl + 4 * u64) * (kap * r) + 12 * u64 * (kap * (kap * r))) by ring. replace (16 * kap * w * (kap * r)) with (16 * w * (kap * (kap * r))) by ring.
      assert (KK : kap * r <= kap * (kap * r)) by (rewrite <- (Rmult_1_l (kap * r)) at 1; apply Rmult_le_compat_r; lra).
      apply Rle_trans with ((dl + 4 * u64) * (kap * (kap * r)) + 12 * u64 * (kap * (kap * r))). apply Rplus_le_compat_r. apply Rmult_le_compat_l; lra. rewrite <- Rmult_plus_distr_r. apply Rmult_le_compat_r. lra. unfold w. lra.
    + replace (3 * (16 * kap) * INR n * h) with (kap * (48 * (INR n * eta64) + 48 * (INR n * zt))) by (unfold h; ring). apply Rmult_le_compat_l; lra.
  - eapply bounded_same; [exact HB|exact HE].
Qed.
Lemma coefs_acc K L P S T b eP eS F : f64_coefs E dl zt K L P S T b eP eS F -> acc_op (forward_slice b) (len_phys b) (len_spec b) (len_phys b) eP eS F K L w h.
Proof.
  intros H. pose proof (range900 zt Hz) as HI. pose proof (bpow_gt_0 radix2 (-53)) as U0. pose proof eta1 as E1. destruct H as [T V n b H Hn HE HR|T V n b F H H5 Hn HE HR HF|T V n b F H H5 Hn HE HR HF|n f H Hn HE HR|n f H Hn HE HR].
  - apply new_chebyshev_inv in H as [H2 ->]. cbn [r2r_ops_x len_phys len_spec forward_slice cheb_len_phys cheb_len_spec c_n c_m]. destruct (q_basics n ltac:(lia)) as (N1 & NE & NZ). destruct (n1_le n H2) as [C C2].
    split; auto; try lra; try lia.
    + eapply near_weak; [apply (cheb_fwd_near FA E n dl zt R900 _ H2 ltac:(lia) (f64_n_eta n ltac:(lia)) ltac:(lra) ltac:(lra) HE HR HI (Rle_refl _))| | |intros; apply cheb_coefs_eq; auto]; unfold w, h; [|lra]. apply Rmult_le_compat_r; lra.
    + eapply bounded_same; [apply Fc_bounded; auto|intros; apply cheb_coefs_eq; auto].
  - unfold new_composite in H. destruct (compo_new KDirichlet n) as [c| |] eqn:Ec; cbn [bind] in H; try discriminate. injection H as <-. destruct (dir_inv n c Ec) as [_ ->].
    cbn [r2r_ops_x len_phys len_spec forward_slice compo_len_phys compo_len_spec p_n p_m]. change (compo_len_phys (dirc n)) with n. change (compo_len_spec (dirc n)) with (n - 2)%nat.
    assert (K2 : (INR n + 1) ^ 2 = (INR n + 1) * (INR n + 1)) by ring. rewrite K2. destruct (f64_n25 n ltac:(lia)) as [A1 A2].
    assert (UQ : forall g h c d G, dir_rows n g c -> dir_rows n h d -> (forall j, (j < n)%nat -> Rabs (g j - h j) <= G) -> forall k, (k < n - 2)%nat -> Rabs (c k - d k) <= (INR n + 1) * (INR n + 1) * G) by (intros; eapply dir_unique; eauto).
    apply (compo_acc n _ F (sol (dirc n) n)); auto.
    + pose proof (pos_INR n). replace 1 with (1 * 1) at 1 by ring. apply Rmult_le_compat; lra.
    + apply (dir_fwd_near FA E n dl zt R900 H5 ltac:(lia) (f64_n_eta n ltac:(lia)) A2 A1 Hd ltac:(lra) HE HR (crange n H5 Hn)).
    + apply (Bo_bounded n (sol (dirc n) n) (dir_rows n)); auto. intros; apply dir_sol_rows; auto.
      intros j Hj. unfold zprev, znext. destruct (j <? 2)%nat, (j + 2 <? n - 2)%nat; ring.
      intros g h' c d Hc Hd' j Hj. specialize (Hc j Hj). specialize (Hd' j Hj). unfold zprev, znext in *. destruct (j <? 2)%nat, (j + 2 <? n - 2)%nat; lra.
    + apply (fit_unique n dir_q F (dir_rows n) _ ((INR n + 1) * (INR n + 1)) ltac:(lia) HF); auto. apply ls_dir. intros; apply dir_sol_rows; auto.
  - unfold new_composite in H. destruct (compo_new KNeumann n) as [c| |] eqn:Ec; cbn [bind] in H; try discriminate. injection H as <-. destruct (neu_inv n c Ec) as [_ ->].
    cbn [r2r_ops_x len_phys len_spec forward_slice compo_len_phys compo_len_spec p_n p_m]. change (compo_len_phys (neuc n)) with n. change (compo_len_spec (neuc n)) with (n - 2)%nat.
    assert (K2 : (INR n + 1) ^ 2 = (INR n + 1) * (INR n + 1)) by ring. rewrite K2. destruct (f64_n24 n ltac:(lia)) as [A1 A2].
    assert (UQ : forall g h c d G, neu_rows n g c -> neu_rows n h d -> (forall j, (j < n)%nat -> Rabs (g j - h j) <= G) -> forall k, (k < n - 2)%nat -> Rabs (c k - d k) <= (INR n + 1) * (INR n + 1) * G) by (intros; eapply neu_unique; eauto).
    apply (compo_acc n _ F (sol (neuc n) n)); auto.
    + pose proof (pos_INR n). replace 1 with (1 * 1) at 1 by ring. apply Rmult_le_compat; lra.
    + apply (neu_fwd_near FA E n dl zt R900 H5 A1 (f64_n_eta n ltac:(lia)) A2 Hd ltac:(lra) HE HR (crange n H5 Hn)).
    + apply (Bo_bounded n (sol (neuc n) n) (neu_rows n)); auto. intros; apply neu_sol_rows; auto.
      intros j Hj. unfold neu_row. ring.
      intros g h' c d Hc Hd' j Hj. specialize (Hc j Hj). specialize (Hd' j Hj). unfold neu_row in *. lra.
    + apply (fit_unique n neu_q F (neu_rows n) _ ((INR n + 1) * (INR n + 1)) ltac:(lia) HF); auto. apply ls_neu. intros; apply neu_sol_rows; auto.
  - apply r2c_new_inv in H as [H2 ->]. cbn [r2c_ops_x len_phys len_spec forward_slice r2c_len_phys r2c_len_spec r_n r_m]. destruct (q_basics n H2) as (N1 & NE & NZ).
    split; auto; try lra; try lia.
    + eapply near_weak; [apply (r2c_fwd_near FA E n dl zt R900 _ ltac:(lra) ltac:(lra) HE HR HI (Rle_refl _))| | |intros; apply r2c_coefs_eq]; unfold w, h; lra.
    + eapply bounded_same; [apply Fr_bounded; auto|intros; apply r2c_coefs_eq].
  - apply c2c_new_inv in H as [H2 ->]. cbn [c2c_ops_x len_phys len_spec forward_slice c2c_len_phys c2c_len_spec cc_n cc_m]. destruct (q_basics n H2) as (N1 & NE & NZ).
    split; auto; try lra; try lia.
    + eapply near_weak; [apply (c2c_fwd_near FA E n dl zt R900 _ ltac:(lra) ltac:(lra) HE HR HI (Rle_refl _))| | |intros; apply c2c_coefs_eq]; unfold w, h; lra.
    + eapply bounded_same; [apply Dft_bounded; auto|intros; apply c2c_coefs_eq].
Qed.
End F64.

(** ** One more axis: a row [X] close to its exact values [t] is mapped to a row [Z]
    close to [F t]. *)
Definition close {T} (e : fel T) (x : T) (t : CR) (lam K s b : R) : Prop := ef e x /\ cn (csub (ev e x) t) <= lam * K * s + b /\ cn t <= K * s.
Lemma stage {T1 T2} f l1 l2 q (e1 : fel T1) (e2 : fel T2) F K L w h (X : nat -> T1) (Z : nat -> T2) (t : nat -> CR) (s : nat -> R) lam Kt b :
  acc_op f l1 l2 q e1 e2 F K L w h -> 0 <= w -> 0 <= lam -> 0 <= Kt -> 0 <= b ->
  rows (fun _ : unit => True) f l1 l2 (fun _ => X) (fun _ => Z) ->
  (forall l, (l < l1)%nat -> 0 <= s l /\ close e1 (X l) (t l) lam Kt (s l) b) -> (1 + lam) * Kt * rsum l1 s + INR q * b <= R900 ->
  forall k, (k < l2)%nat -> close e2 (Z k) (F t k) (lam + L * w * (1 + lam)) (Kt * K) (rsum l1 s) (3 * L * INR q * h + (1 + L * w) * K * (INR q * b)).
Proof.
  intros A Hw Hl HKt Hb RX HX HR k Hk. pose proof (ao_K _ _ _ _ _ _ _ _ _ _ _ A) as HK. pose proof (ao_L _ _ _ _ _ _ _ _ _ _ _ A) as HL. pose proof (ao_len _ _ _ _ _ _ _ _ _ _ _ A) as Hlen. pose proof (ao_bounded _ _ _ _ _ _ _ _ _ _ _ A) as HB.
  assert (S0 : 0 <= rsum l1 s) by (apply rsum_pos; intros; apply HX; auto). assert (LQ : INR l1 <= INR q) by (apply le_INR; lia).
  assert (DB : rsum l1 (fun l => cn (csub (ev e1 (X l)) (t l))) <= lam * Kt * rsum l1 s + INR q * b).
  { apply Rle_trans with (rsum l1 (fun l => lam * Kt * s l + b)). apply rsum_le. intros l Hl'. apply HX; auto. rewrite rsum_add, rsum_scal_l, rsum_const. apply Rplus_le_compat_l. apply Rmult_le_compat_r; auto. }
  assert (TB : rsum l1 (fun l => cn (t l)) <= Kt * rsum l1 s). { rewrite <- rsum_scal_l. apply rsum_le. intros l Hl'. apply HX; auto. }
  assert (XB : rsum l1 (fun l => cn (ev e1 (X l))) <= (1 + lam) * Kt * rsum l1 s + INR q * b).
  { eapply Rle_trans. apply rsum_le. intros l Hl'. apply (cn_split _ (t l)). rewrite rsum_add. lra. }
  destruct (near_rows (fun _ : unit => True) f l1 l2 e1 e2 F K R900 _ _ (fun _ => X) (fun _ => Z) ltac:(lia) (ao_near _ _ _ _ _ _ _ _ _ _ _ A) HB RX tt I) with (k := k) as [FZ EZ]; auto.
  { intros j Hj. apply HX; auto. } { eapply Rle_trans; [exact XB|exact HR]. }
  split; auto. split.
  - eapply Rle_trans; [apply (cn_csub _ (F (fun j => ev e1 (X j)) k))|]. assert (LK : 0 <= L * w * K) by (apply Rmult_le_pos; [apply Rmult_le_pos|]; lra).
    apply (Rmult_le_compat_l (L * w * K)) in XB; auto.
    assert (FB : cn (csub (F (fun j => ev e1 (X j)) k) (F t k)) <= K * (lam * Kt * rsum l1 s + INR q * b)). { rewrite <- (proj1 HB) by auto. eapply Rle_trans; [apply (proj2 HB); auto|]. apply Rmult_le_compat_l; lra. }
    lra.
  - eapply Rle_trans; [apply (proj2 HB); auto|]. apply (Rmult_le_compat_l K) in TB; lra.
Qed.
