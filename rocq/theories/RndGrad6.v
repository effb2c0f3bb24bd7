(** C59: the gradients of the bases, and errors along one more axis. *)
From Coq Require Import List Arith ZArith Reals Bool Lra Lia.
From Flocq Require Import Core BinarySingleNaN.
From Verif Require Import Base Num Linalg Stencils StencilProofs Cheb Compo CompoProofs Fourier FourierF64 FourierFacts FourierProofs AnyArith ArithSteps Rounding RndTdma RndDirichlet RndNeumann RndGrad RndFinite RndFinite2 RndFourier RndFft RndCompo PropRound PropRound2 PropRound4 PropTrans2 SpaceBases Bases BaseLin ExtLib ExtFacts AnyBase PropAny PropAny2
  RndAxis RndOps RndOps2 RndDN RndDN2 SpaceAcc RndSpace SpaceVal RndVal RndVal2 RndGrad2 GradSpec GradOp RndGrad3 RndGrad4 RndGrad5.
Import ListNotations.
Local Open Scope R_scope.
Local Notation u64 := (bpow radix2 (-53)).
Local Notation eta64 := (bpow radix2 (-1075)).
Local Notation FA := f64_float_arith.

Record gacc {T1 T2} (f : list T1 -> list T2 -> res (list T2)) (l1 l2 q : nat) (e1 : fel T1) (e2 : fel T2) (F : (nat -> CR) -> nat -> CR) (K L : R) : Prop := {
  ga_near : forall Rg, 0 <= Rg -> K * (1 + Rg) <= bpow radix2 910 -> near f l1 l2 e1 e2 F Rg (L * u64 * K) (L * K * INR q * eta64);
  ga_bounded : bounded F l1 l2 K;
  ga_K : 1 <= K; ga_L : 4 <= L;
  ga_len : (1 <= l1 <= q)%nat; ga_q : INR q <= bpow radix2 45 }.

(** ** The bases *)
Lemma scalar_view T (V : Vec f64 T) e : f64_scalar T V e -> exists VC : VecC num_f64 T V, view e (cp (VecC := VC)).
Proof.
  intros [].
  - exists (vecC_self num_f64). left. exists tt. split. intros []; auto. intros x. split; reflexivity.
  - exists (vecC_cplx num_f64). right. exists true, false. split. intros []; auto. intros x. split; reflexivity.
Qed.
Lemma re_im_view : view f64_cplx re_im.
Proof. right. exists true, false. split. intros []; auto. intros x. split; reflexivity. Qed.
Lemma gradient_usable E d K L P S T b e F : f64_gradient E d K L P S T b e F -> any_usable E P S T b.
Proof. intros []; [eapply aus_chebyshev|eapply aus_chebyshev|eapply aus_composite|eapply aus_composite|eapply aus_composite|eapply aus_r2c|eapply aus_c2c]; eauto; cbn [ssolve]; lia. Qed.

Lemma cheb_gacc {T} {V : Vec f64 T} {I} (cp : I -> T -> f64) (GE : grad_elem f64_fin f64_val (ieee_rnd 53 1024) cp) (GF : elem_fwd f64_fin f64_val (ieee_rnd 53 1024) (ieee_inr 1024) cp) (e : fel T) n d :
  view e cp -> (3 <= n)%nat -> gL n d * u64 <= / 100 -> gacc (fun x o => cheb_gradient (mk_cheb n n) x o d) n n n e e (times d (cheb_derivative n)) (gK n d) (gL n d).
Proof.
  intros HV Hn HL. destruct (gL_facts n d ltac:(lia) HL) as (D0 & D1 & [N1 N2] & D2 & NU & NZ). pose proof (bpow_gt_0 radix2 (-53)) as U. pose proof (bpow_gt_0 radix2 (-1075)) as E. pose proof (gK_ge1 n d ltac:(lia)) as K1. pose proof (pos_INR d) as d0.
  assert (EL : gL n d = 4 * (INR d * INR n) + 4 * INR n) by (unfold gL; rewrite plus_INR; cbn [INR]; ring).
  split; auto; try lra; try lia.
  - intros Rg R0 HR. eapply near_weak; [apply (near_comps e cp _ n n (Gpow n d) (gK n d) Rg (4 * (INR d * INR n * u64) * gK n d) (2 * (INR d * INR n) * INR n * gK n d * eta64) HV (Gpow_rbounded n d Hn))| | |].
    + apply Rmult_le_pos; [|lra]. apply Rmult_le_pos; [|lra]. apply Rmult_le_pos; lra.
    + intros x o Lx Lo HF HS. apply (cheb_grad_comp GE GF n x o d Rg); auto. eapply Rle_trans; [exact HR|]. unfold R920. apply bpow_le. lia.
    + rewrite EL. replace (4 * (INR d * INR n * u64) * gK n d) with (4 * (INR d * INR n) * (u64 * gK n d)) by ring. replace ((4 * (INR d * INR n) + 4 * INR n) * u64 * gK n d) with ((4 * (INR d * INR n) + 4 * INR n) * (u64 * gK n d)) by ring. apply Rmult_le_compat_r. apply Rmult_le_pos; lra. lra.
    + rewrite EL. replace (2 * (2 * (INR d * INR n) * INR n * gK n d * eta64)) with (4 * (INR d * INR n) * (gK n d * INR n * eta64)) by ring. replace ((4 * (INR d * INR n) + 4 * INR n) * gK n d * INR n * eta64) with ((4 * (INR d * INR n) + 4 * INR n) * (gK n d * INR n * eta64)) by ring. apply Rmult_le_compat_r. apply Rmult_le_pos; [apply Rmult_le_pos|]; lra. lra.
    + intros g k Hk. apply times_cheb; auto.
  - eapply bounded_same; [apply both_bounded, Gpow_rbounded; auto|]. intros; apply times_cheb; auto.
Qed.
Lemma times_ext n d c c' k : (3 <= n)%nat -> (k < n)%nat -> (forall p, (p < n)%nat -> c p = c' p) -> times d (cheb_derivative n) c k = times d (cheb_derivative n) c' k.
Proof.
  intros Hn Hk H. rewrite !times_cheb by auto. unfold both. f_equal; apply (rbounded_ext (Gpow n d) n n (gK n d)); auto using Gpow_rbounded; intros p Hp; rewrite H; auto.
Qed.
Lemma dn_a_eq n c k : dn_a n c k = dn_coef n c k.
Proof. unfold dn_a, dn_coef. rewrite dn_r_eq, dn_s_eq. change (1 <=? k)%nat with (0 <? k)%nat. reflexivity. Qed.
Lemma dn_ortho_eq n g k : dn_ortho n g k = both (dn_coef n) g k.
Proof. unfold dn_ortho, both. rewrite !dn_a_eq. reflexivity. Qed.
Lemma compo_gacc {T} {V : Vec f64 T} {VC : VecC num_f64 T V} (e : fel T) n d c C O : view e (cp (VecC := VC)) -> (5 <= n)%nat -> gL n d * u64 <= / 100 -> p_ortho c = mk_cheb n n ->
  (forall g h k, C (fun j => g j - h j) k = C g k - C h k) -> (forall g, rsum n (fun k => Rabs (C g k)) <= 2 * rsum (n - 2) (fun k => Rabs (g k))) -> (forall g k, O g k = both C g k) ->
  (forall a Rg, length a = (n - 2)%nat -> 0 <= Rg -> Rg <= bpow radix2 910 -> (forall p j, (j < n - 2)%nat -> f64_fin (cp p a.[j])) -> (forall p, rsum (n - 2) (fun j => Rabs (gX f64_val cp p a j)) <= Rg) ->
     exists z, compo_to_ortho c a (repeat v0 (compo_len_orth c)) = Ok z /\ length z = n /\ forall p, (forall k, (k < n)%nat -> f64_fin (cp p z.[k])) /\
     rsum n (fun k => Rabs (gX f64_val cp p z k - C (gX f64_val cp p a) k)) <= 6 * u64 * rsum (n - 2) (fun j => Rabs (gX f64_val cp p a j)) + 3 * INR n * eta64) ->
  gacc (fun x o => compo_gradient c x o d) (n - 2) n n e e (fun g => times d (cheb_derivative n) (O g)) (2 * gK n d) (gL n d).
Proof.
  intros HV H5 HL EC C1 C2 CQ HO. assert (Hn : (3 <= n)%nat) by lia. destruct (gL_facts n d ltac:(lia) HL) as (D0 & D1 & [N1 N2] & D2 & NU & NZ). pose proof (bpow_gt_0 radix2 (-53)) as U. pose proof (bpow_gt_0 radix2 (-1075)) as E. pose proof (gK_ge1 n d ltac:(lia)) as K1.
  assert (L4 : 4 <= gL n d) by (unfold gL; rewrite plus_INR; cbn [INR]; lra).
  assert (HF : forall g k, (k < n)%nat -> times d (cheb_derivative n) (O g) k = both (compo_G n d C) g k).
  { intros g k Hk. rewrite (times_ext n d _ (both C g)) by (auto; intros; apply CQ). rewrite times_cheb by auto. reflexivity. }
  split; auto; try lra; try lia.
  - intros Rg R0 HR. eapply near_weak; [apply (near_comps e cp _ (n - 2) n (compo_G n d C) (2 * gK n d) Rg (gL n d * u64 * (2 * gK n d)) (gL n d * gK n d * INR n * eta64) HV (compo_rbounded n d C Hn C1 C2))|lra| |exact HF].
    + apply Rmult_le_pos; [|lra]. apply Rmult_le_pos; [|lra]. apply Rmult_le_pos; lra.
    + intros x o Lx Lo Hf HS. assert (HR' : Rg <= bpow radix2 910). { assert (1 * Rg <= 2 * gK n d * Rg) by (apply Rmult_le_compat_r; lra). lra. }
      destruct (HO x Rg Lx R0 HR' Hf HS) as (z & Hz). apply (compo_grad_comp (vecC_elem FA VC) (vecC_fwd FA VC) n c C x o d Rg); eauto.
    + apply Req_le. ring.
  - eapply bounded_same; [apply both_bounded, compo_rbounded; eauto|exact HF].
Qed.

Lemma gradient_acc E d K L P S T b e F : f64_gradient E d K L P S T b e F -> L * u64 <= / 100 -> gacc (fun x o => gradient_slice b x o d) (len_spec b) (len_orth b) (len_phys b) e e F K L.
Proof.
  intros H HL. destruct H as [T V e n b Hs H Hn|n b H Hn|T V e n b Hs H Hn|T V e n b Hs H Hn HZ|T V e n b Hs H Hn HZ|n f H Hn|n f H].
  - destruct (scalar_view _ _ _ Hs) as [VC HV]. apply new_chebyshev_inv in H as [H2 ->]. exact (cheb_gacc cp (vecC_elem FA VC) (vecC_fwd FA VC) e n d HV Hn HL).
  - apply new_chebyshev_inv in H as [H2 ->]. exact (cheb_gacc (V := vec_num_complex) re_im (num_complex_elem FA (ieee_dbl 53 1024 eq_refl eq_refl)) (num_complex_fwd FA (ieee_dbl 53 1024 eq_refl eq_refl)) f64_cplx n d re_im_view Hn HL).
  - destruct (scalar_view _ _ _ Hs) as [VC HV]. unfold new_composite in H. destruct (compo_new KDirichlet n) as [c| |] eqn:Ec; cbn [bind] in H; try discriminate. injection H as <-. destruct (dir_inv n c Ec) as [_ ->].
    replace (4 * INR n ^ (2 * d - 1)) with (2 * gK n d) by (unfold gK; ring).
    apply (compo_gacc (V := V) e n d (dirc n) (dir_coef n) (compo_ortho n dir_q) HV Hn HL eq_refl).
    + intros g h k. unfold dir_coef. destruct (k <? n - 2)%nat, (k <? 2)%nat; ring.
    + intros g. apply dir_coef_abs. lia.
    + intros g k. unfold compo_ortho, both, compo_a, dir_coef, dir_q. f_equal; destruct (k <? n - 2)%nat, (k <? 2)%nat; ring.
    + intros a Rg La R0 HR HF HS. apply (dir_ortho_comp n a _ Rg); auto. apply repeat_length.
  - destruct (scalar_view _ _ _ Hs) as [VC HV]. unfold new_composite in H. destruct (compo_new KNeumann n) as [c| |] eqn:Ec; cbn [bind] in H; try discriminate. injection H as <-. destruct (neu_inv n c Ec) as [_ ->].
    replace (4 * INR n ^ (2 * d - 1)) with (2 * gK n d) by (unfold gK; ring).
    apply (compo_gacc (V := V) e n d (neuc n) (neu_coef n) (compo_ortho n neu_q) HV Hn HL eq_refl).
    + intros g h k. unfold neu_coef. destruct (k <? n - 2)%nat, (k <? 2)%nat; ring.
    + intros g. apply neu_coef_abs. lia.
    + intros g k. unfold compo_ortho, both, compo_a, neu_coef. rewrite neu_q_eq. reflexivity.
    + intros a Rg La R0 HR HF HS. apply (neu_ortho_comp n a _ Rg); auto. apply repeat_length.
  - destruct (scalar_view _ _ _ Hs) as [VC HV]. unfold new_composite in H. destruct (compo_new KDirichletNeumann n) as [c| |] eqn:Ec; cbn [bind] in H; try discriminate. injection H as <-. destruct (dn_inv n c Ec) as (_ & st & -> & HD).
    replace (4 * INR n ^ (2 * d - 1)) with (2 * gK n d) by (unfold gK; ring).
    apply (compo_gacc (V := V) e n d (dnc n st) (dn_coef n) (dn_ortho n) HV ltac:(lia) HL eq_refl).
    + intros. apply dn_coef_sub.
    + intros g. apply dn_coef_abs. lia.
    + intros g k. apply dn_ortho_eq.
    + intros a Rg La R0 HR HF HS. apply (dn_ortho_comp n st a _ Rg); auto. apply repeat_length.
  - apply r2c_new_inv in H as [H2 ->]. cbn [r2c_ops_x len_phys len_spec len_orth gradient_slice]. change (r2c_len_spec (mk_r2c n (n / 2 + 1))) with (n / 2 + 1)%nat. change (r2c_len_orth (mk_r2c n (n / 2 + 1))) with (n / 2 + 1)%nat. change (r2c_len_phys (mk_r2c n (n / 2 + 1))) with n.
    destruct (gL_facts n d Hn HL) as (D0 & D1 & [N1 N2] & D2 & NU & NZ). assert (M1 : 1 <= INR (n / 2 + 1)) by (change 1 with (INR 1); apply le_INR; lia). pose proof (pos_INR d) as d0.
    split; auto.
    + intros Rg R0 HR. exact (r2c_grad_near n d Rg Hn HL R0 HR).
    + apply fourier_bounded. intros k Hk. apply pow_incr. split; [apply pos_INR|apply le_INR; lia].
    + apply pow_R1_Rle; auto.
    + rewrite plus_INR. cbn [INR]. lra.
    + destruct n as [|[|n]]; [lia|cbn; lia|]. assert (Datatypes.S (Datatypes.S n) / 2 < Datatypes.S (Datatypes.S n))%nat by (apply Nat.div_lt; lia). lia.
  - apply c2c_new_inv in H as [Hn ->]. cbn [c2c_ops_x len_phys len_spec len_orth gradient_slice]. change (c2c_len_spec (mk_c2c n n)) with n. change (c2c_len_orth (mk_c2c n n)) with n. change (c2c_len_phys (mk_c2c n n)) with n.
    destruct (gL_facts n d Hn HL) as (D0 & D1 & [N1 N2] & D2 & NU & NZ). pose proof (pos_INR d) as d0.
    split; auto; try lia.
    + intros Rg R0 HR. exact (c2c_grad_near n d Rg Hn HL R0 HR).
    + apply c2c_bounded. intros k Hk. apply pow_incr. split; [apply pos_INR|apply le_INR; pose proof (c2c_w_lt n k Hk); lia].
    + apply pow_R1_Rle; auto.
    + rewrite plus_INR. cbn [INR]. lra.
Qed.

(** gradients of bases as above are never refused *)
Lemma gradient_total E d K L P S T b e F : f64_gradient E d K L P S T b e F -> total_gradient b d.
Proof.
  intros H. assert (FN : fnop (fun x y => gradient_slice b x y d) (len_spec b) (len_orth b)).
  { destruct H as [T V e n b Hs H Hn|n b H Hn|T V e n b Hs H Hn|T V e n b Hs H Hn HZ|T V e n b Hs H Hn HZ|n f H Hn|n f H].
    - apply new_chebyshev_inv in H as [_ ->]. apply gradient_fnop. auto.
    - apply new_chebyshev_inv in H as [_ ->]. apply (gradient_fnop (V := vec_num_complex)). auto.
    - apply new_composite_any in H as (H4 & s & -> & Hst). apply (compo_gradient_fnop KDirichlet); auto.
    - apply new_composite_any in H as (H4 & s & -> & Hst). apply (compo_gradient_fnop KNeumann); auto.
    - apply new_composite_any in H as (H4 & s & -> & Hst). apply (compo_gradient_fnop KDirichletNeumann); auto.
    - apply r2c_new_inv in H as [_ ->]. apply fnop_r2c_gradient; auto.
    - apply c2c_new_inv in H as [H1 ->]. apply fnop_c2c_gradient; auto. }
  intros x y Hx Hy. destruct FN as [g Hg]. exists (g x). apply Hg; auto.
Qed.

(** ** One more axis *)
Lemma gstage {T1 T2} f l1 l2 q (e1 : fel T1) (e2 : fel T2) F K L (X : nat -> T1) (Z : nat -> T2) (t : nat -> CR) (s : nat -> R) lam Kt b :
  gacc f l1 l2 q e1 e2 F K L -> 0 <= lam -> 0 <= Kt -> 0 <= b ->
  rows (fun _ : unit => True) f l1 l2 (fun _ => X) (fun _ => Z) ->
  (forall l, (l < l1)%nat -> 0 <= s l /\ close e1 (X l) (t l) lam Kt (s l) b) -> K * (1 + ((1 + lam) * Kt * rsum l1 s + INR q * b)) <= bpow radix2 910 ->
  forall k, (k < l2)%nat -> close e2 (Z k) (F t k) (lam + L * u64 * (1 + lam)) (Kt * K) (rsum l1 s) (L * K * INR q * eta64 + (1 + L * u64) * K * (INR q * b)).
Proof.
  intros A Hl HKt Hb RX HX HR k Hk. destruct A as [HN HB HK HL Hlen _]. pose proof (bpow_gt_0 radix2 (-53)) as U.
  assert (S0 : 0 <= rsum l1 s) by (apply rsum_pos; intros; apply HX; auto). assert (LQ : INR l1 <= INR q) by (apply le_INR; lia). pose proof (pos_INR q) as q0.
  assert (DB : rsum l1 (fun l => cn (csub (ev e1 (X l)) (t l))) <= lam * Kt * rsum l1 s + INR q * b).
  { apply Rle_trans with (rsum l1 (fun l => lam * Kt * s l + b)). apply rsum_le. intros l Hl'. apply HX; auto. rewrite rsum_add, rsum_scal_l, rsum_const. apply Rplus_le_compat_l. apply Rmult_le_compat_r; auto. }
  assert (TB : rsum l1 (fun l => cn (t l)) <= Kt * rsum l1 s). { rewrite <- rsum_scal_l. apply rsum_le. intros l Hl'. apply HX; auto. }
  assert (XB : rsum l1 (fun l => cn (ev e1 (X l))) <= (1 + lam) * Kt * rsum l1 s + INR q * b).
  { eapply Rle_trans. apply rsum_le. intros l Hl'. apply (cn_split _ (t l)). rewrite rsum_add. lra. }
  assert (R0 : 0 <= (1 + lam) * Kt * rsum l1 s + INR q * b). { assert (0 <= INR q * b) by (apply Rmult_le_pos; auto). assert (0 <= (1 + lam) * Kt * rsum l1 s) by (apply Rmult_le_pos; auto; apply Rmult_le_pos; lra). lra. }
  destruct (near_rows (fun _ : unit => True) f l1 l2 e1 e2 F K _ _ _ (fun _ => X) (fun _ => Z) ltac:(lia) (HN _ R0 HR) HB RX tt I) with (k := k) as [FZ EZ]; auto.
  { intros j Hj. apply HX; auto. }
  split; auto. split.
  - eapply Rle_trans; [apply (cn_csub _ (F (fun j => ev e1 (X j)) k))|]. assert (LK : 0 <= L * u64 * K) by (apply Rmult_le_pos; [apply Rmult_le_pos|]; lra).
    apply (Rmult_le_compat_l (L * u64 * K)) in XB; auto.
    assert (FB : cn (csub (F (fun j => ev e1 (X j)) k) (F t k)) <= K * (lam * Kt * rsum l1 s + INR q * b)). { rewrite <- (proj1 HB) by auto. eapply Rle_trans; [apply (proj2 HB); auto|]. apply Rmult_le_compat_l; lra. }
    lra.
  - eapply Rle_trans; [apply (proj2 HB); auto|]. apply (Rmult_le_compat_l K) in TB; lra.
Qed.

Lemma gacc_facts {T1 T2} f l1 l2 q (e1 : fel T1) (e2 : fel T2) F K L : gacc f l1 l2 q e1 e2 F K L -> L * u64 <= / 100 ->
  1 <= K /\ 4 <= L /\ 0 <= L * u64 <= / 100 /\ L <= bpow radix2 47 /\ 1 <= INR q <= bpow radix2 45.
Proof.
  intros [_ _ HK H4 Hlen Hq] HL. pose proof (bpow_gt_0 radix2 (-53)) as U0. split; auto. split; auto. split. split; auto. apply Rmult_le_pos; lra. split. apply (L47 u64); auto; lra. split; auto. change 1 with (INR 1). apply le_INR. lia.
Qed.
Lemma gtail L K q B : 0 <= L * u64 <= / 100 -> 4 <= L -> 1 <= K -> 1 <= q -> 4 <= B -> L * K * q * eta64 + (1 + L * u64) * K * (q * (B * eta64)) <= B * L * K * q * eta64.
Proof.
  intros HL H4 HK Hq HB. pose proof (bpow_gt_0 radix2 (-1075)) as E. replace (L * K * q * eta64 + (1 + L * u64) * K * (q * (B * eta64))) with (K * q * eta64 * (L + (1 + L * u64) * B)) by ring. replace (B * L * K * q * eta64) with (K * q * eta64 * (B * L)) by ring.
  apply Rmult_le_compat_l. apply Rmult_le_pos; [apply Rmult_le_pos|]; lra.
  assert ((1 + L * u64) * B <= 101 / 100 * B) by (apply Rmult_le_compat_r; lra). assert (0 <= (B - 4) * (L - 4)) by (apply Rmult_le_pos; lra). lra.
Qed.
(** what is left of the range on a later axis *)
Lemma grange K Kt lam S q B : 1 <= K -> 1 <= Kt -> 0 <= lam <= / 4 -> 0 <= S -> 0 <= q * (B * eta64) <= Kt / 2 -> Kt * K * (1 + S) <= bpow radix2 900 ->
  K * (1 + ((1 + lam) * Kt * S + q * (B * eta64))) <= bpow radix2 910.
Proof.
  intros HK HKt Hl HS HB H. apply Rle_trans with (2 * (Kt * K * (1 + S))).
  - replace (2 * (Kt * K * (1 + S))) with (K * (2 * Kt + 2 * (Kt * S))) by ring. apply Rmult_le_compat_l; [lra|]. assert (0 <= Kt * S) by (apply Rmult_le_pos; lra). assert ((1 + lam) * (Kt * S) <= 5 / 4 * (Kt * S)) by (apply Rmult_le_compat_r; lra). lra.
  - apply Rle_trans with (2 * bpow radix2 900); [lra|]. replace (2 * bpow radix2 900) with (bpow radix2 901) by (change 901%Z with (1 + 900)%Z; rewrite bpow_plus; reflexivity). apply bpow_le. lia.
Qed.

Lemma ga1 {T1 T2} f l1 l2 q (e1 : fel T1) (e2 : fel T2) F K L (X : nat -> T1) (Z : nat -> T2) : gacc f l1 l2 q e1 e2 F K L -> L * u64 <= / 100 ->
  rows (fun _ : unit => True) f l1 l2 (fun _ => X) (fun _ => Z) -> (forall i, (i < l1)%nat -> ef e1 (X i)) -> let S := rsum l1 (fun i => cn (ev e1 (X i))) in K * (1 + S) <= bpow radix2 910 ->
  forall k, (k < l2)%nat -> close e2 (Z k) (F (fun i => ev e1 (X i)) k) (L * u64) K S (L * K * INR q * eta64).
Proof.
  intros A HL RX FX S HS k Hk. destruct (gacc_facts _ _ _ _ _ _ _ _ _ A HL) as (HK & H4 & HLw & H47 & Hq). assert (S0 : 0 <= S) by (apply rsum_pos; intros; apply cn_pos).
  pose proof (gstage f l1 l2 q e1 e2 F K L X Z (fun i => ev e1 (X i)) (fun i => cn (ev e1 (X i))) 0 1 0 A (Rle_refl 0) ltac:(lra) (Rle_refl 0) RX) as G. fold S in G.
  specialize (G ltac:(intros l Hl; split; [apply cn_pos|]; split; [auto|]; split; [rewrite cn_csub_self; lra|lra])).
  specialize (G ltac:(rewrite Rmult_0_r, Rplus_0_r, Rplus_0_r, !Rmult_1_l; exact HS) k Hk). replace (1 * K) with K in G by ring. eapply close_weak; [exact G|lra|lra|apply Rmult_le_pos; lra].
Qed.
Lemma ga2 {T1 T2 T3} f l1 l2 q (e1 : fel T1) (e2 : fel T2) F K L f' l1' l2' q' (e3 : fel T3) F' K' L' (X : nat -> nat -> T1) (Z : nat -> nat -> T2) (Y : nat -> nat -> T3) :
  gacc f l1 l2 q e1 e2 F K L -> L * u64 <= / 100 -> gacc f' l1' l2' q' e2 e3 F' K' L' -> L' * u64 <= / 100 ->
  (forall p, (p < l1')%nat -> rows (fun _ : unit => True) f l1 l2 (fun _ i => X i p) (fun _ k => Z k p)) ->
  (forall k, (k < l2)%nat -> rows (fun _ : unit => True) f' l1' l2' (fun _ p => Z k p) (fun _ j => Y k j)) ->
  (forall i p, (i < l1)%nat -> (p < l1')%nat -> ef e1 (X i p)) ->
  let Sum := rsum l1' (fun p => rsum l1 (fun i => cn (ev e1 (X i p)))) in K * K' * (1 + Sum) <= bpow radix2 900 ->
  forall k j, (k < l2)%nat -> (j < l2')%nat -> close e3 (Y k j) (F' (fun p => F (fun i => ev e1 (X i p)) k) j) (21 / 20 * (L + L') * u64) (K * K') Sum (L * K * INR q * L' * K' * INR q' * eta64).
Proof.
  intros A HL A' HL' RX RZ FX Sum SX k j Hk Hj. destruct (gacc_facts _ _ _ _ _ _ _ _ _ A HL) as (HK & H4 & HLw & H47 & Hq). destruct (gacc_facts _ _ _ _ _ _ _ _ _ A' HL') as (HK' & H4' & HLw' & H47' & Hq').
  pose proof (bpow_gt_0 radix2 (-1075)) as E0. assert (R0 : forall p, 0 <= rsum l1 (fun i => cn (ev e1 (X i p)))) by (intros; apply rsum_pos; intros; apply cn_pos). assert (S0 : 0 <= Sum) by (apply rsum_pos; auto).
  assert (KQ : 1 <= K * INR q). { replace 1 with (1 * 1) at 1 by ring. apply Rmult_le_compat; lra. }
  assert (B4 : 4 <= L * K * INR q). { rewrite Rmult_assoc. replace 4 with (4 * 1) by ring. apply Rmult_le_compat; lra. }
  assert (T1' : 0 <= INR q' * (L * K * INR q * eta64) <= K / 2).
  { split. apply Rmult_le_pos; [lra|]. apply Rmult_le_pos; lra. replace (INR q' * (L * K * INR q * eta64)) with (K * (INR q' * (L * INR q) * eta64)) by ring. unfold Rdiv. apply Rmult_le_compat_l; [lra|].
    apply Rle_trans with (bpow radix2 45 * (bpow radix2 47 * bpow radix2 45) * bpow radix2 (-1075)).
    apply Rmult_le_compat_r; [lra|]. apply mul_up; [split; lra|]. apply mul_up; split; lra. rewrite <- !bpow_plus. change (/ 2) with (bpow radix2 (-1)). apply bpow_le. lia. }
  pose proof (gstage f' l1' l2' q' e2 e3 F' K' L' (fun p => Z k p) (fun j => Y k j) (fun p => F (fun i => ev e1 (X i p)) k) (fun p => rsum l1 (fun i => cn (ev e1 (X i p)))) (L * u64) K (L * K * INR q * eta64)
    A' ltac:(lra) ltac:(lra) ltac:(apply Rmult_le_pos; lra) (RZ k Hk)) as G.
  assert (KS : forall p, (p < l1')%nat -> K * (1 + rsum l1 (fun i => cn (ev e1 (X i p)))) <= bpow radix2 910).
  { intros p Hp. apply Rle_trans with (K * K' * (1 + Sum)). rewrite Rmult_assoc. apply Rmult_le_compat_l; [lra|]. rewrite <- (Rmult_1_l (1 + rsum l1 _)). pose proof (rsum_pick l1' (fun p => rsum l1 (fun i => cn (ev e1 (X i p)))) p (fun p _ => R0 p) Hp) as P. cbv beta in P. fold Sum in P. specialize (R0 p). apply Rmult_le_compat; lra. 
    eapply Rle_trans; [exact SX|]. apply bpow_le; lia. }
  specialize (G ltac:(intros p Hp; split; [auto|]; apply (ga1 f l1 l2 q e1 e2 F K L (fun i => X i p) (fun k => Z k p) A HL (RX p Hp)); [intros; apply FX; auto|apply KS; auto|auto])).
  specialize (G ltac:(apply grange; auto; lra) j Hj). eapply close_weak; [exact G| | |].
  - assert (L' * u64 * (1 + L * u64) <= L' * u64 * (1 + / 100)) by (apply Rmult_le_compat_l; lra). lra.
  - eapply Rle_trans; [apply gtail; auto; lra|]. apply Req_le. ring.
  - apply Rmult_le_pos; auto. apply Rmult_le_pos; lra.
Qed.
Lemma ga3 {T1 T2 T3 T4} f l1 l2 q (e1 : fel T1) (e2 : fel T2) F K L f' l1' l2' q' (e3 : fel T3) F' K' L' f2 m1 m2 q2 (e4 : fel T4) F2 K2 L2
    (X : nat -> nat -> nat -> T1) (Z : nat -> nat -> nat -> T2) (U : nat -> nat -> nat -> T3) (Y : nat -> nat -> nat -> T4) :
  gacc f l1 l2 q e1 e2 F K L -> L * u64 <= / 100 -> gacc f' l1' l2' q' e2 e3 F' K' L' -> L' * u64 <= / 100 -> gacc f2 m1 m2 q2 e3 e4 F2 K2 L2 -> L2 * u64 <= / 100 ->
  (forall p r, (p < l1')%nat -> (r < m1)%nat -> rows (fun _ : unit => True) f l1 l2 (fun _ i => X i p r) (fun _ k => Z k p r)) ->
  (forall k r, (k < l2)%nat -> (r < m1)%nat -> rows (fun _ : unit => True) f' l1' l2' (fun _ p => Z k p r) (fun _ j => U k j r)) ->
  (forall k j, (k < l2)%nat -> (j < l2')%nat -> rows (fun _ : unit => True) f2 m1 m2 (fun _ r => U k j r) (fun _ s => Y k j s)) ->
  (forall i p r, (i < l1)%nat -> (p < l1')%nat -> (r < m1)%nat -> ef e1 (X i p r)) ->
  let Sum := rsum m1 (fun r => rsum l1' (fun p => rsum l1 (fun i => cn (ev e1 (X i p r))))) in K * K' * K2 * (1 + Sum) <= bpow radix2 900 ->
  forall k j s, (k < l2)%nat -> (j < l2')%nat -> (s < m2)%nat ->
    close e4 (Y k j s) (F2 (fun r => F' (fun p => F (fun i => ev e1 (X i p r)) k) j) s) (11 / 10 * (L + L' + L2) * u64) (K * K' * K2) Sum (L * K * INR q * L' * K' * INR q' * L2 * K2 * INR q2 * eta64).
Proof.
  intros A HL A' HL' A2 HL2 RX RZ RU FX Sum SX k j s Hk Hj Hs. destruct (gacc_facts _ _ _ _ _ _ _ _ _ A HL) as (HK & H4 & HLw & H47 & Hq). destruct (gacc_facts _ _ _ _ _ _ _ _ _ A' HL') as (HK' & H4' & HLw' & H47' & Hq'). destruct (gacc_facts _ _ _ _ _ _ _ _ _ A2 HL2) as (HK2 & H42 & HLw2 & H472 & Hq2).
  pose proof (bpow_gt_0 radix2 (-1075)) as E0. assert (R0 : forall r, 0 <= rsum l1' (fun p => rsum l1 (fun i => cn (ev e1 (X i p r))))) by (intros; apply rsum_pos; intros; apply rsum_pos; intros; apply cn_pos). assert (S0 : 0 <= Sum) by (apply rsum_pos; auto).
  assert (M1 : forall x y, 1 <= x -> 1 <= y -> 1 <= x * y) by (intros x y Hx Hy; replace 1 with (1 * 1) by ring; apply Rmult_le_compat; lra).
  assert (KK : 1 <= K * K') by auto. assert (QQ : 1 <= INR q * INR q') by (apply M1; lra).
  assert (LL : 4 <= L * L') by (replace 4 with (4 * 1) by ring; apply Rmult_le_compat; lra).
  assert (B4 : 4 <= L * K * INR q * L' * K' * INR q'). { replace (L * K * INR q * L' * K' * INR q') with (L * L' * (K * K' * (INR q * INR q'))) by ring. replace 4 with (4 * 1) by ring. apply Rmult_le_compat; try lra. apply M1; auto. }
  assert (T1' : 0 <= INR q2 * (L * K * INR q * L' * K' * INR q' * eta64) <= (K * K') / 2).
  { split. apply Rmult_le_pos; [lra|]. apply Rmult_le_pos; lra. replace (INR q2 * (L * K * INR q * L' * K' * INR q' * eta64)) with (K * K' * (INR q2 * (L * L' * (INR q * INR q')) * eta64)) by ring. unfold Rdiv. apply Rmult_le_compat_l; [lra|].
    apply Rle_trans with (bpow radix2 45 * (bpow radix2 47 * bpow radix2 47 * (bpow radix2 45 * bpow radix2 45)) * bpow radix2 (-1075)).
    apply Rmult_le_compat_r; [lra|]. apply mul_up; [split; lra|]. apply mul_up; apply mul_up; split; lra. rewrite <- !bpow_plus. change (/ 2) with (bpow radix2 (-1)). apply bpow_le. lia. }
  set (lam := 21 / 20 * (L + L') * u64). assert (LAM : 0 <= lam <= 21 / 1000) by (unfold lam; lra).
  pose proof (gstage f2 m1 m2 q2 e3 e4 F2 K2 L2 (fun r => U k j r) (fun s => Y k j s) (fun r => F' (fun p => F (fun i => ev e1 (X i p r)) k) j) (fun r => rsum l1' (fun p => rsum l1 (fun i => cn (ev e1 (X i p r))))) lam (K * K') (L * K * INR q * L' * K' * INR q' * eta64)
    A2 ltac:(lra) ltac:(lra) ltac:(apply Rmult_le_pos; lra) (RU k j Hk Hj)) as G.
  assert (KS : forall r, (r < m1)%nat -> K * K' * (1 + rsum l1' (fun p => rsum l1 (fun i => cn (ev e1 (X i p r))))) <= bpow radix2 900).
  { intros r Hr. eapply Rle_trans; [|exact SX]. rewrite (Rmult_assoc (K * K')). apply Rmult_le_compat_l; [lra|]. rewrite <- (Rmult_1_l (1 + rsum l1' _)). pose proof (rsum_pick m1 (fun r => rsum l1' (fun p => rsum l1 (fun i => cn (ev e1 (X i p r))))) r (fun r _ => R0 r) Hr) as P. cbv beta in P. fold Sum in P. specialize (R0 r). apply Rmult_le_compat; lra. }
  specialize (G ltac:(intros r Hr; split; [auto|]; apply (ga2 f l1 l2 q e1 e2 F K L f' l1' l2' q' e3 F' K' L' (fun i p => X i p r) (fun k p => Z k p r) (fun k j => U k j r) A HL A' HL'); auto)).
  specialize (G ltac:(apply grange; auto; lra) s Hs). eapply close_weak; [exact G| | |].
  - assert (L2 * u64 * (1 + lam) <= L2 * u64 * (1 + 21 / 1000)) by (apply Rmult_le_compat_l; lra). unfold lam at 1. lra.
  - eapply Rle_trans; [apply gtail; auto; lra|]. apply Req_le. ring.
  - apply Rmult_le_pos; auto. apply Rmult_le_pos; lra.
Qed.
