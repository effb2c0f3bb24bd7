(** C59: Dirichlet, Neumann and real Fourier bases. *)
From Coq Require Import List Arith ZArith Reals Bool Lra Lia.
From Flocq Require Import Core BinarySingleNaN.
From Verif Require Import Base Num Linalg Stencils StencilProofs Cheb Compo CompoProofs Fourier FourierOps FourierF64 FourierFacts FourierProofs AnyArith ArithSteps Rounding RndTdma RndDirichlet RndNeumann RndGrad RndFinite RndFinite2 RndFourier RndFft RndCompo PropRound PropRound2 PropRound4 PropTrans2 SpaceBases Bases ExtLib AnyBase PropAny PropAny2
  RndAxis RndOps RndOps2 RndDN RndDN2 SpaceAcc RndSpace SpaceVal RndVal RndVal2 RndGrad2 GradSpec GradOp RndGrad3 RndGrad4.
Import ListNotations.
Local Open Scope R_scope.
Local Notation u64 := (bpow radix2 (-53)).
Local Notation eta64 := (bpow radix2 (-1075)).
Local Notation FA := f64_float_arith.

Lemma inr_910 x : Rabs x <= 64 * bpow radix2 910 -> ieee_inr 1024 x.
Proof.
  intros H. apply (inr_le FA) with (64 * bpow radix2 910); auto. apply Rmult_le_pos; [lra|apply bpow_ge_0].
  apply (f64_in_range (64 * bpow radix2 70) _ (bpow radix2 840)).
  - split. apply Rmult_le_pos; [lra|apply bpow_ge_0]. rewrite Rmult_assoc, <- bpow_plus. apply Req_le. reflexivity.
  - change 64 with (bpow radix2 6). rewrite <- bpow_plus. apply bpow_lt. lia.
  - split. apply bpow_ge_0. apply bpow_le. lia.
Qed.

(** ** To the Chebyshev basis *)
Section Ortho.
Context {T : Type} {V : Vec f64 T} {VC : VecC num_f64 T V}.
Notation Xv := (gX f64_val (cp (VecC := VC))).
Lemma dir_ortho_comp n (a o : list T) Rg : (5 <= n)%nat -> length a = (n - 2)%nat -> length o = n -> 0 <= Rg -> Rg <= bpow radix2 910 ->
  (forall p j, (j < n - 2)%nat -> f64_fin (cp p a.[j])) -> (forall p, rsum (n - 2) (fun j => Rabs (Xv p a j)) <= Rg) ->
  exists z, compo_to_ortho (dirc n) a o = Ok z /\ length z = n /\ forall p, (forall k, (k < n)%nat -> f64_fin (cp p z.[k])) /\
    rsum n (fun k => Rabs (Xv p z k - dir_coef n (Xv p a) k)) <= 6 * u64 * rsum (n - 2) (fun j => Rabs (Xv p a j)) + 3 * INR n * eta64.
Proof.
  intros Hn La Lo R0 HR HF HS. pose proof (bpow_gt_0 radix2 (-53)) as U. pose proof (bpow_gt_0 radix2 (-1075)) as E. pose proof (bpow_gt_0 radix2 910) as B.
  destruct (dir_to_ortho_fin FA n a o Rg ltac:(lia) La Lo) as (z & Ez & Lz & Hz).
  - intros p k Hk. split; auto. eapply Rle_trans; [|apply (HS p)]. apply (rsum_pick (n - 2) (fun j => Rabs (Xv p a j))); auto. intros; apply Rabs_pos.
  - apply inr_910. rewrite Rabs_pos_eq; lra.
  - exists z. split; [exact Ez|]. split; auto. intros p. split. intros; apply Hz; auto. assert (S0 : 0 <= rsum (n - 2) (fun j => Rabs (Xv p a j))) by (apply rsum_pos; intros; apply Rabs_pos).
    assert (0 <= 3 * INR n * eta64) by (pose proof (pos_INR n); apply Rmult_le_pos; lra). pose proof (dir_coef_abs n (Xv p a) ltac:(lia)) as DA.
    apply Rle_trans with (rsum n (fun k => u64 * Rabs (dir_coef n (Xv p a) k))).
    + apply rsum_le. intros k Hk. destruct (dir_to_ortho_err FA n a o z p ltac:(lia) La Lo Ez k Hk) as [G _]; [apply Hz; auto|]. exact G.
    + rewrite rsum_scal_l. apply (Rmult_le_compat_l u64) in DA; [|lra]. assert (0 <= u64 * rsum (n - 2) (fun j => Rabs (Xv p a j))) by (apply Rmult_le_pos; lra). lra.
Qed.
Lemma neu_ortho_comp n (a o : list T) Rg : (5 <= n)%nat -> (Z.of_nat n * Z.of_nat n <= 2 ^ 53)%Z -> length a = (n - 2)%nat -> length o = n -> 0 <= Rg -> Rg <= bpow radix2 910 ->
  (forall p j, (j < n - 2)%nat -> f64_fin (cp p a.[j])) -> (forall p, rsum (n - 2) (fun j => Rabs (Xv p a j)) <= Rg) ->
  exists z, compo_to_ortho (neuc n) a o = Ok z /\ length z = n /\ forall p, (forall k, (k < n)%nat -> f64_fin (cp p z.[k])) /\
    rsum n (fun k => Rabs (Xv p z k - neu_coef n (Xv p a) k)) <= 6 * u64 * rsum (n - 2) (fun j => Rabs (Xv p a j)) + 3 * INR n * eta64.
Proof.
  intros Hn HZ La Lo R0 HR HF HS. pose proof (bpow_gt_0 radix2 (-53)) as U. pose proof (bpow_gt_0 radix2 (-1075)) as E. pose proof (bpow_gt_0 radix2 910) as B.
  destruct (neu_to_ortho_fin FA n a o Rg ltac:(lia) HZ La Lo) as (z & Ez & Lz & Hz).
  - intros p k Hk. split; auto. eapply Rle_trans; [|apply (HS p)]. apply (rsum_pick (n - 2) (fun j => Rabs (Xv p a j))); auto. intros; apply Rabs_pos.
  - apply inr_910. rewrite Rabs_pos_eq; lra.
  - exists z. split; [exact Ez|]. split; auto. intros p. split. intros; apply Hz; auto. set (S := rsum (n - 2) (fun j => Rabs (Xv p a j))). assert (S0 : 0 <= S) by (apply rsum_pos; intros; apply Rabs_pos).
    pose proof (neu_coef_abs n (Xv p a) ltac:(lia)) as DA. fold S in DA.
    assert (T2 : rsum n (fun k => if (k <? 2)%nat then 0 else (3 * u64 + 2 * eta64) * Rabs (Xv p a (k - 2)) + 2 * eta64) = (3 * u64 + 2 * eta64) * S + INR (n - 2) * (2 * eta64)).
    { replace n with (2 + (n - 2))%nat at 1 by lia. rewrite rsum_split, (rsum_0 2) by (intros k Hk; destruct (Nat.ltb_spec k 2); auto; lia). rewrite Rplus_0_l. unfold S. rewrite <- rsum_scal_l. rewrite <- (rsum_const (n - 2) (2 * eta64)). rewrite <- rsum_add.
      apply rsum_ext. intros k Hk. destruct (Nat.ltb_spec (2 + k) 2); [lia|]. replace (2 + k - 2)%nat with k by lia. ring. }
    apply Rle_trans with (rsum n (fun k => u64 * Rabs (neu_coef n (Xv p a) k) + (if (k <? 2)%nat then 0 else (3 * u64 + 2 * eta64) * Rabs (Xv p a (k - 2)) + 2 * eta64))).
    + apply rsum_le. intros k Hk. destruct (neu_to_ortho_err FA n a o z p ltac:(lia) HZ La Lo Ez k Hk) as [G _]; [apply Hz; auto|]. eapply Rle_trans; [exact G|]. apply Rplus_le_compat_l. destruct (Nat.ltb_spec k 2); [lra|].
      destruct (nq_range (k - 2)) as [Q0 Q1]. change (X (val := f64_val) p a (k - 2)) with (Xv p a (k - 2)). pose proof (Rabs_pos (Xv p a (k - 2))) as X0. assert (nq (k - 2) * Rabs (Xv p a (k - 2)) <= 1 * Rabs (Xv p a (k - 2))) by (apply Rmult_le_compat_r; lra).
      assert (3 * u64 * (nq (k - 2) * Rabs (Xv p a (k - 2))) <= 3 * u64 * (1 * Rabs (Xv p a (k - 2)))) by (apply Rmult_le_compat_l; lra). lra.
    + rewrite rsum_add, rsum_scal_l, T2. apply (Rmult_le_compat_l u64) in DA; [|lra]. assert (EU : 2 * eta64 <= u64). { replace (2 * eta64) with (bpow radix2 1 * eta64) by reflexivity. rewrite <- bpow_plus. apply bpow_le. lia. }
      apply (Rmult_le_compat_r S) in EU; auto. assert (INR (n - 2) <= INR n) by (apply le_INR; lia). apply (Rmult_le_compat_r (2 * eta64)) in H; [|lra]. assert (0 <= INR n * eta64) by (pose proof (pos_INR n); apply Rmult_le_pos; lra). lra.
Qed.
Lemma dn_ortho_comp n st (a o : list T) Rg : (6 <= n)%nat -> (2 * (Z.of_nat n * Z.of_nat n) <= 2 ^ 53)%Z -> dn_st n st -> length a = (n - 2)%nat -> length o = n -> 0 <= Rg -> Rg <= bpow radix2 910 ->
  (forall p j, (j < n - 2)%nat -> f64_fin (cp p a.[j])) -> (forall p, rsum (n - 2) (fun j => Rabs (Xv p a j)) <= Rg) ->
  exists z, compo_to_ortho (dnc n st) a o = Ok z /\ length z = n /\ forall p, (forall k, (k < n)%nat -> f64_fin (cp p z.[k])) /\
    rsum n (fun k => Rabs (Xv p z k - dn_coef n (Xv p a) k)) <= 6 * u64 * rsum (n - 2) (fun j => Rabs (Xv p a j)) + 3 * INR n * eta64.
Proof.
  intros Hn HZ HD La Lo R0 HR HF HS. pose proof (bpow_gt_0 radix2 910) as B.
  destruct (dn_to_ortho_fin FA n st a o Rg ltac:(lia) HZ HD La Lo) as (z & Ez & Lz & Hz).
  - intros p k Hk. split; auto. eapply Rle_trans; [|apply (HS p)]. apply (rsum_pick (n - 2) (fun j => Rabs (Xv p a j))); auto. intros; apply Rabs_pos.
  - apply inr_910. rewrite Rabs_pos_eq; lra.
  - exists z. split; [exact Ez|]. split; auto. intros p. split. intros; apply Hz; auto.
    exact (proj2 (dn_sum_err FA n st a o z p ltac:(lia) HZ f64_eta100 HD La Lo Ez (fun k Hk => proj1 (Hz p k Hk)))).
Qed.
End Ortho.

(** ** Real Fourier *)
Lemma times_fourier d c k : times d fourier_derivative c k = mul_iter (A := R) (N := num_R) (ik k) d (c k).
Proof.
  induction d as [|d IH]; cbn [times mul_iter]; auto. unfold fourier_derivative at 1. rewrite IH. unfold cmul, ik, nofN. cbn [fst snd nmul nadd nsub num_R nofZ n0]. rewrite <- INR_IZR_INZ. f_equal; ring.
Qed.
Lemma cn_mul_iter k d z : cn (mul_iter (A := R) (N := num_R) (ik k) d z) = INR k ^ d * cn z.
Proof.
  induction d as [|d IH]; cbn [mul_iter pow]. ring. set (y := mul_iter (ik k) d z) in *. replace (cn (cmul y (ik k))) with (INR k * cn y). rewrite IH; ring.
  unfold cn, cmul, ik, nofN. cbn [fst snd nmul nadd nsub num_R nofZ n0]. rewrite <- INR_IZR_INZ. replace (fst y * 0 - snd y * INR k) with (- (snd y * INR k)) by ring. replace (fst y * INR k + snd y * 0) with (fst y * INR k) by ring.
  rewrite Rabs_Ropp, !Rabs_mult, (Rabs_pos_eq (INR k)) by apply pos_INR. ring.
Qed.
Lemma fourier_bounded d l M : (forall k, (k < l)%nat -> INR k ^ d <= M) -> bounded (times d fourier_derivative) l l M.
Proof.
  intros HM. split.
  - intros g h k _. clear. induction d as [|d IH]. reflexivity. cbn [times]. set (f := times d fourier_derivative (fun j => csub (g j) (h j))) in *. set (f1 := times d fourier_derivative g) in *. set (f2 := times d fourier_derivative h) in *. unfold fourier_derivative. rewrite IH. unfold csub. cbn [fst snd nsub num_R]. f_equal; ring.
  - intros g k Hk. rewrite times_fourier, cn_mul_iter. specialize (HM k Hk). pose proof (rsum_pick l (fun j => cn (g j)) k (fun i _ => cn_pos _) Hk) as P. cbv beta in P. pose proof (cn_pos (g k)).
    assert (0 <= INR k ^ d) by (apply pow_le, pos_INR). apply Rmult_le_compat; lra.
Qed.
Lemma c2c_factor_w n k : c2c_factor n k = c2c_w n k.
Proof.
  unfold c2c_factor, c2c_w, npos. destruct n as [|n]. { cbn. destruct k; reflexivity. }
  pose proof (Nat.div_mod (Datatypes.S n - 1) 2 ltac:(lia)) as D. pose proof (Nat.mod_upper_bound (Datatypes.S n - 1) 2 ltac:(lia)). destruct (Nat.ltb_spec (2 * k) (Datatypes.S n)), (Nat.ltb_spec k ((Datatypes.S n - 1) / 2 + 1)); auto; lia.
Qed.
Lemma c2c_w_lt n k : (k < n)%nat -> (c2c_w n k < n)%nat.
Proof. intros. unfold c2c_w. destruct (k <? npos n)%nat; lia. Qed.
Lemma times_c2c n d c k : times d (c2c_derivative n) c k = mul_iter (A := R) (N := num_R) (ik (c2c_w n k)) d (c k).
Proof.
  rewrite <- c2c_factor_w. induction d as [|d IH]; cbn [times mul_iter]; auto. unfold c2c_derivative at 1. rewrite IH. unfold cmul, ik, nofN. cbn [fst snd nmul nadd nsub num_R nofZ n0]. rewrite <- INR_IZR_INZ. f_equal; ring.
Qed.
Lemma c2c_bounded n d M : (forall k, (k < n)%nat -> INR (c2c_w n k) ^ d <= M) -> bounded (times d (c2c_derivative n)) n n M.
Proof.
  intros HM. split.
  - intros g h k _. clear. induction d as [|d IH]. reflexivity. cbn [times]. set (f := times d (c2c_derivative n) (fun j => csub (g j) (h j))) in *. set (f1 := times d (c2c_derivative n) g) in *. set (f2 := times d (c2c_derivative n) h) in *. unfold c2c_derivative. rewrite IH. unfold csub. cbn [fst snd nsub num_R]. f_equal; ring.
  - intros g k Hk. rewrite times_c2c, cn_mul_iter. specialize (HM k Hk). pose proof (rsum_pick n (fun j => cn (g j)) k (fun i _ => cn_pos _) Hk) as P. cbv beta in P. pose proof (cn_pos (g k)).
    assert (0 <= INR (c2c_w n k) ^ d) by (apply pow_le, pos_INR). apply Rmult_le_compat; lra.
Qed.
Section Wave.
Context (n d m : nat) (Hn : (1 <= n)%nat) (HL : gL n d * u64 <= / 100) (Hm : (1 <= m <= n + 1)%nat).
Let gM (d : nat) := INR m ^ d.
Lemma m_range : 1 <= INR m /\ (m <= n + 1)%nat /\ (Z.of_nat m <= 2 ^ 53)%Z.
Proof.
  destruct (gL_facts n d Hn HL) as (_ & _ & _ & _ & _ & NZ). split. change 1 with (INR 1). apply le_INR; lia. split; lia.
Qed.
Lemma gM_mono a b : (a <= b)%nat -> gM a <= gM b.
Proof. intros. apply Rle_pow; auto. apply m_range. Qed.
Lemma iter_err d' k (x : cplx f64) : (d' <= d)%nat -> (k < m)%nat -> f64_fin (fst (mul_iter (ik k) d' x)) -> f64_fin (snd (mul_iter (ik k) d' x)) ->
  cn (csub (ev f64_cplx (mul_iter (ik k) d' x)) (mul_iter (A := R) (N := num_R) (ik k) d' (ev f64_cplx x))) <= 2 * (INR d' * u64) * gM d' * cn (ev f64_cplx x) + 3 * INR d' * gM d' * eta64.
Proof.
  intros Hd Hk F1 F2. destruct m_range as (M1 & _ & MZ). destruct (gL_facts n d Hn HL) as (D0 & D1 & [N1 _] & _). pose proof (bpow_gt_0 radix2 (-53)) as U. pose proof (bpow_gt_0 radix2 (-1075)) as E.
  pose proof (mul_iter_err FA k d' x ltac:(lia) true F1) as E1. pose proof (mul_iter_err FA k d' x ltac:(lia) false F2) as E2. cbv zeta in E1, E2. change (cval x) with (ev f64_cplx x) in E1, E2. set (y := mul_iter (A := R) (N := num_R) (ik k) d' (ev f64_cplx x)) in *. cbn [re_im] in E1, E2.
  assert (DU : INR d' * u64 <= / 400). { apply Rle_trans with (INR d * INR n * u64); auto. apply Rmult_le_compat_r; [lra|]. assert (INR d' <= INR d) by (apply le_INR; auto). pose proof (pos_INR d). apply Rle_trans with (INR d * 1); [lra|]. apply Rmult_le_compat_l; lra. }
  destruct (pow_2u u64 d' ltac:(lra) ltac:(lra)) as [P1 _]. assert (P0 : 1 <= (1 + u64) ^ d') by (apply pow_R1_Rle; lra).
  assert (KP : 0 <= INR k <= INR m) by (split; [apply pos_INR|apply le_INR; lia]).
  assert (CY : cn y <= gM d' * cn (ev f64_cplx x)). { unfold y. rewrite cn_mul_iter. apply Rmult_le_compat_r; [apply cn_pos|]. apply pow_incr; auto. }
  assert (G1 : 1 <= gM d') by (apply pow_R1_Rle; auto).
  assert (TL : ((1 + u64) * INR k) ^ (d' - 1) <= 3 / 2 * gM d').
  { apply Rle_trans with (((1 + u64) * INR m) ^ (d' - 1)). apply pow_incr. split. apply Rmult_le_pos; lra. apply Rmult_le_compat_l; lra.
    apply Rle_trans with (((1 + u64) * INR m) ^ d'). apply Rle_pow; [|lia]. replace 1 with (1 * 1) at 1 by ring. apply Rmult_le_compat; lra. rewrite Rpow_mult_distr. apply Rmult_le_compat_r; [apply pow_le; lra|]. lra. }
  pose proof (pos_INR d') as D'0. apply (Rmult_le_compat_l (INR d')) in TL; auto. apply (Rmult_le_compat_r eta64) in TL; [|lra].
  set (CX := cn (ev f64_cplx x)) in *. unfold cn, csub. cbn [ev f64_cplx fst snd nsub num_R].
  assert (Q : ((1 + u64) ^ d' - 1) * (Rabs (fst y) + Rabs (snd y)) <= 2 * INR d' * u64 * (gM d' * CX)). { pose proof (Rabs_pos (fst y)). pose proof (Rabs_pos (snd y)). apply Rmult_le_compat; [lra|lra|lra|exact CY]. }
  lra.
Qed.
Lemma wave_near l (wv : nat -> nat) (f : list (cplx f64) -> list (cplx f64) -> res (list (cplx f64))) F Rg : (forall k, (k < l)%nat -> (wv k < m)%nat) -> (forall g k, (k < l)%nat -> F g k = mul_iter (A := R) (N := num_R) (ik (wv k)) d (g k)) ->
  (forall x o, length x = l -> length o = l -> wp (f x o) (fun y => length y = l /\ forall k, (k < l)%nat -> y.[k] = mul_iter (ik (wv k)) d x.[k])) ->
  0 <= Rg -> gM d * (1 + Rg) <= bpow radix2 910 ->
  near f l l f64_cplx f64_cplx F Rg (gL n d * u64 * gM d) (gL n d * gM d * INR n * eta64).
Proof.
  intros Hw HF Hf R0 HR d1 d2 x o Lx Lo Fx Sx. destruct m_range as (M1 & _ & MZ). destruct (gL_facts n d Hn HL) as (D0 & D1 & [N1 _] & D2 & _). pose proof (bpow_gt_0 radix2 (-53)) as U. pose proof (bpow_gt_0 radix2 (-1075)) as E. pose proof (pos_INR d) as d0.
  assert (DN : INR d <= INR d * INR n) by (rewrite <- (Rmult_1_r (INR d)) at 1; apply Rmult_le_compat_l; lra).
  pose proof (Hf x o Lx Lo) as W. destruct (f x o) as [y| |]; cbn [wp] in W; try contradiction. destruct W as [Ly Hy].
  exists y. split; auto. split; auto. intros k Hk. specialize (Hy k Hk). specialize (Hw k Hk). match type of Hy with @at_ _ ?D1 y k = mul_iter _ _ (@at_ _ ?D2 x k) => set (e1 := D1) in *; set (e2 := D2) in * end.
  assert (XE : @at_ _ d1 x k = @at_ _ e2 x k) by (apply at_dflt; lia).
  rewrite (at_dflt d2 e1) by lia. rewrite Hy. rewrite HF by auto. specialize (Fx k Hk).
  pose proof (rsum_pick l (fun j => cn (ev f64_cplx (@at_ _ d1 x j))) k (fun i _ => cn_pos _) Hk) as P. cbv beta in P.
  set (S := rsum l (fun j => cn (ev f64_cplx (@at_ _ d1 x j)))) in *. rewrite XE in Fx, P |- *. set (v := @at_ _ e2 x k) in *. pose proof (cn_pos (ev f64_cplx v)) as C0.
  set (kk := wv k) in *. assert (DE : 3 * INR d * eta64 <= / 4). { apply Rle_trans with (3 * bpow radix2 45 * bpow radix2 (-60)). apply Rmult_le_compat; try lra. apply bpow_le; lia. rewrite Rmult_assoc, <- bpow_plus. change (45 + -60)%Z with (-15)%Z. change (bpow radix2 (-15)) with (/ IZR (2 ^ 15)). cbv [Z.pow Z.pow_pos Pos.iter Z.mul Pos.mul]. lra. }
  assert (FN : forall d', (d' <= d)%nat -> f64_fin (fst (mul_iter (ik kk) d' v)) /\ f64_fin (snd (mul_iter (ik kk) d' v))).
  { induction d' as [|d' IH]; intros Hd. exact Fx. destruct (IH ltac:(lia)) as [F1 F2]. pose proof (iter_err d' kk v ltac:(lia) Hw F1 F2) as HE.
    cbn [mul_iter]. set (w := mul_iter (ik kk) d' v) in *. assert (DD : INR d' <= INR d) by (apply le_INR; lia). pose proof (pos_INR d') as d'0. assert (G1 : 1 <= gM d') by (apply pow_R1_Rle; auto).
    assert (WB : cn (ev f64_cplx w) <= 2 * (gM d' * (1 + Rg))).
    { eapply Rle_trans; [apply (cn_split _ (mul_iter (A := R) (N := num_R) (ik kk) d' (ev f64_cplx v)))|]. rewrite cn_mul_iter.
      assert (A1 : INR kk ^ d' * cn (ev f64_cplx v) <= gM d' * Rg). { apply Rmult_le_compat; try lra. apply pow_le, pos_INR. apply pow_incr. split; [apply pos_INR|apply le_INR; lia]. }
      assert (A2 : 2 * (INR d' * u64) * gM d' * cn (ev f64_cplx v) <= / 2 * (gM d' * Rg)). { rewrite Rmult_assoc. apply Rmult_le_compat; try lra. apply Rmult_le_pos; [lra|]. apply Rmult_le_pos; lra. apply Rmult_le_pos; lra.
        assert (INR d' * u64 <= / 400). { eapply Rle_trans; [|exact D1]. apply Rmult_le_compat_r; lra. } lra. apply Rmult_le_compat_l; lra. }
      assert (A3 : 3 * INR d' * gM d' * eta64 <= / 4 * gM d'). { replace (3 * INR d' * gM d' * eta64) with (3 * INR d' * eta64 * gM d') by ring. apply Rmult_le_compat_r; [lra|]. eapply Rle_trans; [|exact DE]. apply Rmult_le_compat_r; lra. }
      assert (0 <= gM d' * Rg) by (apply Rmult_le_pos; lra). lra. }
    assert (KM : INR kk * (2 * (gM d' * (1 + Rg))) <= 2 * bpow radix2 910).
    { apply Rle_trans with (2 * (gM (Datatypes.S d') * (1 + Rg))). { unfold gM. cbn [pow]. fold (gM d'). assert (INR kk <= INR m) by (apply le_INR; lia). replace (2 * (INR m * gM d' * (1 + Rg))) with (INR m * (2 * (gM d' * (1 + Rg)))) by ring. apply Rmult_le_compat_r; auto. apply Rmult_le_pos; [lra|]. apply Rmult_le_pos; lra. }
      apply Rmult_le_compat_l; [lra|]. eapply Rle_trans; [|exact HR]. apply Rmult_le_compat_r; [lra|]. apply gM_mono. lia. }
    destruct (fa_0 _ _ _ _ _ _ _ _ FA) as [Z1 Z2]. destruct (fa_int _ _ _ _ _ _ _ _ FA (Z.of_nat kk) ltac:(lia)) as [Fk Ek]. rewrite <- INR_IZR_INZ in Ek. pose proof (fa_rnd _ _ _ _ _ _ _ _ FA) as RN.
    assert (PK : forall z, f64_fin z -> Rabs (f64_val z) <= 2 * (gM d' * (1 + Rg)) -> f64_fin (nmul z (nofZ (Z.of_nat kk))) /\ Rabs (f64_val (nmul z (nofZ (Z.of_nat kk)))) <= 5 * bpow radix2 910).
    { intros z Fz Bz. assert (BB : Rabs (ieee_rnd 53 1024 (f64_val z * INR kk)) <= 5 * bpow radix2 910).
      { eapply Rle_trans; [apply (rnd_bound FA _ (2 * bpow radix2 910))|]. rewrite Rabs_mult, (Rabs_pos_eq (INR kk)) by apply pos_INR. rewrite Rmult_comm. eapply Rle_trans; [|exact KM]. apply Rmult_le_compat_l; auto. apply pos_INR.
        assert (eta64 <= bpow radix2 910) by (apply bpow_le; lia). lra. }
      assert (G : f64_fin (nmul z (nofZ (Z.of_nat kk)))). { apply (fa_mulF _ _ _ _ _ _ _ _ FA); auto. rewrite Ek. apply inr_910. pose proof (bpow_gt_0 radix2 910). lra. }
      split; auto. destruct (fa_mul _ _ _ _ _ _ _ _ FA _ _ G) as (_ & _ & ->). rewrite Ek. auto. }
    assert (P0 : forall z, f64_fin z -> f64_fin (nmul z n0) /\ f64_val (nmul z n0) = 0).
    { intros z Fz. assert (G : f64_fin (nmul z n0)). { apply (fa_mulF _ _ _ _ _ _ _ _ FA); auto. rewrite Z2, Rmult_0_r, (rnd_0 RN). apply inr_910. rewrite Rabs_R0. apply Rmult_le_pos; [lra|apply bpow_ge_0]. }
      split; auto. destruct (fa_mul _ _ _ _ _ _ _ _ FA _ _ G) as (_ & _ & ->). rewrite Z2, Rmult_0_r. apply (rnd_0 RN). }
    unfold cn in WB. cbn [ev f64_cplx fst snd] in WB. pose proof (Rabs_pos (f64_val (fst w))). pose proof (Rabs_pos (f64_val (snd w))).
    destruct (PK (fst w) F1 ltac:(lra)) as [A1 A2]. destruct (PK (snd w) F2 ltac:(lra)) as [B1 B2]. destruct (P0 (fst w) F1) as [A3 A4]. destruct (P0 (snd w) F2) as [B3 B4].
    unfold cmul, ik, nofN. cbn [fst snd]. pose proof (fa_float _ _ _ _ _ _ _ _ FA) as FF. pose proof (bpow_gt_0 radix2 910). split.
    - apply (fa_subF _ _ _ _ _ _ _ _ FA); auto. rewrite A4, Rminus_0_l, (rn_opp _ _ _ RN), (FF _ B1). apply inr_910. rewrite Rabs_Ropp. lra.
    - apply (fa_addF _ _ _ _ _ _ _ _ FA); auto. rewrite B4, Rplus_0_r, (FF _ A1). apply inr_910. lra. }
  destruct (FN d (Nat.le_refl d)) as [F1 F2]. split; [split; auto|]. eapply Rle_trans; [apply iter_err; auto|].
  assert (G1 : 1 <= gM d) by (apply pow_R1_Rle; auto). assert (S0 : 0 <= S) by lra.
  assert (EL : gL n d = 4 * (INR d * INR n) + 4 * INR n) by (unfold gL; rewrite plus_INR; cbn [INR]; ring).
  apply Rplus_le_compat.
  - replace (2 * (INR d * u64) * gM d * cn (ev f64_cplx v)) with (2 * INR d * (u64 * gM d * cn (ev f64_cplx v))) by ring. replace (gL n d * u64 * gM d * S) with (gL n d * (u64 * gM d * S)) by ring.
    assert (0 <= u64 * gM d) by (apply Rmult_le_pos; lra). apply Rmult_le_compat; try lra. apply Rmult_le_pos; lra. apply Rmult_le_compat_l; auto.
  - replace (3 * INR d * gM d * eta64) with (3 * INR d * 1 * (gM d * eta64)) by ring. replace (gL n d * gM d * INR n * eta64) with (gL n d * INR n * (gM d * eta64)) by ring.
    apply Rmult_le_compat_r. apply Rmult_le_pos; lra. apply Rmult_le_compat; lra.
Qed.
End Wave.
Lemma r2c_grad_near n d Rg : (1 <= n)%nat -> gL n d * u64 <= / 100 -> 0 <= Rg -> INR (n / 2 + 1) ^ d * (1 + Rg) <= bpow radix2 910 ->
  near (fun x o => r2c_gradient (mk_r2c n (n / 2 + 1)) x o d) (n / 2 + 1) (n / 2 + 1) f64_cplx f64_cplx (times d fourier_derivative) Rg (gL n d * u64 * INR (n / 2 + 1) ^ d) (gL n d * INR (n / 2 + 1) ^ d * INR n * eta64).
Proof.
  intros Hn HL R0 HR. assert (n / 2 <= n)%nat by (apply Nat.div_le_upper_bound; lia).
  apply (wave_near n d (n / 2 + 1) Hn HL ltac:(lia) _ (fun k => k)); auto.
  - intros g k _. apply times_fourier.
  - intros x o Lx Lo. exact (r2c_gradient_any n x o d Lx Lo).
Qed.
Lemma c2c_grad_near n d Rg : (1 <= n)%nat -> gL n d * u64 <= / 100 -> 0 <= Rg -> INR n ^ d * (1 + Rg) <= bpow radix2 910 ->
  near (fun x o => c2c_gradient (mk_c2c n n) x o d) n n f64_cplx f64_cplx (times d (c2c_derivative n)) Rg (gL n d * u64 * INR n ^ d) (gL n d * INR n ^ d * INR n * eta64).
Proof.
  intros Hn HL R0 HR. apply (wave_near n d n Hn HL ltac:(lia) _ (c2c_w n)); auto.
  - intros k Hk. apply c2c_w_lt; auto.
  - intros g k _. apply times_c2c.
  - intros x o Lx Lo. exact (c2c_gradient_any n x o d Hn Lx Lo).
Qed.

