(** C59: one base and one more axis. *)
From Coq Require Import List Arith ZArith Reals Bool Lra Lia.
From Flocq Require Import Core BinarySingleNaN.
From Verif Require Import Base Num Linalg Stencils StencilProofs Cheb Compo CompoProofs Fourier FourierF64 FourierFacts FourierProofs AnyArith ArithSteps Rounding RndTdma RndDirichlet RndNeumann RndGrad RndFinite RndFinite2 RndFourier RndFft PropRound PropRound2 PropRound4 PropTrans2 SpaceBases Bases ExtLib AnyBase PropAny PropAny2
  RndAxis RndOps RndOps2 SpaceAcc RndSpace SpaceVal RndVal RndVal2 RndGrad2 GradSpec GradOp RndGrad3.
Import ListNotations.
Local Open Scope R_scope.
Local Notation u64 := (bpow radix2 (-53)).
Local Notation eta64 := (bpow radix2 (-1075)).
Local Notation FA := f64_float_arith.

(** ** Components *)
Definition view {T I} (e : fel T) (cp : I -> T -> f64) : Prop :=
  (exists p0, (forall p, p = p0) /\ forall x, (ef e x <-> f64_fin (cp p0 x)) /\ ev e x = (f64_val (cp p0 x), 0)) \/
  (exists p1 p2, (forall p, p = p1 \/ p = p2) /\ forall x, (ef e x <-> f64_fin (cp p1 x) /\ f64_fin (cp p2 x)) /\ ev e x = (f64_val (cp p1 x), f64_val (cp p2 x))).
Definition both (G : (nat -> R) -> nat -> R) (c : nat -> CR) (k : nat) : CR := (G (fun j => fst (c j)) k, G (fun j => snd (c j)) k).
(** [G] is linear, uses its first [l1] arguments, and has entries at most [K] *)
Definition rbounded (G : (nat -> R) -> nat -> R) (l1 l2 : nat) (K : R) : Prop :=
  (forall g h k, (k < l2)%nat -> G (fun j => g j - h j) k = G g k - G h k) /\ forall g k, (k < l2)%nat -> Rabs (G g k) <= K * rsum l1 (fun j => Rabs (g j)).
Lemma rbounded_ext G l1 l2 K g h k : rbounded G l1 l2 K -> (k < l2)%nat -> (forall j, (j < l1)%nat -> g j = h j) -> G g k = G h k.
Proof.
  intros [B1 B2] Hk H. apply Rminus_diag_uniq. rewrite <- B1 by auto. pose proof (B2 (fun j => g j - h j) k Hk) as B. rewrite rsum_0 in B by (intros j Hj; rewrite H, Rminus_eq_0, Rabs_R0 by auto; auto).
  rewrite Rmult_0_r in B. pose proof (Rabs_pos (G (fun j => g j - h j) k)). destruct (Req_dec (G (fun j => g j - h j) k) 0) as [|Hn]; auto. apply Rabs_pos_lt in Hn. lra.
Qed.
Lemma both_bounded G l1 l2 K : rbounded G l1 l2 K -> bounded (both G) l1 l2 K.
Proof.
  intros [B1 B2]. split.
  - intros g h k Hk. unfold both, csub. cbn [fst snd nsub num_R]. f_equal; apply B1; auto.
  - intros g k Hk. unfold both, cn. cbn [fst snd]. rewrite rsum_add, Rmult_plus_distr_l. apply Rplus_le_compat; apply B2; auto.
Qed.
Lemma near_comps {T I} {V : Vec f64 T} (e : fel T) (cp : I -> T -> f64) f l1 l2 G K Rg al be : view e cp -> rbounded G l1 l2 K -> 0 <= be ->
  (forall x o, length x = l1 -> length o = l2 -> (forall p j, (j < l1)%nat -> f64_fin (cp p x.[j])) -> (forall p, rsum l1 (fun j => Rabs (gX f64_val cp p x j)) <= Rg) ->
    exists y, f x o = Ok y /\ length y = l2 /\ forall p k, (k < l2)%nat -> f64_fin (cp p y.[k]) /\ Rabs (gX f64_val cp p y k - G (gX f64_val cp p x) k) <= al * rsum l1 (fun j => Rabs (gX f64_val cp p x j)) + be) ->
  near f l1 l2 e e (both G) Rg al (2 * be).
Proof.
  intros HV HG Hb H d1 d2 x o Lx Lo Fx Sx.
  assert (XE : forall j, (j < l1)%nat -> @at_ T d1 x j = @at_ T dflt_vec x j) by (intros; apply at_dflt; lia).
  assert (SE : forall h : T -> R, rsum l1 (fun j => h (@at_ T d1 x j)) = rsum l1 (fun j => h (@at_ T dflt_vec x j))) by (intros h; apply rsum_ext; intros; rewrite XE; auto).
  destruct HV as [(p0 & P0 & HV)|(p1 & p2 & P0 & HV)].
  - assert (SR : rsum l1 (fun j => cn (ev e (@at_ T d1 x j))) = rsum l1 (fun j => Rabs (gX f64_val cp p0 x j))).
    { apply rsum_ext. intros j Hj. rewrite XE by auto. rewrite (proj2 (HV _)). unfold cn. cbn [fst snd]. rewrite Rabs_R0, Rplus_0_r. reflexivity. }
    destruct (H x o Lx Lo) as (y & Ey & Ly & Hy). { intros p j Hj. rewrite (P0 p). apply HV. rewrite <- XE by auto. auto. } { intros p. rewrite (P0 p). rewrite <- SR. auto. }
    exists y. split; auto. split; auto. intros k Hk. rewrite (at_dflt d2 dflt_vec) by lia. destruct (Hy p0 k Hk) as [F1 E1]. split; [apply HV; auto|]. rewrite SR. rewrite (proj2 (HV _)). unfold both, csub, cn. cbn [fst snd nsub num_R].
    rewrite (rbounded_ext G l1 l2 K (fun j => fst (ev e (@at_ T d1 x j))) (gX f64_val cp p0 x) k HG Hk) by (intros j Hj; rewrite XE by auto; rewrite (proj2 (HV _)); reflexivity).
    rewrite (rbounded_ext G l1 l2 K (fun j => snd (ev e (@at_ T d1 x j))) (fun _ => 0 - 0) k HG Hk) by (intros j Hj; rewrite (proj2 (HV _)); cbn; ring). rewrite (proj1 HG (fun _ => 0) (fun _ => 0)) by auto. rewrite Rminus_eq_0, Rminus_0_r, Rabs_R0. unfold gX in *. lra.
  - assert (SR : rsum l1 (fun j => cn (ev e (@at_ T d1 x j))) = rsum l1 (fun j => Rabs (gX f64_val cp p1 x j)) + rsum l1 (fun j => Rabs (gX f64_val cp p2 x j))).
    { rewrite <- rsum_add. apply rsum_ext. intros j Hj. rewrite XE by auto. rewrite (proj2 (HV _)). reflexivity. }
    assert (Z1 : forall p, 0 <= rsum l1 (fun j => Rabs (gX f64_val cp p x j))) by (intros; apply rsum_pos; intros; apply Rabs_pos). pose proof (Z1 p1). pose proof (Z1 p2).
    destruct (H x o Lx Lo) as (y & Ey & Ly & Hy). { intros p j Hj. rewrite <- XE by auto. pose proof (proj1 (proj1 (HV _)) (Fx j Hj)) as [G1 G2]. destruct (P0 p) as [->| ->]; auto. } { intros p. rewrite SR in Sx. destruct (P0 p) as [->| ->]; lra. }
    exists y. split; auto. split; auto. intros k Hk. rewrite (at_dflt d2 dflt_vec) by lia. destruct (Hy p1 k Hk) as [F1 E1]. destruct (Hy p2 k Hk) as [F2 E2]. split; [apply HV; auto|]. rewrite SR. rewrite (proj2 (HV _)). unfold both, csub, cn. cbn [fst snd nsub num_R].
    rewrite (rbounded_ext G l1 l2 K (fun j => fst (ev e (@at_ T d1 x j))) (gX f64_val cp p1 x) k HG Hk) by (intros j Hj; rewrite XE by auto; rewrite (proj2 (HV _)); reflexivity).
    rewrite (rbounded_ext G l1 l2 K (fun j => snd (ev e (@at_ T d1 x j))) (gX f64_val cp p2 x) k HG Hk) by (intros j Hj; rewrite XE by auto; rewrite (proj2 (HV _)); reflexivity).
    unfold gX in *. lra.
Qed.

(** ** The exact maps *)
Lemma cheb_d_ext n a b k : (forall p, (p < n)%nat -> a p = b p) -> cheb_d n a k = cheb_d n b k.
Proof. intros H. apply rsum_ext. intros p Hp. rewrite H; auto. Qed.
Lemma times_cheb n d c k : (3 <= n)%nat -> times d (cheb_derivative n) c k = both (Gpow n d) c k.
Proof.
  intros Hn. revert k. induction d as [|d IH]; intros k; cbn [times]. unfold both. cbn [Gpow]. destruct (c k); auto.
  unfold cheb_derivative at 1. unfold both. cbn [Gpow]. rewrite !Gop_d by auto. f_equal; apply cheb_d_ext; intros p Hp; rewrite IH; reflexivity.
Qed.
Lemma Gpow_sub n d a b k : (3 <= n)%nat -> Gpow n d (fun j => a j - b j) k = Gpow n d a k - Gpow n d b k.
Proof.
  intros Hn. revert k. induction d as [|d IH]; intros k; cbn [Gpow]; auto. rewrite !Gop_d by auto. rewrite <- cheb_d_sub. apply cheb_d_ext. intros; apply IH.
Qed.
Lemma Gpow_rbounded n d : (3 <= n)%nat -> rbounded (Gpow n d) n n (gK n d).
Proof.
  intros Hn. split. intros; apply Gpow_sub; auto. intros g k Hk. eapply Rle_trans; [apply Gpow_abs; auto|]. apply Gpow_max; auto. intros; apply Rabs_pos.
Qed.
(** first to the Chebyshev basis *)
Definition compo_G (n d : nat) (C : (nat -> R) -> nat -> R) (g : nat -> R) : nat -> R := Gpow n d (C g).
Lemma compo_rbounded n d C : (3 <= n)%nat -> (forall g h k, C (fun j => g j - h j) k = C g k - C h k) -> (forall g, rsum n (fun k => Rabs (C g k)) <= 2 * rsum (n - 2) (fun k => Rabs (g k))) -> rbounded (compo_G n d C) (n - 2) n (2 * gK n d).
Proof.
  intros Hn C1 C2. pose proof (gK_ge1 n d ltac:(lia)). unfold compo_G. split.
  - intros g h k Hk. rewrite <- Gpow_sub by auto. apply (rbounded_ext _ n n (gK n d)); auto. apply Gpow_rbounded; auto.
  - intros g k Hk. eapply Rle_trans; [apply (proj2 (Gpow_rbounded n d Hn)); auto|]. specialize (C2 g). apply (Rmult_le_compat_l (gK n d)) in C2; lra.
Qed.

Lemma R910_920 : 4 * bpow radix2 910 <= R920.
Proof. unfold R920. change 920%Z with (2 + 918)%Z. rewrite bpow_plus. change (bpow radix2 2) with 4. apply Rmult_le_compat_l; [lra|]. apply bpow_le. lia. Qed.
Section Compo.
Context {T : Type} {V : Vec f64 T} {I : Type} {cp : I -> T -> f64} (GE : grad_elem f64_fin f64_val (ieee_rnd 53 1024) cp) (GF : elem_fwd f64_fin f64_val (ieee_rnd 53 1024) (ieee_inr 1024) cp).
Notation Xv := (gX f64_val cp).
Lemma compo_grad_comp n (c : compo f64) C (a o : list T) d Rg : (5 <= n)%nat -> gL n d * u64 <= / 100 -> p_ortho c = mk_cheb n n -> length a = (n - 2)%nat -> length o = n -> 0 <= Rg -> 2 * gK n d * (1 + Rg) <= bpow radix2 910 ->
  (forall g h k, C (fun j => g j - h j) k = C g k - C h k) -> (forall g, rsum n (fun k => Rabs (C g k)) <= 2 * rsum (n - 2) (fun k => Rabs (g k))) ->
  (exists z, compo_to_ortho c a (repeat v0 (compo_len_orth c)) = Ok z /\ length z = n /\ forall p, (forall k, (k < n)%nat -> f64_fin (cp p z.[k])) /\
     rsum n (fun k => Rabs (Xv p z k - C (Xv p a) k)) <= 6 * u64 * rsum (n - 2) (fun j => Rabs (Xv p a j)) + 3 * INR n * eta64) ->
  (forall p, rsum (n - 2) (fun j => Rabs (Xv p a j)) <= Rg) ->
  exists b, compo_gradient c a o d = Ok b /\ length b = n /\ forall p k, (k < n)%nat -> f64_fin (cp p b.[k]) /\
    Rabs (Xv p b k - compo_G n d C (Xv p a) k) <= gL n d * u64 * (2 * gK n d) * rsum (n - 2) (fun j => Rabs (Xv p a j)) + gL n d * gK n d * INR n * eta64.
Proof.
  intros H5 HL EC La Lo R0 HR C1 C2 (z & Ez & Lz & Hz) HS. assert (Hn : (3 <= n)%nat) by lia. destruct (gL_facts n d ltac:(lia) HL) as (D0 & D1 & [N1 N2] & D2 & NU & NZ). pose proof (bpow_gt_0 radix2 (-53)) as U. pose proof (bpow_gt_0 radix2 (-1075)) as E.
  assert (N5 : 5 <= INR n) by (replace 5 with (INR 5) by (cbn; ring); apply le_INR; lia). pose proof (gK_ge1 n d ltac:(lia)) as K1. destruct (eta_tiny n d Hn HL) as [T1 T2].
  assert (NE : INR n * eta64 <= / 4). { apply Rle_trans with (bpow radix2 45 * bpow radix2 (-60)). apply Rmult_le_compat; try lra. apply bpow_le; lia. rewrite <- bpow_plus. change (45 + -60)%Z with (-15)%Z. change (bpow radix2 (-15)) with (/ IZR (2 ^ 15)). cbv [Z.pow Z.pow_pos Pos.iter Z.mul Pos.mul]. lra. }
  assert (NE0 : 0 <= INR n * eta64) by (apply Rmult_le_pos; lra).
  assert (U1 : u64 <= / 2000) by (change u64 with (/ IZR (2 ^ 53)); cbv [Z.pow Z.pow_pos Pos.iter Z.mul Pos.mul]; lra).
  assert (S0 : forall p, 0 <= rsum (n - 2) (fun j => Rabs (Xv p a j))) by (intros; apply rsum_pos; intros; apply Rabs_pos).
  assert (ZS : forall p, rsum n (fun k => Rabs (Xv p z k)) <= (2 + 6 * u64) * rsum (n - 2) (fun j => Rabs (Xv p a j)) + 3 * (INR n * eta64)).
  { intros p. destruct (Hz p) as [_ H]. apply Rle_trans with (rsum n (fun k => Rabs (C (Xv p a) k) + Rabs (Xv p z k - C (Xv p a) k))).
    apply rsum_le. intros k Hk. replace (Xv p z k) with (C (Xv p a) k + (Xv p z k - C (Xv p a) k)) at 1 by ring. apply Rabs_triang. rewrite rsum_add. specialize (C2 (Xv p a)). lra. }
  assert (US : forall p, 6 * u64 * rsum (n - 2) (fun j => Rabs (Xv p a j)) <= / 100 * rsum (n - 2) (fun j => Rabs (Xv p a j))) by (intros; apply Rmult_le_compat_r; auto; lra).
  destruct (cheb_grad_comp GE GF n z o d (3 * Rg + 1) Hn HL Lz Lo ltac:(lra)) as (b & Eb & Lb & Hb).
  - pose proof R910_920. assert (gK n d * (1 + (3 * Rg + 1)) <= 4 * (2 * gK n d * (1 + Rg))). { replace (4 * (2 * gK n d * (1 + Rg))) with (gK n d * (8 + 8 * Rg)) by ring. apply Rmult_le_compat_l; lra. } eapply Rle_trans; [exact H0|]. eapply Rle_trans; [|exact H]. apply Rmult_le_compat_l; lra.
  - intros p j Hj. apply Hz; auto.
  - intros p. eapply Rle_trans; [apply ZS|]. specialize (HS p). specialize (S0 p). specialize (US p). lra.
  - exists b. unfold compo_gradient. rewrite Ez. cbn [bind]. rewrite EC. split; auto. split; auto. intros p k Hk. destruct (Hb p k Hk) as [Fb HB]. split; auto.
    set (S := rsum (n - 2) (fun j => Rabs (Xv p a j))) in *. specialize (S0 p). fold S in S0. specialize (ZS p). fold S in ZS. destruct (Hz p) as [_ HZ]. fold S in HZ.
    assert (B2 : Rabs (Gpow n d (Xv p z) k - compo_G n d C (Xv p a) k) <= gK n d * (6 * u64 * S + 3 * INR n * eta64)).
    { unfold compo_G. rewrite <- Gpow_sub by auto. eapply Rle_trans; [apply (proj2 (Gpow_rbounded n d Hn)); auto|]. apply Rmult_le_compat_l; [lra|exact HZ]. }
    set (x := INR d * INR n * u64) in *. assert (X0 : 0 <= x) by (unfold x; apply Rmult_le_pos; lra).
    assert (B1 : 4 * x * gK n d * rsum n (fun j => Rabs (Xv p z j)) <= 4 * x * gK n d * ((2 + 6 * u64) * S + 3 * (INR n * eta64))). { apply Rmult_le_compat_l; auto. apply Rmult_le_pos; lra. }
    replace (Xv p b k - compo_G n d C (Xv p a) k) with ((Xv p b k - Gpow n d (Xv p z) k) + (Gpow n d (Xv p z) k - compo_G n d C (Xv p a) k)) by ring. eapply Rle_trans; [apply Rabs_triang|].
    assert (EL : gL n d * u64 = 4 * x + 4 * (INR n * u64)) by (unfold gL, x; rewrite plus_INR; cbn [INR]; ring).
    assert (EL2 : gL n d * gK n d * INR n * eta64 = gK n d * (4 * (INR d * INR n) * (INR n * eta64) + 4 * INR n * (INR n * eta64))) by (unfold gL; rewrite plus_INR; cbn [INR]; ring).
    rewrite EL, EL2.
    assert (B3 : 4 * x * ((2 + 6 * u64) * S + 3 * (INR n * eta64)) + 2 * (INR d * INR n) * (INR n * eta64) + (6 * u64 * S + 3 * (INR n * eta64)) <= (4 * x + 4 * (INR n * u64)) * 2 * S + (4 * (INR d * INR n) * (INR n * eta64) + 4 * INR n * (INR n * eta64))).
    { assert (Q1 : 4 * x * (6 * u64) * S <= / 10 * (u64 * S)). { replace (4 * x * (6 * u64) * S) with (24 * x * (u64 * S)) by ring. apply Rmult_le_compat_r. apply Rmult_le_pos; lra. lra. }
      assert (Q2 : 5 * (u64 * S) <= INR n * u64 * S). { rewrite Rmult_assoc. apply Rmult_le_compat_r; auto. apply Rmult_le_pos; lra. }
      assert (Q3 : 4 * x * (3 * (INR n * eta64)) <= INR n * eta64). { replace (4 * x * (3 * (INR n * eta64))) with (12 * x * (INR n * eta64)) by ring. rewrite <- (Rmult_1_l (INR n * eta64)) at 2. apply Rmult_le_compat_r; auto; lra. }
      assert (Q4 : 5 * (INR n * eta64) <= INR n * (INR n * eta64)) by (apply Rmult_le_compat_r; auto).
      assert (Q5 : 0 <= INR d * INR n * (INR n * eta64)) by (apply Rmult_le_pos; auto). assert (Q6 : 0 <= u64 * S) by (apply Rmult_le_pos; lra). lra. }
    apply (Rmult_le_compat_l (gK n d)) in B3; [|lra]. lra.
Qed.
End Compo.
