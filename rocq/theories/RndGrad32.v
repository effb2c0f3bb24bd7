(** C68: the gradients of the bases in f32, against the exact derivatives of
    GradSpec.v (RndGrad3.v to RndGrad6.v with u = 2^-24, eta = 2^-150). *)
From Coq Require Import List Arith ZArith Reals Bool Lra Lia.
From Flocq Require Import Core BinarySingleNaN.
From Verif Require Import Base Num Linalg Stencils StencilProofs Cheb Compo CompoProofs Fourier FourierF64 FourierFacts FourierProofs AnyArith ArithSteps Rounding RndTdma RndDirichlet RndNeumann RndGrad RndFinite RndFinite2 RndFourier RndFft RndCompo PropRound PropRound2 PropRound4 PropTrans6 SpaceBases Bases BaseLin ExtLib ExtFacts AnyBase PropAny PropAny2
  RndAxis RndOps RndOps2 RndDN RndDN2 SpaceAcc RndSpace SpaceVal RndVal RndVal2 RndGrad2 GradSpec GradOp RndGrad3 RndGrad4 RndGrad5 RndGrad6 SpaceVal32 RndVal32 GradSpec32.
Import ListNotations.
Local Open Scope R_scope.
Local Notation u32 := (bpow radix2 (-24)).
Local Notation eta32 := (bpow radix2 (-150)).
Local Notation FA := f32_float_arith.

(** ** Sizes *)
Lemma gL_facts n d : (1 <= n)%nat -> gL n d * u32 <= / 100 -> 0 <= INR d * INR n /\ INR d * INR n * u32 <= / 400 /\ 1 <= INR n <= bpow radix2 16 /\ INR d * INR n <= bpow radix2 16 /\ INR n * u32 <= / 400 /\ (Z.of_nat n <= 2 ^ 16)%Z.
Proof.
  intros Hn H. unfold gL in H. rewrite plus_INR in H. cbn [INR] in H. pose proof (pos_INR d). assert (N1 : 1 <= INR n) by (change 1 with (INR 1); apply le_INR; lia). pose proof (bpow_gt_0 radix2 (-24)) as U.
  assert (D0 : 0 <= INR d * INR n) by (apply Rmult_le_pos; lra). assert (D1 : 0 <= INR d * INR n * u32) by (apply Rmult_le_pos; lra). assert (N2 : 0 < INR n * u32) by (apply Rmult_lt_0_compat; lra).
  assert (E : 4 * (INR d + 1) * INR n * u32 = 4 * (INR d * INR n * u32) + 4 * (INR n * u32)) by ring. rewrite E in H. clear E.
  assert (B : forall x, x * u32 <= / 400 -> x <= bpow radix2 16).
  { intros x Hx. change u32 with (/ IZR (2 ^ 24)) in Hx. change (bpow radix2 16) with (IZR (2 ^ 16)). cbv [Z.pow Z.pow_pos Pos.iter Z.mul Pos.mul] in *. lra. }
  split; auto. split; [lra|]. split; [split; auto; apply B; lra|]. split; [apply B; lra|]. split; [lra|].
  assert (NB : INR n <= bpow radix2 16) by (apply B; lra). rewrite INR_IZR_INZ in NB. change (bpow radix2 16) with (IZR (2 ^ 16)) in NB. apply le_IZR in NB. exact NB.
Qed.
Lemma grad_eta_le n d : (3 <= n)%nat -> gL n d * u32 <= / 100 -> grad_eta (u := u32) (eta := eta32) n d <= 2 * (INR d * INR n) * INR n * gK n d * eta32.
Proof.
  intros Hn HL. destruct (gL_facts n d ltac:(lia) HL) as (D0 & D1 & [N1 _] & _). pose proof (bpow_gt_0 radix2 (-24)) as U. pose proof (bpow_gt_0 radix2 (-150)) as E. unfold grad_eta. rewrite Rpow_mult_distr.
  destruct d as [|d]. { cbn [INR]. rewrite !Rmult_0_l. rewrite !Rmult_0_r, !Rmult_0_l. lra. }
  assert (P : (1 + 2 * INR n * u32) ^ S d <= 1 + / 100). { pose proof (pow_2u (2 * INR n * u32) (S d)) as Q. replace (INR (S d) * (2 * INR n * u32)) with (2 * (INR (S d) * INR n * u32)) in Q by ring. destruct Q as [Q _]. apply Rmult_le_pos; lra. lra. replace (2 * INR (S d) * (2 * INR n * u32)) with (4 * (INR (S d) * INR n * u32)) in Q by ring. lra. }
  assert (P0 : 0 <= (1 + 2 * INR n * u32) ^ S d). { apply pow_le. assert (0 <= 2 * INR n * u32) by (apply Rmult_le_pos; lra). lra. }
  assert (EQ : (INR n * INR n) ^ S d * INR n = INR n * INR n * (gK n (S d) / 2)). { unfold gK. replace (2 * S d - 1)%nat with (S (2 * d)) by lia. replace (2 * INR n ^ S (2 * d) / 2) with (INR n ^ S (2 * d)) by field. cbn [pow]. rewrite pow_mult. cbn [pow]. rewrite Rmult_1_r. ring. }
  replace (INR (S d) * ((1 + 2 * INR n * u32) ^ S d * (INR n * INR n) ^ S d) * (3 * INR n * eta32)) with (3 * (1 + 2 * INR n * u32) ^ S d * (INR (S d) * ((INR n * INR n) ^ S d * INR n) * eta32)) by ring. rewrite EQ.
  pose proof (gK_ge1 n (S d) ltac:(lia)). set (M := INR (S d) * INR n * INR n * gK n (S d) * eta32). assert (M0 : 0 <= M). { unfold M. apply Rmult_le_pos; [|lra]. apply Rmult_le_pos; [|lra]. apply Rmult_le_pos; lra. }
  replace (3 * (1 + 2 * INR n * u32) ^ S d * (INR (S d) * (INR n * INR n * (gK n (S d) / 2)) * eta32)) with (3 / 2 * (1 + 2 * INR n * u32) ^ S d * M) by (unfold M; field). replace (2 * (INR (S d) * INR n) * INR n * gK n (S d) * eta32) with (2 * M) by (unfold M; ring).
  apply Rmult_le_compat_r; auto. lra.
Qed.
Definition R104 : R := bpow radix2 104.
Lemma eta_tiny n d : (3 <= n)%nat -> gL n d * u32 <= / 100 -> 2 * (INR d * INR n) * INR n * eta32 <= / 4 /\ eta32 <= / 4.
Proof.
  intros Hn HL. destruct (gL_facts n d ltac:(lia) HL) as (D0 & D1 & N1 & D2 & _). pose proof (bpow_gt_0 radix2 (-150)) as E.
  assert (T : eta32 <= bpow radix2 (-42)) by (apply bpow_le; lia). split.
  - apply Rle_trans with (2 * bpow radix2 16 * bpow radix2 16 * bpow radix2 (-42)). apply Rmult_le_compat; try lra. apply Rmult_le_pos; lra. apply Rmult_le_compat; lra.
    replace (2 * bpow radix2 16 * bpow radix2 16 * bpow radix2 (-42)) with (2 * (bpow radix2 16 * bpow radix2 16 * bpow radix2 (-42))) by ring. rewrite <- !bpow_plus. change (16 + 16 + -42)%Z with (-10)%Z. change (bpow radix2 (-10)) with (/ IZR (2 ^ 10)). cbv [Z.pow Z.pow_pos Pos.iter Z.mul Pos.mul]. lra.
  - eapply Rle_trans; [exact T|]. change (bpow radix2 (-42)) with (/ IZR (2 ^ 42)). cbv [Z.pow Z.pow_pos Pos.iter Z.mul Pos.mul]. lra.
Qed.

(** ** Chebyshev, one component *)
Section Cheb.
Context {T : Type} {V : Vec f32 T} {I : Type} {cp : I -> T -> f32} (GE : grad_elem f32_fin f32_val (ieee_rnd 24 128) cp) (GF : elem_fwd f32_fin f32_val (ieee_rnd 24 128) (ieee_inr 128) cp).
Notation Xv := (gX f32_val cp).
Lemma cheb_grad_comp n (a o : list T) d Rg : (3 <= n)%nat -> gL n d * u32 <= / 100 -> length a = n -> length o = n -> 0 <= Rg -> gK n d * (1 + Rg) <= R104 ->
  (forall p j, (j < n)%nat -> f32_fin (cp p a.[j])) -> (forall p, rsum n (fun j => Rabs (Xv p a j)) <= Rg) ->
  exists b, cheb_gradient (mk_cheb n n) a o d = Ok b /\ length b = n /\ forall p k, (k < n)%nat -> f32_fin (cp p b.[k]) /\
    Rabs (Xv p b k - Gpow n d (Xv p a) k) <= 4 * (INR d * INR n * u32) * gK n d * rsum n (fun j => Rabs (Xv p a j)) + 2 * (INR d * INR n) * INR n * gK n d * eta32.
Proof.
  intros Hn HL La Lo R0 HR HF HS. destruct (gL_facts n d ltac:(lia) HL) as (D0 & D1 & [N1 N2] & D2 & NU & NZ). pose proof (bpow_gt_0 radix2 (-24)) as U. pose proof (bpow_gt_0 radix2 (-150)) as E.
  assert (Hz : (2 * Z.of_nat n <= 2 ^ 24)%Z) by lia. assert (Hu : INR n * u32 <= 1) by lra.
  assert (ER : forall d' b, (d' <= d)%nat -> cheb_gradient (mk_cheb n n) a o d' = Ok b -> forall p k, (k < n)%nat -> f32_fin (cp p b.[k]) ->
    Rabs (Xv p b k - Gpow n d' (Xv p a) k) <= 4 * (INR d' * INR n * u32) * gK n d' * rsum n (fun j => Rabs (Xv p a j)) + 2 * (INR d' * INR n) * INR n * gK n d' * eta32 /\ gL n d' * u32 <= / 100).
  { intros d' b Hd Eb p k Hk Fb. assert (DD : INR d' <= INR d) by (apply le_INR; auto).
    assert (HL' : gL n d' * u32 <= / 100). { eapply Rle_trans; [|exact HL]. apply Rmult_le_compat_r; [lra|]. unfold gL. apply Rmult_le_compat_r; [lra|]. apply Rmult_le_compat_l; [lra|]. apply le_INR. lia. }
    split; auto. destruct (cheb_gradient_err FA GE n a o b d' Hn Hz Hu La Lo Eb) as [_ H]. eapply Rle_trans; [apply H; auto|]. apply Rplus_le_compat; [|apply grad_eta_le; auto].
    assert (X0 : 0 <= INR d' * INR n * u32) by (apply Rmult_le_pos; [apply Rmult_le_pos; [apply pos_INR|lra]|lra]).
    destruct (gL_facts n d' ltac:(lia) HL') as (_ & D1' & _). rewrite (Rmult_assoc (4 * _)). apply Rmult_le_compat.
    - assert (1 <= (1 + 2 * INR n * u32) ^ d') by (apply pow_R1_Rle; assert (0 <= 2 * INR n * u32) by (apply Rmult_le_pos; lra); lra). lra.
    - apply Gpow_pos; auto. intros; apply Rabs_pos.
    - pose proof (pow_2u (2 * INR n * u32) d') as Q. replace (INR d' * (2 * INR n * u32)) with (2 * (INR d' * INR n * u32)) in Q by ring. destruct Q as [Q _]. apply Rmult_le_pos; lra. lra. replace (2 * INR d' * (2 * INR n * u32)) with (4 * (INR d' * INR n * u32)) in Q by ring. lra.
    - apply Gpow_max; auto. intros; apply Rabs_pos. }
  assert (SZ : forall d' b, (d' <= d)%nat -> cheb_gradient (mk_cheb n n) a o d' = Ok b -> forall p k, (k < n)%nat -> f32_fin (cp p b.[k]) -> Rabs (Xv p b k) <= 2 * (gK n d' * (1 + Rg))).
  { intros d' b Hd Eb p k Hk Fb. destruct (ER d' b Hd Eb p k Hk Fb) as [H HL']. destruct (gL_facts n d' ltac:(lia) HL') as (D0' & D1' & _ & D2' & _). destruct (eta_tiny n d' Hn HL') as [T1 _]. pose proof (gK_ge1 n d' ltac:(lia)) as K1.
    pose proof (Gpow_abs n d' (Xv p a) k Hn Hk) as A1. pose proof (Gpow_max n d' (fun j => Rabs (Xv p a j)) k Hn Hk (fun j => Rabs_pos _)) as A2.
    assert (S0 : 0 <= rsum n (fun j => Rabs (Xv p a j))) by (apply rsum_pos; intros; apply Rabs_pos). specialize (HS p).
    assert (KS : gK n d' * rsum n (fun j => Rabs (Xv p a j)) <= gK n d' * Rg) by (apply Rmult_le_compat_l; lra). assert (KS0 : 0 <= gK n d' * rsum n (fun j => Rabs (Xv p a j))) by (apply Rmult_le_pos; lra).
    assert (A3 : 4 * (INR d' * INR n * u32) * gK n d' * rsum n (fun j => Rabs (Xv p a j)) <= / 100 * (gK n d' * rsum n (fun j => Rabs (Xv p a j)))). { rewrite Rmult_assoc. apply Rmult_le_compat_r; lra. }
    assert (A4 : 2 * (INR d' * INR n) * INR n * gK n d' * eta32 <= / 4 * gK n d'). { replace (2 * (INR d' * INR n) * INR n * gK n d' * eta32) with (2 * (INR d' * INR n) * INR n * eta32 * gK n d') by ring. apply Rmult_le_compat_r; lra. }
    replace (Xv p b k) with (Gpow n d' (Xv p a) k + (Xv p b k - Gpow n d' (Xv p a) k)) by ring. eapply Rle_trans; [apply Rabs_triang|]. lra. }
  assert (OK : forall d', (d' <= d)%nat -> exists b, cheb_gradient (mk_cheb n n) a o d' = Ok b /\ length b = n /\ forall p k, (k < n)%nat -> f32_fin (cp p b.[k])).
  { induction d' as [|d' IH]; intros Hd. { exists a. rewrite cheb_gradient_0 by auto. auto. }
    destruct (IH ltac:(lia)) as (b & Eb & Lb & Fb). pose proof (grad_once_steps n b Hn Lb) as W. destruct (grad_once n b) as [c| |] eqn:Ec; cbn [wp] in W; try contradiction.
    exists c. rewrite cheb_gradient_S, Eb. cbn [bind c_m]. split; auto. split; [apply W|]. intros p k Hk.
    refine (proj1 (grad_once_fin FA GE GF n b c (2 * (gK n d' * (1 + Rg))) Hn Hz Hu W _ _ _ p k Hk)).
    - pose proof (gK_ge1 n d' ltac:(lia)). apply Rmult_le_pos; [lra|]. apply Rmult_le_pos; lra.
    - pose proof (gK_ge1 n d' ltac:(lia)) as K1. destruct (gK_S n d' ltac:(lia)) as [K2 K3]. destruct (eta_tiny n d Hn HL) as [_ T1].
      assert (KM : gK n (S d') <= gK n d). { assert (G : forall x, (S d' <= x)%nat -> gK n (S d') <= gK n x) by (induction 1; [lra|]; destruct (gK_S n m ltac:(lia)); lra). apply G. lia. }
      assert (KR : gK n d' * (1 + Rg) >= 2) by (assert (2 * 1 <= gK n d' * (1 + Rg)) by (apply Rmult_le_compat; lra); lra).
      assert (KR' : 0 <= gK n d * (1 + Rg)) by (apply Rmult_le_pos; lra). assert (B0 : 0 <= bpow radix2 16) by apply bpow_ge_0.
      apply (inr_le FA) with (39 * (bpow radix2 16 * R104)).
      + unfold R104. apply Rmult_le_pos; [lra|]. apply Rmult_le_pos; apply bpow_ge_0.
      + assert (NN : 0 <= INR n * INR n) by (apply Rmult_le_pos; lra). rewrite Rabs_pos_eq by (apply Rmult_le_pos; lra).
        apply Rle_trans with (13 * (INR n * INR n) * (3 * (gK n d' * (1 + Rg)))). apply Rmult_le_compat_l; lra.
        replace (13 * (INR n * INR n) * (3 * (gK n d' * (1 + Rg)))) with (39 * (INR n * INR n * gK n d' * (1 + Rg))) by ring. apply Rmult_le_compat_l; [lra|].
        apply Rle_trans with (INR n * gK n d * (1 + Rg)). { apply Rmult_le_compat_r; [lra|]. eapply Rle_trans; [exact K3|]. apply Rmult_le_compat_l; lra. }
        rewrite Rmult_assoc. apply Rmult_le_compat; lra.
      + unfold R104. rewrite <- bpow_plus. apply (f32_range (39 * bpow radix2 20) _ (bpow radix2 100)).
        * split. apply Rmult_le_pos; [lra|apply bpow_ge_0]. rewrite Rmult_assoc, <- bpow_plus. apply Req_le. reflexivity.
        * change (bpow radix2 20) with 1048576. change (bpow radix2 27) with 134217728. lra.
        * split. apply bpow_ge_0. apply Rle_refl.
    - intros q j Hj. split; [apply Fb; auto|]. apply (SZ d' b ltac:(lia) Eb q j Hj). apply Fb; auto. }
  destruct (OK d (Nat.le_refl d)) as (b & Eb & Lb & Fb). exists b. split; auto. split; auto. intros p k Hk. split; [apply Fb; auto|]. apply (ER d b (Nat.le_refl d) Eb p k Hk). apply Fb; auto.
Qed.
End Cheb.

(** ** Components *)
Definition view {T I} (e : fel T) (cp : I -> T -> f32) : Prop :=
  (exists p0, (forall p, p = p0) /\ forall x, (ef e x <-> f32_fin (cp p0 x)) /\ ev e x = (f32_val (cp p0 x), 0)) \/
  (exists p1 p2, (forall p, p = p1 \/ p = p2) /\ forall x, (ef e x <-> f32_fin (cp p1 x) /\ f32_fin (cp p2 x)) /\ ev e x = (f32_val (cp p1 x), f32_val (cp p2 x))).
(** [G] is linear, uses its first [l1] arguments, and has entries at most [K] *)
Lemma near_comps {T I} {V : Vec f32 T} (e : fel T) (cp : I -> T -> f32) f l1 l2 G K Rg al be : view e cp -> rbounded G l1 l2 K -> 0 <= be ->
  (forall x o, length x = l1 -> length o = l2 -> (forall p j, (j < l1)%nat -> f32_fin (cp p x.[j])) -> (forall p, rsum l1 (fun j => Rabs (gX f32_val cp p x j)) <= Rg) ->
    exists y, f x o = Ok y /\ length y = l2 /\ forall p k, (k < l2)%nat -> f32_fin (cp p y.[k]) /\ Rabs (gX f32_val cp p y k - G (gX f32_val cp p x) k) <= al * rsum l1 (fun j => Rabs (gX f32_val cp p x j)) + be) ->
  near f l1 l2 e e (both G) Rg al (2 * be).
Proof.
  intros HV HG Hb H d1 d2 x o Lx Lo Fx Sx.
  assert (XE : forall j, (j < l1)%nat -> @at_ T d1 x j = @at_ T dflt_vec x j) by (intros; apply at_dflt; lia).
  assert (SE : forall h : T -> R, rsum l1 (fun j => h (@at_ T d1 x j)) = rsum l1 (fun j => h (@at_ T dflt_vec x j))) by (intros h; apply rsum_ext; intros; rewrite XE; auto).
  destruct HV as [(p0 & P0 & HV)|(p1 & p2 & P0 & HV)].
  - assert (SR : rsum l1 (fun j => cn (ev e (@at_ T d1 x j))) = rsum l1 (fun j => Rabs (gX f32_val cp p0 x j))).
    { apply rsum_ext. intros j Hj. rewrite XE by auto. rewrite (proj2 (HV _)). unfold cn. cbn [fst snd]. rewrite Rabs_R0, Rplus_0_r. reflexivity. }
    destruct (H x o Lx Lo) as (y & Ey & Ly & Hy). { intros p j Hj. rewrite (P0 p). apply HV. rewrite <- XE by auto. auto. } { intros p. rewrite (P0 p). rewrite <- SR. auto. }
    exists y. split; auto. split; auto. intros k Hk. rewrite (at_dflt d2 dflt_vec) by lia. destruct (Hy p0 k Hk) as [F1 E1]. split; [apply HV; auto|]. rewrite SR. rewrite (proj2 (HV _)). unfold both, csub, cn. cbn [fst snd nsub num_R].
    rewrite (rbounded_ext G l1 l2 K (fun j => fst (ev e (@at_ T d1 x j))) (gX f32_val cp p0 x) k HG Hk) by (intros j Hj; rewrite XE by auto; rewrite (proj2 (HV _)); reflexivity).
    rewrite (rbounded_ext G l1 l2 K (fun j => snd (ev e (@at_ T d1 x j))) (fun _ => 0 - 0) k HG Hk) by (intros j Hj; rewrite (proj2 (HV _)); cbn; ring). rewrite (proj1 HG (fun _ => 0) (fun _ => 0)) by auto. rewrite Rminus_eq_0, Rminus_0_r, Rabs_R0. unfold gX in *. lra.
  - assert (SR : rsum l1 (fun j => cn (ev e (@at_ T d1 x j))) = rsum l1 (fun j => Rabs (gX f32_val cp p1 x j)) + rsum l1 (fun j => Rabs (gX f32_val cp p2 x j))).
    { rewrite <- rsum_add. apply rsum_ext. intros j Hj. rewrite XE by auto. rewrite (proj2 (HV _)). reflexivity. }
    assert (Z1 : forall p, 0 <= rsum l1 (fun j => Rabs (gX f32_val cp p x j))) by (intros; apply rsum_pos; intros; apply Rabs_pos). pose proof (Z1 p1). pose proof (Z1 p2).
    destruct (H x o Lx Lo) as (y & Ey & Ly & Hy). { intros p j Hj. rewrite <- XE by auto. pose proof (proj1 (proj1 (HV _)) (Fx j Hj)) as [G1 G2]. destruct (P0 p) as [->| ->]; auto. } { intros p. rewrite SR in Sx. destruct (P0 p) as [->| ->]; lra. }
    exists y. split; auto. split; auto. intros k Hk. rewrite (at_dflt d2 dflt_vec) by lia. destruct (Hy p1 k Hk) as [F1 E1]. destruct (Hy p2 k Hk) as [F2 E2]. split; [apply HV; auto|]. rewrite SR. rewrite (proj2 (HV _)). unfold both, csub, cn. cbn [fst snd nsub num_R].
    rewrite (rbounded_ext G l1 l2 K (fun j => fst (ev e (@at_ T d1 x j))) (gX f32_val cp p1 x) k HG Hk) by (intros j Hj; rewrite XE by auto; rewrite (proj2 (HV _)); reflexivity).
    rewrite (rbounded_ext G l1 l2 K (fun j => snd (ev e (@at_ T d1 x j))) (gX f32_val cp p2 x) k HG Hk) by (intros j Hj; rewrite XE by auto; rewrite (proj2 (HV _)); reflexivity).
    unfold gX in *. lra.
Qed.

(** ** The exact maps *)
(** first to the Chebyshev basis *)

Lemma R100_920 : 4 * bpow radix2 100 <= R104.
Proof. unfold R104. change 104%Z with (2 + 102)%Z. rewrite bpow_plus. change (bpow radix2 2) with 4. apply Rmult_le_compat_l; [lra|]. apply bpow_le. lia. Qed.
Section Compo.
Context {T : Type} {V : Vec f32 T} {I : Type} {cp : I -> T -> f32} (GE : grad_elem f32_fin f32_val (ieee_rnd 24 128) cp) (GF : elem_fwd f32_fin f32_val (ieee_rnd 24 128) (ieee_inr 128) cp).
Notation Xv := (gX f32_val cp).
Lemma compo_grad_comp n (c : compo f32) C (a o : list T) d Rg : (5 <= n)%nat -> gL n d * u32 <= / 100 -> p_ortho c = mk_cheb n n -> length a = (n - 2)%nat -> length o = n -> 0 <= Rg -> 2 * gK n d * (1 + Rg) <= bpow radix2 100 ->
  (forall g h k, C (fun j => g j - h j) k = C g k - C h k) -> (forall g, rsum n (fun k => Rabs (C g k)) <= 2 * rsum (n - 2) (fun k => Rabs (g k))) ->
  (exists z, compo_to_ortho c a (repeat v0 (compo_len_orth c)) = Ok z /\ length z = n /\ forall p, (forall k, (k < n)%nat -> f32_fin (cp p z.[k])) /\
     rsum n (fun k => Rabs (Xv p z k - C (Xv p a) k)) <= 6 * u32 * rsum (n - 2) (fun j => Rabs (Xv p a j)) + 3 * INR n * eta32) ->
  (forall p, rsum (n - 2) (fun j => Rabs (Xv p a j)) <= Rg) ->
  exists b, compo_gradient c a o d = Ok b /\ length b = n /\ forall p k, (k < n)%nat -> f32_fin (cp p b.[k]) /\
    Rabs (Xv p b k - compo_G n d C (Xv p a) k) <= gL n d * u32 * (2 * gK n d) * rsum (n - 2) (fun j => Rabs (Xv p a j)) + gL n d * gK n d * INR n * eta32.
Proof.
  intros H5 HL EC La Lo R0 HR C1 C2 (z & Ez & Lz & Hz) HS. assert (Hn : (3 <= n)%nat) by lia. destruct (gL_facts n d ltac:(lia) HL) as (D0 & D1 & [N1 N2] & D2 & NU & NZ). pose proof (bpow_gt_0 radix2 (-24)) as U. pose proof (bpow_gt_0 radix2 (-150)) as E.
  assert (N5 : 5 <= INR n) by (replace 5 with (INR 5) by (cbn; ring); apply le_INR; lia). pose proof (gK_ge1 n d ltac:(lia)) as K1. destruct (eta_tiny n d Hn HL) as [T1 T2].
  assert (NE : INR n * eta32 <= / 4). { apply Rle_trans with (bpow radix2 16 * bpow radix2 (-31)). apply Rmult_le_compat; try lra. apply bpow_le; lia. rewrite <- bpow_plus. change (16 + -31)%Z with (-15)%Z. change (bpow radix2 (-15)) with (/ IZR (2 ^ 15)). cbv [Z.pow Z.pow_pos Pos.iter Z.mul Pos.mul]. lra. }
  assert (NE0 : 0 <= INR n * eta32) by (apply Rmult_le_pos; lra).
  assert (U1 : u32 <= / 2000) by (change u32 with (/ IZR (2 ^ 24)); cbv [Z.pow Z.pow_pos Pos.iter Z.mul Pos.mul]; lra).
  assert (S0 : forall p, 0 <= rsum (n - 2) (fun j => Rabs (Xv p a j))) by (intros; apply rsum_pos; intros; apply Rabs_pos).
  assert (ZS : forall p, rsum n (fun k => Rabs (Xv p z k)) <= (2 + 6 * u32) * rsum (n - 2) (fun j => Rabs (Xv p a j)) + 3 * (INR n * eta32)).
  { intros p. destruct (Hz p) as [_ H]. apply Rle_trans with (rsum n (fun k => Rabs (C (Xv p a) k) + Rabs (Xv p z k - C (Xv p a) k))).
    apply rsum_le. intros k Hk. replace (Xv p z k) with (C (Xv p a) k + (Xv p z k - C (Xv p a) k)) at 1 by ring. apply Rabs_triang. rewrite rsum_add. specialize (C2 (Xv p a)). lra. }
  assert (US : forall p, 6 * u32 * rsum (n - 2) (fun j => Rabs (Xv p a j)) <= / 100 * rsum (n - 2) (fun j => Rabs (Xv p a j))) by (intros; apply Rmult_le_compat_r; auto; lra).
  destruct (cheb_grad_comp GE GF n z o d (3 * Rg + 1) Hn HL Lz Lo ltac:(lra)) as (b & Eb & Lb & Hb).
  - pose proof R100_920. assert (gK n d * (1 + (3 * Rg + 1)) <= 4 * (2 * gK n d * (1 + Rg))). { replace (4 * (2 * gK n d * (1 + Rg))) with (gK n d * (8 + 8 * Rg)) by ring. apply Rmult_le_compat_l; lra. } eapply Rle_trans; [exact H0|]. eapply Rle_trans; [|exact H]. apply Rmult_le_compat_l; lra.
  - intros p j Hj. apply Hz; auto.
  - intros p. eapply Rle_trans; [apply ZS|]. specialize (HS p). specialize (S0 p). specialize (US p). lra.
  - exists b. unfold compo_gradient. rewrite Ez. cbn [bind]. rewrite EC. split; auto. split; auto. intros p k Hk. destruct (Hb p k Hk) as [Fb HB]. split; auto.
    set (S := rsum (n - 2) (fun j => Rabs (Xv p a j))) in *. specialize (S0 p). fold S in S0. specialize (ZS p). fold S in ZS. destruct (Hz p) as [_ HZ]. fold S in HZ.
    assert (B2 : Rabs (Gpow n d (Xv p z) k - compo_G n d C (Xv p a) k) <= gK n d * (6 * u32 * S + 3 * INR n * eta32)).
    { unfold compo_G. rewrite <- Gpow_sub by auto. eapply Rle_trans; [apply (proj2 (Gpow_rbounded n d Hn)); auto|]. apply Rmult_le_compat_l; [lra|exact HZ]. }
    set (x := INR d * INR n * u32) in *. assert (X0 : 0 <= x) by (unfold x; apply Rmult_le_pos; lra).
    assert (B1 : 4 * x * gK n d * rsum n (fun j => Rabs (Xv p z j)) <= 4 * x * gK n d * ((2 + 6 * u32) * S + 3 * (INR n * eta32))). { apply Rmult_le_compat_l; auto. apply Rmult_le_pos; lra. }
    replace (Xv p b k - compo_G n d C (Xv p a) k) with ((Xv p b k - Gpow n d (Xv p z) k) + (Gpow n d (Xv p z) k - compo_G n d C (Xv p a) k)) by ring. eapply Rle_trans; [apply Rabs_triang|].
    assert (EL : gL n d * u32 = 4 * x + 4 * (INR n * u32)) by (unfold gL, x; rewrite plus_INR; cbn [INR]; ring).
    assert (EL2 : gL n d * gK n d * INR n * eta32 = gK n d * (4 * (INR d * INR n) * (INR n * eta32) + 4 * INR n * (INR n * eta32))) by (unfold gL; rewrite plus_INR; cbn [INR]; ring).
    rewrite EL, EL2.
    assert (B3 : 4 * x * ((2 + 6 * u32) * S + 3 * (INR n * eta32)) + 2 * (INR d * INR n) * (INR n * eta32) + (6 * u32 * S + 3 * (INR n * eta32)) <= (4 * x + 4 * (INR n * u32)) * 2 * S + (4 * (INR d * INR n) * (INR n * eta32) + 4 * INR n * (INR n * eta32))).
    { assert (Q1 : 4 * x * (6 * u32) * S <= / 10 * (u32 * S)). { replace (4 * x * (6 * u32) * S) with (24 * x * (u32 * S)) by ring. apply Rmult_le_compat_r. apply Rmult_le_pos; lra. lra. }
      assert (Q2 : 5 * (u32 * S) <= INR n * u32 * S). { rewrite Rmult_assoc. apply Rmult_le_compat_r; auto. apply Rmult_le_pos; lra. }
      assert (Q3 : 4 * x * (3 * (INR n * eta32)) <= INR n * eta32). { replace (4 * x * (3 * (INR n * eta32))) with (12 * x * (INR n * eta32)) by ring. rewrite <- (Rmult_1_l (INR n * eta32)) at 2. apply Rmult_le_compat_r; auto; lra. }
      assert (Q4 : 5 * (INR n * eta32) <= INR n * (INR n * eta32)) by (apply Rmult_le_compat_r; auto).
      assert (Q5 : 0 <= INR d * INR n * (INR n * eta32)) by (apply Rmult_le_pos; auto). assert (Q6 : 0 <= u32 * S) by (apply Rmult_le_pos; lra). lra. }
    apply (Rmult_le_compat_l (gK n d)) in B3; [|lra]. lra.
Qed.
End Compo.

Lemma inr_100 x : Rabs x <= 64 * bpow radix2 100 -> ieee_inr 128 x.
Proof.
  intros H. apply (inr_le FA) with (64 * bpow radix2 100); auto. apply Rmult_le_pos; [lra|apply bpow_ge_0].
  apply (f32_range 64 _ (bpow radix2 100)).
  - split. apply Rmult_le_pos; [lra|apply bpow_ge_0]. apply Rle_refl.
  - change (bpow radix2 27) with 134217728. lra.
  - split. apply bpow_ge_0. apply bpow_le. lia.
Qed.

(** ** To the Chebyshev basis *)
Section Ortho.
Context {T : Type} {V : Vec f32 T} {VC : VecC num_f32 T V}.
Notation Xv := (gX f32_val (cp (VecC := VC))).
Lemma dir_ortho_comp n (a o : list T) Rg : (5 <= n)%nat -> length a = (n - 2)%nat -> length o = n -> 0 <= Rg -> Rg <= bpow radix2 100 ->
  (forall p j, (j < n - 2)%nat -> f32_fin (cp p a.[j])) -> (forall p, rsum (n - 2) (fun j => Rabs (Xv p a j)) <= Rg) ->
  exists z, compo_to_ortho (dirc n) a o = Ok z /\ length z = n /\ forall p, (forall k, (k < n)%nat -> f32_fin (cp p z.[k])) /\
    rsum n (fun k => Rabs (Xv p z k - dir_coef n (Xv p a) k)) <= 6 * u32 * rsum (n - 2) (fun j => Rabs (Xv p a j)) + 3 * INR n * eta32.
Proof.
  intros Hn La Lo R0 HR HF HS. pose proof (bpow_gt_0 radix2 (-24)) as U. pose proof (bpow_gt_0 radix2 (-150)) as E. pose proof (bpow_gt_0 radix2 100) as B.
  destruct (dir_to_ortho_fin FA n a o Rg ltac:(lia) La Lo) as (z & Ez & Lz & Hz).
  - intros p k Hk. split; auto. eapply Rle_trans; [|apply (HS p)]. apply (rsum_pick (n - 2) (fun j => Rabs (Xv p a j))); auto. intros; apply Rabs_pos.
  - apply inr_100. rewrite Rabs_pos_eq; lra.
  - exists z. split; [exact Ez|]. split; auto. intros p. split. intros; apply Hz; auto. assert (S0 : 0 <= rsum (n - 2) (fun j => Rabs (Xv p a j))) by (apply rsum_pos; intros; apply Rabs_pos).
    assert (0 <= 3 * INR n * eta32) by (pose proof (pos_INR n); apply Rmult_le_pos; lra). pose proof (dir_coef_abs n (Xv p a) ltac:(lia)) as DA.
    apply Rle_trans with (rsum n (fun k => u32 * Rabs (dir_coef n (Xv p a) k))).
    + apply rsum_le. intros k Hk. destruct (dir_to_ortho_err FA n a o z p ltac:(lia) La Lo Ez k Hk) as [G _]; [apply Hz; auto|]. exact G.
    + rewrite rsum_scal_l. apply (Rmult_le_compat_l u32) in DA; [|lra]. assert (0 <= u32 * rsum (n - 2) (fun j => Rabs (Xv p a j))) by (apply Rmult_le_pos; lra). lra.
Qed.
Lemma neu_ortho_comp n (a o : list T) Rg : (5 <= n)%nat -> (Z.of_nat n * Z.of_nat n <= 2 ^ 24)%Z -> length a = (n - 2)%nat -> length o = n -> 0 <= Rg -> Rg <= bpow radix2 100 ->
  (forall p j, (j < n - 2)%nat -> f32_fin (cp p a.[j])) -> (forall p, rsum (n - 2) (fun j => Rabs (Xv p a j)) <= Rg) ->
  exists z, compo_to_ortho (neuc n) a o = Ok z /\ length z = n /\ forall p, (forall k, (k < n)%nat -> f32_fin (cp p z.[k])) /\
    rsum n (fun k => Rabs (Xv p z k - neu_coef n (Xv p a) k)) <= 6 * u32 * rsum (n - 2) (fun j => Rabs (Xv p a j)) + 3 * INR n * eta32.
Proof.
  intros Hn HZ La Lo R0 HR HF HS. pose proof (bpow_gt_0 radix2 (-24)) as U. pose proof (bpow_gt_0 radix2 (-150)) as E. pose proof (bpow_gt_0 radix2 100) as B.
  destruct (neu_to_ortho_fin FA n a o Rg ltac:(lia) HZ La Lo) as (z & Ez & Lz & Hz).
  - intros p k Hk. split; auto. eapply Rle_trans; [|apply (HS p)]. apply (rsum_pick (n - 2) (fun j => Rabs (Xv p a j))); auto. intros; apply Rabs_pos.
  - apply inr_100. rewrite Rabs_pos_eq; lra.
  - exists z. split; [exact Ez|]. split; auto. intros p. split. intros; apply Hz; auto. set (S := rsum (n - 2) (fun j => Rabs (Xv p a j))). assert (S0 : 0 <= S) by (apply rsum_pos; intros; apply Rabs_pos).
    pose proof (neu_coef_abs n (Xv p a) ltac:(lia)) as DA. fold S in DA.
    assert (T2 : rsum n (fun k => if (k <? 2)%nat then 0 else (3 * u32 + 2 * eta32) * Rabs (Xv p a (k - 2)) + 2 * eta32) = (3 * u32 + 2 * eta32) * S + INR (n - 2) * (2 * eta32)).
    { replace n with (2 + (n - 2))%nat at 1 by lia. rewrite rsum_split, (rsum_0 2) by (intros k Hk; destruct (Nat.ltb_spec k 2); auto; lia). rewrite Rplus_0_l. unfold S. rewrite <- rsum_scal_l. rewrite <- (rsum_const (n - 2) (2 * eta32)). rewrite <- rsum_add.
      apply rsum_ext. intros k Hk. destruct (Nat.ltb_spec (2 + k) 2); [lia|]. replace (2 + k - 2)%nat with k by lia. ring. }
    apply Rle_trans with (rsum n (fun k => u32 * Rabs (neu_coef n (Xv p a) k) + (if (k <? 2)%nat then 0 else (3 * u32 + 2 * eta32) * Rabs (Xv p a (k - 2)) + 2 * eta32))).
    + apply rsum_le. intros k Hk. destruct (neu_to_ortho_err FA n a o z p ltac:(lia) HZ La Lo Ez k Hk) as [G _]; [apply Hz; auto|]. eapply Rle_trans; [exact G|]. apply Rplus_le_compat_l. destruct (Nat.ltb_spec k 2); [lra|].
      destruct (nq_range (k - 2)) as [Q0 Q1]. change (X (val := f32_val) p a (k - 2)) with (Xv p a (k - 2)). pose proof (Rabs_pos (Xv p a (k - 2))) as X0. assert (nq (k - 2) * Rabs (Xv p a (k - 2)) <= 1 * Rabs (Xv p a (k - 2))) by (apply Rmult_le_compat_r; lra).
      assert (3 * u32 * (nq (k - 2) * Rabs (Xv p a (k - 2))) <= 3 * u32 * (1 * Rabs (Xv p a (k - 2)))) by (apply Rmult_le_compat_l; lra). lra.
    + rewrite rsum_add, rsum_scal_l, T2. apply (Rmult_le_compat_l u32) in DA; [|lra]. assert (EU : 2 * eta32 <= u32). { replace (2 * eta32) with (bpow radix2 1 * eta32) by reflexivity. rewrite <- bpow_plus. apply bpow_le. lia. }
      apply (Rmult_le_compat_r S) in EU; auto. assert (INR (n - 2) <= INR n) by (apply le_INR; lia). apply (Rmult_le_compat_r (2 * eta32)) in H; [|lra]. assert (0 <= INR n * eta32) by (pose proof (pos_INR n); apply Rmult_le_pos; lra). lra.
Qed.
Lemma dn_ortho_comp n st (a o : list T) Rg : (6 <= n)%nat -> (2 * (Z.of_nat n * Z.of_nat n) <= 2 ^ 24)%Z -> dn_st n st -> length a = (n - 2)%nat -> length o = n -> 0 <= Rg -> Rg <= bpow radix2 100 ->
  (forall p j, (j < n - 2)%nat -> f32_fin (cp p a.[j])) -> (forall p, rsum (n - 2) (fun j => Rabs (Xv p a j)) <= Rg) ->
  exists z, compo_to_ortho (dnc n st) a o = Ok z /\ length z = n /\ forall p, (forall k, (k < n)%nat -> f32_fin (cp p z.[k])) /\
    rsum n (fun k => Rabs (Xv p z k - dn_coef n (Xv p a) k)) <= 6 * u32 * rsum (n - 2) (fun j => Rabs (Xv p a j)) + 3 * INR n * eta32.
Proof.
  intros Hn HZ HD La Lo R0 HR HF HS. pose proof (bpow_gt_0 radix2 100) as B.
  destruct (dn_to_ortho_fin FA n st a o Rg ltac:(lia) HZ HD La Lo) as (z & Ez & Lz & Hz).
  - intros p k Hk. split; auto. eapply Rle_trans; [|apply (HS p)]. apply (rsum_pick (n - 2) (fun j => Rabs (Xv p a j))); auto. intros; apply Rabs_pos.
  - apply inr_100. rewrite Rabs_pos_eq; lra.
  - exists z. split; [exact Ez|]. split; auto. intros p. split. intros; apply Hz; auto.
    exact (proj2 (dn_sum_err FA n st a o z p ltac:(lia) HZ f32_eta100 HD La Lo Ez (fun k Hk => proj1 (Hz p k Hk)))).
Qed.
End Ortho.

(** ** Real Fourier *)
Section Wave.
Context (n d m : nat) (Hn : (1 <= n)%nat) (HL : gL n d * u32 <= / 100) (Hm : (1 <= m <= n + 1)%nat).
Let gM (d : nat) := INR m ^ d.
Lemma m_range : 1 <= INR m /\ (m <= n + 1)%nat /\ (Z.of_nat m <= 2 ^ 24)%Z.
Proof.
  destruct (gL_facts n d Hn HL) as (_ & _ & _ & _ & _ & NZ). split. change 1 with (INR 1). apply le_INR; lia. split; lia.
Qed.
Lemma gM_mono a b : (a <= b)%nat -> gM a <= gM b.
Proof. intros. apply Rle_pow; auto. apply m_range. Qed.
Lemma iter_err d' k (x : cplx f32) : (d' <= d)%nat -> (k < m)%nat -> f32_fin (fst (mul_iter (ik k) d' x)) -> f32_fin (snd (mul_iter (ik k) d' x)) ->
  cn (csub (ev f32_cplx (mul_iter (ik k) d' x)) (mul_iter (A := R) (N := num_R) (ik k) d' (ev f32_cplx x))) <= 2 * (INR d' * u32) * gM d' * cn (ev f32_cplx x) + 3 * INR d' * gM d' * eta32.
Proof.
  intros Hd Hk F1 F2. destruct m_range as (M1 & _ & MZ). destruct (gL_facts n d Hn HL) as (D0 & D1 & [N1 _] & _). pose proof (bpow_gt_0 radix2 (-24)) as U. pose proof (bpow_gt_0 radix2 (-150)) as E.
  pose proof (mul_iter_err FA k d' x ltac:(lia) true F1) as E1. pose proof (mul_iter_err FA k d' x ltac:(lia) false F2) as E2. cbv zeta in E1, E2. change (cval x) with (ev f32_cplx x) in E1, E2. set (y := mul_iter (A := R) (N := num_R) (ik k) d' (ev f32_cplx x)) in *. cbn [re_im] in E1, E2.
  assert (DU : INR d' * u32 <= / 400). { apply Rle_trans with (INR d * INR n * u32); auto. apply Rmult_le_compat_r; [lra|]. assert (INR d' <= INR d) by (apply le_INR; auto). pose proof (pos_INR d). apply Rle_trans with (INR d * 1); [lra|]. apply Rmult_le_compat_l; lra. }
  destruct (pow_2u u32 d' ltac:(lra) ltac:(lra)) as [P1 _]. assert (P0 : 1 <= (1 + u32) ^ d') by (apply pow_R1_Rle; lra).
  assert (KP : 0 <= INR k <= INR m) by (split; [apply pos_INR|apply le_INR; lia]).
  assert (CY : cn y <= gM d' * cn (ev f32_cplx x)). { unfold y. rewrite cn_mul_iter. apply Rmult_le_compat_r; [apply cn_pos|]. apply pow_incr; auto. }
  assert (G1 : 1 <= gM d') by (apply pow_R1_Rle; auto).
  assert (TL : ((1 + u32) * INR k) ^ (d' - 1) <= 3 / 2 * gM d').
  { apply Rle_trans with (((1 + u32) * INR m) ^ (d' - 1)). apply pow_incr. split. apply Rmult_le_pos; lra. apply Rmult_le_compat_l; lra.
    apply Rle_trans with (((1 + u32) * INR m) ^ d'). apply Rle_pow; [|lia]. replace 1 with (1 * 1) at 1 by ring. apply Rmult_le_compat; lra. rewrite Rpow_mult_distr. apply Rmult_le_compat_r; [apply pow_le; lra|]. lra. }
  pose proof (pos_INR d') as D'0. apply (Rmult_le_compat_l (INR d')) in TL; auto. apply (Rmult_le_compat_r eta32) in TL; [|lra].
  set (CX := cn (ev f32_cplx x)) in *. unfold cn, csub. cbn [ev f32_cplx fst snd nsub num_R].
  assert (Q : ((1 + u32) ^ d' - 1) * (Rabs (fst y) + Rabs (snd y)) <= 2 * INR d' * u32 * (gM d' * CX)). { pose proof (Rabs_pos (fst y)). pose proof (Rabs_pos (snd y)). apply Rmult_le_compat; [lra|lra|lra|exact CY]. }
  lra.
Qed.
Lemma wave_near l (wv : nat -> nat) (f : list (cplx f32) -> list (cplx f32) -> res (list (cplx f32))) F Rg : (forall k, (k < l)%nat -> (wv k < m)%nat) -> (forall g k, (k < l)%nat -> F g k = mul_iter (A := R) (N := num_R) (ik (wv k)) d (g k)) ->
  (forall x o, length x = l -> length o = l -> wp (f x o) (fun y => length y = l /\ forall k, (k < l)%nat -> y.[k] = mul_iter (ik (wv k)) d x.[k])) ->
  0 <= Rg -> gM d * (1 + Rg) <= bpow radix2 100 ->
  near f l l f32_cplx f32_cplx F Rg (gL n d * u32 * gM d) (gL n d * gM d * INR n * eta32).
Proof.
  intros Hw HF Hf R0 HR d1 d2 x o Lx Lo Fx Sx. destruct m_range as (M1 & _ & MZ). destruct (gL_facts n d Hn HL) as (D0 & D1 & [N1 _] & D2 & _). pose proof (bpow_gt_0 radix2 (-24)) as U. pose proof (bpow_gt_0 radix2 (-150)) as E. pose proof (pos_INR d) as d0.
  assert (DN : INR d <= INR d * INR n) by (rewrite <- (Rmult_1_r (INR d)) at 1; apply Rmult_le_compat_l; lra).
  pose proof (Hf x o Lx Lo) as W. destruct (f x o) as [y| |]; cbn [wp] in W; try contradiction. destruct W as [Ly Hy].
  exists y. split; auto. split; auto. intros k Hk. specialize (Hy k Hk). specialize (Hw k Hk). match type of Hy with @at_ _ ?D1 y k = mul_iter _ _ (@at_ _ ?D2 x k) => set (e1 := D1) in *; set (e2 := D2) in * end.
  assert (XE : @at_ _ d1 x k = @at_ _ e2 x k) by (apply at_dflt; lia).
  rewrite (at_dflt d2 e1) by lia. rewrite Hy. rewrite HF by auto. specialize (Fx k Hk).
  pose proof (rsum_pick l (fun j => cn (ev f32_cplx (@at_ _ d1 x j))) k (fun i _ => cn_pos _) Hk) as P. cbv beta in P.
  set (S := rsum l (fun j => cn (ev f32_cplx (@at_ _ d1 x j)))) in *. rewrite XE in Fx, P |- *. set (v := @at_ _ e2 x k) in *. pose proof (cn_pos (ev f32_cplx v)) as C0.
  set (kk := wv k) in *. assert (DE : 3 * INR d * eta32 <= / 4). { apply Rle_trans with (3 * bpow radix2 16 * bpow radix2 (-31)). apply Rmult_le_compat; try lra. apply bpow_le; lia. rewrite Rmult_assoc, <- bpow_plus. change (16 + -31)%Z with (-15)%Z. change (bpow radix2 (-15)) with (/ IZR (2 ^ 15)). cbv [Z.pow Z.pow_pos Pos.iter Z.mul Pos.mul]. lra. }
  assert (FN : forall d', (d' <= d)%nat -> f32_fin (fst (mul_iter (ik kk) d' v)) /\ f32_fin (snd (mul_iter (ik kk) d' v))).
  { induction d' as [|d' IH]; intros Hd. exact Fx. destruct (IH ltac:(lia)) as [F1 F2]. pose proof (iter_err d' kk v ltac:(lia) Hw F1 F2) as HE.
    cbn [mul_iter]. set (w := mul_iter (ik kk) d' v) in *. assert (DD : INR d' <= INR d) by (apply le_INR; lia). pose proof (pos_INR d') as d'0. assert (G1 : 1 <= gM d') by (apply pow_R1_Rle; auto).
    assert (WB : cn (ev f32_cplx w) <= 2 * (gM d' * (1 + Rg))).
    { eapply Rle_trans; [apply (cn_split _ (mul_iter (A := R) (N := num_R) (ik kk) d' (ev f32_cplx v)))|]. rewrite cn_mul_iter.
      assert (A1 : INR kk ^ d' * cn (ev f32_cplx v) <= gM d' * Rg). { apply Rmult_le_compat; try lra. apply pow_le, pos_INR. apply pow_incr. split; [apply pos_INR|apply le_INR; lia]. }
      assert (A2 : 2 * (INR d' * u32) * gM d' * cn (ev f32_cplx v) <= / 2 * (gM d' * Rg)). { rewrite Rmult_assoc. apply Rmult_le_compat; try lra. apply Rmult_le_pos; [lra|]. apply Rmult_le_pos; lra. apply Rmult_le_pos; lra.
        assert (INR d' * u32 <= / 400). { eapply Rle_trans; [|exact D1]. apply Rmult_le_compat_r; lra. } lra. apply Rmult_le_compat_l; lra. }
      assert (A3 : 3 * INR d' * gM d' * eta32 <= / 4 * gM d'). { replace (3 * INR d' * gM d' * eta32) with (3 * INR d' * eta32 * gM d') by ring. apply Rmult_le_compat_r; [lra|]. eapply Rle_trans; [|exact DE]. apply Rmult_le_compat_r; lra. }
      assert (0 <= gM d' * Rg) by (apply Rmult_le_pos; lra). lra. }
    assert (KM : INR kk * (2 * (gM d' * (1 + Rg))) <= 2 * bpow radix2 100).
    { apply Rle_trans with (2 * (gM (Datatypes.S d') * (1 + Rg))). { unfold gM. cbn [pow]. fold (gM d'). assert (INR kk <= INR m) by (apply le_INR; lia). replace (2 * (INR m * gM d' * (1 + Rg))) with (INR m * (2 * (gM d' * (1 + Rg)))) by ring. apply Rmult_le_compat_r; auto. apply Rmult_le_pos; [lra|]. apply Rmult_le_pos; lra. }
      apply Rmult_le_compat_l; [lra|]. eapply Rle_trans; [|exact HR]. apply Rmult_le_compat_r; [lra|]. apply gM_mono. lia. }
    destruct (fa_0 _ _ _ _ _ _ _ _ FA) as [Z1 Z2]. destruct (fa_int _ _ _ _ _ _ _ _ FA (Z.of_nat kk) ltac:(lia)) as [Fk Ek]. rewrite <- INR_IZR_INZ in Ek. pose proof (fa_rnd _ _ _ _ _ _ _ _ FA) as RN.
    assert (PK : forall z, f32_fin z -> Rabs (f32_val z) <= 2 * (gM d' * (1 + Rg)) -> f32_fin (nmul z (nofZ (Z.of_nat kk))) /\ Rabs (f32_val (nmul z (nofZ (Z.of_nat kk)))) <= 5 * bpow radix2 100).
    { intros z Fz Bz. assert (BB : Rabs (ieee_rnd 24 128 (f32_val z * INR kk)) <= 5 * bpow radix2 100).
      { eapply Rle_trans; [apply (rnd_bound FA _ (2 * bpow radix2 100))|]. rewrite Rabs_mult, (Rabs_pos_eq (INR kk)) by apply pos_INR. rewrite Rmult_comm. eapply Rle_trans; [|exact KM]. apply Rmult_le_compat_l; auto. apply pos_INR.
        assert (eta32 <= bpow radix2 100) by (apply bpow_le; lia). lra. }
      assert (G : f32_fin (nmul z (nofZ (Z.of_nat kk)))). { apply (fa_mulF _ _ _ _ _ _ _ _ FA); auto. rewrite Ek. apply inr_100. pose proof (bpow_gt_0 radix2 100). lra. }
      split; auto. destruct (fa_mul _ _ _ _ _ _ _ _ FA _ _ G) as (_ & _ & ->). rewrite Ek. auto. }
    assert (P0 : forall z, f32_fin z -> f32_fin (nmul z n0) /\ f32_val (nmul z n0) = 0).
    { intros z Fz. assert (G : f32_fin (nmul z n0)). { apply (fa_mulF _ _ _ _ _ _ _ _ FA); auto. rewrite Z2, Rmult_0_r, (rnd_0 RN). apply inr_100. rewrite Rabs_R0. apply Rmult_le_pos; [lra|apply bpow_ge_0]. }
      split; auto. destruct (fa_mul _ _ _ _ _ _ _ _ FA _ _ G) as (_ & _ & ->). rewrite Z2, Rmult_0_r. apply (rnd_0 RN). }
    unfold cn in WB. cbn [ev f32_cplx fst snd] in WB. pose proof (Rabs_pos (f32_val (fst w))). pose proof (Rabs_pos (f32_val (snd w))).
    destruct (PK (fst w) F1 ltac:(lra)) as [A1 A2]. destruct (PK (snd w) F2 ltac:(lra)) as [B1 B2]. destruct (P0 (fst w) F1) as [A3 A4]. destruct (P0 (snd w) F2) as [B3 B4].
    unfold cmul, ik, nofN. cbn [fst snd]. pose proof (fa_float _ _ _ _ _ _ _ _ FA) as FF. pose proof (bpow_gt_0 radix2 100). split.
    - apply (fa_subF _ _ _ _ _ _ _ _ FA); auto. rewrite A4, Rminus_0_l, (rn_opp _ _ _ RN), (FF _ B1). apply inr_100. rewrite Rabs_Ropp. lra.
    - apply (fa_addF _ _ _ _ _ _ _ _ FA); auto. rewrite B4, Rplus_0_r, (FF _ A1). apply inr_100. lra. }
  destruct (FN d (Nat.le_refl d)) as [F1 F2]. split; [split; auto|]. eapply Rle_trans; [apply iter_err; auto|].
  assert (G1 : 1 <= gM d) by (apply pow_R1_Rle; auto). assert (S0 : 0 <= S) by lra.
  assert (EL : gL n d = 4 * (INR d * INR n) + 4 * INR n) by (unfold gL; rewrite plus_INR; cbn [INR]; ring).
  apply Rplus_le_compat.
  - replace (2 * (INR d * u32) * gM d * cn (ev f32_cplx v)) with (2 * INR d * (u32 * gM d * cn (ev f32_cplx v))) by ring. replace (gL n d * u32 * gM d * S) with (gL n d * (u32 * gM d * S)) by ring.
    assert (0 <= u32 * gM d) by (apply Rmult_le_pos; lra). apply Rmult_le_compat; try lra. apply Rmult_le_pos; lra. apply Rmult_le_compat_l; auto.
  - replace (3 * INR d * gM d * eta32) with (3 * INR d * 1 * (gM d * eta32)) by ring. replace (gL n d * gM d * INR n * eta32) with (gL n d * INR n * (gM d * eta32)) by ring.
    apply Rmult_le_compat_r. apply Rmult_le_pos; lra. apply Rmult_le_compat; lra.
Qed.
End Wave.
Lemma r2c_grad_near n d Rg : (1 <= n)%nat -> gL n d * u32 <= / 100 -> 0 <= Rg -> INR (n / 2 + 1) ^ d * (1 + Rg) <= bpow radix2 100 ->
  near (fun x o => r2c_gradient (mk_r2c n (n / 2 + 1)) x o d) (n / 2 + 1) (n / 2 + 1) f32_cplx f32_cplx (times d fourier_derivative) Rg (gL n d * u32 * INR (n / 2 + 1) ^ d) (gL n d * INR (n / 2 + 1) ^ d * INR n * eta32).
Proof.
  intros Hn HL R0 HR. assert (n / 2 <= n)%nat by (apply Nat.div_le_upper_bound; lia).
  apply (wave_near n d (n / 2 + 1) Hn HL ltac:(lia) _ (fun k => k)); auto.
  - intros g k _. apply times_fourier.
  - intros x o Lx Lo. exact (r2c_gradient_any n x o d Lx Lo).
Qed.
Lemma c2c_grad_near n d Rg : (1 <= n)%nat -> gL n d * u32 <= / 100 -> 0 <= Rg -> INR n ^ d * (1 + Rg) <= bpow radix2 100 ->
  near (fun x o => c2c_gradient (mk_c2c n n) x o d) n n f32_cplx f32_cplx (times d (c2c_derivative n)) Rg (gL n d * u32 * INR n ^ d) (gL n d * INR n ^ d * INR n * eta32).
Proof.
  intros Hn HL R0 HR. apply (wave_near n d n Hn HL ltac:(lia) _ (c2c_w n)); auto.
  - intros k Hk. apply c2c_w_lt; auto.
  - intros g k _. apply times_c2c.
  - intros x o Lx Lo. exact (c2c_gradient_any n x o d Hn Lx Lo).
Qed.


Record gacc {T1 T2} (f : list T1 -> list T2 -> res (list T2)) (l1 l2 q : nat) (e1 : fel T1) (e2 : fel T2) (F : (nat -> CR) -> nat -> CR) (K L : R) : Prop := {
  ga_near : forall Rg, 0 <= Rg -> K * (1 + Rg) <= bpow radix2 100 -> near f l1 l2 e1 e2 F Rg (L * u32 * K) (L * K * INR q * eta32);
  ga_bounded : bounded F l1 l2 K;
  ga_K : 1 <= K; ga_L : 4 <= L;
  ga_len : (1 <= l1 <= q)%nat; ga_q : INR q <= bpow radix2 16 }.

(** ** The bases *)
Lemma scalar_view T (V : Vec f32 T) e : f32_scalar T V e -> exists VC : VecC num_f32 T V, view e (cp (VecC := VC)).
Proof.
  intros [].
  - exists (vecC_self num_f32). left. exists tt. split. intros []; auto. intros x. split; reflexivity.
  - exists (vecC_cplx num_f32). right. exists true, false. split. intros []; auto. intros x. split; reflexivity.
Qed.
Lemma re_im_view : view f32_cplx re_im.
Proof. right. exists true, false. split. intros []; auto. intros x. split; reflexivity. Qed.
Lemma gradient_usable E d K L P S T b e F : f32_gradient E d K L P S T b e F -> any_usable E P S T b.
Proof. intros []; [eapply aus_chebyshev|eapply aus_chebyshev|eapply aus_composite|eapply aus_composite|eapply aus_composite|eapply aus_r2c|eapply aus_c2c]; eauto; cbn [ssolve]; lia. Qed.

Lemma cheb_gacc {T} {V : Vec f32 T} {I} (cp : I -> T -> f32) (GE : grad_elem f32_fin f32_val (ieee_rnd 24 128) cp) (GF : elem_fwd f32_fin f32_val (ieee_rnd 24 128) (ieee_inr 128) cp) (e : fel T) n d :
  view e cp -> (3 <= n)%nat -> gL n d * u32 <= / 100 -> gacc (fun x o => cheb_gradient (mk_cheb n n) x o d) n n n e e (times d (cheb_derivative n)) (gK n d) (gL n d).
Proof.
  intros HV Hn HL. destruct (gL_facts n d ltac:(lia) HL) as (D0 & D1 & [N1 N2] & D2 & NU & NZ). pose proof (bpow_gt_0 radix2 (-24)) as U. pose proof (bpow_gt_0 radix2 (-150)) as E. pose proof (gK_ge1 n d ltac:(lia)) as K1. pose proof (pos_INR d) as d0.
  assert (EL : gL n d = 4 * (INR d * INR n) + 4 * INR n) by (unfold gL; rewrite plus_INR; cbn [INR]; ring).
  split; auto; try lra; try lia.
  - intros Rg R0 HR. eapply near_weak; [apply (near_comps e cp _ n n (Gpow n d) (gK n d) Rg (4 * (INR d * INR n * u32) * gK n d) (2 * (INR d * INR n) * INR n * gK n d * eta32) HV (Gpow_rbounded n d Hn))| | |].
    + apply Rmult_le_pos; [|lra]. apply Rmult_le_pos; [|lra]. apply Rmult_le_pos; lra.
    + intros x o Lx Lo HF HS. apply (cheb_grad_comp GE GF n x o d Rg); auto. eapply Rle_trans; [exact HR|]. unfold R104. apply bpow_le. lia.
    + rewrite EL. replace (4 * (INR d * INR n * u32) * gK n d) with (4 * (INR d * INR n) * (u32 * gK n d)) by ring. replace ((4 * (INR d * INR n) + 4 * INR n) * u32 * gK n d) with ((4 * (INR d * INR n) + 4 * INR n) * (u32 * gK n d)) by ring. apply Rmult_le_compat_r. apply Rmult_le_pos; lra. lra.
    + rewrite EL. replace (2 * (2 * (INR d * INR n) * INR n * gK n d * eta32)) with (4 * (INR d * INR n) * (gK n d * INR n * eta32)) by ring. replace ((4 * (INR d * INR n) + 4 * INR n) * gK n d * INR n * eta32) with ((4 * (INR d * INR n) + 4 * INR n) * (gK n d * INR n * eta32)) by ring. apply Rmult_le_compat_r. apply Rmult_le_pos; [apply Rmult_le_pos|]; lra. lra.
    + intros g k Hk. apply times_cheb; auto.
  - eapply bounded_same; [apply both_bounded, Gpow_rbounded; auto|]. intros; apply times_cheb; auto.
Qed.
Lemma compo_gacc {T} {V : Vec f32 T} {VC : VecC num_f32 T V} (e : fel T) n d c C O : view e (cp (VecC := VC)) -> (5 <= n)%nat -> gL n d * u32 <= / 100 -> p_ortho c = mk_cheb n n ->
  (forall g h k, C (fun j => g j - h j) k = C g k - C h k) -> (forall g, rsum n (fun k => Rabs (C g k)) <= 2 * rsum (n - 2) (fun k => Rabs (g k))) -> (forall g k, O g k = both C g k) ->
  (forall a Rg, length a = (n - 2)%nat -> 0 <= Rg -> Rg <= bpow radix2 100 -> (forall p j, (j < n - 2)%nat -> f32_fin (cp p a.[j])) -> (forall p, rsum (n - 2) (fun j => Rabs (gX f32_val cp p a j)) <= Rg) ->
     exists z, compo_to_ortho c a (repeat v0 (compo_len_orth c)) = Ok z /\ length z = n /\ forall p, (forall k, (k < n)%nat -> f32_fin (cp p z.[k])) /\
     rsum n (fun k => Rabs (gX f32_val cp p z k - C (gX f32_val cp p a) k)) <= 6 * u32 * rsum (n - 2) (fun j => Rabs (gX f32_val cp p a j)) + 3 * INR n * eta32) ->
  gacc (fun x o => compo_gradient c x o d) (n - 2) n n e e (fun g => times d (cheb_derivative n) (O g)) (2 * gK n d) (gL n d).
Proof.
  intros HV H5 HL EC C1 C2 CQ HO. assert (Hn : (3 <= n)%nat) by lia. destruct (gL_facts n d ltac:(lia) HL) as (D0 & D1 & [N1 N2] & D2 & NU & NZ). pose proof (bpow_gt_0 radix2 (-24)) as U. pose proof (bpow_gt_0 radix2 (-150)) as E. pose proof (gK_ge1 n d ltac:(lia)) as K1.
  assert (L4 : 4 <= gL n d) by (unfold gL; rewrite plus_INR; cbn [INR]; lra).
  assert (HF : forall g k, (k < n)%nat -> times d (cheb_derivative n) (O g) k = both (compo_G n d C) g k).
  { intros g k Hk. rewrite (times_ext n d _ (both C g)) by (auto; intros; apply CQ). rewrite times_cheb by auto. reflexivity. }
  split; auto; try lra; try lia.
  - intros Rg R0 HR. eapply near_weak; [apply (near_comps e cp _ (n - 2) n (compo_G n d C) (2 * gK n d) Rg (gL n d * u32 * (2 * gK n d)) (gL n d * gK n d * INR n * eta32) HV (compo_rbounded n d C Hn C1 C2))|lra| |exact HF].
    + apply Rmult_le_pos; [|lra]. apply Rmult_le_pos; [|lra]. apply Rmult_le_pos; lra.
    + intros x o Lx Lo Hf HS. assert (HR' : Rg <= bpow radix2 100). { assert (1 * Rg <= 2 * gK n d * Rg) by (apply Rmult_le_compat_r; lra). lra. }
      destruct (HO x Rg Lx R0 HR' Hf HS) as (z & Hz). apply (compo_grad_comp (vecC_elem FA VC) (vecC_fwd FA VC) n c C x o d Rg); eauto.
    + apply Req_le. ring.
  - eapply bounded_same; [apply both_bounded, compo_rbounded; eauto|exact HF].
Qed.

Lemma gradient_acc E d K L P S T b e F : f32_gradient E d K L P S T b e F -> L * u32 <= / 100 -> gacc (fun x o => gradient_slice b x o d) (len_spec b) (len_orth b) (len_phys b) e e F K L.
Proof.
  intros H HL. destruct H as [T V e n b Hs H Hn|n b H Hn|T V e n b Hs H Hn|T V e n b Hs H Hn HZ|T V e n b Hs H Hn HZ|n f H Hn|n f H].
  - destruct (scalar_view _ _ _ Hs) as [VC HV]. apply new_chebyshev_inv in H as [H2 ->]. exact (cheb_gacc cp (vecC_elem FA VC) (vecC_fwd FA VC) e n d HV Hn HL).
  - apply new_chebyshev_inv in H as [H2 ->]. exact (cheb_gacc (V := vec_num_complex) re_im (num_complex_elem FA (ieee_dbl 24 128 eq_refl eq_refl)) (num_complex_fwd FA (ieee_dbl 24 128 eq_refl eq_refl)) f32_cplx n d re_im_view Hn HL).
  - destruct (scalar_view _ _ _ Hs) as [VC HV]. unfold new_composite in H. destruct (compo_new KDirichlet n) as [c| |] eqn:Ec; cbn [bind] in H; try discriminate. injection H as <-. destruct (dir_inv n c Ec) as [_ ->].
    replace (4 * INR n ^ (2 * d - 1)) with (2 * gK n d) by (unfold gK; ring).
    apply (compo_gacc (V := V) e n d (dirc n) (dir_coef n) (compo_ortho n dir_q) HV Hn HL eq_refl).
    + intros g h k. unfold dir_coef. destruct (k <? n - 2)%nat, (k <? 2)%nat; ring.
    + intros g. apply dir_coef_abs. lia.
    + intros g k. unfold compo_ortho, both, compo_a, dir_coef, dir_q. f_equal; destruct (k <? n - 2)%nat, (k <? 2)%nat; ring.
    + intros a Rg La R0 HR HF HS. apply (dir_ortho_comp n a _ Rg); auto. apply repeat_length.
  - destruct (scalar_view _ _ _ Hs) as [VC HV]. unfold new_composite in H. destruct (compo_new KNeumann n) as [c| |] eqn:Ec; cbn [bind] in H; try discriminate. injection H as <-. destruct (neu_inv n c Ec) as [_ ->].
    replace (4 * INR n ^ (2 * d - 1)) with (2 * gK n d) by (unfold gK; ring).
    apply (compo_gacc (V := V) e n d (neuc n) (neu_coef n) (compo_ortho n neu_q) HV Hn HL eq_refl).
    + intros g h k. unfold neu_coef. destruct (k <? n - 2)%nat, (k <? 2)%nat; ring.
    + intros g. apply neu_coef_abs. lia.
    + intros g k. unfold compo_ortho, both, compo_a, neu_coef. rewrite neu_q_eq. reflexivity.
    + intros a Rg La R0 HR HF HS. apply (neu_ortho_comp n a _ Rg); auto. apply repeat_length.
  - destruct (scalar_view _ _ _ Hs) as [VC HV]. unfold new_composite in H. destruct (compo_new KDirichletNeumann n) as [c| |] eqn:Ec; cbn [bind] in H; try discriminate. injection H as <-. destruct (dn_inv n c Ec) as (_ & st & -> & HD).
    replace (4 * INR n ^ (2 * d - 1)) with (2 * gK n d) by (unfold gK; ring).
    apply (compo_gacc (V := V) e n d (dnc n st) (dn_coef n) (dn_ortho n) HV ltac:(lia) HL eq_refl).
    + intros. apply dn_coef_sub.
    + intros g. apply dn_coef_abs. lia.
    + intros g k. apply dn_ortho_eq.
    + intros a Rg La R0 HR HF HS. apply (dn_ortho_comp n st a _ Rg); auto. apply repeat_length.
  - apply r2c_new_inv in H as [H2 ->]. cbn [r2c_ops_x len_phys len_spec len_orth gradient_slice]. change (r2c_len_spec (mk_r2c n (n / 2 + 1))) with (n / 2 + 1)%nat. change (r2c_len_orth (mk_r2c n (n / 2 + 1))) with (n / 2 + 1)%nat. change (r2c_len_phys (mk_r2c n (n / 2 + 1))) with n.
    destruct (gL_facts n d Hn HL) as (D0 & D1 & [N1 N2] & D2 & NU & NZ). assert (M1 : 1 <= INR (n / 2 + 1)) by (change 1 with (INR 1); apply le_INR; lia). pose proof (pos_INR d) as d0.
    split; auto.
    + intros Rg R0 HR. exact (r2c_grad_near n d Rg Hn HL R0 HR).
    + apply fourier_bounded. intros k Hk. apply pow_incr. split; [apply pos_INR|apply le_INR; lia].
    + apply pow_R1_Rle; auto.
    + rewrite plus_INR. cbn [INR]. lra.
    + destruct n as [|[|n]]; [lia|cbn; lia|]. assert (Datatypes.S (Datatypes.S n) / 2 < Datatypes.S (Datatypes.S n))%nat by (apply Nat.div_lt; lia). lia.
  - apply c2c_new_inv in H as [Hn ->]. cbn [c2c_ops_x len_phys len_spec len_orth gradient_slice]. change (c2c_len_spec (mk_c2c n n)) with n. change (c2c_len_orth (mk_c2c n n)) with n. change (c2c_len_phys (mk_c2c n n)) with n.
    destruct (gL_facts n d Hn HL) as (D0 & D1 & [N1 N2] & D2 & NU & NZ). pose proof (pos_INR d) as d0.
    split; auto; try lia.
    + intros Rg R0 HR. exact (c2c_grad_near n d Rg Hn HL R0 HR).
    + apply c2c_bounded. intros k Hk. apply pow_incr. split; [apply pos_INR|apply le_INR; pose proof (c2c_w_lt n k Hk); lia].
    + apply pow_R1_Rle; auto.
    + rewrite plus_INR. cbn [INR]. lra.
Qed.

(** gradients of bases as above are never refused *)
Lemma gradient_total E d K L P S T b e F : f32_gradient E d K L P S T b e F -> total_gradient b d.
Proof.
  intros H. assert (FN : fnop (fun x y => gradient_slice b x y d) (len_spec b) (len_orth b)).
  { destruct H as [T V e n b Hs H Hn|n b H Hn|T V e n b Hs H Hn|T V e n b Hs H Hn HZ|T V e n b Hs H Hn HZ|n f H Hn|n f H].
    - apply new_chebyshev_inv in H as [_ ->]. apply gradient_fnop. auto.
    - apply new_chebyshev_inv in H as [_ ->]. apply (gradient_fnop (V := vec_num_complex)). auto.
    - apply new_composite_any in H as (H4 & s & -> & Hst). apply (compo_gradient_fnop KDirichlet); auto.
    - apply new_composite_any in H as (H4 & s & -> & Hst). apply (compo_gradient_fnop KNeumann); auto.
    - apply new_composite_any in H as (H4 & s & -> & Hst). apply (compo_gradient_fnop KDirichletNeumann); auto.
    - apply r2c_new_inv in H as [_ ->]. apply fnop_r2c_gradient; auto.
    - apply c2c_new_inv in H as [H1 ->]. apply fnop_c2c_gradient; auto. }
  intros x y Hx Hy. destruct FN as [g Hg]. exists (g x). apply Hg; auto.
Qed.

(** ** One more axis *)
Lemma gstage {T1 T2} f l1 l2 q (e1 : fel T1) (e2 : fel T2) F K L (X : nat -> T1) (Z : nat -> T2) (t : nat -> CR) (s : nat -> R) lam Kt b :
  gacc f l1 l2 q e1 e2 F K L -> 0 <= lam -> 0 <= Kt -> 0 <= b ->
  rows (fun _ : unit => True) f l1 l2 (fun _ => X) (fun _ => Z) ->
  (forall l, (l < l1)%nat -> 0 <= s l /\ close e1 (X l) (t l) lam Kt (s l) b) -> K * (1 + ((1 + lam) * Kt * rsum l1 s + INR q * b)) <= bpow radix2 100 ->
  forall k, (k < l2)%nat -> close e2 (Z k) (F t k) (lam + L * u32 * (1 + lam)) (Kt * K) (rsum l1 s) (L * K * INR q * eta32 + (1 + L * u32) * K * (INR q * b)).
Proof.
  intros A Hl HKt Hb RX HX HR k Hk. destruct A as [HN HB HK HL Hlen _]. pose proof (bpow_gt_0 radix2 (-24)) as U.
  assert (S0 : 0 <= rsum l1 s) by (apply rsum_pos; intros; apply HX; auto). assert (LQ : INR l1 <= INR q) by (apply le_INR; lia). pose proof (pos_INR q) as q0.
  assert (DB : rsum l1 (fun l => cn (csub (ev e1 (X l)) (t l))) <= lam * Kt * rsum l1 s + INR q * b).
  { apply Rle_trans with (rsum l1 (fun l => lam * Kt * s l + b)). apply rsum_le. intros l Hl'. apply HX; auto. rewrite rsum_add, rsum_scal_l, rsum_const. apply Rplus_le_compat_l. apply Rmult_le_compat_r; auto. }
  assert (TB : rsum l1 (fun l => cn (t l)) <= Kt * rsum l1 s). { rewrite <- rsum_scal_l. apply rsum_le. intros l Hl'. apply HX; auto. }
  assert (XB : rsum l1 (fun l => cn (ev e1 (X l))) <= (1 + lam) * Kt * rsum l1 s + INR q * b).
  { eapply Rle_trans. apply rsum_le. intros l Hl'. apply (cn_split _ (t l)). rewrite rsum_add. lra. }
  assert (R0 : 0 <= (1 + lam) * Kt * rsum l1 s + INR q * b). { assert (0 <= INR q * b) by (apply Rmult_le_pos; auto). assert (0 <= (1 + lam) * Kt * rsum l1 s) by (apply Rmult_le_pos; auto; apply Rmult_le_pos; lra). lra. }
  destruct (near_rows (fun _ : unit => True) f l1 l2 e1 e2 F K _ _ _ (fun _ => X) (fun _ => Z) ltac:(lia) (HN _ R0 HR) HB RX tt I) with (k := k) as [FZ EZ]; auto.
  { intros j Hj. apply HX; auto. }
  split; auto. split.
  - eapply Rle_trans; [apply (cn_csub _ (F (fun j => ev e1 (X j)) k))|]. assert (LK : 0 <= L * u32 * K) by (apply Rmult_le_pos; [apply Rmult_le_pos|]; lra).
    apply (Rmult_le_compat_l (L * u32 * K)) in XB; auto.
    assert (FB : cn (csub (F (fun j => ev e1 (X j)) k) (F t k)) <= K * (lam * Kt * rsum l1 s + INR q * b)). { rewrite <- (proj1 HB) by auto. eapply Rle_trans; [apply (proj2 HB); auto|]. apply Rmult_le_compat_l; lra. }
    lra.
  - eapply Rle_trans; [apply (proj2 HB); auto|]. apply (Rmult_le_compat_l K) in TB; lra.
Qed.

Lemma gacc_facts {T1 T2} f l1 l2 q (e1 : fel T1) (e2 : fel T2) F K L : gacc f l1 l2 q e1 e2 F K L -> L * u32 <= / 100 ->
  1 <= K /\ 4 <= L /\ 0 <= L * u32 <= / 100 /\ L <= bpow radix2 18 /\ 1 <= INR q <= bpow radix2 16.
Proof.
  intros [_ _ HK H4 Hlen Hq] HL. pose proof (bpow_gt_0 radix2 (-24)) as U0. split; auto. split; auto. split. split; auto. apply Rmult_le_pos; lra. split. apply (L18 u32); auto; lra. split; auto. change 1 with (INR 1). apply le_INR. lia.
Qed.
Lemma gtail L K q B : 0 <= L * u32 <= / 100 -> 4 <= L -> 1 <= K -> 1 <= q -> 4 <= B -> L * K * q * eta32 + (1 + L * u32) * K * (q * (B * eta32)) <= B * L * K * q * eta32.
Proof.
  intros HL H4 HK Hq HB. pose proof (bpow_gt_0 radix2 (-150)) as E. replace (L * K * q * eta32 + (1 + L * u32) * K * (q * (B * eta32))) with (K * q * eta32 * (L + (1 + L * u32) * B)) by ring. replace (B * L * K * q * eta32) with (K * q * eta32 * (B * L)) by ring.
  apply Rmult_le_compat_l. apply Rmult_le_pos; [apply Rmult_le_pos|]; lra.
  assert ((1 + L * u32) * B <= 101 / 100 * B) by (apply Rmult_le_compat_r; lra). assert (0 <= (B - 4) * (L - 4)) by (apply Rmult_le_pos; lra). lra.
Qed.
(** what is left of the range on a later axis *)
Lemma grange K Kt lam S q B : 1 <= K -> 1 <= Kt -> 0 <= lam <= / 4 -> 0 <= S -> 0 <= q * (B * eta32) <= Kt / 2 -> Kt * K * (1 + S) <= bpow radix2 90 ->
  K * (1 + ((1 + lam) * Kt * S + q * (B * eta32))) <= bpow radix2 100.
Proof.
  intros HK HKt Hl HS HB H. apply Rle_trans with (2 * (Kt * K * (1 + S))).
  - replace (2 * (Kt * K * (1 + S))) with (K * (2 * Kt + 2 * (Kt * S))) by ring. apply Rmult_le_compat_l; [lra|]. assert (0 <= Kt * S) by (apply Rmult_le_pos; lra). assert ((1 + lam) * (Kt * S) <= 5 / 4 * (Kt * S)) by (apply Rmult_le_compat_r; lra). lra.
  - apply Rle_trans with (2 * bpow radix2 90); [lra|]. replace (2 * bpow radix2 90) with (bpow radix2 91) by (change 91%Z with (1 + 90)%Z; rewrite bpow_plus; reflexivity). apply bpow_le. lia.
Qed.

Lemma ga1 {T1 T2} f l1 l2 q (e1 : fel T1) (e2 : fel T2) F K L (X : nat -> T1) (Z : nat -> T2) : gacc f l1 l2 q e1 e2 F K L -> L * u32 <= / 100 ->
  rows (fun _ : unit => True) f l1 l2 (fun _ => X) (fun _ => Z) -> (forall i, (i < l1)%nat -> ef e1 (X i)) -> let S := rsum l1 (fun i => cn (ev e1 (X i))) in K * (1 + S) <= bpow radix2 100 ->
  forall k, (k < l2)%nat -> close e2 (Z k) (F (fun i => ev e1 (X i)) k) (L * u32) K S (L * K * INR q * eta32).
Proof.
  intros A HL RX FX S HS k Hk. destruct (gacc_facts _ _ _ _ _ _ _ _ _ A HL) as (HK & H4 & HLw & H47 & Hq). assert (S0 : 0 <= S) by (apply rsum_pos; intros; apply cn_pos).
  pose proof (gstage f l1 l2 q e1 e2 F K L X Z (fun i => ev e1 (X i)) (fun i => cn (ev e1 (X i))) 0 1 0 A (Rle_refl 0) ltac:(lra) (Rle_refl 0) RX) as G. fold S in G.
  specialize (G ltac:(intros l Hl; split; [apply cn_pos|]; split; [auto|]; split; [rewrite cn_csub_self; lra|lra])).
  specialize (G ltac:(rewrite Rmult_0_r, Rplus_0_r, Rplus_0_r, !Rmult_1_l; exact HS) k Hk). replace (1 * K) with K in G by ring. eapply close_weak; [exact G|lra|lra|apply Rmult_le_pos; lra].
Qed.
Lemma ga2 {T1 T2 T3} f l1 l2 q (e1 : fel T1) (e2 : fel T2) F K L f' l1' l2' q' (e3 : fel T3) F' K' L' (X : nat -> nat -> T1) (Z : nat -> nat -> T2) (Y : nat -> nat -> T3) :
  gacc f l1 l2 q e1 e2 F K L -> L * u32 <= / 100 -> gacc f' l1' l2' q' e2 e3 F' K' L' -> L' * u32 <= / 100 ->
  (forall p, (p < l1')%nat -> rows (fun _ : unit => True) f l1 l2 (fun _ i => X i p) (fun _ k => Z k p)) ->
  (forall k, (k < l2)%nat -> rows (fun _ : unit => True) f' l1' l2' (fun _ p => Z k p) (fun _ j => Y k j)) ->
  (forall i p, (i < l1)%nat -> (p < l1')%nat -> ef e1 (X i p)) ->
  let Sum := rsum l1' (fun p => rsum l1 (fun i => cn (ev e1 (X i p)))) in K * K' * (1 + Sum) <= bpow radix2 90 ->
  forall k j, (k < l2)%nat -> (j < l2')%nat -> close e3 (Y k j) (F' (fun p => F (fun i => ev e1 (X i p)) k) j) (21 / 20 * (L + L') * u32) (K * K') Sum (L * K * INR q * L' * K' * INR q' * eta32).
Proof.
  intros A HL A' HL' RX RZ FX Sum SX k j Hk Hj. destruct (gacc_facts _ _ _ _ _ _ _ _ _ A HL) as (HK & H4 & HLw & H47 & Hq). destruct (gacc_facts _ _ _ _ _ _ _ _ _ A' HL') as (HK' & H4' & HLw' & H47' & Hq').
  pose proof (bpow_gt_0 radix2 (-150)) as E0. assert (R0 : forall p, 0 <= rsum l1 (fun i => cn (ev e1 (X i p)))) by (intros; apply rsum_pos; intros; apply cn_pos). assert (S0 : 0 <= Sum) by (apply rsum_pos; auto).
  assert (KQ : 1 <= K * INR q). { replace 1 with (1 * 1) at 1 by ring. apply Rmult_le_compat; lra. }
  assert (B4 : 4 <= L * K * INR q). { rewrite Rmult_assoc. replace 4 with (4 * 1) by ring. apply Rmult_le_compat; lra. }
  assert (T1' : 0 <= INR q' * (L * K * INR q * eta32) <= K / 2).
  { split. apply Rmult_le_pos; [lra|]. apply Rmult_le_pos; lra. replace (INR q' * (L * K * INR q * eta32)) with (K * (INR q' * (L * INR q) * eta32)) by ring. unfold Rdiv. apply Rmult_le_compat_l; [lra|].
    apply Rle_trans with (bpow radix2 16 * (bpow radix2 18 * bpow radix2 16) * bpow radix2 (-150)).
    apply Rmult_le_compat_r; [lra|]. apply mul_up; [split; lra|]. apply mul_up; split; lra. rewrite <- !bpow_plus. change (/ 2) with (bpow radix2 (-1)). apply bpow_le. lia. }
  pose proof (gstage f' l1' l2' q' e2 e3 F' K' L' (fun p => Z k p) (fun j => Y k j) (fun p => F (fun i => ev e1 (X i p)) k) (fun p => rsum l1 (fun i => cn (ev e1 (X i p)))) (L * u32) K (L * K * INR q * eta32)
    A' ltac:(lra) ltac:(lra) ltac:(apply Rmult_le_pos; lra) (RZ k Hk)) as G.
  assert (KS : forall p, (p < l1')%nat -> K * (1 + rsum l1 (fun i => cn (ev e1 (X i p)))) <= bpow radix2 100).
  { intros p Hp. apply Rle_trans with (K * K' * (1 + Sum)). rewrite Rmult_assoc. apply Rmult_le_compat_l; [lra|]. rewrite <- (Rmult_1_l (1 + rsum l1 _)). pose proof (rsum_pick l1' (fun p => rsum l1 (fun i => cn (ev e1 (X i p)))) p (fun p _ => R0 p) Hp) as P. cbv beta in P. fold Sum in P. specialize (R0 p). apply Rmult_le_compat; lra. 
    eapply Rle_trans; [exact SX|]. apply bpow_le; lia. }
  specialize (G ltac:(intros p Hp; split; [auto|]; apply (ga1 f l1 l2 q e1 e2 F K L (fun i => X i p) (fun k => Z k p) A HL (RX p Hp)); [intros; apply FX; auto|apply KS; auto|auto])).
  specialize (G ltac:(apply grange; auto; lra) j Hj). eapply close_weak; [exact G| | |].
  - assert (L' * u32 * (1 + L * u32) <= L' * u32 * (1 + / 100)) by (apply Rmult_le_compat_l; lra). lra.
  - eapply Rle_trans; [apply gtail; auto; lra|]. apply Req_le. ring.
  - apply Rmult_le_pos; auto. apply Rmult_le_pos; lra.
Qed.
Lemma ga3 {T1 T2 T3 T4} f l1 l2 q (e1 : fel T1) (e2 : fel T2) F K L f' l1' l2' q' (e3 : fel T3) F' K' L' f2 m1 m2 q2 (e4 : fel T4) F2 K2 L2
    (X : nat -> nat -> nat -> T1) (Z : nat -> nat -> nat -> T2) (U : nat -> nat -> nat -> T3) (Y : nat -> nat -> nat -> T4) :
  gacc f l1 l2 q e1 e2 F K L -> L * u32 <= / 100 -> gacc f' l1' l2' q' e2 e3 F' K' L' -> L' * u32 <= / 100 -> gacc f2 m1 m2 q2 e3 e4 F2 K2 L2 -> L2 * u32 <= / 100 ->
  (forall p r, (p < l1')%nat -> (r < m1)%nat -> rows (fun _ : unit => True) f l1 l2 (fun _ i => X i p r) (fun _ k => Z k p r)) ->
  (forall k r, (k < l2)%nat -> (r < m1)%nat -> rows (fun _ : unit => True) f' l1' l2' (fun _ p => Z k p r) (fun _ j => U k j r)) ->
  (forall k j, (k < l2)%nat -> (j < l2')%nat -> rows (fun _ : unit => True) f2 m1 m2 (fun _ r => U k j r) (fun _ s => Y k j s)) ->
  (forall i p r, (i < l1)%nat -> (p < l1')%nat -> (r < m1)%nat -> ef e1 (X i p r)) ->
  let Sum := rsum m1 (fun r => rsum l1' (fun p => rsum l1 (fun i => cn (ev e1 (X i p r))))) in K * K' * K2 * (1 + Sum) <= bpow radix2 90 ->
  forall k j s, (k < l2)%nat -> (j < l2')%nat -> (s < m2)%nat ->
    close e4 (Y k j s) (F2 (fun r => F' (fun p => F (fun i => ev e1 (X i p r)) k) j) s) (11 / 10 * (L + L' + L2) * u32) (K * K' * K2) Sum (L * K * INR q * L' * K' * INR q' * L2 * K2 * INR q2 * eta32).
Proof.
  intros A HL A' HL' A2 HL2 RX RZ RU FX Sum SX k j s Hk Hj Hs. destruct (gacc_facts _ _ _ _ _ _ _ _ _ A HL) as (HK & H4 & HLw & H47 & Hq). destruct (gacc_facts _ _ _ _ _ _ _ _ _ A' HL') as (HK' & H4' & HLw' & H47' & Hq'). destruct (gacc_facts _ _ _ _ _ _ _ _ _ A2 HL2) as (HK2 & H42 & HLw2 & H472 & Hq2).
  pose proof (bpow_gt_0 radix2 (-150)) as E0. assert (R0 : forall r, 0 <= rsum l1' (fun p => rsum l1 (fun i => cn (ev e1 (X i p r))))) by (intros; apply rsum_pos; intros; apply rsum_pos; intros; apply cn_pos). assert (S0 : 0 <= Sum) by (apply rsum_pos; auto).
  assert (M1 : forall x y, 1 <= x -> 1 <= y -> 1 <= x * y) by (intros x y Hx Hy; replace 1 with (1 * 1) by ring; apply Rmult_le_compat; lra).
  assert (KK : 1 <= K * K') by auto. assert (QQ : 1 <= INR q * INR q') by (apply M1; lra).
  assert (LL : 4 <= L * L') by (replace 4 with (4 * 1) by ring; apply Rmult_le_compat; lra).
  assert (B4 : 4 <= L * K * INR q * L' * K' * INR q'). { replace (L * K * INR q * L' * K' * INR q') with (L * L' * (K * K' * (INR q * INR q'))) by ring. replace 4 with (4 * 1) by ring. apply Rmult_le_compat; try lra. apply M1; auto. }
  assert (T1' : 0 <= INR q2 * (L * K * INR q * L' * K' * INR q' * eta32) <= (K * K') / 2).
  { split. apply Rmult_le_pos; [lra|]. apply Rmult_le_pos; lra. replace (INR q2 * (L * K * INR q * L' * K' * INR q' * eta32)) with (K * K' * (INR q2 * (L * L' * (INR q * INR q')) * eta32)) by ring. unfold Rdiv. apply Rmult_le_compat_l; [lra|].
    apply Rle_trans with (bpow radix2 16 * (bpow radix2 18 * bpow radix2 18 * (bpow radix2 16 * bpow radix2 16)) * bpow radix2 (-150)).
    apply Rmult_le_compat_r; [lra|]. apply mul_up; [split; lra|]. apply mul_up; apply mul_up; split; lra. rewrite <- !bpow_plus. change (/ 2) with (bpow radix2 (-1)). apply bpow_le. lia. }
  set (lam := 21 / 20 * (L + L') * u32). assert (LAM : 0 <= lam <= 21 / 1000) by (unfold lam; lra).
  pose proof (gstage f2 m1 m2 q2 e3 e4 F2 K2 L2 (fun r => U k j r) (fun s => Y k j s) (fun r => F' (fun p => F (fun i => ev e1 (X i p r)) k) j) (fun r => rsum l1' (fun p => rsum l1 (fun i => cn (ev e1 (X i p r))))) lam (K * K') (L * K * INR q * L' * K' * INR q' * eta32)
    A2 ltac:(lra) ltac:(lra) ltac:(apply Rmult_le_pos; lra) (RU k j Hk Hj)) as G.
  assert (KS : forall r, (r < m1)%nat -> K * K' * (1 + rsum l1' (fun p => rsum l1 (fun i => cn (ev e1 (X i p r))))) <= bpow radix2 90).
  { intros r Hr. eapply Rle_trans; [|exact SX]. rewrite (Rmult_assoc (K * K')). apply Rmult_le_compat_l; [lra|]. rewrite <- (Rmult_1_l (1 + rsum l1' _)). pose proof (rsum_pick m1 (fun r => rsum l1' (fun p => rsum l1 (fun i => cn (ev e1 (X i p r))))) r (fun r _ => R0 r) Hr) as P. cbv beta in P. fold Sum in P. specialize (R0 r). apply Rmult_le_compat; lra. }
  specialize (G ltac:(intros r Hr; split; [auto|]; apply (ga2 f l1 l2 q e1 e2 F K L f' l1' l2' q' e3 F' K' L' (fun i p => X i p r) (fun k p => Z k p r) (fun k j => U k j r) A HL A' HL'); auto)).
  specialize (G ltac:(apply grange; auto; lra) s Hs). eapply close_weak; [exact G| | |].
  - assert (L2 * u32 * (1 + lam) <= L2 * u32 * (1 + 21 / 1000)) by (apply Rmult_le_compat_l; lra). unfold lam at 1. lra.
  - eapply Rle_trans; [apply gtail; auto; lra|]. apply Req_le. ring.
  - apply Rmult_le_pos; auto. apply Rmult_le_pos; lra.
Qed.
