(** C59: the gradients of the bases in f64, against the exact derivatives of GradSpec.v. *)
From Coq Require Import List Arith ZArith Reals Bool Lra Lia.
From Flocq Require Import Core BinarySingleNaN.
From Verif Require Import Base Num Linalg Stencils StencilProofs Cheb Compo CompoProofs Fourier FourierF64 FourierFacts AnyArith ArithSteps Rounding RndTdma RndDirichlet RndNeumann RndGrad RndFinite RndFinite2 RndFourier RndFft PropRound PropRound2 PropRound4 PropTrans2 SpaceBases Bases ExtLib
  RndAxis SpaceAcc RndSpace SpaceVal RndVal RndVal2 RndGrad2 GradSpec GradOp.
Import ListNotations.
Local Open Scope R_scope.
Local Notation u64 := (bpow radix2 (-53)).
Local Notation eta64 := (bpow radix2 (-1075)).
Local Notation FA := f64_float_arith.

(** ** Sizes *)
Definition gL (n d : nat) : R := 4 * INR (d + 1) * INR n.
Lemma gL_facts n d : (1 <= n)%nat -> gL n d * u64 <= / 100 -> 0 <= INR d * INR n /\ INR d * INR n * u64 <= / 400 /\ 1 <= INR n <= bpow radix2 45 /\ INR d * INR n <= bpow radix2 45 /\ INR n * u64 <= / 400 /\ (Z.of_nat n <= 2 ^ 45)%Z.
Proof.
  intros Hn H. unfold gL in H. rewrite plus_INR in H. cbn [INR] in H. pose proof (pos_INR d). assert (N1 : 1 <= INR n) by (change 1 with (INR 1); apply le_INR; lia). pose proof (bpow_gt_0 radix2 (-53)) as U.
  assert (D0 : 0 <= INR d * INR n) by (apply Rmult_le_pos; lra). assert (D1 : 0 <= INR d * INR n * u64) by (apply Rmult_le_pos; lra). assert (N2 : 0 < INR n * u64) by (apply Rmult_lt_0_compat; lra).
  assert (E : 4 * (INR d + 1) * INR n * u64 = 4 * (INR d * INR n * u64) + 4 * (INR n * u64)) by ring. rewrite E in H. clear E.
  assert (B : forall x, x * u64 <= / 400 -> x <= bpow radix2 45).
  { intros x Hx. change u64 with (/ IZR (2 ^ 53)) in Hx. change (bpow radix2 45) with (IZR (2 ^ 45)). cbv [Z.pow Z.pow_pos Pos.iter Z.mul Pos.mul] in *. lra. }
  split; auto. split; [lra|]. split; [split; auto; apply B; lra|]. split; [apply B; lra|]. split; [lra|].
  assert (NB : INR n <= bpow radix2 45) by (apply B; lra). rewrite INR_IZR_INZ in NB. change (bpow radix2 45) with (IZR (2 ^ 45)) in NB. apply le_IZR in NB. exact NB.
Qed.
Lemma gK_S n d : (1 <= n)%nat -> gK n d <= gK n (S d) /\ INR n * INR n * gK n d <= INR n * gK n (S d).
Proof.
  intros Hn. assert (N1 : 1 <= INR n) by (change 1 with (INR 1); apply le_INR; lia). unfold gK. destruct d as [|d].
  - change (2 * 0 - 1)%nat with 0%nat. change (2 * 1 - 1)%nat with 1%nat. cbn [pow]. split; lra.
  - replace (2 * S (S d) - 1)%nat with (2 + (2 * S d - 1))%nat by lia. rewrite pow_add. set (q := INR n ^ (2 * S d - 1)). assert (Q : 1 <= q) by (apply pow_R1_Rle; auto). cbn [pow]. rewrite Rmult_1_r.
    assert (NN : 1 <= INR n * INR n) by (replace 1 with (1 * 1) by ring; apply Rmult_le_compat; lra). assert (NQ : q <= INR n * INR n * q) by (rewrite <- (Rmult_1_l q) at 1; apply Rmult_le_compat_r; lra). split. lra.
    replace (INR n * INR n * (2 * q)) with (1 * (2 * (INR n * INR n * q))) by ring. apply Rmult_le_compat_r; lra.
Qed.
Lemma grad_eta_le n d : (3 <= n)%nat -> gL n d * u64 <= / 100 -> grad_eta (u := u64) (eta := eta64) n d <= 2 * (INR d * INR n) * INR n * gK n d * eta64.
Proof.
  intros Hn HL. destruct (gL_facts n d ltac:(lia) HL) as (D0 & D1 & [N1 _] & _). pose proof (bpow_gt_0 radix2 (-53)) as U. pose proof (bpow_gt_0 radix2 (-1075)) as E. unfold grad_eta. rewrite Rpow_mult_distr.
  destruct d as [|d]. { cbn [INR]. rewrite !Rmult_0_l. rewrite !Rmult_0_r, !Rmult_0_l. lra. }
  assert (P : (1 + 2 * INR n * u64) ^ S d <= 1 + / 100). { pose proof (pow_2u (2 * INR n * u64) (S d)) as Q. replace (INR (S d) * (2 * INR n * u64)) with (2 * (INR (S d) * INR n * u64)) in Q by ring. destruct Q as [Q _]. apply Rmult_le_pos; lra. lra. replace (2 * INR (S d) * (2 * INR n * u64)) with (4 * (INR (S d) * INR n * u64)) in Q by ring. lra. }
  assert (P0 : 0 <= (1 + 2 * INR n * u64) ^ S d). { apply pow_le. assert (0 <= 2 * INR n * u64) by (apply Rmult_le_pos; lra). lra. }
  assert (EQ : (INR n * INR n) ^ S d * INR n = INR n * INR n * (gK n (S d) / 2)). { unfold gK. replace (2 * S d - 1)%nat with (S (2 * d)) by lia. replace (2 * INR n ^ S (2 * d) / 2) with (INR n ^ S (2 * d)) by field. cbn [pow]. rewrite pow_mult. cbn [pow]. rewrite Rmult_1_r. ring. }
  replace (INR (S d) * ((1 + 2 * INR n * u64) ^ S d * (INR n * INR n) ^ S d) * (3 * INR n * eta64)) with (3 * (1 + 2 * INR n * u64) ^ S d * (INR (S d) * ((INR n * INR n) ^ S d * INR n) * eta64)) by ring. rewrite EQ.
  pose proof (gK_ge1 n (S d) ltac:(lia)). set (M := INR (S d) * INR n * INR n * gK n (S d) * eta64). assert (M0 : 0 <= M). { unfold M. apply Rmult_le_pos; [|lra]. apply Rmult_le_pos; [|lra]. apply Rmult_le_pos; lra. }
  replace (3 * (1 + 2 * INR n * u64) ^ S d * (INR (S d) * (INR n * INR n * (gK n (S d) / 2)) * eta64)) with (3 / 2 * (1 + 2 * INR n * u64) ^ S d * M) by (unfold M; field). replace (2 * (INR (S d) * INR n) * INR n * gK n (S d) * eta64) with (2 * M) by (unfold M; ring).
  apply Rmult_le_compat_r; auto. lra.
Qed.
Definition R920 : R := bpow radix2 920.
Lemma eta_tiny n d : (3 <= n)%nat -> gL n d * u64 <= / 100 -> 2 * (INR d * INR n) * INR n * eta64 <= / 4 /\ eta64 <= / 4.
Proof.
  intros Hn HL. destruct (gL_facts n d ltac:(lia) HL) as (D0 & D1 & N1 & D2 & _). pose proof (bpow_gt_0 radix2 (-1075)) as E.
  assert (T : eta64 <= bpow radix2 (-100)) by (apply bpow_le; lia). split.
  - apply Rle_trans with (2 * bpow radix2 45 * bpow radix2 45 * bpow radix2 (-100)). apply Rmult_le_compat; try lra. apply Rmult_le_pos; lra. apply Rmult_le_compat; lra.
    replace (2 * bpow radix2 45 * bpow radix2 45 * bpow radix2 (-100)) with (2 * (bpow radix2 45 * bpow radix2 45 * bpow radix2 (-100))) by ring. rewrite <- !bpow_plus. change (45 + 45 + -100)%Z with (-10)%Z. change (bpow radix2 (-10)) with (/ IZR (2 ^ 10)). cbv [Z.pow Z.pow_pos Pos.iter Z.mul Pos.mul]. lra.
  - eapply Rle_trans; [exact T|]. change (bpow radix2 (-100)) with (/ IZR (2 ^ 100)). cbv [Z.pow Z.pow_pos Pos.iter Z.mul Pos.mul]. lra.
Qed.

(** ** Chebyshev, one component *)
Section Cheb.
Context {T : Type} {V : Vec f64 T} {I : Type} {cp : I -> T -> f64} (GE : grad_elem f64_fin f64_val (ieee_rnd 53 1024) cp) (GF : elem_fwd f64_fin f64_val (ieee_rnd 53 1024) (ieee_inr 1024) cp).
Notation Xv := (gX f64_val cp).
Lemma cheb_grad_comp n (a o : list T) d Rg : (3 <= n)%nat -> gL n d * u64 <= / 100 -> length a = n -> length o = n -> 0 <= Rg -> gK n d * (1 + Rg) <= R920 ->
  (forall p j, (j < n)%nat -> f64_fin (cp p a.[j])) -> (forall p, rsum n (fun j => Rabs (Xv p a j)) <= Rg) ->
  exists b, cheb_gradient (mk_cheb n n) a o d = Ok b /\ length b = n /\ forall p k, (k < n)%nat -> f64_fin (cp p b.[k]) /\
    Rabs (Xv p b k - Gpow n d (Xv p a) k) <= 4 * (INR d * INR n * u64) * gK n d * rsum n (fun j => Rabs (Xv p a j)) + 2 * (INR d * INR n) * INR n * gK n d * eta64.
Proof.
  intros Hn HL La Lo R0 HR HF HS. destruct (gL_facts n d ltac:(lia) HL) as (D0 & D1 & [N1 N2] & D2 & NU & NZ). pose proof (bpow_gt_0 radix2 (-53)) as U. pose proof (bpow_gt_0 radix2 (-1075)) as E.
  assert (Hz : (2 * Z.of_nat n <= 2 ^ 53)%Z) by lia. assert (Hu : INR n * u64 <= 1) by lra.
  assert (ER : forall d' b, (d' <= d)%nat -> cheb_gradient (mk_cheb n n) a o d' = Ok b -> forall p k, (k < n)%nat -> f64_fin (cp p b.[k]) ->
    Rabs (Xv p b k - Gpow n d' (Xv p a) k) <= 4 * (INR d' * INR n * u64) * gK n d' * rsum n (fun j => Rabs (Xv p a j)) + 2 * (INR d' * INR n) * INR n * gK n d' * eta64 /\ gL n d' * u64 <= / 100).
  { intros d' b Hd Eb p k Hk Fb. assert (DD : INR d' <= INR d) by (apply le_INR; auto).
    assert (HL' : gL n d' * u64 <= / 100). { eapply Rle_trans; [|exact HL]. apply Rmult_le_compat_r; [lra|]. unfold gL. apply Rmult_le_compat_r; [lra|]. apply Rmult_le_compat_l; [lra|]. apply le_INR. lia. }
    split; auto. destruct (cheb_gradient_err FA GE n a o b d' Hn Hz Hu La Lo Eb) as [_ H]. eapply Rle_trans; [apply H; auto|]. apply Rplus_le_compat; [|apply grad_eta_le; auto].
    assert (X0 : 0 <= INR d' * INR n * u64) by (apply Rmult_le_pos; [apply Rmult_le_pos; [apply pos_INR|lra]|lra]).
    destruct (gL_facts n d' ltac:(lia) HL') as (_ & D1' & _). rewrite (Rmult_assoc (4 * _)). apply Rmult_le_compat.
    - assert (1 <= (1 + 2 * INR n * u64) ^ d') by (apply pow_R1_Rle; assert (0 <= 2 * INR n * u64) by (apply Rmult_le_pos; lra); lra). lra.
    - apply Gpow_pos; auto. intros; apply Rabs_pos.
    - pose proof (pow_2u (2 * INR n * u64) d') as Q. replace (INR d' * (2 * INR n * u64)) with (2 * (INR d' * INR n * u64)) in Q by ring. destruct Q as [Q _]. apply Rmult_le_pos; lra. lra. replace (2 * INR d' * (2 * INR n * u64)) with (4 * (INR d' * INR n * u64)) in Q by ring. lra.
    - apply Gpow_max; auto. intros; apply Rabs_pos. }
  assert (SZ : forall d' b, (d' <= d)%nat -> cheb_gradient (mk_cheb n n) a o d' = Ok b -> forall p k, (k < n)%nat -> f64_fin (cp p b.[k]) -> Rabs (Xv p b k) <= 2 * (gK n d' * (1 + Rg))).
  { intros d' b Hd Eb p k Hk Fb. destruct (ER d' b Hd Eb p k Hk Fb) as [H HL']. destruct (gL_facts n d' ltac:(lia) HL') as (D0' & D1' & _ & D2' & _). destruct (eta_tiny n d' Hn HL') as [T1 _]. pose proof (gK_ge1 n d' ltac:(lia)) as K1.
    pose proof (Gpow_abs n d' (Xv p a) k Hn Hk) as A1. pose proof (Gpow_max n d' (fun j => Rabs (Xv p a j)) k Hn Hk (fun j => Rabs_pos _)) as A2.
    assert (S0 : 0 <= rsum n (fun j => Rabs (Xv p a j))) by (apply rsum_pos; intros; apply Rabs_pos). specialize (HS p).
    assert (KS : gK n d' * rsum n (fun j => Rabs (Xv p a j)) <= gK n d' * Rg) by (apply Rmult_le_compat_l; lra). assert (KS0 : 0 <= gK n d' * rsum n (fun j => Rabs (Xv p a j))) by (apply Rmult_le_pos; lra).
    assert (A3 : 4 * (INR d' * INR n * u64) * gK n d' * rsum n (fun j => Rabs (Xv p a j)) <= / 100 * (gK n d' * rsum n (fun j => Rabs (Xv p a j)))). { rewrite Rmult_assoc. apply Rmult_le_compat_r; lra. }
    assert (A4 : 2 * (INR d' * INR n) * INR n * gK n d' * eta64 <= / 4 * gK n d'). { replace (2 * (INR d' * INR n) * INR n * gK n d' * eta64) with (2 * (INR d' * INR n) * INR n * eta64 * gK n d') by ring. apply Rmult_le_compat_r; lra. }
    replace (Xv p b k) with (Gpow n d' (Xv p a) k + (Xv p b k - Gpow n d' (Xv p a) k)) by ring. eapply Rle_trans; [apply Rabs_triang|]. lra. }
  assert (OK : forall d', (d' <= d)%nat -> exists b, cheb_gradient (mk_cheb n n) a o d' = Ok b /\ length b = n /\ forall p k, (k < n)%nat -> f64_fin (cp p b.[k])).
  { induction d' as [|d' IH]; intros Hd. { exists a. rewrite cheb_gradient_0 by auto. auto. }
    destruct (IH ltac:(lia)) as (b & Eb & Lb & Fb). pose proof (grad_once_steps n b Hn Lb) as W. destruct (grad_once n b) as [c| |] eqn:Ec; cbn [wp] in W; try contradiction.
    exists c. rewrite cheb_gradient_S, Eb. cbn [bind c_m]. split; auto. split; [apply W|]. intros p k Hk.
    refine (proj1 (grad_once_fin FA GE GF n b c (2 * (gK n d' * (1 + Rg))) Hn Hz Hu W _ _ _ p k Hk)).
    - pose proof (gK_ge1 n d' ltac:(lia)). apply Rmult_le_pos; [lra|]. apply Rmult_le_pos; lra.
    - pose proof (gK_ge1 n d' ltac:(lia)) as K1. destruct (gK_S n d' ltac:(lia)) as [K2 K3]. destruct (eta_tiny n d Hn HL) as [_ T1].
      assert (KM : gK n (S d') <= gK n d). { assert (G : forall x, (S d' <= x)%nat -> gK n (S d') <= gK n x) by (induction 1; [lra|]; destruct (gK_S n m ltac:(lia)); lra). apply G. lia. }
      assert (KR : gK n d' * (1 + Rg) >= 2) by (assert (2 * 1 <= gK n d' * (1 + Rg)) by (apply Rmult_le_compat; lra); lra).
      assert (KR' : 0 <= gK n d * (1 + Rg)) by (apply Rmult_le_pos; lra). assert (B0 : 0 <= bpow radix2 45) by apply bpow_ge_0.
      apply (inr_le FA) with (39 * (bpow radix2 45 * R920)).
      + unfold R920. apply Rmult_le_pos; [lra|]. apply Rmult_le_pos; apply bpow_ge_0.
      + assert (NN : 0 <= INR n * INR n) by (apply Rmult_le_pos; lra). rewrite Rabs_pos_eq by (apply Rmult_le_pos; lra).
        apply Rle_trans with (13 * (INR n * INR n) * (3 * (gK n d' * (1 + Rg)))). apply Rmult_le_compat_l; lra.
        replace (13 * (INR n * INR n) * (3 * (gK n d' * (1 + Rg)))) with (39 * (INR n * INR n * gK n d' * (1 + Rg))) by ring. apply Rmult_le_compat_l; [lra|].
        apply Rle_trans with (INR n * gK n d * (1 + Rg)). { apply Rmult_le_compat_r; [lra|]. eapply Rle_trans; [exact K3|]. apply Rmult_le_compat_l; lra. }
        rewrite Rmult_assoc. apply Rmult_le_compat; lra.
      + unfold R920. rewrite <- bpow_plus. apply (f64_in_range (39 * bpow radix2 70) _ (bpow radix2 895)).
        * split. apply Rmult_le_pos; [lra|apply bpow_ge_0]. rewrite Rmult_assoc, <- bpow_plus. apply Req_le. reflexivity.
        * apply Rlt_le_trans with (bpow radix2 6 * bpow radix2 70). apply Rmult_lt_compat_r; [apply bpow_gt_0|]. change (bpow radix2 6) with 64. lra. rewrite <- bpow_plus. apply bpow_le. lia.
        * split. apply bpow_ge_0. apply bpow_le. lia.
    - intros q j Hj. split; [apply Fb; auto|]. apply (SZ d' b ltac:(lia) Eb q j Hj). apply Fb; auto. }
  destruct (OK d (Nat.le_refl d)) as (b & Eb & Lb & Fb). exists b. split; auto. split; auto. intros p k Hk. split; [apply Fb; auto|]. apply (ER d b (Nat.le_refl d) Eb p k Hk). apply Fb; auto.
Qed.
End Cheb.
