(** C68: `from_ortho` after `to_ortho` in f32 - the exact maps (as RndOrtho3.v). *)
From Coq Require Import List Arith ZArith Reals Bool Lra Lia.
From Flocq Require Import Core BinarySingleNaN.
From Verif Require Import Base Num Linalg Stencils ChebPoly ChebGrad Cheb ChebFacts Compo CompoProofs Fourier FourierF64 FourierFacts FourierProofs Bases BaseLin LibBase NdArray NdArrayFacts AxisFacts AxisProps PropAxis SpaceFacts SpaceBases SpaceStages SpaceOrder Space PropSpace PropSpace2 PropSpace3 PropSpace4 PropElements
  ExtLib AnyArith ExtFacts AnyBase PropAny PropAny2 Rounding LibAcc LibIdeal RndCheb RndFft RndR2c RndCompo RndFinite2 RndDirichlet RndNeumann RndGrad PropRound PropRound2 PropRound4 RndAxis RndOps RndAxis2 RndOps2 SpaceAcc RndSpace PropTrans3 SpaceAcc2 PropTrans4 SpaceVal RndVal RndVal2 PropTrans5 GradSpec GradOp RndGrad4 OrthoSpec RndOrtho PropOrtho PropGrad PropTrans6 SpaceVal32 RndVal32 PropTrans7 GradSpec32 RndGrad32 RndOrtho32 PropOrtho RndOrtho3.
From Verif Require Import RndNeumann RndOrtho32.
Import ListNotations.
Local Open Scope R_scope.
Local Notation u32 := (bpow radix2 (-24)).
Local Notation eta32 := (bpow radix2 (-150)).

Record undo32 {P S T} (b : base_ops P S T) (F Tm : (nat -> CR) -> nat -> CR) (K L : R) : Prop := {
  un32_inv : forall g k, (k < len_spec b)%nat -> F (Tm g) k = g k;
  un32_sum : forall g, rsum (len_orth b) (fun k => cn (Tm g k)) <= 2 * rsum (len_spec b) (fun k => cn (g k));
  un32_comb : exists al be, forall g k, (k < len_orth b)%nat -> Tm g k = comb al be g k;
  un32_bounded : bounded F (len_orth b) (len_spec b) K;
  un32_K : 1 <= K <= L / 2; un32_L : 4 <= L; un32_Lu : L * u32 <= / 100;
  un32_o : 1 <= INR (len_orth b) <= bpow radix2 10; un32_n : 1 <= INR (len_phys b) <= bpow radix2 10 }.

Lemma n10 n : (1 <= n)%nat -> (Z.of_nat n <= 2 ^ 10)%Z -> 1 <= INR n <= bpow radix2 10.
Proof. intros H Hz. split. change 1 with (INR 1). apply le_INR; auto. rewrite INR_IZR_INZ. change (bpow radix2 10) with (IZR (2 ^ 10)). apply IZR_le; auto. Qed.
Lemma undo32_ex E K L P S T b e F : f32_from_ortho E K L P S T b e F -> exists Tm, f32_to_ortho E P S T b e Tm /\ undo32 b F Tm K L.
Proof.
  intros H. pose proof (ao_bounded _ _ _ _ _ _ _ _ _ _ _ (from_ortho_acc _ _ _ _ _ _ _ _ _ H)) as HB. pose proof (ao_L _ _ _ _ _ _ _ _ _ _ _ (from_ortho_acc _ _ _ _ _ _ _ _ _ H)) as HL.
  pose proof (from_L_small _ _ _ _ _ _ _ _ _ H) as HLu.
  destruct H as [T V e n b H Hz|T V e n b F Hs H Hn Hz HF|T V e n b F Hs H Hn Hz HF|e n f H Hz|e n f H Hz].
  - exists unchanged. split. econstructor; eauto; lia. apply new_chebyshev_inv in H as [H2 ->]. split; auto; try lra; try (apply n10; [cbn; lia|cbn; lia]).
    + intros g. apply cn_unchanged_sum. + exists (fun _ => 1), (fun _ => 0). intros; apply unchanged_comb.
  - exists (compo_ortho n dir_q). split. econstructor; eauto; lia. unfold new_composite in H. destruct (compo_new KDirichlet n) as [c| |] eqn:Ec; cbn [bind] in H; try discriminate. injection H as <-. destruct (dir_inv n c Ec) as [_ ->].
    destruct (kap_small n Hz) as (K1 & _ & _). assert (K2 : (INR n + 1) ^ 2 = (INR n + 1) * (INR n + 1)) by ring. split; auto; try (rewrite K2 in *; lra); try (apply n10; [cbn; lia|cbn; lia]).
    + intros g k Hk. apply (proj1 (proj2 (proj2 C60_exact_maps)) n dir_q F); auto.
    + intros g. apply compo_sum. lia. apply dir_q_range.
    + eexists _, _. intros; apply compo_comb.
  - exists (compo_ortho n neu_q). split. econstructor; eauto; lia. unfold new_composite in H. destruct (compo_new KNeumann n) as [c| |] eqn:Ec; cbn [bind] in H; try discriminate. injection H as <-. destruct (neu_inv n c Ec) as [_ ->].
    destruct (kap_small n Hz) as (K1 & _ & _). assert (K2 : (INR n + 1) ^ 2 = (INR n + 1) * (INR n + 1)) by ring. split; auto; try (rewrite K2 in *; lra); try (apply n10; [cbn; lia|cbn; lia]).
    + intros g k Hk. apply (proj1 (proj2 (proj2 C60_exact_maps)) n neu_q F); auto.
    + intros g. apply compo_sum. lia. apply neu_q_range.
    + eexists _, _. intros; apply compo_comb.
  - exists unchanged. split. econstructor; eauto; lia. apply r2c_new_inv in H as [H2 ->]. assert (H2' := half_len n H2). split; auto; try lra; try (apply (n10 (n / 2 + 1)); lia); try (apply (n10 n); lia).
    + intros g. apply cn_unchanged_sum. + exists (fun _ => 1), (fun _ => 0). intros; apply unchanged_comb.
  - exists unchanged. split. econstructor; eauto; lia. apply c2c_new_inv in H as [H2 ->]. split; auto; try lra; try (apply n10; [cbn; lia|cbn; lia]).
    + intros g. apply cn_unchanged_sum. + exists (fun _ => 1), (fun _ => 0). intros; apply unchanged_comb.
Qed.

