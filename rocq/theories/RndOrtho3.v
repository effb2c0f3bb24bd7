(** C60: `from_ortho` after `to_ortho` in f64 - what the proofs need about the
    exact maps: the first undoes the second, and the second at most doubles the sum
    of the coefficients along an axis. *)
From Coq Require Import List Arith ZArith Reals Bool Lra Lia.
From Flocq Require Import Core BinarySingleNaN.
From Verif Require Import Base Num Stencils Cheb Compo CompoProofs Fourier FourierF64 FourierFacts FourierProofs Bases SpaceBases ExtLib Rounding RndCheb RndFft PropRound RndFinite2 RndGrad RndAxis RndOps RndOps2 SpaceAcc SpaceVal RndVal GradSpec OrthoSpec RndOrtho PropOrtho RndDirichlet RndNeumann PropAny RndSpace RndVal2.
Import ListNotations.
Local Open Scope R_scope.
Local Notation u64 := (bpow radix2 (-53)).
Local Notation eta64 := (bpow radix2 (-1075)).

Definition comb (al be : nat -> R) (g : nat -> CR) (k : nat) : CR :=
  (al k * fst (g k) - be k * fst (g (k - 2)%nat), al k * snd (g k) - be k * snd (g (k - 2)%nat)).
Record undo {P S T} (b : base_ops P S T) (F Tm : (nat -> CR) -> nat -> CR) (K L : R) : Prop := {
  un_inv : forall g k, (k < len_spec b)%nat -> F (Tm g) k = g k;
  un_sum : forall g, rsum (len_orth b) (fun k => cn (Tm g k)) <= 2 * rsum (len_spec b) (fun k => cn (g k));
  un_comb : exists al be, forall g k, (k < len_orth b)%nat -> Tm g k = comb al be g k;
  un_bounded : bounded F (len_orth b) (len_spec b) K;
  un_K : 1 <= K <= L / 2; un_L : 4 <= L; un_Lu : L * u64 <= / 100;
  un_o : 1 <= INR (len_orth b) <= bpow radix2 20; un_n : 1 <= INR (len_phys b) <= bpow radix2 20 }.

Lemma cn_unchanged_sum l (g : nat -> CR) : rsum l (fun k => cn (unchanged g k)) <= 2 * rsum l (fun k => cn (g k)).
Proof. unfold unchanged. assert (0 <= rsum l (fun k => cn (g k))) by (apply rsum_pos; intros; apply cn_pos). lra. Qed.
Lemma unchanged_comb (g : nat -> CR) k : unchanged g k = comb (fun _ => 1) (fun _ => 0) g k.
Proof. unfold unchanged, comb. destruct (g k) as [x y]. cbn [fst snd]. f_equal; ring. Qed.
Lemma compo_comb n q (g : nat -> CR) k : compo_ortho n q g k = comb (fun k => if (k <? n - 2)%nat then 1 else 0) (fun k => if (k <? 2)%nat then 0 else q (k - 2)%nat) g k.
Proof. unfold compo_ortho, compo_a, comb. destruct (k <? n - 2)%nat, (k <? 2)%nat; f_equal; ring. Qed.
Lemma rsum_shift2 m f : rsum (m + 2) (fun k => if (k <? 2)%nat then 0 else f (k - 2)%nat) = rsum m f.
Proof.
  induction m as [|m IH]. cbn; lra. cbn [Nat.add rsum]. rewrite IH. destruct (Nat.ltb_spec (m + 2) 2); [lia|]. replace (m + 2 - 2)%nat with m by lia. reflexivity.
Qed.
Lemma rsum_cut2 m f : rsum (m + 2) (fun k => if (k <? m)%nat then f k else 0) = rsum m f.
Proof.
  rewrite Nat.add_comm. cbn [Nat.add rsum]. destruct (Nat.ltb_spec m m); [lia|]. destruct (Nat.ltb_spec (Datatypes.S m) m); [lia|]. rewrite !Rplus_0_r. apply rsum_ext. intros k Hk. destruct (Nat.ltb_spec k m); [auto|lia].
Qed.
Lemma compo_a_sum n q (g : nat -> R) : (2 <= n)%nat -> (forall j, 0 <= q j <= 1) -> rsum n (fun k => Rabs (compo_a n q g k)) <= 2 * rsum (n - 2) (fun k => Rabs (g k)).
Proof.
  intros Hn Hq. set (G := fun k => Rabs (g k)). assert (G0 : forall k, 0 <= G k) by (intros; apply Rabs_pos).
  apply Rle_trans with (rsum n (fun k => (if (k <? n - 2)%nat then G k else 0) + (if (k <? 2)%nat then 0 else G (k - 2)%nat))).
  - apply rsum_le. intros k Hk. unfold compo_a, Rminus. eapply Rle_trans; [apply Rabs_triang|]. rewrite Rabs_Ropp. apply Rplus_le_compat.
    + destruct (k <? n - 2)%nat. unfold G; lra. rewrite Rabs_R0; lra.
    + destruct (k <? 2)%nat. rewrite Rabs_R0; lra. rewrite Rabs_mult, (Rabs_pos_eq (q _)) by apply Hq. fold (G (k - 2)%nat). destruct (Hq (k - 2)%nat). rewrite <- (Rmult_1_l (G (k - 2)%nat)) at 2. apply Rmult_le_compat_r; auto.
  - rewrite rsum_add. pose proof (rsum_cut2 (n - 2) G) as A. pose proof (rsum_shift2 (n - 2) G) as B. replace (n - 2 + 2)%nat with n in A, B by lia. rewrite A, B. lra.
Qed.
Lemma compo_sum n q (g : nat -> CR) : (2 <= n)%nat -> (forall j, 0 <= q j <= 1) -> rsum n (fun k => cn (compo_ortho n q g k)) <= 2 * rsum (n - 2) (fun k => cn (g k)).
Proof.
  intros Hn Hq. unfold cn. rewrite !rsum_add. unfold compo_ortho. cbn [fst snd]. pose proof (compo_a_sum n q (fun p => fst (g p)) Hn Hq). pose proof (compo_a_sum n q (fun p => snd (g p)) Hn Hq). lra.
Qed.
Lemma n20 n : (1 <= n)%nat -> (Z.of_nat n <= 2 ^ 20)%Z -> 1 <= INR n <= bpow radix2 20.
Proof. intros H Hz. split. change 1 with (INR 1). apply le_INR; auto. apply q20; auto. Qed.

Lemma undo_ex E K L P S T b e F : f64_from_ortho E K L P S T b e F -> exists Tm, f64_to_ortho E P S T b e Tm /\ undo b F Tm K L.
Proof.
  intros H. pose proof (ao_bounded _ _ _ _ _ _ _ _ _ _ _ (from_ortho_acc _ _ _ _ _ _ _ _ _ H)) as HB. pose proof (ao_L _ _ _ _ _ _ _ _ _ _ _ (from_ortho_acc _ _ _ _ _ _ _ _ _ H)) as HL.
  pose proof (from_L_small _ _ _ _ _ _ _ _ _ H) as HLu.
  destruct H as [T V e n b H Hz|T V e n b F Hs H Hn Hz HF|T V e n b F Hs H Hn Hz HF|e n f H Hz|e n f H Hz].
  - exists unchanged. split. econstructor; eauto. apply new_chebyshev_inv in H as [H2 ->]. split; auto; try lra; try (apply n20; [cbn; lia|exact Hz]).
    + intros g. apply cn_unchanged_sum. + exists (fun _ => 1), (fun _ => 0). intros; apply unchanged_comb.
  - exists (compo_ortho n dir_q). split. econstructor; eauto. unfold new_composite in H. destruct (compo_new KDirichlet n) as [c| |] eqn:Ec; cbn [bind] in H; try discriminate. injection H as <-. destruct (dir_inv n c Ec) as [_ ->].
    destruct (kap_small n Hz) as (K1 & _ & _). assert (K2 : (INR n + 1) ^ 2 = (INR n + 1) * (INR n + 1)) by ring. split; auto; try (rewrite K2 in *; lra); try (apply n20; [cbn; lia|exact Hz]).
    + intros g k Hk. apply (proj1 (proj2 (proj2 C60_exact_maps)) n dir_q F); auto.
    + intros g. apply compo_sum. lia. apply dir_q_range.
    + eexists _, _. intros; apply compo_comb.
  - exists (compo_ortho n neu_q). split. econstructor; eauto. unfold new_composite in H. destruct (compo_new KNeumann n) as [c| |] eqn:Ec; cbn [bind] in H; try discriminate. injection H as <-. destruct (neu_inv n c Ec) as [_ ->].
    destruct (kap_small n Hz) as (K1 & _ & _). assert (K2 : (INR n + 1) ^ 2 = (INR n + 1) * (INR n + 1)) by ring. split; auto; try (rewrite K2 in *; lra); try (apply n20; [cbn; lia|exact Hz]).
    + intros g k Hk. apply (proj1 (proj2 (proj2 C60_exact_maps)) n neu_q F); auto.
    + intros g. apply compo_sum. lia. apply neu_q_range.
    + eexists _, _. intros; apply compo_comb.
  - exists unchanged. split. econstructor; eauto. apply r2c_new_inv in H as [H2 ->]. assert (H2' := half_len n H2). split; auto; try lra; try (apply (n20 (n / 2 + 1)); lia); try (apply (n20 n); lia).
    + intros g. apply cn_unchanged_sum. + exists (fun _ => 1), (fun _ => 0). intros; apply unchanged_comb.
  - exists unchanged. split. econstructor; eauto. apply c2c_new_inv in H as [H2 ->]. split; auto; try lra; try (apply n20; [cbn; lia|exact Hz]).
    + intros g. apply cn_unchanged_sum. + exists (fun _ => 1), (fun _ => 0). intros; apply unchanged_comb.
Qed.

(** ** Several axes *)
Lemma comb_swap al be al' be' (g : nat -> nat -> CR) i j :
  comb al' be' (fun q => comb al be (fun p => g p q) i) j = comb al be (fun p => comb al' be' (fun q => g p q) j) i.
Proof. unfold comb. cbn [fst snd]. f_equal; ring. Qed.
Lemma csub_sum l (x y : nat -> CR) d : (forall k, (k < l)%nat -> cn (csub (x k) (y k)) <= d) -> rsum l (fun k => cn (x k)) <= rsum l (fun k => cn (y k)) + INR l * d.
Proof.
  intros H. rewrite <- rsum_const, <- rsum_add. apply rsum_le. intros k Hk. specialize (H k Hk). unfold cn, csub in *. cbn [fst snd nsub num_R] in *.
  pose proof (Rabs_triang (fst (y k)) (fst (x k) - fst (y k))) as A. pose proof (Rabs_triang (snd (y k)) (snd (x k) - snd (y k))) as B.
  replace (fst (y k) + (fst (x k) - fst (y k))) with (fst (x k)) in A by ring. replace (snd (y k) + (snd (x k) - snd (y k))) with (snd (x k)) in B by ring. lra.
Qed.
Lemma bounded_near F l1 l2 K x y d k : bounded F l1 l2 K -> 0 <= K -> (k < l2)%nat -> (forall j, (j < l1)%nat -> cn (csub (x j) (y j)) <= d) -> cn (csub (F x k) (F y k)) <= K * (INR l1 * d).
Proof.
  intros [B1 B2] HK Hk H. rewrite <- B1 by auto. eapply Rle_trans; [apply B2; auto|]. apply Rmult_le_compat_l; auto. rewrite <- rsum_const. apply rsum_le. auto.
Qed.
