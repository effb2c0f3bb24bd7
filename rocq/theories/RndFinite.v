(** Absence of overflow: the Dirichlet base returns finite results for finite
    input that is small enough compared to the range of the format (C54). *)
From Coq Require Import List Arith ZArith Reals Bool Lra Lia.
From Flocq Require Import Raux.
From Verif Require Import Base Num Linalg Stencils StencilProofs Cheb Compo CompoProofs AnyArith ArithSteps Rounding RndTdma RndDirichlet RndGrad.
Import ListNotations.
Local Open Scope R_scope.

Section Fl.
Context {A : Type} {N : Num A} {u eta : R} {rnd : R -> R} {zmax : Z} {inr : R -> Prop} {fin : A -> Prop} {val : A -> R}
  (FA : float_arith N u eta rnd zmax inr fin val) {T : Type} {V : Vec A T} {VC : VecC N T V}.
Let RN := fa_rnd _ _ _ _ _ _ _ _ FA.
Let FF := fa_float _ _ _ _ _ _ _ _ FA.
Notation Xv := (X (val := val)).

Lemma inr_le x y : 0 <= y -> Rabs x <= y -> inr y -> inr x.
Proof. intros Hy H. apply (fa_inr _ _ _ _ _ _ _ _ FA). rewrite (Rabs_pos_eq y); auto. Qed.
Lemma add_fin x y M : fin x -> fin y -> Rabs (val x) + Rabs (val y) <= M -> inr ((1 + u) * M) ->
  fin (nadd x y) /\ Rabs (val (nadd x y)) <= (1 + u) * M.
Proof.
  intros Fx Fy HM HI. pose proof (rn_u _ _ _ RN) as [U _]. pose proof (Rabs_pos (val x)). pose proof (Rabs_pos (val y)).
  assert (B : Rabs (rnd (val x + val y)) <= (1 + u) * M).
  { pose proof (rn_sum _ _ _ RN (val x) (val y) (FF _ Fx) (FF _ Fy)) as E. pose proof (Rabs_triang (val x) (val y)) as T1.
    replace (rnd (val x + val y)) with ((val x + val y) + (rnd (val x + val y) - (val x + val y))) by ring. eapply Rle_trans; [apply Rabs_triang|].
    assert (u * Rabs (val x + val y) <= u * M) by (apply Rmult_le_compat_l; lra). lra. }
  assert (F : fin (nadd x y)). { apply (fa_addF _ _ _ _ _ _ _ _ FA); auto. eapply inr_le; [|exact B|auto]. apply Rmult_le_pos; lra. }
  split; auto. destruct (fa_add _ _ _ _ _ _ _ _ FA _ _ F) as (_ & _ & ->). auto.
Qed.
Lemma sub_fin x y M : fin x -> fin y -> Rabs (val x) + Rabs (val y) <= M -> inr ((1 + u) * M) ->
  fin (nsub x y) /\ Rabs (val (nsub x y)) <= (1 + u) * M.
Proof.
  intros Fx Fy HM HI. pose proof (rn_u _ _ _ RN) as [U _]. pose proof (Rabs_pos (val x)). pose proof (Rabs_pos (val y)).
  assert (B : Rabs (rnd (val x - val y)) <= (1 + u) * M).
  { pose proof (rnd_sub RN (val x) (val y) (FF _ Fx) (FF _ Fy)) as E. pose proof (Rabs_triang (val x) (- val y)) as T1. rewrite Rabs_Ropp in T1.
    replace (rnd (val x - val y)) with ((val x - val y) + (rnd (val x - val y) - (val x - val y))) by ring. eapply Rle_trans; [apply Rabs_triang|].
    change (val x + - val y) with (val x - val y) in T1.
    assert (u * Rabs (val x - val y) <= u * M) by (apply Rmult_le_compat_l; lra). lra. }
  assert (F : fin (nsub x y)). { apply (fa_subF _ _ _ _ _ _ _ _ FA); auto. eapply inr_le; [|exact B|auto]. apply Rmult_le_pos; lra. }
  split; auto. destruct (fa_sub _ _ _ _ _ _ _ _ FA _ _ F) as (_ & _ & ->). auto.
Qed.
(** multiplication by a factor of magnitude at most 1 *)
Lemma mul_fin x a : fin x -> fin a -> Rabs (val a) <= 1 -> inr (val x) -> fin (nmul x a) /\ Rabs (val (nmul x a)) <= Rabs (val x).
Proof.
  intros Fx Fa Ha HI.
  assert (B : Rabs (rnd (val x * val a)) <= Rabs (val x)).
  { apply (rnd_abs_le RN); auto. rewrite Rabs_mult. pose proof (Rmult_le_compat_l (Rabs (val x)) _ _ (Rabs_pos _) Ha). lra. }
  assert (F : fin (nmul x a)). { apply (fa_mulF _ _ _ _ _ _ _ _ FA); auto. eapply (fa_inr _ _ _ _ _ _ _ _ FA); [exact B|auto]. }
  split; auto. destruct (fa_mul _ _ _ _ _ _ _ _ FA _ _ F) as (_ & _ & ->). auto.
Qed.
(** division by a divisor of magnitude at least 1 *)
Lemma div_fin x a : fin x -> fin a -> 1 <= Rabs (val a) -> inr (val x) -> fin (ndiv x a) /\ Rabs (val (ndiv x a)) <= Rabs (val x).
Proof.
  intros Fx Fa Ha HI. assert (Z : val a <> 0) by (intros Z; rewrite Z, Rabs_R0 in Ha; lra).
  assert (B : Rabs (rnd (val x / val a)) <= Rabs (val x)).
  { apply (rnd_abs_le RN); auto. unfold Rdiv. rewrite Rabs_mult, Rabs_inv. pose proof (Rabs_pos (val x)).
    assert (/ Rabs (val a) <= 1). { rewrite <- Rinv_1. apply Rinv_le_contravar; lra. }
    pose proof (Rmult_le_compat_l (Rabs (val x)) _ _ (Rabs_pos _) H0). lra. }
  assert (F : fin (ndiv x a)). { apply (fa_divF _ _ _ _ _ _ _ _ FA); auto. eapply (fa_inr _ _ _ _ _ _ _ _ FA); [exact B|auto]. }
  split; auto. destruct (fa_div _ _ _ _ _ _ _ _ FA _ _ F Fa Z) as (_ & ->). auto.
Qed.

Section Run.
Variables (l2 d0 u2 : list A) (n : nat).
Hypothesis Hn : (2 < n)%nat.
Hypothesis Fl : forall j, (j < n - 2)%nat -> fin l2.[j] /\ Rabs (val l2.[j]) <= 1.
Hypothesis Fu : forall j, (j < n - 2)%nat -> fin u2.[j].
Hypothesis Fd : forall j, (j < n)%nat -> fin d0.[j] /\ inr (4 * val d0.[j]).
Hypothesis Dom : forall j, (j < n)%nat -> Rabs (rlo (val := val) l2 j) + Rabs (rup (val := val) n u2 j) <= Rabs (val d0.[j]) /\ Rabs (rlo (val := val) l2 j) < Rabs (val d0.[j]).

(** magnitude >= 1 of the pivots *)
Lemma piv_ge1 w : (forall j, (j < n)%nat -> 2 <= Rabs (val d0.[j])) ->
  (forall j, (j < n - 2)%nat -> tdma_w l2 d0 u2 w j) -> forall j, (j < n)%nat -> 1 <= Rabs (val (piv l2 d0 w j)).
Proof.
  intros H2 HW j Hj. pose proof (pivots FA l2 d0 u2 n Hn (fun j H => proj1 (Fl j H)) Fu Fd Dom w HW) as PV.
  destruct (PV j Hj) as (_ & _ & -> & P4 & _). replace 1 with (Rabs 1) by apply Rabs_R1. apply (rnd_abs_ge RN). 2: apply (fa_rnd1 FA). rewrite Rabs_R1.
  specialize (H2 j Hj). set (q := rnd (rlo (val := val) l2 j * wprev (val := val) w j)).
  assert (LQ : Rabs q <= 1).
  { unfold q. replace 1 with (Rabs 1) by apply Rabs_R1. apply (rnd_abs_le RN). 2: apply (fa_rnd1 FA). rewrite Rabs_R1, Rabs_mult.
    assert (Rabs (rlo (val := val) l2 j) <= 1). { unfold rlo. destruct (Nat.ltb_spec j 2). rewrite Rabs_R0; lra. apply Fl. lia. }
    pose proof (Rmult_le_compat _ _ _ _ (Rabs_pos _) (Rabs_pos _) H P4). lra. }
  pose proof (Rabs_triang_inv (val d0.[j]) q). lra.
Qed.
Lemma tdma_finite md (rhs : list T) Rm :
  (forall w, (forall j, (j < n - 2)%nat -> tdma_w l2 d0 u2 w j) -> forall j, (j < n)%nat -> 1 <= Rabs (val (piv l2 d0 w j))) ->
  length l2 = (n - 2)%nat -> length d0 = n -> length u2 = (n - 2)%nat -> length rhs = n ->
  INR n * u <= 1 -> inr (9 * INR n * INR n * Rm) -> (forall p j, (j < n)%nat -> fin (cp p rhs.[j]) /\ Rabs (Xv p rhs j) <= Rm) ->
  exists x, tdma md l2 d0 u2 rhs = Ok x /\ length x = n /\ forall p j, (j < n)%nat -> fin (cp p x.[j]) /\ Rabs (Xv p x j) <= 9 * INR n * INR n * Rm.
Proof.
  intros HP L2 L0 LU LR Hu HI HR. pose proof (tdma_steps md l2 d0 u2 rhs) as W. cbv zeta in W. rewrite LR in W. specialize (W Hn L2 L0 LU).
  destruct (tdma md l2 d0 u2 rhs) as [x| |] eqn:E; cbn [wp] in W; try contradiction. exists x. split; auto.
  destruct W as (Lx & w & g & Lw & Lg & HW & HG & HX). split; auto. intros p.
  pose proof (rn_u _ _ _ RN) as [U U1].
  pose proof (pivots FA l2 d0 u2 n Hn (fun j H => proj1 (Fl j H)) Fu Fd Dom w HW) as PV.
  assert (Rm0 : 0 <= Rm). { destruct (HR p 0%nat ltac:(lia)) as [_ H]. pose proof (Rabs_pos (Xv p rhs 0)). lra. }
  assert (N3 : 3 <= INR n). { apply le_INR in Hn. replace (INR 3) with 3 in Hn by (cbn; ring). auto. }
  assert (PW : forall j, (j <= n)%nat -> 1 <= (1 + u) ^ j <= 3).
  { intros j Hj. split. apply pow_R1_Rle; lra. apply Rle_trans with ((1 + u) ^ n). apply Rle_pow; [lra|auto]. apply (pow_2u u n U Hu). }
  pose proof (HP w HW) as P1.
  assert (SM : forall M, 0 <= M -> M <= 9 * INR n * INR n * Rm -> forall v, Rabs v <= M -> inr v).
  { intros M M0 HM v Hv. eapply inr_le; [|exact (Rle_trans _ _ _ Hv HM)|auto]. lra. }
  assert (GB : forall j, (j < n)%nat -> fin (cp p g.[j]) /\ Rabs (Xv p g j) <= INR (j + 1) * (1 + u) ^ (j + 1) * Rm).
  { intros j. induction j as [j IH] using lt_wf_ind. intros Hj.
    pose proof (HG j Hj) as E1. unfold tdma_g in E1. destruct (HR p j Hj) as [Fr Br]. destruct (PV j Hj) as (Pf & _ & _).
    set (num := if j <? 2 then rhs.[j] else vsub rhs.[j] (vmul g.[j - 2] l2.[j - 2])) in *.
    assert (J1 : 1 <= INR (j + 1)) by (replace 1 with (INR 1) by reflexivity; apply le_INR; lia).
    assert (JN : INR (j + 1) <= INR n) by (apply le_INR; lia).
    set (M := INR (j + 1) * (1 + u) ^ (j + 1) * Rm). pose proof (PW (j + 1)%nat ltac:(lia)) as [Pl Ph].
    assert (M0 : 0 <= M). { unfold M. apply Rmult_le_pos; auto. apply Rmult_le_pos; lra. }
    assert (MM : M <= 9 * INR n * INR n * Rm).
    { unfold M. apply Rmult_le_compat_r; auto. assert (INR (j + 1) * (1 + u) ^ (j + 1) <= INR n * 3) by (apply Rmult_le_compat; lra).
      assert (3 * INR n <= INR n * INR n) by (apply Rmult_le_compat_r; lra). lra. }
    assert (NB : fin (cp p num) /\ Rabs (val (cp p num)) <= M).
    { unfold num. destruct (Nat.ltb_spec j 2).
      - split; auto. apply Rle_trans with (1 := Br). unfold M. replace Rm with (1 * 1 * Rm) at 1 by ring. apply Rmult_le_compat_r; auto. apply Rmult_le_compat; lra.
      - destruct (IH (j - 2)%nat ltac:(lia) ltac:(lia)) as [Fg Bg]. destruct (Fl (j - 2)%nat ltac:(lia)) as [Fl1 Fl2].
        set (M' := INR (j - 2 + 1) * (1 + u) ^ (j - 2 + 1) * Rm) in *.
        assert (MS : (1 + u) * (Rm + M') <= M).
        { unfold M, M'. assert (Q : (1 + u) ^ (j + 1) = (1 + u) * ((1 + u) * (1 + u) ^ (j - 2 + 1))). { replace (j + 1)%nat with (S (S (j - 2 + 1))) by lia. reflexivity. }
          assert (I : INR (j + 1) = INR (j - 2 + 1) + 2). { replace (j + 1)%nat with (j - 2 + 1 + 2)%nat by lia. rewrite plus_INR. cbn. ring. }
          rewrite Q, I. set (y := (1 + u) ^ (j - 2 + 1)). assert (Y : 1 <= y) by (apply pow_R1_Rle; lra). pose proof (pos_INR (j - 2 + 1)) as I0. set (i := INR (j - 2 + 1)) in *.
          replace ((i + 2) * ((1 + u) * ((1 + u) * y)) * Rm) with ((1 + u) * ((i + 2) * (1 + u) * y * Rm)) by ring.
          apply Rmult_le_compat_l. lra. assert (Y2 : y <= (1 + u) * y). { pose proof (Rmult_le_pos u y U ltac:(lra)). lra. }
          assert (1 * Rm <= ((1 + u) * y) * Rm) by (apply Rmult_le_compat_r; lra).
          assert (i * y * Rm <= i * ((1 + u) * y) * Rm). { apply Rmult_le_compat_r; auto. apply Rmult_le_compat_l; auto. }
          assert (0 <= (1 + u) * y * Rm) by (apply Rmult_le_pos; lra). lra. }
        assert (M'0 : 0 <= M') by (pose proof (Rabs_pos (Xv p g (j - 2))); lra).
        assert (MM' : M' <= M). { pose proof (Rmult_le_pos u (Rm + M') U ltac:(lra)). lra. }
        rewrite cp_sub, cp_mul. destruct (mul_fin (cp p g.[j - 2]) l2.[j - 2] Fg Fl1 Fl2) as [Fm Bm].
        { apply (SM M M0 MM). apply Rle_trans with (1 := Bg). auto. }
        destruct (sub_fin (cp p rhs.[j]) (nmul (cp p g.[j - 2]) l2.[j - 2]) (Rm + M') Fr Fm) as [Fs Bs].
        { unfold X in Bg, Br. lra. }
        { apply (SM M M0 MM). rewrite Rabs_pos_eq; auto. apply Rmult_le_pos; lra. }
        split; auto. lra. }
    destruct NB as [NF NB].
    destruct (div_fin (cp p num) (piv l2 d0 w j) NF Pf (P1 j Hj)) as [DF DB]. { apply (SM M M0 MM); auto. }
    unfold X. rewrite E1. rewrite cp_div. split; auto. lra. }
  set (G := INR n * 3 * Rm).
  assert (GB' : forall j, (j < n)%nat -> Rabs (Xv p g j) <= G).
  { intros j Hj. destruct (GB j Hj) as [_ B]. apply Rle_trans with (1 := B). unfold G. apply Rmult_le_compat_r; auto. pose proof (PW (j + 1)%nat ltac:(lia)).
    apply Rmult_le_compat; try lra. apply pos_INR. apply le_INR. lia. }
  assert (G0 : 0 <= G) by (unfold G; apply Rmult_le_pos; auto; lra).
  (* back substitution *)
  assert (XB : forall q j, (j < n)%nat -> q = (n - j)%nat -> fin (cp p x.[j]) /\ Rabs (Xv p x j) <= INR q * (1 + u) ^ q * G).
  { intros q. induction q as [q IH] using lt_wf_ind. intros j Hj Eq.
    pose proof (HX j Hj) as E1. unfold tdma_x in E1. destruct (GB j Hj) as [Fg _]. pose proof (GB' j Hj) as Bg.
    assert (Q1 : 1 <= INR q) by (replace 1 with (INR 1) by reflexivity; apply le_INR; lia).
    assert (QN : INR q <= INR n) by (apply le_INR; lia). pose proof (PW q ltac:(lia)) as [Pl Ph].
    set (M := INR q * (1 + u) ^ q * G).
    assert (M0 : 0 <= M). { unfold M. apply Rmult_le_pos; auto. apply Rmult_le_pos; lra. }
    assert (MM : M <= 9 * INR n * INR n * Rm).
    { unfold M. replace (9 * INR n * INR n * Rm) with (INR n * 3 * G) by (unfold G; ring). apply Rmult_le_compat_r; auto. apply Rmult_le_compat; lra. }
    unfold X. rewrite E1. destruct (Nat.ltb_spec (j + 2) n).
    - destruct (IH (q - 2)%nat ltac:(lia) (j + 2)%nat ltac:(lia) ltac:(lia)) as [Fx Bx]. destruct (PV j Hj) as (_ & _ & _ & _ & Pw). destruct (Pw ltac:(lia)) as (Fw & _ & Bw).
      set (M' := INR (q - 2) * (1 + u) ^ (q - 2) * G) in *.
      assert (MS : (1 + u) * (G + M') <= M).
      { unfold M, M'. assert (Q : (1 + u) ^ q = (1 + u) * ((1 + u) * (1 + u) ^ (q - 2))). { replace q with (S (S (q - 2))) at 1 by lia. reflexivity. }
        assert (I : INR q = INR (q - 2) + 2). { replace q with (q - 2 + 2)%nat at 1 by lia. rewrite plus_INR. cbn. ring. }
        rewrite Q, I. set (y := (1 + u) ^ (q - 2)). assert (Y : 1 <= y) by (apply pow_R1_Rle; lra). pose proof (pos_INR (q - 2)) as I0. set (i := INR (q - 2)) in *.
        replace ((i + 2) * ((1 + u) * ((1 + u) * y)) * G) with ((1 + u) * ((i + 2) * (1 + u) * y * G)) by ring.
        apply Rmult_le_compat_l. lra. assert (Y2 : y <= (1 + u) * y). { pose proof (Rmult_le_pos u y U ltac:(lra)). lra. }
        assert (1 * G <= ((1 + u) * y) * G) by (apply Rmult_le_compat_r; lra).
        assert (i * y * G <= i * ((1 + u) * y) * G). { apply Rmult_le_compat_r; auto. apply Rmult_le_compat_l; auto. }
        assert (0 <= (1 + u) * y * G) by (apply Rmult_le_pos; lra). lra. }
      assert (M'0 : 0 <= M') by (pose proof (Rabs_pos (Xv p x (j + 2))); lra).
      assert (MM' : M' <= M). { pose proof (Rmult_le_pos u (G + M') U ltac:(lra)). lra. }
      rewrite cp_sub, cp_mul. destruct (mul_fin (cp p x.[j + 2]) w.[j] Fx Fw Bw) as [Fm Bm].
      { apply (SM M M0 MM). apply Rle_trans with (1 := Bx). auto. }
      destruct (sub_fin (cp p g.[j]) (nmul (cp p x.[j + 2]) w.[j]) (G + M') Fg Fm) as [Fs Bs].
      { unfold X in Bg, Bx. lra. }
      { apply (SM M M0 MM). rewrite Rabs_pos_eq; auto. apply Rmult_le_pos; lra. }
      split; auto. lra.
    - split; auto. apply Rle_trans with (1 := Bg). unfold M. replace G with (1 * 1 * G) at 1 by ring. apply Rmult_le_compat_r; auto. apply Rmult_le_compat; lra. }
  intros j Hj. destruct (XB (n - j)%nat j Hj eq_refl) as [F B]. split; auto. apply Rle_trans with (1 := B).
  replace (9 * INR n * INR n * Rm) with (INR n * 3 * G) by (unfold G; ring). apply Rmult_le_compat_r; auto.
  pose proof (PW (n - j)%nat ltac:(lia)). apply Rmult_le_compat; try lra. apply pos_INR. apply le_INR. lia.
Qed.
End Run.

(** The Dirichlet base *)
Lemma mul_1_fin x : fin x -> inr (val x) -> fin (nmul x n1) /\ Rabs (val (nmul x n1)) <= Rabs (val x).
Proof. intros. destruct (fa_1 _ _ _ _ _ _ _ _ FA) as [F1 E1]. apply mul_fin; auto. rewrite E1, Rabs_R1. lra. Qed.
Lemma mul_m1_fin x : fin x -> inr (val x) -> fin (nmul x (nopp n1)) /\ Rabs (val (nmul x (nopp n1))) <= Rabs (val x).
Proof. intros. destruct (fin_m1 FA) as [F1 E1]. apply mul_fin; auto. rewrite E1, Rabs_left; lra. Qed.

Lemma dir_to_ortho_fin n (v o : list T) Cm : (4 <= n)%nat -> length v = (n - 2)%nat -> length o = n ->
  (forall p k, (k < n - 2)%nat -> fin (cp p v.[k]) /\ Rabs (Xv p v k) <= Cm) -> inr (3 * Cm) ->
  exists a, compo_to_ortho (mk_compo n (n - 2) (mk_cheb n n) (Dirichlet (dir_st2 (n - 2)))) v o = Ok a /\ length a = n /\
    forall p k, (k < n)%nat -> fin (cp p a.[k]) /\ Rabs (Xv p a k) <= 3 * Cm.
Proof.
  intros Hn Lv Lo HC HI. pose proof (dir_to_ortho n v o Hn Lv Lo) as W.
  destruct (compo_to_ortho _ v o) as [a| |] eqn:E; cbn [wp] in W; try contradiction. exists a. split; auto. destruct W as [La Ea]. split; auto.
  pose proof (rn_u _ _ _ RN) as [U U1]. intros p k Hk. unfold X. rewrite Ea by auto.
  assert (C0 : 0 <= Cm). { destruct (HC p 0%nat ltac:(lia)) as [_ H]. pose proof (Rabs_pos (Xv p v 0)). lra. }
  assert (IC : forall x, Rabs x <= 3 * Cm -> inr x). { intros x Hx. eapply inr_le; [|exact Hx|auto]. lra. }
  destruct (Nat.ltb_spec k 2); [|destruct (Nat.ltb_spec k (n - 2))].
  - destruct (HC p k ltac:(lia)) as [F B]. unfold X in B. rewrite cp_mul. destruct (mul_1_fin (cp p v.[k]) F) as [F1 B1]. apply IC; lra. split; auto. lra.
  - destruct (HC p k ltac:(lia)) as [F B]. destruct (HC p (k - 2)%nat ltac:(lia)) as [F' B']. unfold X in B, B'. rewrite cp_add, !cp_mul.
    destruct (mul_1_fin (cp p v.[k]) F) as [F1 B1]. apply IC; lra. destruct (mul_m1_fin (cp p v.[k - 2]) F') as [F2 B2]. apply IC; lra.
    assert (u * Cm <= / 64 * Cm) by (apply Rmult_le_compat_r; auto). pose proof (Rmult_le_pos u Cm U C0).
    destruct (add_fin _ _ (2 * Cm) F1 F2) as [F3 B3]. lra. apply IC. rewrite Rabs_pos_eq; lra. split; auto. lra.
  - destruct (HC p (k - 2)%nat ltac:(lia)) as [F' B']. unfold X in B'. rewrite cp_mul. destruct (mul_m1_fin (cp p v.[k - 2]) F') as [F2 B2]. apply IC; lra. split; auto. lra.
Qed.
Lemma dir_from_ortho_fin n (a o : list T) Am : (5 <= n)%nat -> length a = n -> length o = (n - 2)%nat -> INR n * u <= 1 -> 0 <= Am ->
  (forall p k, (k < n)%nat -> fin (cp p a.[k]) /\ Rabs (Xv p a k) <= Am) -> inr (27 * INR n * INR n * Am) ->
  exists x, compo_from_ortho (mk_compo n (n - 2) (mk_cheb n n) (Dirichlet (dir_st2 (n - 2)))) a o = Ok x /\ length x = (n - 2)%nat /\
    forall p k, (k < n - 2)%nat -> fin (cp p x.[k]) /\ Rabs (Xv p x k) <= 27 * INR n * INR n * Am.
Proof.
  intros Hn La Lo Hu A0 HA HI. rewrite dir_from_ortho by auto. set (rhs := map _ _). set (m := (n - 2)%nat) in *.
  pose proof (rn_u _ _ _ RN) as [U U1].
  assert (Lr : length rhs = m) by (unfold rhs; rewrite map_length, seq_length; auto).
  destruct (dir_lens (N := N) m ltac:(lia)) as (L1 & L2 & L3 & L4).
  assert (Rl : forall j, (j < m)%nat -> rlo (val := val) (d2_toff2 (dir_st2 m)) j = if j <? 2 then 0 else -1).
  { intros j Hj. unfold rlo. destruct (Nat.ltb_spec j 2); auto. apply (dir_toff2 FA); lia. }
  assert (Ru : forall j, (j < m)%nat -> rup (val := val) m (d2_toff2 (dir_st2 m)) j = if j + 2 <? m then -1 else 0).
  { intros j Hj. unfold rup. destruct (Nat.ltb_spec (j + 2) m); auto. apply (dir_toff2 FA); lia. }
  assert (N5 : 5 <= INR n). { apply le_INR in Hn. replace (INR 5) with 5 in Hn by (cbn; ring). auto. }
  assert (MN : 0 <= INR m <= INR n). { split. apply pos_INR. apply le_INR. unfold m. lia. }
  assert (B1 : INR m * INR m * Am <= INR n * INR n * Am). { apply Rmult_le_compat_r; auto. apply Rmult_le_compat; lra. }
  assert (B2 : Am <= INR n * INR n * Am).
  { rewrite <- (Rmult_1_l Am) at 1. apply Rmult_le_compat_r; auto. pose proof (Rmult_le_compat 1 (INR n) 1 (INR n)). lra. }
  assert (FR : forall p j, (j < m)%nat -> fin (cp p rhs.[j]) /\ Rabs (Xv p rhs j) <= 3 * Am).
  { intros p j Hj. unfold X. unfold rhs. rewrite at_map_seq by auto. cbn [Nat.add]. rewrite cp_add, !cp_mul.
    assert (IC : forall x, Rabs x <= 3 * Am -> inr x). { intros x Hx. eapply inr_le; [|eapply Rle_trans; [exact Hx|]|exact HI]; lra. }
    destruct (HA p j ltac:(lia)) as [Fa Ba]. destruct (HA p (j + 2)%nat ltac:(lia)) as [Fb Bb]. unfold X in Ba, Bb.
    destruct (mul_1_fin (cp p a.[j]) Fa) as [F1 G1]. apply IC; lra. destruct (mul_m1_fin (cp p a.[j + 2]) Fb) as [F2 G2]. apply IC; lra.
    assert (u * Am <= / 64 * Am) by (apply Rmult_le_compat_r; auto). pose proof (Rmult_le_pos u Am U A0).
    destruct (add_fin _ _ (2 * Am) F1 F2) as [F3 B3]. lra. apply IC. rewrite Rabs_pos_eq; lra. split; auto. lra. }
  assert (K1 : forall j, (j < m - 2)%nat -> fin (d2_toff2 (dir_st2 m)).[j] /\ Rabs (val (d2_toff2 (dir_st2 m)).[j]) <= 1).
  { intros j Hj. destruct (dir_toff2 FA m j Hj) as [F E]. split; auto. rewrite E, Rabs_left; lra. }
  assert (K2 : forall j, (j < m - 2)%nat -> fin (d2_toff2 (dir_st2 m)).[j]) by (intros; apply K1; auto).
  assert (K3 : forall j, (j < m)%nat -> fin (d2_tdiag (dir_st2 m)).[j] /\ inr (4 * val (d2_tdiag (dir_st2 m)).[j])).
  { intros j Hj. destruct (dir_tdiag FA m j Hj) as [F E]. rewrite E. split; auto. apply (inr_small FA). rewrite Rabs_pos_eq; lra. }
  assert (K4 : forall j, (j < m)%nat -> Rabs (rlo (val := val) (d2_toff2 (dir_st2 m)) j) + Rabs (rup (val := val) m (d2_toff2 (dir_st2 m)) j) <= Rabs (val (d2_tdiag (dir_st2 m)).[j]) /\
     Rabs (rlo (val := val) (d2_toff2 (dir_st2 m)) j) < Rabs (val (d2_tdiag (dir_st2 m)).[j])).
  { intros j Hj. destruct (dir_tdiag FA m j Hj) as [_ ->]. rewrite Rl, Ru by auto. rewrite (Rabs_pos_eq 2) by lra.
    destruct (j <? 2), (j + 2 <? m); rewrite ?Rabs_R0, ?(Rabs_left (-1)) by lra; lra. }
  destruct (tdma_finite (d2_toff2 (dir_st2 m)) (d2_tdiag (dir_st2 m)) (d2_toff2 (dir_st2 m)) m ltac:(lia) K1 K2 K3 K4) with (md := Unchecked) (rhs := rhs) (Rm := 3 * Am) as (x & Ex & Lx & Hx); auto; try lia.
  - intros w HW. apply (piv_ge1 _ _ _ m ltac:(lia) K1 K2 K3 K4 w); auto. intros j Hj. destruct (dir_tdiag FA m j Hj) as [_ ->]. rewrite Rabs_pos_eq; lra.
  - apply Rle_trans with (INR n * u); auto. apply Rmult_le_compat_r; lra.
  - eapply inr_le; [| |exact HI]. lra. rewrite Rabs_pos_eq. lra. apply Rmult_le_pos; [|lra]. apply Rmult_le_pos; lra.
  - exists x. split; auto. split; auto. intros p k Hk. destruct (Hx p k Hk) as [F B]. split; auto. lra.
Qed.
End Fl.
