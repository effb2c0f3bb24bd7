(** Rounding errors of the Neumann base: the stencil coefficients, to_ortho,
    from_ortho and the round trip, in any floating-point arithmetic (C54). *)
From Coq Require Import List Arith ZArith Reals Bool Lra Lia.
From Flocq Require Import Raux.
From Verif Require Import Base Num Linalg Stencils StencilProofs Cheb Compo CompoProofs AnyArith ArithSteps Rounding RndTdma RndDirichlet RndFinite PropRound.
Import ListNotations.
Local Open Scope R_scope.

(** ** The Neumann stencil in any arithmetic *)
Section Gen.
Context {A T : Type} {N : Num A} {V : Vec A T}.
Definition neu_low (m : nat) : list A := map neumann_low2 (seq 0 m).
Definition neu_st2 (m : nat) : st2 A :=
  mk_st2 (repeat n1 m) (neu_low m)
    (map (fun i => nadd (nmul (repeat n1 m).[i] (repeat n1 m).[i]) (nmul (neu_low m).[i] (neu_low m).[i])) (seq 0 m))
    (map (fun i => nmul (repeat n1 m).[i+2] (neu_low m).[i]) (seq 0 (m - 2))).
Lemma neu_new n : (4 <= n)%nat -> compo_new KNeumann n = Ok (mk_compo n (n - 2) (mk_cheb n n) (Neumann (neu_st2 (n - 2)))).
Proof.
  intros Hn. unfold compo_new, stencil_new, get_m, usub, cheb_new. destruct (Nat.leb_spec 2 n); [|lia]. cbn [bind].
  rewrite (fill_eq _ _ neumann_low2) by (intros; reflexivity). cbn [bind]. rewrite repeat_length.
  rewrite (st2_new_gen _ _ (n - 2)) by (rewrite ?repeat_length, ?map_length, ?seq_length; lia). reflexivity.
Qed.
Lemma neu_inv n c : compo_new KNeumann n = Ok c -> (4 <= n)%nat /\ c = mk_compo n (n - 2) (mk_cheb n n) (Neumann (neu_st2 (n - 2))).
Proof.
  intros H. destruct (le_lt_dec 4 n) as [Hn|Hn].
  - split; auto. rewrite neu_new in H by auto. congruence.
  - rewrite compo_new_panics in H. discriminate. cbn [smin]. lia.
Qed.
Lemma neu_lens m : (2 <= m)%nat -> st2_lens m (neu_st2 m).
Proof. intros. unfold st2_lens, neu_st2, neu_low. cbn [d2_diag d2_low2 d2_tdiag d2_toff2]. rewrite !repeat_length, !map_length, !seq_length. lia. Qed.
Lemma neu_low_at m j : (j < m)%nat -> (neu_low m).[j] = neumann_low2 j.
Proof. intros. unfold neu_low. rewrite at_map_seq by auto. reflexivity. Qed.
Lemma neu_to_ortho n (v o : list T) : (4 <= n)%nat -> length v = (n - 2)%nat -> length o = n ->
  wp (compo_to_ortho (mk_compo n (n - 2) (mk_cheb n n) (Neumann (neu_st2 (n - 2)))) v o)
    (fun a => length a = n /\ forall k, (k < n)%nat -> a.[k] =
      if k <? 2 then vmul v.[k] n1 else if k <? n - 2 then vadd (vmul v.[k] n1) (vmul v.[k - 2] (neumann_low2 (k - 2))) else vmul v.[k - 2] (neumann_low2 (k - 2))).
Proof.
  intros Hn Lv Lo. unfold compo_to_ortho, stencil_dot. cbn [p_st]. eapply wp_mono. { apply (st2_dot_entries (neu_st2 (n - 2)) n); auto. apply neu_lens; lia. }
  intros a [La Ea]. split; auto. intros k Hk. rewrite Ea by auto. unfold dot2_entry, neu_st2. cbn [d2_diag d2_low2].
  destruct (Nat.ltb_spec k 2). rewrite at_repeat by lia. auto.
  destruct (Nat.ltb_spec k (n - 2)); rewrite ?neu_low_at, ?at_repeat by lia; auto.
Qed.
Lemma neu_from_ortho n (a o : list T) : (5 <= n)%nat -> length a = n -> length o = (n - 2)%nat ->
  compo_from_ortho (mk_compo n (n - 2) (mk_cheb n n) (Neumann (neu_st2 (n - 2)))) a o =
    tdma Unchecked (d2_toff2 (neu_st2 (n - 2))) (d2_tdiag (neu_st2 (n - 2))) (d2_toff2 (neu_st2 (n - 2)))
      (map (fun i => vadd (vmul a.[i] n1) (vmul a.[i + 2] (neumann_low2 i))) (seq 0 (n - 2))).
Proof.
  intros Hn La Lo. unfold compo_from_ortho. cbn [p_st]. rewrite (stencil_solve_eq KNeumann n); auto; cbn [smin]; try lia.
  unfold solve_band, solve_rhs. f_equal. unfold sdim. cbn [sstep]. replace (n - 2 * 1)%nat with (n - 2)%nat by lia.
  2: { cbn [st_lens]. unfold sdim. cbn [sstep]. replace (n - 2 * 1)%nat with (n - 2)%nat by lia. apply neu_lens; lia. }
  apply map_ext_in. intros i Hi. apply in_seq in Hi. unfold neu_st2. cbn [d2_diag d2_low2]. rewrite neu_low_at, !at_repeat by lia. auto.
Qed.
End Gen.

(** ** The exact coefficient j^2 / (j+2)^2 *)
Definition nq (j : nat) : R := INR j * INR j / ((INR j + 2) * (INR j + 2)).
Lemma nq_range j : 0 <= nq j < 1.
Proof.
  pose proof (pos_INR j) as H. unfold nq. split.
  - apply Rmult_le_pos. apply Rmult_le_pos; auto. apply Rlt_le, Rinv_0_lt_compat. apply Rmult_lt_0_compat; lra.
  - apply Rmult_lt_reg_r with ((INR j + 2) * (INR j + 2)). apply Rmult_lt_0_compat; lra. unfold Rdiv. rewrite Rmult_assoc, Rinv_l. nra.
    apply Rgt_not_eq. apply Rmult_lt_0_compat; lra.
Qed.
(** the diagonal of the normal equations dominates: 1 + q_j^2 - q_j - q_(j-2) >= 12/(j+2)^2 *)
Lemma nq_slack j : (2 <= j)%nat -> 12 / ((INR j + 2) * (INR j + 2)) <= 1 + nq j * nq j - nq j - nq (j - 2).
Proof.
  intros Hj. unfold nq. rewrite minus_INR by lia. replace (INR 2) with 2 by (cbn; ring). apply le_INR in Hj. replace (INR 2) with 2 in Hj by (cbn; ring).
  set (t := INR j) in *. clearbody t. replace (t - 2 + 2) with t by ring.
  assert (Ht : 0 < t) by lra.
  assert (P : 0 < t * t * ((t + 2) * (t + 2)) * ((t + 2) * (t + 2))) by (repeat apply Rmult_lt_0_compat; lra).
  apply Rminus_le. apply Rmult_le_reg_r with (1 := P). rewrite Rmult_0_l.
  replace ((12 / ((t + 2) * (t + 2)) - (1 + t * t / ((t + 2) * (t + 2)) * (t * t / ((t + 2) * (t + 2))) - t * t / ((t + 2) * (t + 2)) - (t - 2) * (t - 2) / (t * t))) * (t * t * ((t + 2) * (t + 2)) * ((t + 2) * (t + 2))))
    with (12 * (t * t) * ((t + 2) * (t + 2)) - 4 * (6 * t ^ 4 + 16 * t ^ 3 + 8 * t ^ 2 - 16 * t - 16)) by (field; lra).
  assert (E : t = (t - 2) + 2) by ring. set (s := t - 2) in *. assert (S0 : 0 <= s) by (unfold s; lra). clearbody s. rewrite E.
  pose proof (Rmult_le_pos s s S0 S0). pose proof (Rmult_le_pos s (s * s) S0 H). pose proof (Rmult_le_pos s (s * (s * s)) S0 H0). nra.
Qed.
Definition qprev (j : nat) : R := if j <? 2 then 0 else nq (j - 2).
Definition qnext (m j : nat) : R := if j + 2 <? m then nq j else 0.
Lemma nq_slack_all n j : (4 <= n)%nat -> (j < n - 2)%nat -> 12 / (INR n * INR n) <= 1 + nq j * nq j - qprev j - nq j.
Proof.
  intros Hn Hj. assert (N4 : 4 <= INR n). { apply le_INR in Hn. replace (INR 4) with 4 in Hn by (cbn; ring). auto. }
  unfold qprev. destruct (Nat.ltb_spec j 2).
  - assert (Q : 3 / 4 <= 1 + nq j * nq j - nq j). { pose proof (Rle_0_sqr (nq j - / 2)) as S. unfold Rsqr in S. lra. }
    assert (12 / (INR n * INR n) <= 3 / 4). 2: lra.
    apply Rmult_le_reg_r with (INR n * INR n). nra. unfold Rdiv. rewrite Rmult_assoc, Rinv_l by nra. nra.
  - pose proof (nq_slack j ltac:(lia)) as S. eapply Rle_trans; [|eapply Rle_trans; [exact S|lra]].
    assert (Hj2 : INR j + 2 <= INR n). { replace 2 with (INR 2) by (cbn; ring). rewrite <- plus_INR. apply le_INR. lia. }
    pose proof (pos_INR j). unfold Rdiv. apply Rmult_le_compat_l. lra. apply Rinv_le_contravar. apply Rmult_lt_0_compat; lra.
    apply Rmult_le_compat; lra.
Qed.

(** a strictly diagonally dominant system bounds its solution by the right-hand side *)
Definition neu_row (m : nat) (z : nat -> R) (j : nat) : R :=
  (1 + nq j * nq j) * z j - qprev j * z (j - 2)%nat - qnext m j * z (j + 2)%nat.
Lemma neu_dominance n (z : nat -> R) rho : (4 <= n)%nat ->
  (forall j, (j < n - 2)%nat -> Rabs (neu_row (n - 2) z j) <= rho) -> forall j, (j < n - 2)%nat -> Rabs (z j) <= INR n * INR n / 12 * rho.
Proof.
  intros Hn H j Hj. destruct (bounded_max (n - 2) z) as (M & M0 & HM & HA). apply Rle_trans with (1 := HM j Hj).
  assert (N4 : 4 <= INR n). { apply le_INR in Hn. replace (INR 4) with 4 in Hn by (cbn; ring). auto. }
  assert (R0 : 0 <= rho). { pose proof (H j Hj). pose proof (Rabs_pos (neu_row (n - 2) z j)). lra. }
  destruct HA as [->|(i & Hi & E)]. { apply Rmult_le_pos; auto. nra. }
  pose proof (nq_slack_all n i Hn Hi) as S. specialize (H i Hi). unfold neu_row in H.
  assert (Q0 : 0 <= qprev i). { unfold qprev. destruct (i <? 2). lra. apply nq_range. }
  assert (Q1 : 0 <= qnext (n - 2) i <= nq i). { unfold qnext. pose proof (nq_range i). destruct (i + 2 <? n - 2); lra. }
  assert (B1 : qprev i * Rabs (z (i - 2)%nat) <= qprev i * M) by (apply Rmult_le_compat_l; auto; apply HM; lia).
  assert (B2 : qnext (n - 2) i * Rabs (z (i + 2)%nat) <= nq i * M).
  { unfold qnext in *. destruct (Nat.ltb_spec (i + 2) (n - 2)). apply Rmult_le_compat_l. apply nq_range. apply HM; auto.
    rewrite Rmult_0_l. apply Rmult_le_pos; auto. apply nq_range. }
  assert (D : (1 + nq i * nq i) * M - qprev i * M - nq i * M <= rho).
  { rewrite E in *. pose proof (Rle_0_sqr (nq i)) as SQ. unfold Rsqr in SQ.
    set (d := 1 + nq i * nq i) in *. replace (d * Rabs (z i)) with (Rabs (d * z i)) by (rewrite Rabs_mult, (Rabs_pos_eq d); [reflexivity|unfold d; lra]).
    replace (d * z i) with ((d * z i - qprev i * z (i - 2)%nat - qnext (n - 2) i * z (i + 2)%nat) + (qprev i * z (i - 2)%nat + qnext (n - 2) i * z (i + 2)%nat)) by ring.
    pose proof (Rabs_triang (d * z i - qprev i * z (i - 2)%nat - qnext (n - 2) i * z (i + 2)%nat) (qprev i * z (i - 2)%nat + qnext (n - 2) i * z (i + 2)%nat)) as T1.
    pose proof (Rabs_triang (qprev i * z (i - 2)%nat) (qnext (n - 2) i * z (i + 2)%nat)) as T2. rewrite !Rabs_mult, (Rabs_pos_eq (qprev i)), (Rabs_pos_eq (qnext (n - 2) i)) in T2 by lra. lra. }
  assert (S' : 12 / (INR n * INR n) * M <= rho).
  { eapply Rle_trans; [apply Rmult_le_compat_r; [auto|exact S]|]. lra. }
  apply Rmult_le_reg_l with (12 / (INR n * INR n)). unfold Rdiv. apply Rmult_lt_0_compat. lra. apply Rinv_0_lt_compat. nra.
  eapply Rle_trans; [exact S'|]. right. field. lra.
Qed.

(** ** Floating-point *)
Definition neu_coef (n : nat) (c : nat -> R) (k : nat) : R :=
  (if k <? n - 2 then c k else 0) - (if k <? 2 then 0 else nq (k - 2) * c (k - 2)%nat).

Section Fl.
Context {A : Type} {N : Num A} {u eta : R} {rnd : R -> R} {zmax : Z} {inr : R -> Prop} {fin : A -> Prop} {val : A -> R}
  (FA : float_arith N u eta rnd zmax inr fin val) {T : Type} {V : Vec A T} {VC : VecC N T V}.
Let RN := fa_rnd _ _ _ _ _ _ _ _ FA.
Let FF := fa_float _ _ _ _ _ _ _ _ FA.
Notation Xv := (X (val := val)).

Lemma rnd_le1 x : Rabs x <= 1 -> Rabs (rnd x) <= 1.
Proof.
  intros H. pose proof (rnd_abs_le RN x 1) as G. rewrite Rabs_R1 in G. apply G; auto. apply (rnd_int FA 1). cbn; lia.
Qed.
Lemma neu_low_fin n j : (Z.of_nat n * Z.of_nat n <= zmax)%Z -> (j < n - 2)%nat ->
  fin (neumann_low2 j) /\ Rabs (val (neumann_low2 j) + nq j) <= u * nq j + eta /\ Rabs (val (neumann_low2 j)) <= 1.
Proof.
  intros Hz Hj. unfold neumann_low2, nofN.
  destruct (fa_int _ _ _ _ _ _ _ _ FA (Z.of_nat (j * j))) as [F1 E1]. { clear - Hz Hj. nia. }
  destruct (fa_int _ _ _ _ _ _ _ _ FA (Z.of_nat ((j + 2) * (j + 2)))) as [F2 E2]. { clear - Hz Hj. nia. }
  destruct (fin_m1 FA) as [Fm Em]. rewrite <- INR_IZR_INZ, mult_INR in E1. rewrite <- INR_IZR_INZ, mult_INR, plus_INR in E2. replace (INR 2) with 2 in E2 by (cbn; ring).
  set (z1 := nofZ (Z.of_nat (j * j))) in *. set (z2 := nofZ (Z.of_nat ((j + 2) * (j + 2)))) in *.
  assert (Er : rnd (-1 * val z1) = - (INR j * INR j)).
  { replace (-1 * val z1) with (- val z1) by ring. rewrite (rn_opp _ _ _ RN), (FF z1 F1), E1. auto. }
  assert (F3 : fin (nmul (nopp n1) z1)).
  { apply (fa_mulF _ _ _ _ _ _ _ _ FA); auto. rewrite Em, Er, <- E1. apply (fa_inr _ _ _ _ _ _ _ _ FA) with (IZR (Z.of_nat (j * j))).
    rewrite Rabs_Ropp, E1, <- INR_IZR_INZ, mult_INR. lra. apply (fa_inrz _ _ _ _ _ _ _ _ FA). clear - Hz Hj. nia. }
  destruct (fa_mul _ _ _ _ _ _ _ _ FA _ _ F3) as (_ & _ & E3). rewrite Em, Er in E3.
  pose proof (nq_range j) as Q. pose proof (pos_INR j) as P.
  assert (NZ : val z2 <> 0). { rewrite E2. apply Rgt_not_eq. apply Rmult_lt_0_compat; lra. }
  assert (E4 : val (nmul (nopp n1) z1) / val z2 = - nq j). { rewrite E3, E2. unfold nq. field. lra. }
  assert (B : Rabs (rnd (- nq j)) <= 1). { apply rnd_le1. rewrite Rabs_Ropp, Rabs_pos_eq; lra. }
  assert (F : fin (ndiv (nmul (nopp n1) z1) z2)).
  { apply (fa_divF _ _ _ _ _ _ _ _ FA); auto. rewrite E4. apply (inr_small FA). lra. }
  destruct (fa_div _ _ _ _ _ _ _ _ FA _ _ F F2 NZ) as [_ E]. rewrite E, E4. split; auto. split; auto.
  pose proof (rn_err _ _ _ RN (- nq j)) as H. rewrite (Rabs_Ropp (nq j)), (Rabs_pos_eq (nq j)) in H by lra. replace (rnd (- nq j) + nq j) with (rnd (- nq j) - - nq j) by ring. auto.
Qed.
(** one product with a stencil coefficient *)
Lemma low_mul n j x : (Z.of_nat n * Z.of_nat n <= zmax)%Z -> (j < n - 2)%nat -> fin (nmul x (neumann_low2 j)) -> fin x /\
  Rabs (val (nmul x (neumann_low2 j)) + nq j * val x) <= 2.1 * u * (nq j * Rabs (val x)) + 1.1 * eta * (1 + Rabs (val x)).
Proof.
  intros Hz Hj F. destruct (fa_mul _ _ _ _ _ _ _ _ FA _ _ F) as (Fx & _ & ->). split; auto.
  destruct (neu_low_fin n j Hz Hj) as (_ & H1 & _). set (l := val (neumann_low2 j)) in *. set (c := val x).
  pose proof (nq_range j) as Q. pose proof (rn_u _ _ _ RN) as [U U1]. pose proof (rn_eta _ _ _ RN) as H0. pose proof (Rabs_pos c) as C0.
  pose proof (rn_err _ _ _ RN (c * l)) as H2. set (q := nq j) in *.
  assert (L : Rabs l <= q + u * q + eta). { replace l with ((l + q) + - q) by ring. eapply Rle_trans; [apply Rabs_triang|]. rewrite Rabs_Ropp, (Rabs_pos_eq q) by lra. lra. }
  replace (rnd (c * l) + q * c) with ((rnd (c * l) - c * l) + c * (l + q)) by ring. eapply Rle_trans; [apply Rabs_triang|].
  rewrite Rabs_mult in H2. rewrite (Rabs_mult c).
  assert (G1 : Rabs c * Rabs (l + q) <= Rabs c * (u * q + eta)) by (apply Rmult_le_compat_l; auto).
  assert (G2 : u * (Rabs c * Rabs l) <= u * (Rabs c * (q + u * q + eta))) by (apply Rmult_le_compat_l; auto; apply Rmult_le_compat_l; auto).
  pose proof (Rmult_le_pos _ _ C0 (proj1 Q)) as CQ. pose proof (Rmult_le_pos _ _ C0 H0) as CE. pose proof (Rmult_le_pos _ _ U CQ) as UCQ. pose proof (Rmult_le_pos _ _ U CE) as UCE.
  assert (G3 : u * (u * (Rabs c * q)) <= / 64 * (u * (Rabs c * q))) by (apply Rmult_le_compat_r; auto).
  assert (G4 : u * (Rabs c * eta) <= / 64 * (Rabs c * eta)) by (apply Rmult_le_compat_r; auto).
  lra.
Qed.
(** a coefficient plus a product: one entry of to_ortho, one right-hand side of from_ortho *)
Lemma low_add n j x y : (Z.of_nat n * Z.of_nat n <= zmax)%Z -> (j < n - 2)%nat -> fin (nadd (nmul x n1) (nmul y (neumann_low2 j))) ->
  fin x /\ fin y /\ Rabs (val (nadd (nmul x n1) (nmul y (neumann_low2 j))) - (val x - nq j * val y)) <=
    u * Rabs (val x - nq j * val y) + 3 * u * (nq j * Rabs (val y)) + 2 * eta * (1 + Rabs (val y)).
Proof.
  intros Hz Hj F. destruct (fa_add _ _ _ _ _ _ _ _ FA _ _ F) as (F1 & F2 & ->). destruct (mul_1 FA _ F1) as [Fx ->].
  destruct (low_mul n j y Hz Hj F2) as [Fy H]. split; auto. split; auto.
  pose proof (rn_sum _ _ _ RN (val x) (val (nmul y (neumann_low2 j))) (FF x Fx) (FF _ F2)) as S.
  set (w := val (nmul y (neumann_low2 j))) in *. set (E := val x - nq j * val y) in *. set (P := 2.1 * u * (nq j * Rabs (val y)) + 1.1 * eta * (1 + Rabs (val y))) in *.
  pose proof (rn_u _ _ _ RN) as [U U1]. pose proof (rn_eta _ _ _ RN) as H0. pose proof (nq_range j) as Q. pose proof (Rabs_pos (val y)) as C0.
  assert (SB : Rabs (val x + w) <= Rabs E + P). { replace (val x + w) with (E + (w + nq j * val y)) by (unfold E; ring). eapply Rle_trans; [apply Rabs_triang|]. lra. }
  replace (rnd (val x + w) - E) with ((rnd (val x + w) - (val x + w)) + (w + nq j * val y)) by (unfold E; ring). eapply Rle_trans; [apply Rabs_triang|].
  assert (G1 : u * Rabs (val x + w) <= u * (Rabs E + P)) by (apply Rmult_le_compat_l; auto).
  assert (P0 : 0 <= P). { unfold P. pose proof (Rmult_le_pos u _ U (Rmult_le_pos _ _ (proj1 Q) C0)). pose proof (Rmult_le_pos eta (1 + Rabs (val y)) H0 ltac:(lra)). lra. }
  assert (G2 : u * P <= / 64 * P) by (apply Rmult_le_compat_r; auto).
  pose proof (Rmult_le_pos u _ U (Rmult_le_pos _ _ (proj1 Q) C0)). pose proof (Rmult_le_pos eta (1 + Rabs (val y)) H0 ltac:(lra)). unfold P in *. lra.
Qed.

Lemma neu_to_ortho_err n (v o a : list T) p : (4 <= n)%nat -> (Z.of_nat n * Z.of_nat n <= zmax)%Z -> length v = (n - 2)%nat -> length o = n ->
  compo_to_ortho (mk_compo n (n - 2) (mk_cheb n n) (Neumann (neu_st2 (n - 2)))) v o = Ok a ->
  forall k, (k < n)%nat -> fin (cp p a.[k]) ->
    Rabs (Xv p a k - neu_coef n (Xv p v) k) <= u * Rabs (neu_coef n (Xv p v) k) +
      (if k <? 2 then 0 else 3 * u * (nq (k - 2) * Rabs (Xv p v (k - 2))) + 2 * eta * (1 + Rabs (Xv p v (k - 2)))) /\
    ((k < n - 2)%nat -> fin (cp p v.[k])) /\ ((2 <= k)%nat -> fin (cp p v.[k - 2])).
Proof.
  intros Hn Hz Lv Lo E k Hk F. pose proof (neu_to_ortho n v o Hn Lv Lo) as W. rewrite E in W. cbn [wp] in W. destruct W as [_ W].
  specialize (W k Hk). unfold neu_coef. unfold X at 1. rewrite W in F |- *. pose proof (rn_u _ _ _ RN) as [U _].
  destruct (Nat.ltb_spec k 2); [|destruct (Nat.ltb_spec k (n - 2))].
  - destruct (Nat.ltb_spec k (n - 2)); [|lia]. rewrite cp_mul in F |- *. destruct (mul_1 FA _ F) as [F1 ->]. split; [|split; auto; lia].
    change (val (cp p v.[k])) with (Xv p v k). rewrite Rminus_0_r, Rminus_eq_0, Rabs_R0, Rplus_0_r. apply Rmult_le_pos; auto. apply Rabs_pos.
  - rewrite cp_add, !cp_mul in F |- *. destruct (low_add n (k - 2) _ _ Hz ltac:(lia) F) as (F1 & F2 & H1). split; auto.
    eapply Rle_trans; [exact H1|]. unfold X. lra.
  - rewrite cp_mul in F |- *. destruct (low_mul n (k - 2) _ Hz ltac:(lia) F) as (F1 & H1). split; [|split; auto; lia].
    fold (Xv p v (k - 2)) in *. set (c := Xv p v (k - 2)) in *. unfold Rminus. rewrite Rplus_0_l, Ropp_involutive.
    pose proof (nq_range (k - 2)) as Q. rewrite Rabs_Ropp, Rabs_mult, (Rabs_pos_eq (nq (k - 2))) by lra.
    pose proof (Rmult_le_pos _ _ U (Rmult_le_pos _ _ (proj1 Q) (Rabs_pos c))). pose proof (rn_eta _ _ _ RN) as H3. pose proof (Rmult_le_pos eta (1 + Rabs c) H3 ltac:(pose proof (Rabs_pos c); lra)). lra.
Qed.

(** from_ortho: the rows of the system it solves *)
Lemma neu_toff2 n j : (Z.of_nat n * Z.of_nat n <= zmax)%Z -> (j < n - 2 - 2)%nat ->
  fin (d2_toff2 (neu_st2 (n - 2))).[j] /\ val (d2_toff2 (neu_st2 (n - 2))).[j] = val (neumann_low2 j).
Proof.
  intros Hz Hj. unfold neu_st2. cbn [d2_toff2]. rewrite at_map_seq by lia. rewrite at_repeat, neu_low_at by lia. cbn [Nat.add].
  destruct (fa_1 _ _ _ _ _ _ _ _ FA) as [F1 E1]. destruct (neu_low_fin n j Hz ltac:(lia)) as (F2 & _ & B).
  assert (F : fin (nmul n1 (neumann_low2 j))).
  { apply (fa_mulF _ _ _ _ _ _ _ _ FA); auto. rewrite E1, Rmult_1_l, FF by auto. apply (inr_small FA). lra. }
  split; auto. destruct (fa_mul _ _ _ _ _ _ _ _ FA _ _ F) as (_ & _ & ->). rewrite E1, Rmult_1_l. auto.
Qed.
Lemma neu_tdiag n j : (Z.of_nat n * Z.of_nat n <= zmax)%Z -> eta <= 1 -> (j < n - 2)%nat -> let d := (d2_tdiag (neu_st2 (n - 2))).[j] in
  fin d /\ 1 <= val d <= 2 /\ Rabs (val d - (1 + nq j * nq j)) <= 6 * u + 3 * eta.
Proof.
  intros Hz H1e Hj d. unfold d, neu_st2. cbn [d2_tdiag]. rewrite at_map_seq by lia. rewrite at_repeat, neu_low_at by lia. cbn [Nat.add].
  destruct (fa_1 _ _ _ _ _ _ _ _ FA) as [F1 E1]. destruct (neu_low_fin n j Hz Hj) as (F2 & B1 & B2).
  destruct (unit_mul FA n1 n1) as [F3 E3]; auto. rewrite E1, Rmult_1_l in E3.
  set (l := val (neumann_low2 j)) in *. pose proof (nq_range j) as Q. set (q := nq j) in *.
  pose proof (rn_u _ _ _ RN) as [U U1]. pose proof (rn_eta _ _ _ RN) as H0.
  assert (LL : Rabs (l * l) <= 1). { rewrite Rabs_mult. rewrite <- (Rmult_1_l 1). apply Rmult_le_compat; auto; apply Rabs_pos. }
  assert (RL : Rabs (rnd (l * l)) <= 1) by (apply rnd_le1; auto).
  assert (F4 : fin (nmul (neumann_low2 j) (neumann_low2 j))). { apply (fa_mulF _ _ _ _ _ _ _ _ FA); auto. apply (inr_small FA). fold l. lra. }
  destruct (fa_mul _ _ _ _ _ _ _ _ FA _ _ F4) as (_ & _ & E4). fold l in E4.
  assert (P0 : 0 <= rnd (l * l)). { rewrite <- (rnd_0 RN). apply (rn_mono _ _ _ RN). apply Rle_0_sqr. }
  rewrite Rabs_pos_eq in RL by auto.
  assert (M1 : 1 <= rnd (1 + rnd (l * l))). { rewrite <- (rnd_int FA 1) by (cbn; lia). apply (rn_mono _ _ _ RN). rewrite (rnd_int FA 1) by (cbn; lia). lra. }
  assert (M2 : rnd (1 + rnd (l * l)) <= 2). { rewrite <- (rnd_int FA 2) by (cbn; lia). apply (rn_mono _ _ _ RN). lra. }
  assert (F : fin (nadd (nmul n1 n1) (nmul (neumann_low2 j) (neumann_low2 j)))).
  { apply (fa_addF _ _ _ _ _ _ _ _ FA); auto. rewrite E3, E4. apply (inr_small FA). rewrite Rabs_pos_eq; lra. }
  split; auto. destruct (fa_add _ _ _ _ _ _ _ _ FA _ _ F) as (_ & _ & ->). rewrite E3, E4. split; auto.
  pose proof (rn_sum _ _ _ RN 1 (rnd (l * l)) ltac:(apply (rnd_int FA 1); cbn; lia) (rn_idem _ _ _ RN _)) as S1.
  rewrite (Rabs_pos_eq (1 + rnd (l * l))) in S1 by lra.
  pose proof (rn_err _ _ _ RN (l * l)) as S2.
  assert (S3 : Rabs (l * l - q * q) <= 2 * (u + eta)).
  { replace (l * l - q * q) with ((l + q) * (l - q)) by ring. rewrite Rabs_mult.
    assert (Rabs (l - q) <= 2). { unfold Rminus. eapply Rle_trans; [apply Rabs_triang|]. rewrite Rabs_Ropp, (Rabs_pos_eq q) by lra. lra. }
    assert (Rabs (l + q) <= u + eta). { assert (u * q <= u * 1) by (apply Rmult_le_compat_l; lra). lra. }
    rewrite (Rmult_comm 2). apply Rmult_le_compat; auto; apply Rabs_pos. }
  assert (S4 : u * Rabs (l * l) <= u * 1) by (apply Rmult_le_compat_l; auto).
  assert (S5 : u * (1 + rnd (l * l)) <= u * 2) by (apply Rmult_le_compat_l; lra).
  replace (rnd (1 + rnd (l * l)) - (1 + q * q)) with ((rnd (1 + rnd (l * l)) - (1 + rnd (l * l))) + ((rnd (l * l) - l * l) + (l * l - q * q))) by ring.
  eapply Rle_trans; [apply Rabs_triang|]. pose proof (Rabs_triang (rnd (l * l) - l * l) (l * l - q * q)). lra.
Qed.

Lemma neu_small n : (4 <= n)%nat -> INR n * INR n * (u + eta) <= 1 -> 12 * (u + eta) <= 12 / (INR n * INR n) /\ eta <= / 16.
Proof.
  intros Hn H. assert (N4 : 4 <= INR n). { apply le_INR in Hn. replace (INR 4) with 4 in Hn by (cbn; ring). auto. }
  pose proof (rn_u _ _ _ RN) as [U U1]. pose proof (rn_eta _ _ _ RN) as H0. assert (P : 16 <= INR n * INR n) by nra. split.
  - apply Rmult_le_reg_r with (INR n * INR n). lra. unfold Rdiv. rewrite (Rmult_assoc 12 (/ _)), Rinv_l by lra. lra.
  - assert (16 * eta <= INR n * INR n * (u + eta)). { apply Rmult_le_compat; lra. } lra.
Qed.
Lemma neu_dom n j : (5 <= n)%nat -> (Z.of_nat n * Z.of_nat n <= zmax)%Z -> INR n * INR n * (u + eta) <= 1 -> (j < n - 2)%nat ->
  let lo := rlo (val := val) (d2_toff2 (neu_st2 (n - 2))) j in let up := rup (val := val) (n - 2) (d2_toff2 (neu_st2 (n - 2))) j in
  let d := val (d2_tdiag (neu_st2 (n - 2))).[j] in
  Rabs lo <= 1 /\ Rabs up <= 1 /\ Rabs (lo + qprev j) <= u + eta /\ Rabs (up + qnext (n - 2) j) <= u + eta /\ Rabs lo + Rabs up < d.
Proof.
  intros Hn Hz Hs Hj lo up d. pose proof (rn_u _ _ _ RN) as [U U1]. pose proof (rn_eta _ _ _ RN) as H0.
  assert (L : Rabs lo <= 1 /\ Rabs (lo + qprev j) <= u + eta).
  { unfold lo, rlo, qprev. destruct (Nat.ltb_spec j 2). rewrite Rplus_0_l, Rabs_R0. lra.
    destruct (neu_toff2 n (j - 2) Hz ltac:(lia)) as [_ ->]. destruct (neu_low_fin n (j - 2) Hz ltac:(lia)) as (_ & B1 & B2). split; auto.
    pose proof (nq_range (j - 2)) as Q. assert (u * nq (j - 2) <= u * 1) by (apply Rmult_le_compat_l; lra). lra. }
  assert (P : Rabs up <= 1 /\ Rabs (up + qnext (n - 2) j) <= u + eta).
  { unfold up, rup, qnext. destruct (Nat.ltb_spec (j + 2) (n - 2)). 2: { rewrite Rplus_0_l, Rabs_R0. lra. }
    destruct (neu_toff2 n j Hz ltac:(lia)) as [_ ->]. destruct (neu_low_fin n j Hz ltac:(lia)) as (_ & B1 & B2). split; auto.
    pose proof (nq_range j) as Q. assert (u * nq j <= u * 1) by (apply Rmult_le_compat_l; lra). lra. }
  destruct L as [L1 L2]. destruct P as [P1 P2]. repeat (split; auto).
  destruct (neu_small n ltac:(lia) Hs) as [S1 S2]. destruct (neu_tdiag n j Hz ltac:(lra) Hj) as (_ & [D0 _] & D1). fold d in D0, D1.
  pose proof (nq_slack_all n j ltac:(lia) Hj) as S.
  assert (Q0 : 0 <= qprev j). { unfold qprev. destruct (j <? 2). lra. apply nq_range. }
  assert (Q1 : 0 <= qnext (n - 2) j <= nq j). { unfold qnext. pose proof (nq_range j). destruct (j + 2 <? n - 2); lra. }
  assert (G1 : Rabs lo <= qprev j + (u + eta)). { replace lo with ((lo + qprev j) + - qprev j) by ring. eapply Rle_trans; [apply Rabs_triang|]. rewrite Rabs_Ropp, (Rabs_pos_eq (qprev j)) by lra. lra. }
  assert (G2 : Rabs up <= qnext (n - 2) j + (u + eta)). { replace up with ((up + qnext (n - 2) j) + - qnext (n - 2) j) by ring. eapply Rle_trans; [apply Rabs_triang|]. rewrite Rabs_Ropp, (Rabs_pos_eq (qnext (n - 2) j)) by lra. lra. }
  apply Rabs_le_inv in D1.
  assert (PN : 0 < 12 / (INR n * INR n)). { apply Rdiv_lt_0_compat. lra. apply Rmult_lt_0_compat; apply lt_0_INR; lia. }
  destruct (Rle_or_lt (u + eta) 0); lra.
Qed.
Lemma neu_from_rows n (a o x : list T) : (5 <= n)%nat -> (Z.of_nat n * Z.of_nat n <= zmax)%Z -> INR n * INR n * (u + eta) <= 1 -> length a = n -> length o = (n - 2)%nat ->
  compo_from_ortho (mk_compo n (n - 2) (mk_cheb n n) (Neumann (neu_st2 (n - 2)))) a o = Ok x ->
  (forall p j, (j < n - 2)%nat -> fin (cp p x.[j])) ->
  length x = (n - 2)%nat /\ forall p, (forall k, (k < n)%nat -> fin (cp p a.[k])) /\
  forall Am Xm, (forall k, (k < n)%nat -> Rabs (Xv p a k) <= Am) -> (forall j, (j < n - 2)%nat -> Rabs (Xv p x j) <= Xm) ->
  forall j, (j < n - 2)%nat -> Rabs (neu_row (n - 2) (Xv p x) j - (Xv p a j - nq j * Xv p a (j + 2))) <= u * (56 * Xm + 5 * Am) + eta * (26 + 53 * Xm + 2 * Am).
Proof.
  intros Hn Hz Hs La Lo E FX. rewrite neu_from_ortho in E by auto. set (rhs := map _ _) in E.
  assert (Lr : length rhs = (n - 2)%nat) by (unfold rhs; rewrite map_length, seq_length; auto).
  destruct (neu_lens (N := N) (n - 2) ltac:(lia)) as (L1 & L2 & L3 & L4). destruct (neu_small n ltac:(lia) Hs) as [S1 S2].
  destruct (tdma_rows FA (d2_toff2 (neu_st2 (n - 2))) (d2_tdiag (neu_st2 (n - 2))) (d2_toff2 (neu_st2 (n - 2))) (n - 2) ltac:(lia)
    ltac:(intros; apply neu_toff2; auto; lia) ltac:(intros; apply neu_toff2; auto; lia)) with (md := Unchecked) (rhs := rhs) (x := x) as [Lx HR]; auto; try lia.
  { intros j Hj. destruct (neu_tdiag n j Hz ltac:(lra) Hj) as (F & B & _). split; auto. apply (inr_small FA). rewrite Rabs_pos_eq; lra. }
  { intros j Hj. destruct (neu_dom n j Hn Hz Hs Hj) as (_ & _ & _ & _ & D). destruct (neu_tdiag n j Hz ltac:(lra) Hj) as (F & B & _).
    pose proof (Rabs_pos (rup (val := val) (n - 2) (d2_toff2 (neu_st2 (n - 2))) j)). rewrite (Rabs_pos_eq (val (d2_tdiag (neu_st2 (n - 2))).[j])) by lra. lra. }
  split; auto. intros p.
  assert (FR : forall j, (j < n - 2)%nat -> fin (cp p a.[j]) /\ fin (cp p a.[j + 2]) /\
     Rabs (Xv p rhs j - (Xv p a j - nq j * Xv p a (j + 2))) <= u * Rabs (Xv p a j - nq j * Xv p a (j + 2)) + 3 * u * (nq j * Rabs (Xv p a (j + 2))) + 2 * eta * (1 + Rabs (Xv p a (j + 2)))).
  { intros j Hj. destruct (HR p j Hj) as [F _]. unfold X at 1. unfold rhs in *. rewrite at_map_seq in * by auto. cbn [Nat.add] in *.
    rewrite cp_add, !cp_mul in F |- *. apply (low_add n j _ _ Hz Hj F). }
  split.
  { intros k Hk. destruct (lt_dec k (n - 2)). apply FR; auto. replace k with (k - 2 + 2)%nat by lia. apply FR. lia. }
  intros Am Xm HA HX j Hj. destruct (HR p j Hj) as [_ HB]. destruct (FR j Hj) as (_ & _ & B1). clear HR FR.
  destruct (neu_dom n j Hn Hz Hs Hj) as (DL & DU & D1 & D2 & _). destruct (neu_tdiag n j Hz ltac:(lra) Hj) as (_ & TD & D3).
  set (lo := rlo (val := val) (d2_toff2 (neu_st2 (n - 2))) j) in *. set (up := rup (val := val) (n - 2) (d2_toff2 (neu_st2 (n - 2))) j) in *.
  set (d := val (d2_tdiag (neu_st2 (n - 2))).[j]) in *. rewrite (Rabs_pos_eq d) in HB by lra.
  pose proof (rn_u _ _ _ RN) as [U U1]. pose proof (rn_eta _ _ _ RN) as H0. pose proof (nq_range j) as Q.
  assert (Z : Rabs (Xv p x (j - 2)) <= Xm) by (apply HX; lia).
  assert (Y : Rabs (Xv p x (j + 2)) <= Xm).
  { destruct (lt_dec (j + 2) (n - 2)). apply HX; auto. rewrite (X_over FA) by lia. rewrite Rabs_R0. specialize (HX j Hj). pose proof (Rabs_pos (Xv p x j)). lra. }
  specialize (HX j Hj). pose proof (HA j ltac:(lia)) as A1. pose proof (HA (j + 2)%nat ltac:(lia)) as A2.
  set (x0 := Xv p x j) in *. set (x1 := Xv p x (j - 2)) in *. set (x2 := Xv p x (j + 2)) in *. set (a0 := Xv p a j) in *. set (a2 := Xv p a (j + 2)) in *. set (b := Xv p rhs j) in *.
  unfold neu_row. fold x0 x1 x2. set (q := nq j) in *.
  pose proof (Rabs_pos x0). pose proof (Rabs_pos x1). pose proof (Rabs_pos x2). pose proof (Rabs_pos a0). pose proof (Rabs_pos a2).
  assert (Xm0 : 0 <= Xm) by lra. assert (Am0 : 0 <= Am) by lra.
  assert (M : forall c y e, Rabs c <= e -> Rabs y <= Xm -> Rabs (c * y) <= e * Xm). { intros. rewrite Rabs_mult. apply Rmult_le_compat; auto; apply Rabs_pos. }
  assert (G1 : Rabs lo * Rabs x1 + d * Rabs x0 + Rabs up * Rabs x2 <= 4 * Xm).
  { pose proof (M lo x1 1 DL Z) as M1. pose proof (M up x2 1 DU Y) as M2. pose proof (M d x0 2 ltac:(rewrite Rabs_pos_eq; lra) HX) as M3. rewrite Rabs_mult in M1, M2, M3. rewrite (Rabs_pos_eq d) in M3 by lra. lra. }
  assert (G2 : 12 * u * (Rabs lo * Rabs x1 + d * Rabs x0 + Rabs up * Rabs x2) <= 12 * u * (4 * Xm)) by (apply Rmult_le_compat_l; lra).
  assert (G3 : 8 * eta * (1 + d) * (1 + Rabs x0 + Rabs x2) <= 8 * eta * 3 * (1 + 2 * Xm)).
  { apply Rmult_le_compat; try lra. apply Rmult_le_pos; lra. apply Rmult_le_compat_l; lra. }
  pose proof (M _ _ _ D1 Z) as E1. pose proof (M _ _ _ D2 Y) as E2. pose proof (M _ _ _ D3 HX) as E3.
  assert (G4 : Rabs (a0 - q * a2) <= 2 * Am).
  { unfold Rminus. eapply Rle_trans; [apply Rabs_triang|]. rewrite Rabs_Ropp, Rabs_mult, (Rabs_pos_eq q) by lra.
    assert (q * Rabs a2 <= 1 * Am) by (apply Rmult_le_compat; lra). lra. }
  assert (G5 : u * Rabs (a0 - q * a2) <= u * (2 * Am)) by (apply Rmult_le_compat_l; auto).
  assert (G6 : 3 * u * (q * Rabs a2) <= 3 * u * (1 * Am)). { apply Rmult_le_compat_l. lra. apply Rmult_le_compat; lra. }
  assert (G7 : 2 * eta * (1 + Rabs a2) <= 2 * eta * (1 + Am)) by (apply Rmult_le_compat_l; lra).
  replace ((1 + q * q) * x0 - qprev j * x1 - qnext (n - 2) j * x2 - (a0 - q * a2)) with
    ((lo * x1 + d * x0 + up * x2 - b) + ((b - (a0 - q * a2)) + (- ((lo + qprev j) * x1) + (- ((up + qnext (n - 2) j) * x2) + - ((d - (1 + q * q)) * x0))))) by ring.
  eapply Rle_trans; [apply Rabs_triang|]. eapply Rle_trans; [apply Rplus_le_compat_l, Rabs_triang|]. eapply Rle_trans; [apply Rplus_le_compat_l, Rplus_le_compat_l, Rabs_triang|].
  eapply Rle_trans; [apply Rplus_le_compat_l, Rplus_le_compat_l, Rplus_le_compat_l, Rabs_triang|]. rewrite !Rabs_Ropp. lra.
Qed.

(** ** No overflow *)
Lemma nq_growth n j : (2 <= j)%nat -> (j + 2 <= n)%nat -> / (INR n * INR n) <= nq j * nq j - nq (j - 2) * nq (j - 2).
Proof.
  intros Hj Hn. pose proof (nq_range (j - 2)) as Q2.
  assert (J2 : 2 <= INR j). { apply le_INR in Hj. replace (INR 2) with 2 in Hj by (cbn; ring). auto. }
  assert (JN : INR j + 2 <= INR n). { replace 2 with (INR 2) by (cbn; ring). rewrite <- plus_INR. apply le_INR. auto. }
  assert (G1 : 4 / ((INR j + 2) * (INR j + 2)) <= nq j - nq (j - 2)).
  { unfold nq. rewrite minus_INR by lia. replace (INR 2) with 2 by (cbn; ring). set (t := INR j) in *. clearbody t. replace (t - 2 + 2) with t by ring.
    assert (P : 0 < t * t * ((t + 2) * (t + 2))) by (repeat apply Rmult_lt_0_compat; lra).
    apply Rminus_le. apply Rmult_le_reg_r with (1 := P). rewrite Rmult_0_l.
    replace ((4 / ((t + 2) * (t + 2)) - (t * t / ((t + 2) * (t + 2)) - (t - 2) * (t - 2) / (t * t))) * (t * t * ((t + 2) * (t + 2)))) with (4 * (4 - t * t)) by (field; lra).
    assert (2 * 2 <= t * t) by (apply Rmult_le_compat; lra). lra. }
  assert (G2 : / 4 <= nq j).
  { unfold nq. apply Rmult_le_reg_r with ((INR j + 2) * (INR j + 2)). apply Rmult_lt_0_compat; lra. unfold Rdiv. rewrite Rmult_assoc, Rinv_l. nra.
    apply Rgt_not_eq. apply Rmult_lt_0_compat; lra. }
  assert (G3 : / (INR n * INR n) <= / ((INR j + 2) * (INR j + 2))). { apply Rinv_le_contravar. apply Rmult_lt_0_compat; lra. apply Rmult_le_compat; lra. }
  assert (G4 : 0 < / ((INR j + 2) * (INR j + 2))). { apply Rinv_0_lt_compat. apply Rmult_lt_0_compat; lra. }
  replace (nq j * nq j - nq (j - 2) * nq (j - 2)) with ((nq j - nq (j - 2)) * (nq j + nq (j - 2))) by ring.
  unfold Rdiv in G1. apply Rle_trans with ((4 * / ((INR j + 2) * (INR j + 2))) * (/ 4)). lra. apply Rmult_le_compat; lra.
Qed.
Lemma neu_piv_ge1 n w : (5 <= n)%nat -> (Z.of_nat n * Z.of_nat n <= zmax)%Z -> 10 * (INR n * INR n * (u + eta)) <= 1 ->
  (forall j, (j < n - 2)%nat -> Rabs (rlo (val := val) (d2_toff2 (neu_st2 (n - 2))) j) + Rabs (rup (val := val) (n - 2) (d2_toff2 (neu_st2 (n - 2))) j) <= Rabs (val (d2_tdiag (neu_st2 (n - 2))).[j]) /\
     Rabs (rlo (val := val) (d2_toff2 (neu_st2 (n - 2))) j) < Rabs (val (d2_tdiag (neu_st2 (n - 2))).[j])) ->
  (forall j, (j < n - 2 - 2)%nat -> tdma_w (d2_toff2 (neu_st2 (n - 2))) (d2_tdiag (neu_st2 (n - 2))) (d2_toff2 (neu_st2 (n - 2))) w j) ->
  forall j, (j < n - 2)%nat -> 1 <= val (piv (d2_toff2 (neu_st2 (n - 2))) (d2_tdiag (neu_st2 (n - 2))) w j).
Proof.
  intros Hn Hz Hs Dom HW. pose proof (rn_u _ _ _ RN) as [U U1]. pose proof (rn_eta _ _ _ RN) as H0.
  assert (N5 : 5 <= INR n). { apply le_INR in Hn. replace (INR 5) with 5 in Hn by (cbn; ring). auto. }
  assert (NN : 25 <= INR n * INR n) by nra.
  assert (SE : 10 * (u + eta) <= / (INR n * INR n)).
  { apply Rmult_le_reg_l with (INR n * INR n). lra. rewrite Rinv_r by lra. lra. }
  assert (E16 : u + eta <= / 250). { assert (/ (INR n * INR n) <= / 25) by (apply Rinv_le_contravar; lra). lra. }
  pose proof (pivots FA (d2_toff2 (neu_st2 (n - 2))) (d2_tdiag (neu_st2 (n - 2))) (d2_toff2 (neu_st2 (n - 2))) (n - 2) ltac:(lia)
     ltac:(intros; apply neu_toff2; auto) ltac:(intros; apply neu_toff2; auto)
     ltac:(intros i Hi; destruct (neu_tdiag n i Hz ltac:(lra) Hi) as (F & B & _); split; auto; apply (inr_small FA); rewrite Rabs_pos_eq; lra) Dom w HW) as PV.
  intros j. induction j as [j IH] using lt_wf_ind. intros Hj. destruct (PV j Hj) as (_ & _ & E & _ & _). rewrite E. clear E.
  rewrite <- (rnd_int FA 1) by (cbn; lia). apply (rn_mono _ _ _ RN). destruct (neu_tdiag n j Hz ltac:(lra) Hj) as (_ & TD & D).
  unfold wprev, rlo. destruct (Nat.ltb_spec j 2). { rewrite Rmult_0_l, (rnd_0 RN). lra. }
  destruct (PV (j - 2)%nat ltac:(lia)) as (_ & _ & _ & _ & Pw). destruct (Pw ltac:(lia)) as (_ & Ew & _). specialize (IH (j - 2)%nat ltac:(lia) ltac:(lia)).
  destruct (neu_toff2 n (j - 2) Hz ltac:(lia)) as [_ El]. rewrite El in *. destruct (neu_low_fin n (j - 2) Hz ltac:(lia)) as (Fl & B1 & B2).
  set (l := val (neumann_low2 (j - 2))) in *. set (pv := val (piv (d2_toff2 (neu_st2 (n - 2))) (d2_tdiag (neu_st2 (n - 2))) w (j - 2))) in *. rewrite Ew.
  assert (W : Rabs (rnd (l / pv)) <= Rabs l).
  { apply (rnd_abs_le RN). 2: apply FF; auto. unfold Rdiv. rewrite Rabs_mult, Rabs_inv, (Rabs_pos_eq pv) by lra.
    assert (/ pv <= 1). { rewrite <- Rinv_1. apply Rinv_le_contravar; lra. } pose proof (Rmult_le_compat_l (Rabs l) _ _ (Rabs_pos _) H1). lra. }
  set (x := l * rnd (l / pv)).
  assert (X1 : Rabs x <= l * l). { unfold x. rewrite Rabs_mult. rewrite <- (Rabs_pos_eq (l * l)) by apply Rle_0_sqr. rewrite Rabs_mult. apply Rmult_le_compat_l; auto. apply Rabs_pos. }
  pose proof (nq_range (j - 2)) as Q. set (q := nq (j - 2)) in *.
  assert (S3 : Rabs (l * l - q * q) <= 2 * (u + eta)).
  { replace (l * l - q * q) with ((l + q) * (l - q)) by ring. rewrite Rabs_mult.
    assert (Rabs (l - q) <= 2). { unfold Rminus. eapply Rle_trans; [apply Rabs_triang|]. rewrite Rabs_Ropp, (Rabs_pos_eq q) by lra. lra. }
    assert (Rabs (l + q) <= u + eta). { assert (u * q <= u * 1) by (apply Rmult_le_compat_l; lra). lra. }
    rewrite (Rmult_comm 2). apply Rmult_le_compat; auto; apply Rabs_pos. }
  assert (LL : l * l <= 1). { rewrite <- (Rabs_pos_eq (l * l)) by apply Rle_0_sqr. rewrite Rabs_mult. rewrite <- (Rmult_1_l 1). apply Rmult_le_compat; auto; apply Rabs_pos. }
  pose proof (rn_err _ _ _ RN x) as EX. assert (u * Rabs x <= u * 1) by (apply Rmult_le_compat_l; lra).
  pose proof (nq_growth n j ltac:(lia) ltac:(lia)) as G. fold q in G.
  apply Rabs_le_inv in D. apply Rabs_le_inv in S3. apply Rabs_le_inv in EX. apply Rabs_le_inv in X1. lra.
Qed.
Lemma neu_low_fin' n j : (Z.of_nat n * Z.of_nat n <= zmax)%Z -> (j < n - 2)%nat -> forall x, fin x -> inr (val x) ->
  fin (nmul x (neumann_low2 j)) /\ Rabs (val (nmul x (neumann_low2 j))) <= Rabs (val x).
Proof. intros Hz Hj x Fx Ix. destruct (neu_low_fin n j Hz Hj) as (F & _ & B). apply (mul_fin FA); auto. Qed.
Lemma neu_to_ortho_fin n (v o : list T) Cm : (4 <= n)%nat -> (Z.of_nat n * Z.of_nat n <= zmax)%Z -> length v = (n - 2)%nat -> length o = n ->
  (forall p k, (k < n - 2)%nat -> fin (cp p v.[k]) /\ Rabs (Xv p v k) <= Cm) -> inr (3 * Cm) ->
  exists a, compo_to_ortho (mk_compo n (n - 2) (mk_cheb n n) (Neumann (neu_st2 (n - 2)))) v o = Ok a /\ length a = n /\
    forall p k, (k < n)%nat -> fin (cp p a.[k]) /\ Rabs (Xv p a k) <= 3 * Cm.
Proof.
  intros Hn Hz Lv Lo HC HI. pose proof (neu_to_ortho n v o Hn Lv Lo) as W.
  destruct (compo_to_ortho _ v o) as [a| |] eqn:E; cbn [wp] in W; try contradiction. exists a. split; auto. destruct W as [La Ea]. split; auto.
  pose proof (rn_u _ _ _ RN) as [U U1]. intros p k Hk. unfold X. rewrite Ea by auto.
  assert (C0 : 0 <= Cm). { destruct (HC p 0%nat ltac:(lia)) as [_ H]. pose proof (Rabs_pos (Xv p v 0)). lra. }
  assert (IC : forall x, Rabs x <= 3 * Cm -> inr x). { intros x Hx. eapply (inr_le FA); [|exact Hx|auto]. lra. }
  destruct (Nat.ltb_spec k 2); [|destruct (Nat.ltb_spec k (n - 2))].
  - destruct (HC p k ltac:(lia)) as [F B]. unfold X in B. rewrite cp_mul. destruct (mul_1_fin FA (cp p v.[k]) F) as [F1 B1]. apply IC; lra. split; auto. lra.
  - destruct (HC p k ltac:(lia)) as [F B]. destruct (HC p (k - 2)%nat ltac:(lia)) as [F' B']. unfold X in B, B'. rewrite cp_add, !cp_mul.
    destruct (mul_1_fin FA (cp p v.[k]) F) as [F1 B1]. apply IC; lra. destruct (neu_low_fin' n (k - 2) Hz ltac:(lia) (cp p v.[k - 2]) F') as [F2 B2]. apply IC; lra.
    assert (u * Cm <= / 64 * Cm) by (apply Rmult_le_compat_r; auto). pose proof (Rmult_le_pos u Cm U C0).
    destruct (add_fin FA _ _ (2 * Cm) F1 F2) as [F3 B3]. lra. apply IC. rewrite Rabs_pos_eq; lra. split; auto. lra.
  - destruct (HC p (k - 2)%nat ltac:(lia)) as [F' B']. unfold X in B'. rewrite cp_mul. destruct (neu_low_fin' n (k - 2) Hz ltac:(lia) (cp p v.[k - 2]) F') as [F2 B2]. apply IC; lra. split; auto. lra.
Qed.
Lemma neu_from_ortho_fin n (a o : list T) Am : (5 <= n)%nat -> (Z.of_nat n * Z.of_nat n <= zmax)%Z -> 10 * (INR n * INR n * (u + eta)) <= 1 ->
  length a = n -> length o = (n - 2)%nat -> 0 <= Am ->
  (forall p k, (k < n)%nat -> fin (cp p a.[k]) /\ Rabs (Xv p a k) <= Am) -> inr (27 * INR n * INR n * Am) ->
  exists x, compo_from_ortho (mk_compo n (n - 2) (mk_cheb n n) (Neumann (neu_st2 (n - 2)))) a o = Ok x /\ length x = (n - 2)%nat /\
    forall p k, (k < n - 2)%nat -> fin (cp p x.[k]) /\ Rabs (Xv p x k) <= 27 * INR n * INR n * Am.
Proof.
  intros Hn Hz Hs La Lo A0 HA HI. rewrite neu_from_ortho by auto. set (rhs := map _ _).
  pose proof (rn_u _ _ _ RN) as [U U1]. pose proof (rn_eta _ _ _ RN) as H0.
  assert (Lr : length rhs = (n - 2)%nat) by (unfold rhs; rewrite map_length, seq_length; auto).
  destruct (neu_lens (N := N) (n - 2) ltac:(lia)) as (L1 & L2 & L3 & L4).
  assert (N5 : 5 <= INR n). { apply le_INR in Hn. replace (INR 5) with 5 in Hn by (cbn; ring). auto. }
  assert (NN : 25 <= INR n * INR n) by nra.
  assert (Hs' : INR n * INR n * (u + eta) <= 1). { assert (0 <= INR n * INR n * (u + eta)) by (apply Rmult_le_pos; lra). lra. }
  destruct (neu_small n ltac:(lia) Hs') as [_ E16].
  assert (MN : 0 <= INR (n - 2) <= INR n). { split. apply pos_INR. apply le_INR. lia. }
  assert (B1 : INR (n - 2) * INR (n - 2) * Am <= INR n * INR n * Am). { apply Rmult_le_compat_r; auto. apply Rmult_le_compat; lra. }
  assert (B2 : Am <= INR n * INR n * Am). { rewrite <- (Rmult_1_l Am) at 1. apply Rmult_le_compat_r; auto. lra. }
  assert (FR : forall p j, (j < n - 2)%nat -> fin (cp p rhs.[j]) /\ Rabs (Xv p rhs j) <= 3 * Am).
  { intros p j Hj. unfold X. unfold rhs. rewrite at_map_seq by auto. cbn [Nat.add]. rewrite cp_add, !cp_mul.
    assert (IC : forall x, Rabs x <= 3 * Am -> inr x). { intros x Hx. eapply (inr_le FA); [|eapply Rle_trans; [exact Hx|]|exact HI]; lra. }
    destruct (HA p j ltac:(lia)) as [Fa Ba]. destruct (HA p (j + 2)%nat ltac:(lia)) as [Fb Bb]. unfold X in Ba, Bb.
    destruct (mul_1_fin FA (cp p a.[j]) Fa) as [F1 G1]. apply IC; lra. destruct (neu_low_fin' n j Hz Hj (cp p a.[j + 2]) Fb) as [F2 G2]. apply IC; lra.
    assert (u * Am <= / 64 * Am) by (apply Rmult_le_compat_r; auto). pose proof (Rmult_le_pos u Am U A0).
    destruct (add_fin FA _ _ (2 * Am) F1 F2) as [F3 B3]. lra. apply IC. rewrite Rabs_pos_eq; lra. split; auto. lra. }
  assert (K1 : forall j, (j < n - 2 - 2)%nat -> fin (d2_toff2 (neu_st2 (n - 2))).[j] /\ Rabs (val (d2_toff2 (neu_st2 (n - 2))).[j]) <= 1).
  { intros j Hj. destruct (neu_toff2 n j Hz Hj) as [F E]. split; auto. rewrite E. apply (neu_low_fin n j Hz). lia. }
  assert (K2 : forall j, (j < n - 2 - 2)%nat -> fin (d2_toff2 (neu_st2 (n - 2))).[j]) by (intros; apply K1; auto).
  assert (K3 : forall j, (j < n - 2)%nat -> fin (d2_tdiag (neu_st2 (n - 2))).[j] /\ inr (4 * val (d2_tdiag (neu_st2 (n - 2))).[j])).
  { intros j Hj. destruct (neu_tdiag n j Hz ltac:(lra) Hj) as (F & E & _). split; auto. apply (inr_small FA). rewrite Rabs_pos_eq; lra. }
  assert (K4 : forall j, (j < n - 2)%nat -> Rabs (rlo (val := val) (d2_toff2 (neu_st2 (n - 2))) j) + Rabs (rup (val := val) (n - 2) (d2_toff2 (neu_st2 (n - 2))) j) <= Rabs (val (d2_tdiag (neu_st2 (n - 2))).[j]) /\
     Rabs (rlo (val := val) (d2_toff2 (neu_st2 (n - 2))) j) < Rabs (val (d2_tdiag (neu_st2 (n - 2))).[j])).
  { intros j Hj. destruct (neu_dom n j Hn Hz Hs' Hj) as (_ & _ & _ & _ & D). destruct (neu_tdiag n j Hz ltac:(lra) Hj) as (F & B & _).
    pose proof (Rabs_pos (rup (val := val) (n - 2) (d2_toff2 (neu_st2 (n - 2))) j)). rewrite (Rabs_pos_eq (val (d2_tdiag (neu_st2 (n - 2))).[j])) by lra. lra. }
  destruct (tdma_finite FA (d2_toff2 (neu_st2 (n - 2))) (d2_tdiag (neu_st2 (n - 2))) (d2_toff2 (neu_st2 (n - 2))) (n - 2) ltac:(lia) K1 K2 K3 K4) with (md := Unchecked) (rhs := rhs) (Rm := 3 * Am) as (x & Ex & Lx & Hx); auto; try lia.
  - intros w HW j Hj. pose proof (neu_piv_ge1 n w Hn Hz Hs K4 HW j Hj). rewrite Rabs_pos_eq; lra.
  - apply Rle_trans with (INR n * u). apply Rmult_le_compat_r; lra. assert (INR n * u <= (INR n * INR n) * (u + eta)). { apply Rmult_le_compat; try lra. nra. } lra.
  - eapply (inr_le FA); [| |exact HI]. lra. rewrite Rabs_pos_eq. lra. apply Rmult_le_pos; [|lra]. apply Rmult_le_pos; lra.
  - exists x. split; auto. split; auto. intros p k Hk. destruct (Hx p k Hk) as [F B]. split; auto. lra.
Qed.
End Fl.
