(** Rounding errors of the Chebyshev transforms on top of an accurate DCT (C55). *)
From Coq Require Import List Arith ZArith Reals Bool Lra Lia.
From Verif Require Import Base Num Linalg LinalgProofs StencilProofs StencilProofs2 Cheb ChebPoly ChebGrad ChebDct AnyArith CompoProofs ExtLib Rounding RndTdma RndDirichlet RndGrad LibAcc PropRound.
Import ListNotations.
Local Open Scope R_scope.

(** ** What the two programs hand to the library, in any arithmetic *)
Section Any.
Context {A : Type} {N : Num A} (E : ext A).
Definition is_end (n k : nat) : bool := (k =? 0) || (k =? n - 1).
Definition fwd_cor (n : nat) : A := ndiv (nmul (nadd n1 n1) n1) (nofN (n - 1)).
Definition fwd_half : A := ndiv n1 (nofZ 2%Z).
Definition fwd_in (n : nat) (x : list A) : list A := map (fun v => nmul v (fwd_cor n)) (rev x).
Definition bwd_sign (k : nat) (v : A) : A := if k mod 2 =? 0 then v else nmul v (nopp n1).

Lemma scale_at_any (x : list A) i e (Q : list A -> Prop) : (i < length x)%nat ->
  (forall x', length x' = length x -> (forall k, x'.[k] = if (k =? i)%nat then nmul x.[k] e else x.[k]) -> Q x') ->
  wp (scale_at x i e) Q.
Proof.
  intros Hi HQ. unfold scale_at. wpus. apply HQ; auto. intros k. destruct (Nat.eqb_spec k i).
  subst; auto. apply HF; auto.
Qed.
Lemma cheb_forward_x_steps n (x out : list A) : (2 <= n)%nat -> length x = n -> length out = n ->
  length (x_dct1 E n (fwd_in n x)) = n ->
  wp (cheb_forward_x E (mk_cheb n n) x out) (fun a => length a = n /\
    forall k, (k < n)%nat -> a.[k] = if is_end n k then nmul (x_dct1 E n (fwd_in n x)).[k] fwd_half else (x_dct1 E n (fwd_in n x)).[k]).
Proof.
  intros Hn Lx Lo LD. unfold cheb_forward_x, cheb_len_phys, process_dct1_x. cbn [c_n c_m].
  rewrite Lx, Lo, Nat.eqb_refl. cbn [assertb bind]. apply wp_bind. apply wp_usub; [lia|].
  rewrite zip_write_full by (rewrite map_length, rev_length; lia).
  rewrite map_length, rev_length, Lx, Nat.eqb_refl. cbn [assertb bind].
  change (map (fun x0 : A => nmul x0 (ndiv (nmul (nadd n1 n1) n1) (nofN (n - 1)))) (rev x)) with (fwd_in n x).
  apply wp_bind. apply scale_at_any. lia. intros x1 L1 E1.
  apply scale_at_any. lia. intros x2 L2 E2. split. lia.
  intros k Hk. rewrite E2, E1. unfold is_end, fwd_half.
  destruct (Nat.eqb_spec k (n-1)), (Nat.eqb_spec k 0); cbn [orb]; auto; lia.
Qed.
Lemma cheb_backward_x_steps n (a out : list A) : (2 <= n)%nat -> length a = n -> length out = n ->
  wp (cheb_backward_x E (mk_cheb n n) a out) (fun y => exists b, length b = n /\ y = x_dct1 E n b /\
    forall k, (k < n)%nat -> b.[k] = if is_end n k then nmul (bwd_sign k a.[k]) (nadd n1 n1) else bwd_sign k a.[k]).
Proof.
  intros Hn Lx Lo. unfold cheb_backward_x, cheb_len_spec, process_dct1_x. cbn [c_n c_m].
  rewrite Lx, Lo, Nat.eqb_refl. cbn [assertb bind].
  set (g := fun ix : nat * A => _).
  assert (LC : length (map g (combine (seq 0 n) a)) = n) by (rewrite map_length, combine_length, seq_length; lia).
  rewrite zip_write_full by lia.
  apply wp_bind. apply scale_at_any. lia. intros x1 L1 E1. apply wp_bind. apply wp_usub; [lia|].
  apply wp_bind. apply scale_at_any. lia. intros x2 L2 E2.
  replace (length x2) with n by lia. rewrite Nat.eqb_refl. cbn [assertb bind].
  apply wp_Ok; eexists; split; [reflexivity|]. exists x2. split. lia. split; auto.
  intros k Hk. rewrite E2, E1.
  assert (EM : (map g (combine (seq 0 n) a)).[k] = bwd_sign k a.[k]).
  { apply nth_error_at. rewrite nth_error_map. rewrite <- Lx at 1. rewrite (@combine_seq_at A dflt_num) by lia. cbn [option_map].
    f_equal. }
  rewrite EM. unfold is_end.
  destruct (Nat.eqb_spec k (n-1)), (Nat.eqb_spec k 0); cbn [orb]; auto; lia.
Qed.
End Any.

(** ** The exact transforms as functions of the values *)
Definition Fex (n : nat) (x : nat -> R) (k : nat) : R :=
  wgt (n - 1) k * (2 / INR (n - 1)) * rsum n (fun j => wgt (n - 1) j * cc (n - 1) j k * x (n - 1 - j)%nat).
Definition Bex (n : nat) (a : nat -> R) (j : nat) : R := rsum n (fun k => a k * TT k (node n j)).

Lemma Fex_ext n x y k : (2 <= n)%nat -> (forall j, (j < n)%nat -> x j = y j) -> Fex n x k = Fex n y k.
Proof. intros Hn H. unfold Fex. f_equal. apply rsum_ext. intros j Hj. rewrite H by lia. auto. Qed.
Lemma Bex_ext n x y k : (forall j, (j < n)%nat -> x j = y j) -> Bex n x k = Bex n y k.
Proof. intros H. apply rsum_ext. intros j Hj. rewrite H by lia. auto. Qed.
Definition tolist (n : nat) (f : nat -> R) : list R := map f (seq 0 n).
Lemma tolist_len n f : length (tolist n f) = n.
Proof. unfold tolist. rewrite map_length, seq_length. auto. Qed.
Lemma tolist_at n f k : (k < n)%nat -> (tolist n f).[k] = f k.
Proof. intros. unfold tolist. rewrite at_map_seq by auto. auto. Qed.
Lemma Fex_Bex n a k : (2 <= n)%nat -> (k < n)%nat -> Fex n (Bex n a) k = a k.
Proof.
  intros Hn Hk. pose proof (forward_backward n (tolist n a) (tolist n a) (tolist n a) Hn (tolist_len _ _) (tolist_len _ _) (tolist_len _ _)) as W.
  pose proof (cheb_backward_ok n (tolist n a) (tolist n a) Hn (tolist_len _ _) (tolist_len _ _)) as WB.
  destruct (cheb_backward (mk_cheb n n) (tolist n a) (tolist n a)) as [y| |]; cbn [bind wp] in *; try tauto. destruct WB as [Ly Ey].
  pose proof (cheb_forward_ok n y (tolist n a) Hn Ly (tolist_len _ _)) as WF.
  destruct (cheb_forward (mk_cheb n n) y (tolist n a)) as [a'| |]; cbn [wp] in *; try tauto. destruct WF as [La Ea]. subst a'.
  rewrite <- (tolist_at n a k Hk), Ea by auto. unfold Fex. f_equal. apply rsum_ext. intros j Hj. f_equal. rewrite Ey by lia. unfold Bex.
  apply rsum_ext. intros i Hi. rewrite tolist_at, TT_node by auto. auto.
Qed.
Lemma Bex_Fex n x j : (2 <= n)%nat -> (j < n)%nat -> Bex n (Fex n x) j = x j.
Proof.
  intros Hn Hk. pose proof (backward_forward n (tolist n x) (tolist n x) (tolist n x) Hn (tolist_len _ _) (tolist_len _ _) (tolist_len _ _)) as W.
  pose proof (cheb_forward_ok n (tolist n x) (tolist n x) Hn (tolist_len _ _) (tolist_len _ _)) as WB.
  destruct (cheb_forward (mk_cheb n n) (tolist n x) (tolist n x)) as [y| |]; cbn [bind wp] in *; try tauto. destruct WB as [Ly Ey].
  pose proof (cheb_backward_ok n y (tolist n x) Hn Ly (tolist_len _ _)) as WF.
  destruct (cheb_backward (mk_cheb n n) y (tolist n x)) as [a'| |]; cbn [wp] in *; try tauto. destruct WF as [La Ea]. subst a'.
  rewrite <- (tolist_at n x j Hk), Ea by auto. unfold Bex. apply rsum_ext. intros k Hk'. rewrite TT_node by auto. f_equal. rewrite Ey by lia.
  unfold Fex. f_equal. apply rsum_ext. intros i Hi. rewrite tolist_at by lia. auto.
Qed.
Lemma wgt_01 M j : / 2 <= wgt M j <= 1.
Proof. unfold wgt. destruct (_ || _); lra. Qed.
Lemma cc_abs M j k : Rabs (cc M j k) <= 1.
Proof. unfold cc. apply Rabs_le. apply COS_bound. Qed.
Lemma cor_pos n : (2 <= n)%nat -> 0 < 2 / INR (n - 1).
Proof. intros. apply Rdiv_lt_0_compat. lra. apply pos_INR_n1. auto. Qed.
Lemma wcc_abs M j k x : Rabs (wgt M j * cc M j k * x) <= Rabs x.
Proof.
  rewrite !Rabs_mult. pose proof (wgt_01 M j). pose proof (cc_abs M j k). pose proof (Rabs_pos (cc M j k)). rewrite (Rabs_pos_eq (wgt M j)) by lra.
  rewrite <- (Rmult_1_l (Rabs x)) at 2. apply Rmult_le_compat_r. apply Rabs_pos. rewrite <- (Rmult_1_l 1). apply Rmult_le_compat; lra.
Qed.
Lemma Fsum_abs n x k : (2 <= n)%nat -> Rabs (rsum n (fun j => wgt (n - 1) j * cc (n - 1) j k * x (n - 1 - j)%nat)) <= rsum n (fun j => Rabs (x j)).
Proof.
  intros Hn. eapply Rle_trans; [apply rsum_abs|]. rewrite (rsum_rev n (fun j => Rabs (x j))). apply rsum_le. intros j Hj. apply wcc_abs.
Qed.
Lemma Fex_abs n x k : (2 <= n)%nat -> Rabs (Fex n x k) <= 2 / INR (n - 1) * rsum n (fun j => Rabs (x j)).
Proof.
  intros Hn. unfold Fex. rewrite !Rabs_mult. pose proof (cor_pos n Hn). pose proof (wgt_01 (n - 1) k).
  rewrite (Rabs_pos_eq (wgt _ _)), (Rabs_pos_eq (2 / INR (n - 1))) by lra.
  apply Rmult_le_compat; try (apply Rabs_pos). apply Rmult_le_pos; lra. rewrite <- (Rmult_1_l (2 / INR (n - 1))) at 2. apply Rmult_le_compat_r; lra.
  apply Fsum_abs; auto.
Qed.
Lemma Fex_sub n x y k : Fex n (fun j => x j - y j) k = Fex n x k - Fex n y k.
Proof.
  unfold Fex. rewrite (rsum_ext n (fun j => wgt (n - 1) j * cc (n - 1) j k * (x (n - 1 - j)%nat - y (n - 1 - j)%nat)) (fun j => wgt (n - 1) j * cc (n - 1) j k * x (n - 1 - j)%nat - wgt (n - 1) j * cc (n - 1) j k * y (n - 1 - j)%nat)) by (intros; ring).
  rewrite rsum_sub. ring.
Qed.
Lemma Bex_sub n x y k : Bex n (fun j => x j - y j) k = Bex n x k - Bex n y k.
Proof.
  unfold Bex. rewrite (rsum_ext n (fun j => (x j - y j) * TT j (node n k)) (fun j => x j * TT j (node n k) - y j * TT j (node n k))) by (intros; ring).
  apply rsum_sub.
Qed.
Lemma pm1_abs k : Rabs ((-1) ^ k) = 1.
Proof. rewrite <- RPow_abs, (Rabs_left (-1)) by lra. replace (- -1) with 1 by ring. apply pow1. Qed.
Lemma Bex_abs n a j : (2 <= n)%nat -> Rabs (Bex n a j) <= rsum n (fun k => Rabs (a k)).
Proof.
  intros Hn. unfold Bex. eapply Rle_trans; [apply rsum_abs|]. apply rsum_le. intros k Hk. rewrite Rabs_mult, TT_node, Rabs_mult by auto.
  rewrite pm1_abs, Rmult_1_l. pose proof (cc_abs (n - 1) j k). pose proof (Rabs_pos (a k)).
  rewrite <- (Rmult_1_r (Rabs (a k))) at 2. apply Rmult_le_compat_l; auto.
Qed.

(** ** Errors *)
Section Fl.
Context {A : Type} {N : Num A} {u eta : R} {rnd : R -> R} {zmax : Z} {inr : R -> Prop} {fin : A -> Prop} {val : A -> R}
  (FA : float_arith N u eta rnd zmax inr fin val) (E : ext A).
Let RN := fa_rnd _ _ _ _ _ _ _ _ FA.
Let FF := fa_float _ _ _ _ _ _ _ _ FA.
Notation V_ l := (fun j => val l.[j]).

Lemma int_val k : (Z.of_nat k <= zmax)%Z -> fin (nofN k) /\ val (nofN k) = INR k.
Proof. intros H. unfold nofN. rewrite INR_IZR_INZ. apply (fa_int _ _ _ _ _ _ _ _ FA). lia. Qed.
(** a rounded quotient of magnitude at most 8 *)
Lemma quot_ok x y : fin x -> fin y -> 1 <= val y -> Rabs (val x) <= 2 -> fin (ndiv x y) /\ val (ndiv x y) = rnd (val x / val y).
Proof.
  intros Fx Fy Hy Hx. assert (Z : val y <> 0) by lra.
  assert (F : fin (ndiv x y)).
  { apply (fa_divF _ _ _ _ _ _ _ _ FA); auto. apply (inr_small FA). apply Rle_trans with (Rabs 2).
    - apply (rnd_abs_le RN). 2: apply (rnd_int FA 2); cbn; lia. unfold Rdiv. rewrite Rabs_mult, (Rabs_pos_eq 2), Rabs_inv, (Rabs_pos_eq (val y)) by lra.
      assert (/ val y <= 1). { rewrite <- Rinv_1. apply Rinv_le_contravar; lra. } pose proof (Rabs_pos (val x)). assert (0 < / val y) by (apply Rinv_0_lt_compat; lra).
      rewrite <- (Rmult_1_r 2). apply Rmult_le_compat; lra.
    - rewrite Rabs_pos_eq; lra. }
  split; auto. apply (fa_div _ _ _ _ _ _ _ _ FA); auto.
Qed.
Lemma INR_n1 n : (2 <= n)%nat -> 1 <= INR (n - 1).
Proof. intros. replace 1 with (INR 1) by reflexivity. apply le_INR. lia. Qed.
Lemma cor_ok n : (2 <= n)%nat -> (Z.of_nat n <= zmax)%Z -> INR n * eta <= u ->
  fin (fwd_cor n) /\ Rabs (val (fwd_cor n) - 2 / INR (n - 1)) <= 3 / 2 * u * (2 / INR (n - 1)).
Proof.
  intros Hn Hz Hs. destruct (two_ok FA) as [F2 E2]. pose proof (rn_u _ _ _ RN) as [U _]. pose proof (rn_eta _ _ _ RN) as H0.
  assert (F2' : fin (nmul (nadd n1 n1) n1) /\ val (nmul (nadd n1 n1) n1) = 2).
  { assert (RM : rnd (val (nadd n1 n1) * val n1) = 2). { rewrite E2, (proj2 (fa_1 _ _ _ _ _ _ _ _ FA)), Rmult_1_r. apply (rnd_int FA 2). cbn; lia. }
    assert (F : fin (nmul (nadd n1 n1) n1)). { apply (fa_mulF _ _ _ _ _ _ _ _ FA); auto. apply (fa_1 _ _ _ _ _ _ _ _ FA). rewrite RM. apply (inr_small FA). rewrite Rabs_pos_eq; lra. }
    split; auto. destruct (fa_mul _ _ _ _ _ _ _ _ FA _ _ F) as (_ & _ & ->). auto. }
  destruct F2' as [F2' E2']. destruct (int_val (n - 1) ltac:(lia)) as [Fn En]. pose proof (INR_n1 n Hn) as N1.
  destruct (quot_ok _ _ F2' Fn ltac:(lra) ltac:(rewrite E2', Rabs_pos_eq; lra)) as [Fc Ec]. rewrite E2', En in Ec. split. exact Fc.
  unfold fwd_cor. rewrite Ec. eapply Rle_trans; [apply (rn_err _ _ _ RN)|]. pose proof (cor_pos n Hn) as CP. rewrite (Rabs_pos_eq (2 / _)) by lra.
  assert (INR (n - 1) * eta <= u). { apply Rle_trans with (2 := Hs). apply Rmult_le_compat_r; auto. apply le_INR. lia. }
  assert (eta <= u * / INR (n - 1)). { apply Rmult_le_reg_l with (INR (n - 1)). lra. replace (INR (n - 1) * (u * / INR (n - 1))) with u by (field; lra). auto. }
  unfold Rdiv in *. lra.
Qed.
Lemma half_ok : 2 * eta <= u -> fin fwd_half /\ Rabs (val fwd_half - / 2) <= u.
Proof.
  intros Hs. destruct (fa_int _ _ _ _ _ _ _ _ FA 2) as [F2 E2]. { pose proof (fa_zmax _ _ _ _ _ _ _ _ FA). cbn; lia. }
  destruct (fa_1 _ _ _ _ _ _ _ _ FA) as [F1 E1].
  destruct (quot_ok _ _ F1 F2 ltac:(rewrite E2; lra) ltac:(rewrite E1, Rabs_pos_eq; lra)) as [Fc Ec]. rewrite E1, E2 in Ec. split; auto.
  unfold fwd_half. rewrite Ec. replace (/ 2) with (1 / 2) by lra. eapply Rle_trans; [apply (rn_err _ _ _ RN)|]. rewrite Rabs_pos_eq; lra.
Qed.

(** inputs of the forward DCT *)
Lemma fwd_in_err n (x : list A) j : (2 <= n)%nat -> (Z.of_nat n <= zmax)%Z -> INR n * eta <= u -> length x = n -> (j < n)%nat -> fin (fwd_in n x).[j] ->
  fin x.[n - 1 - j] /\ Rabs (val (fwd_in n x).[j] - 2 / INR (n - 1) * val x.[n - 1 - j]) <= 3 * u * (2 / INR (n - 1) * Rabs (val x.[n - 1 - j])) + eta.
Proof.
  intros Hn Hz Hs Lx Hj. unfold fwd_in. rewrite (at_map (fun v => nmul v (fwd_cor n))) by (rewrite rev_length; lia). rewrite at_rev by lia. rewrite Lx. intros F.
  destruct (fa_mul _ _ _ _ _ _ _ _ FA _ _ F) as (Fx & Fc & ->). split; auto. destruct (cor_ok n Hn Hz Hs) as [_ HC].
  pose proof (rn_u _ _ _ RN) as [U U1]. pose proof (cor_pos n Hn) as CP. set (c := 2 / INR (n - 1)) in *. set (v := val x.[n - 1 - j]). set (ct := val (fwd_cor n)) in *.
  pose proof (rn_err _ _ _ RN (v * ct)) as Er. rewrite Rabs_mult in Er. pose proof (Rabs_pos v).
  assert (CT : Rabs ct <= (1 + 3 / 2 * u) * c). { replace ct with (c + (ct - c)) by ring. eapply Rle_trans; [apply Rabs_triang|]. rewrite (Rabs_pos_eq c) by lra. lra. }
  replace (rnd (v * ct) - c * v) with ((rnd (v * ct) - v * ct) + v * (ct - c)) by ring. eapply Rle_trans; [apply Rabs_triang|]. rewrite (Rabs_mult v).
  pose proof (Rmult_le_compat_l _ _ _ H CT) as M1. apply (Rmult_le_compat_l u) in M1; auto. pose proof (Rmult_le_compat_l _ _ _ H HC) as M2.
  assert (0 <= c * Rabs v) by (apply Rmult_le_pos; lra). assert (u * u * (c * Rabs v) <= / 64 * u * (c * Rabs v)). { apply Rmult_le_compat_r; auto. apply Rmult_le_compat_r; auto. }
  assert (0 <= u * (c * Rabs v)) by (apply Rmult_le_pos; auto). lra.
Qed.

Definition fwd_err (n : nat) (dl zt S : R) : R := (11 / 10 * dl + 4 * u) * (2 / INR (n - 1) * S) + 3 * INR n * eta + zt.

Lemma rsum_rev' n f : rsum n (fun j => f (n - 1 - j)%nat) = rsum n f.
Proof. symmetry. apply rsum_rev. Qed.
Lemma cheb_forward_err n dl zt (x o a : list A) : (2 <= n)%nat -> (Z.of_nat n <= zmax)%Z -> INR n * eta <= u -> 0 <= dl <= 1 -> 0 <= zt ->
  dct1_accurate E fin val n dl zt -> length x = n -> length o = n -> cheb_forward_x E (mk_cheb n n) x o = Ok a ->
  (forall k, (k < n)%nat -> fin a.[k]) ->
  length a = n /\ (forall j, (j < n)%nat -> fin x.[j]) /\
  forall k, (k < n)%nat -> Rabs (val a.[k] - Fex n (V_ x) k) <= fwd_err n dl zt (rsum n (fun j => Rabs (val x.[j]))).
Proof.
  intros Hn Hz Hs Hd Hzt HE Lx Lo Ea Fa.
  assert (LI : length (fwd_in n x) = n) by (unfold fwd_in; rewrite map_length, rev_length; auto).
  destruct (HE _ LI) as [LD HD]. pose proof (cheb_forward_x_steps E n x o Hn Lx Lo LD) as W. rewrite Ea in W. destruct W as [La Hk]. split; auto.
  set (D := x_dct1 E n (fwd_in n x)) in *.
  assert (FD : forall k, (k < n)%nat -> fin D.[k]).
  { intros k Kn. specialize (Fa k Kn). rewrite Hk in Fa by auto. destruct (is_end n k); auto. apply (fa_mul _ _ _ _ _ _ _ _ FA) in Fa. tauto. }
  destruct (HD FD) as [FI HDk]. clear HD.
  pose proof (fun j Hj => fwd_in_err n x j Hn Hz Hs Lx Hj (FI j Hj)) as EI.
  split. { intros j Hj. replace j with (n - 1 - (n - 1 - j))%nat by lia. apply EI. lia. }
  pose proof (rn_u _ _ _ RN) as [U U1]. pose proof (rn_eta _ _ _ RN) as H0. pose proof (cor_pos n Hn) as CP. set (c := 2 / INR (n - 1)) in *.
  set (S := rsum n (fun j => Rabs (val x.[j]))). set (P := c * S).
  assert (N2 : 2 <= INR n). { replace 2 with (INR 2) by (cbn; ring). apply le_INR. auto. }
  assert (S0 : 0 <= S) by (apply rsum_pos; intros; apply Rabs_pos). assert (P0 : 0 <= P) by (apply Rmult_le_pos; lra).
  set (y := fwd_in n x) in *. assert (He : 0 <= INR n * eta) by (apply Rmult_le_pos; lra).
  assert (SE : rsum n (fun j => Rabs (val y.[j] - c * val x.[n - 1 - j])) <= 3 * u * P + INR n * eta).
  { eapply Rle_trans. { apply rsum_le. intros j Hj. apply (EI j Hj). }
    rewrite rsum_add, rsum_const, rsum_scal_l, rsum_scal_l, (rsum_rev' n (fun j => Rabs (val x.[j]))). unfold P, S. lra. }
  assert (SY : rsum n (fun j => Rabs (val y.[j])) <= (1 + 3 * u) * P + INR n * eta).
  { apply Rle_trans with (rsum n (fun j => c * Rabs (val x.[n - 1 - j]) + Rabs (val y.[j] - c * val x.[n - 1 - j]))).
    - apply rsum_le. intros j Hj. replace (val y.[j]) with (c * val x.[n - 1 - j] + (val y.[j] - c * val x.[n - 1 - j])) at 1 by ring.
      eapply Rle_trans; [apply Rabs_triang|]. rewrite Rabs_mult, (Rabs_pos_eq c) by lra. lra.
    - rewrite rsum_add, rsum_scal_l, (rsum_rev' n (fun j => Rabs (val x.[j]))). fold S P. lra. }
  set (e := (1 + 3 * u) * dl * P + 3 * u * P + (1 + dl) * (INR n * eta) + zt).
  set (G := fun k => rsum n (fun j => wgt (n - 1) j * cc (n - 1) j k * val x.[n - 1 - j])).
  assert (DE : forall k, (k < n)%nat -> Rabs (val D.[k] - c * G k) <= e).
  { intros k Kn. specialize (HDk k Kn). set (Gy := rsum n (fun j => _ * _ * val y.[j])) in HDk.
    replace (val D.[k] - c * G k) with ((val D.[k] - Gy) + (Gy - c * G k)) by ring. eapply Rle_trans; [apply Rabs_triang|].
    assert (Rabs (Gy - c * G k) <= 3 * u * P + INR n * eta).
    { unfold Gy, G. rewrite <- rsum_scal_l, <- rsum_sub. eapply Rle_trans; [apply rsum_abs|]. eapply Rle_trans; [|exact SE]. apply rsum_le. intros j Hj.
      change ((if (j =? 0)%nat || (j =? n - 1)%nat then / 2 else 1) * cos (PI * INR (j * k) / INR (n - 1))) with (wgt (n - 1) j * cc (n - 1) j k).
      replace (wgt (n - 1) j * cc (n - 1) j k * val y.[j] - c * (wgt (n - 1) j * cc (n - 1) j k * val x.[n - 1 - j])) with (wgt (n - 1) j * cc (n - 1) j k * (val y.[j] - c * val x.[n - 1 - j])) by ring.
      apply wcc_abs. }
    assert (dl * rsum n (fun j => Rabs (val y.[j])) <= dl * ((1 + 3 * u) * P + INR n * eta)) by (apply Rmult_le_compat_l; lra).
    unfold e. lra. }
  assert (GB : forall k, Rabs (c * G k) <= P).
  { intros k. rewrite Rabs_mult, (Rabs_pos_eq c) by lra. apply Rmult_le_compat_l. lra. apply (Fsum_abs n (fun j => val x.[j])). auto. }
  assert (D0 : 0 <= dl * P) by (apply Rmult_le_pos; lra). assert (U0 : 0 <= u * P) by (apply Rmult_le_pos; lra).
  assert (UD : u * (dl * P) <= / 64 * (dl * P)) by (apply Rmult_le_compat_r; lra). assert (UU : u * (u * P) <= / 64 * (u * P)) by (apply Rmult_le_compat_r; lra).
  assert (DN : 0 <= dl * (INR n * eta) <= INR n * eta). { split. apply Rmult_le_pos; lra. rewrite <- (Rmult_1_l (INR n * eta)) at 2. apply Rmult_le_compat_r; lra. }
  assert (e0 : 0 <= e). { unfold e. assert (0 <= u * (dl * P)) by (apply Rmult_le_pos; lra). lra. }
  intros k Kn. specialize (DE k Kn). rewrite Hk by auto. unfold Fex. fold c. change (rsum n (fun j => wgt (n - 1) j * cc (n - 1) j k * val x.[n - 1 - j])) with (G k).
  fold D. unfold fwd_err. fold c. fold P. specialize (Fa k Kn). rewrite Hk in Fa by auto. unfold wgt. fold (is_end n k). destruct (is_end n k).
  - destruct (half_ok) as [_ HH]. { apply Rle_trans with (INR n * eta); auto. apply Rmult_le_compat_r; lra. }
    destruct (fa_mul _ _ _ _ _ _ _ _ FA _ _ Fa) as (_ & _ & ->). set (d := val D.[k]) in *. set (h := val fwd_half) in *. specialize (GB k). set (g := c * G k) in *.
    replace (/ 2 * c * G k) with (/ 2 * g) by (unfold g; ring).
    assert (DB : Rabs d <= P + e). { replace d with (g + (d - g)) by ring. eapply Rle_trans; [apply Rabs_triang|]. lra. }
    pose proof (rn_err _ _ _ RN (d * h)) as Er. rewrite Rabs_mult in Er.
    assert (HB : Rabs h <= / 2 + u). { replace h with (/ 2 + (h - / 2)) by ring. eapply Rle_trans; [apply Rabs_triang|]. rewrite (Rabs_pos_eq (/ 2)) by lra. lra. }
    replace (rnd (d * h) - / 2 * g) with ((rnd (d * h) - d * h) + (d * (h - / 2) + / 2 * (d - g))) by ring. eapply Rle_trans; [apply Rabs_triang|].
    eapply Rle_trans; [apply Rplus_le_compat_l, Rabs_triang|]. rewrite (Rabs_mult d), (Rabs_mult (/ 2)), (Rabs_pos_eq (/ 2)) by lra.
    pose proof (Rabs_pos d) as d0. pose proof (Rabs_pos h).
    assert (M1 : Rabs d * Rabs h <= (P + e) * (/ 2 + u)) by (apply Rmult_le_compat; lra).
    assert (M2 : Rabs d * Rabs (h - / 2) <= (P + e) * u) by (apply Rmult_le_compat; try lra; apply Rabs_pos).
    apply (Rmult_le_compat_l u) in M1; auto.
    assert (UE : u * e <= / 64 * e) by (apply Rmult_le_compat_r; lra). assert (UE0 : 0 <= u * e) by (apply Rmult_le_pos; lra).
    assert (UUE : u * (u * e) <= / 64 * (u * e)) by (apply Rmult_le_compat_r; lra).
    assert (UUP : 0 <= u * (u * P)) by (apply Rmult_le_pos; lra).
    assert (TOT : 3 / 2 * (u * P) + u * (u * P) + (u * e) * (3 / 2) + u * (u * e) + / 2 * e + eta <= (11 / 10 * dl + 4 * u) * P + 3 * INR n * eta + zt).
    { assert (EB : e <= 67 / 64 * (dl * P) + 3 * (u * P) + 2 * (INR n * eta) + zt) by (unfold e; lra).
      assert (2 * eta <= INR n * eta) by (apply Rmult_le_compat_r; lra). lra. }
    lra.
  - replace (1 * c * G k) with (c * G k) by ring. eapply Rle_trans; [exact DE|]. unfold e. lra.
Qed.

(** inputs of the backward DCT *)
Definition bwd_err (n : nat) (dl zt S : R) : R := (21 / 10 * dl + u) * S + 2 * INR n * eta + zt.

Lemma bwd_sign_ok k v : fin (bwd_sign k v) -> fin v /\ val (bwd_sign k v) = (-1) ^ k * val v.
Proof.
  unfold bwd_sign. rewrite pow_m1_mod. destruct (k mod 2 =? 0); intros F. split; auto; ring.
  destruct (mul_m1 FA _ F) as [Fv ->]. split; auto; ring.
Qed.
Lemma cheb_backward_err n dl zt (a o y : list A) : (2 <= n)%nat -> 0 <= dl <= 1 -> 0 <= zt ->
  dct1_accurate E fin val n dl zt -> length a = n -> length o = n -> cheb_backward_x E (mk_cheb n n) a o = Ok y ->
  (forall k, (k < n)%nat -> fin y.[k]) ->
  length y = n /\ (forall j, (j < n)%nat -> fin a.[j]) /\
  forall j, (j < n)%nat -> Rabs (val y.[j] - Bex n (V_ a) j) <= bwd_err n dl zt (rsum n (fun k => Rabs (val a.[k]))).
Proof.
  intros Hn Hd Hzt HE La Lo Ey Fy. pose proof (cheb_backward_x_steps E n a o Hn La Lo) as W. rewrite Ey in W. destruct W as (b & Lb & -> & Hb).
  destruct (HE b Lb) as [LD HD]. split; auto. destruct (HD Fy) as [Fb HDk]. clear HD.
  pose proof (rn_u _ _ _ RN) as [U U1]. pose proof (rn_eta _ _ _ RN) as H0.
  assert (EB : forall k, (k < n)%nat -> fin a.[k] /\ Rabs (wgt (n - 1) k * val b.[k] - (-1) ^ k * val a.[k]) <= u * Rabs (val a.[k]) + eta /\
     Rabs (val b.[k]) <= 21 / 10 * Rabs (val a.[k]) + eta).
  { intros k Hk. specialize (Fb k Hk). specialize (Hb k Hk). rewrite Hb in *. unfold wgt. fold (is_end n k). pose proof (Rabs_pos (val a.[k])) as A0. pose proof (pm1_abs k) as PM. destruct (is_end n k).
    - destruct (fa_mul _ _ _ _ _ _ _ _ FA _ _ Fb) as (Fs & _ & ->). destruct (bwd_sign_ok k _ Fs) as [Fk ->]. split; auto.
      rewrite (proj2 (two_ok FA)). set (s := (-1) ^ k * val a.[k]). assert (SA : Rabs s = Rabs (val a.[k])) by (unfold s; rewrite Rabs_mult, PM; ring).
      pose proof (rn_err _ _ _ RN (s * 2)) as Er. rewrite Rabs_mult, (Rabs_pos_eq 2), SA in Er by lra. split.
      + replace (/ 2 * rnd (s * 2) - s) with (/ 2 * (rnd (s * 2) - s * 2)) by field. rewrite Rabs_mult, (Rabs_pos_eq (/ 2)) by lra. lra.
      + replace (rnd (s * 2)) with (s * 2 + (rnd (s * 2) - s * 2)) by ring. eapply Rle_trans; [apply Rabs_triang|]. rewrite Rabs_mult, (Rabs_pos_eq 2), SA by lra.
        assert (u * (Rabs (val a.[k]) * 2) <= / 64 * (Rabs (val a.[k]) * 2)) by (apply Rmult_le_compat_r; lra). lra.
    - destruct (bwd_sign_ok k _ Fb) as [Fk ->]. split; auto. rewrite Rmult_1_l, Rminus_diag_eq, Rabs_R0, Rabs_mult, PM by auto. split.
      assert (0 <= u * Rabs (val a.[k])) by (apply Rmult_le_pos; auto). lra. lra. }
  split. { intros j Hj. apply EB; auto. }
  set (S := rsum n (fun k => Rabs (val a.[k]))). assert (S0 : 0 <= S) by (apply rsum_pos; intros; apply Rabs_pos).
  assert (He : 0 <= INR n * eta) by (apply Rmult_le_pos; [apply pos_INR|auto]).
  intros j Hj. specialize (HDk j Hj). set (Gb := rsum n (fun i => _ * _ * val b.[i])) in HDk.
  assert (B1 : rsum n (fun i => Rabs (val b.[i])) <= 21 / 10 * S + INR n * eta).
  { eapply Rle_trans. { apply rsum_le. intros i Hi. apply (EB i Hi). } rewrite rsum_add, rsum_const, rsum_scal_l. fold S. lra. }
  assert (B2 : Rabs (Gb - Bex n (fun i => val a.[i]) j) <= u * S + INR n * eta).
  { unfold Gb, Bex. rewrite <- rsum_sub. eapply Rle_trans; [apply rsum_abs|]. eapply Rle_trans.
    - apply rsum_le. intros i Hi. rewrite TT_node by auto.
      change ((if (i =? 0)%nat || (i =? n - 1)%nat then / 2 else 1) * cos (PI * INR (i * j) / INR (n - 1))) with (wgt (n - 1) i * cc (n - 1) i j). rewrite (cc_sym (n - 1) j i).
      replace (wgt (n - 1) i * cc (n - 1) i j * val b.[i] - val a.[i] * ((-1) ^ i * cc (n - 1) i j)) with ((wgt (n - 1) i * val b.[i] - (-1) ^ i * val a.[i]) * cc (n - 1) i j) by ring.
      rewrite Rabs_mult. pose proof (cc_abs (n - 1) i j). pose proof (Rabs_pos (wgt (n - 1) i * val b.[i] - (-1) ^ i * val a.[i])).
      apply Rle_trans with (Rabs (wgt (n - 1) i * val b.[i] - (-1) ^ i * val a.[i]) * 1). apply Rmult_le_compat_l; auto. rewrite Rmult_1_r. apply (EB i Hi).
    - rewrite rsum_add, rsum_const, rsum_scal_l. fold S. lra. }
  set (D := val (x_dct1 E n b).[j]) in *. replace (D - Bex n (fun i => val a.[i]) j) with ((D - Gb) + (Gb - Bex n (fun i => val a.[i]) j)) by ring.
  eapply Rle_trans; [apply Rabs_triang|]. apply (Rmult_le_compat_l dl) in B1; [|lra].
  assert (DN : 0 <= dl * (INR n * eta) <= INR n * eta). { split. apply Rmult_le_pos; lra. rewrite <- (Rmult_1_l (INR n * eta)) at 2. apply Rmult_le_compat_r; lra. }
  unfold bwd_err. lra.
Qed.

(** ** Round trips *)
Lemma cheb_bwd_fwd_err n dl zt (x o1 a o2 y : list A) : (2 <= n)%nat -> (Z.of_nat n <= zmax)%Z -> INR n * eta <= u -> 0 <= dl <= / 16 -> 0 <= zt ->
  dct1_accurate E fin val n dl zt -> length x = n -> length o1 = n -> length o2 = n ->
  cheb_forward_x E (mk_cheb n n) x o1 = Ok a -> cheb_backward_x E (mk_cheb n n) a o2 = Ok y -> (forall k, (k < n)%nat -> fin y.[k]) ->
  (forall j, (j < n)%nat -> fin x.[j]) /\ forall j, (j < n)%nat -> Rabs (val y.[j] - val x.[j]) <=
    (16 * dl + 24 * u) * rsum n (fun k => Rabs (val x.[k])) + 5 * (INR n * INR n) * eta + 2 * INR n * zt.
Proof.
  intros Hn Hz Hs Hd Hzt HE Lx L1 L2 Ea Ey Fy.
  assert (La : length a = n). { assert (LI : length (fwd_in n x) = n) by (unfold fwd_in; rewrite map_length, rev_length; auto).
    pose proof (cheb_forward_x_steps E n x o1 Hn Lx L1 (proj1 (HE _ LI))) as W. rewrite Ea in W. apply W. }
  destruct (cheb_backward_err n dl zt a o2 y Hn ltac:(lra) Hzt HE La L2 Ey Fy) as (_ & Fa & HB).
  destruct (cheb_forward_err n dl zt x o1 a Hn Hz Hs ltac:(lra) Hzt HE Lx L1 Ea Fa) as (_ & Fx & HF). split; auto.
  pose proof (rn_u _ _ _ RN) as [U U1]. pose proof (rn_eta _ _ _ RN) as H0.
  assert (N2 : 2 <= INR n). { replace 2 with (INR 2) by (cbn; ring). apply le_INR. auto. }
  set (S := rsum n (fun k => Rabs (val x.[k]))) in *. set (ef := fwd_err n dl zt S) in *.
  assert (S0 : 0 <= S) by (apply rsum_pos; intros; apply Rabs_pos). pose proof (cor_pos n Hn) as CP. set (P := 2 / INR (n - 1) * S).
  assert (P0 : 0 <= P) by (apply Rmult_le_pos; lra).
  assert (NP : INR n * P <= 4 * S).
  { unfold P. replace (INR n * (2 / INR (n - 1) * S)) with (INR n * (2 / INR (n - 1)) * S) by ring. apply Rmult_le_compat_r; auto.
    pose proof (INR_n1 n Hn). apply Rmult_le_reg_r with (INR (n - 1)). lra. replace (INR n * (2 / INR (n - 1)) * INR (n - 1)) with (2 * INR n) by (field; lra).
    assert (NI : INR (n - 1) = INR n - 1) by (rewrite minus_INR by lia; cbn [INR]; ring). lra. }
  assert (SC : rsum n (fun k => Rabs (val a.[k])) <= INR n * (P + ef)).
  { rewrite <- rsum_const. apply rsum_le. intros k Hk. specialize (HF k Hk). pose proof (Fex_abs n (fun j => val x.[j]) k Hn) as FB. cbv beta in FB. fold S in FB. fold P in FB.
    replace (val a.[k]) with (Fex n (fun j => val x.[j]) k + (val a.[k] - Fex n (fun j => val x.[j]) k)) by ring. eapply Rle_trans; [apply Rabs_triang|]. lra. }
  intros j Hj. specialize (HB j Hj). unfold bwd_err in HB.
  assert (HX : Rabs (Bex n (fun k => val a.[k]) j - val x.[j]) <= INR n * ef).
  { rewrite <- (Bex_Fex n (fun k => val x.[k]) j Hn Hj) at 1. rewrite <- Bex_sub. eapply Rle_trans; [apply Bex_abs; auto|]. rewrite <- rsum_const. apply rsum_le. intros k Hk. apply HF. auto. }
  replace (val y.[j] - val x.[j]) with ((val y.[j] - Bex n (fun k => val a.[k]) j) + (Bex n (fun k => val a.[k]) j - val x.[j])) by ring.
  eapply Rle_trans; [apply Rabs_triang|].
  apply (Rmult_le_compat_l (21 / 10 * dl + u)) in SC; [|lra].
  assert (NE : INR n * ef = (11 / 10 * dl + 4 * u) * (INR n * P) + 3 * (INR n * (INR n * eta)) + INR n * zt). { unfold ef, fwd_err. fold P. ring. }
  assert (EN : 2 * (INR n * eta) <= INR n * (INR n * eta)) by (apply Rmult_le_compat_r; [apply Rmult_le_pos; lra|lra]).
  assert (ZN : 2 * zt <= INR n * zt) by (apply Rmult_le_compat_r; lra).
  assert (M1 : (11 / 10 * dl + 4 * u) * (INR n * P) <= (11 / 10 * dl + 4 * u) * (4 * S)) by (apply Rmult_le_compat_l; lra).
  assert (M2 : (21 / 10 * dl + u) * (INR n * P) <= (21 / 10 * dl + u) * (4 * S)) by (apply Rmult_le_compat_l; lra).
  assert (NE0 : 0 <= INR n * ef). { rewrite NE. repeat apply Rplus_le_le_0_compat; repeat apply Rmult_le_pos; lra. }
  assert (M3 : (21 / 10 * dl + u) * (INR n * ef) <= 15 / 100 * (INR n * ef)) by (apply Rmult_le_compat_r; lra).
  rewrite (Rmult_plus_distr_l (INR n)), Rmult_plus_distr_l in SC.
  assert (DS : 0 <= dl * S) by (apply Rmult_le_pos; lra). assert (US : 0 <= u * S) by (apply Rmult_le_pos; lra).
  assert (0 <= INR n * (INR n * eta)) by (repeat apply Rmult_le_pos; lra). assert (0 <= INR n * zt) by (apply Rmult_le_pos; lra).
  rewrite NE in *. lra.
Qed.

Lemma cheb_fwd_bwd_err n dl zt (a o1 y o2 c : list A) : (2 <= n)%nat -> (Z.of_nat n <= zmax)%Z -> INR n * eta <= u -> 0 <= dl <= / 16 -> 0 <= zt ->
  dct1_accurate E fin val n dl zt -> length a = n -> length o1 = n -> length o2 = n ->
  cheb_backward_x E (mk_cheb n n) a o1 = Ok y -> cheb_forward_x E (mk_cheb n n) y o2 = Ok c -> (forall k, (k < n)%nat -> fin c.[k]) ->
  (forall j, (j < n)%nat -> fin a.[j]) /\ forall k, (k < n)%nat -> Rabs (val c.[k] - val a.[k]) <=
    (14 * dl + 21 * u) * rsum n (fun k => Rabs (val a.[k])) + 13 * INR n * eta + 6 * zt.
Proof.
  intros Hn Hz Hs Hd Hzt HE La L1 L2 Ey Ec Fc.
  assert (Ly : length y = n). { pose proof (cheb_backward_x_steps E n a o1 Hn La L1) as W. rewrite Ey in W. destruct W as (b & Lb & -> & _). apply (HE b Lb). }
  destruct (cheb_forward_err n dl zt y o2 c Hn Hz Hs ltac:(lra) Hzt HE Ly L2 Ec Fc) as (_ & Fy & HF).
  destruct (cheb_backward_err n dl zt a o1 y Hn ltac:(lra) Hzt HE La L1 Ey Fy) as (_ & Fa & HB). split; auto.
  pose proof (rn_u _ _ _ RN) as [U U1]. pose proof (rn_eta _ _ _ RN) as H0.
  assert (N2 : 2 <= INR n). { replace 2 with (INR 2) by (cbn; ring). apply le_INR. auto. }
  set (S := rsum n (fun k => Rabs (val a.[k]))) in *. set (eb := bwd_err n dl zt S) in *.
  assert (S0 : 0 <= S) by (apply rsum_pos; intros; apply Rabs_pos). pose proof (cor_pos n Hn) as CP.
  assert (CN : forall t, 0 <= t -> 2 / INR (n - 1) * (INR n * t) <= 4 * t).
  { intros t Ht. rewrite <- Rmult_assoc. apply Rmult_le_compat_r; auto.
    pose proof (INR_n1 n Hn). apply Rmult_le_reg_r with (INR (n - 1)). lra. replace (2 / INR (n - 1) * INR n * INR (n - 1)) with (2 * INR n) by (field; lra).
    assert (NI : INR (n - 1) = INR n - 1) by (rewrite minus_INR by lia; cbn [INR]; ring). lra. }
  assert (EBE : eb = 21 / 10 * (dl * S) + u * S + 2 * (INR n * eta) + zt) by (unfold eb, bwd_err; ring).
  assert (DS : 0 <= dl * S) by (apply Rmult_le_pos; lra). assert (US : 0 <= u * S) by (apply Rmult_le_pos; lra).
  assert (NN : 0 <= INR n * eta) by (apply Rmult_le_pos; lra). assert (EB0 : 0 <= eb) by (rewrite EBE; lra).
  assert (SY : rsum n (fun j => Rabs (val y.[j])) <= INR n * (S + eb)).
  { rewrite <- rsum_const. apply rsum_le. intros j Hj. specialize (HB j Hj). pose proof (Bex_abs n (fun k => val a.[k]) j Hn) as BB. cbv beta in BB. fold S in BB.
    replace (val y.[j]) with (Bex n (fun k => val a.[k]) j + (val y.[j] - Bex n (fun k => val a.[k]) j)) by ring. eapply Rle_trans; [apply Rabs_triang|]. lra. }
  intros k Hk. specialize (HF k Hk). unfold fwd_err in HF.
  assert (PY : 2 / INR (n - 1) * rsum n (fun j => Rabs (val y.[j])) <= 4 * (S + eb)).
  { eapply Rle_trans; [apply Rmult_le_compat_l; [lra|exact SY]|]. apply CN. lra. }
  assert (FE : Rabs (Fex n (fun j => val y.[j]) k - val a.[k]) <= 4 * eb).
  { rewrite <- (Fex_Bex n (fun i => val a.[i]) k Hn Hk) at 1. rewrite <- Fex_sub. eapply Rle_trans; [apply Fex_abs; auto|].
    eapply Rle_trans; [|apply CN; exact EB0]. apply Rmult_le_compat_l. lra. rewrite <- rsum_const. apply rsum_le. intros j Hj. apply HB. auto. }
  replace (val c.[k] - val a.[k]) with ((val c.[k] - Fex n (fun j => val y.[j]) k) + (Fex n (fun j => val y.[j]) k - val a.[k])) by ring.
  eapply Rle_trans; [apply Rabs_triang|]. apply (Rmult_le_compat_l (11 / 10 * dl + 4 * u)) in PY; [|lra].
  assert (M : (11 / 10 * dl + 4 * u) * eb <= 132 / 1000 * eb) by (apply Rmult_le_compat_r; lra).
  rewrite EBE in *. lra.
Qed.
End Fl.
