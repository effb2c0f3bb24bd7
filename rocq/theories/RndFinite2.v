(** No overflow in the transforms: with libraries that do not overflow on sums in
    range (LibAcc.v), transforms of finite numbers of moderate size are finite. *)
From Coq Require Import List Arith ZArith Reals Bool Lra Lia.
From Flocq Require Import Core.
From Verif Require Import Base Num Linalg Stencils Cheb ChebPoly ChebDct ChebFacts Compo CompoProofs Fourier FourierFacts FourierProofs FourierOps ExtLib ChebGrad LinalgProofs Rounding RndTdma RndDirichlet RndGrad RndFinite RndNeumann LibAcc RndCheb RndFft RndR2c RndCompo PropRound.
Import ListNotations.
Local Open Scope R_scope.

Section Fl.
Context {A : Type} {N : Num A} {u eta : R} {rnd : R -> R} {zmax : Z} {inr : R -> Prop} {fin : A -> Prop} {val : A -> R}
  (FA : float_arith N u eta rnd zmax inr fin val) (E : ext A).
Let RN := fa_rnd _ _ _ _ _ _ _ _ FA.
Let FF := fa_float _ _ _ _ _ _ _ _ FA.
Notation V_ l := (fun j => val l.[j]).

Lemma rnd_abs x : rnd (Rabs x) = Rabs (rnd x).
Proof.
  assert (Z : rnd 0 = 0) by apply (rnd_0 RN). destruct (Rle_or_lt 0 x) as [H|H].
  - rewrite (Rabs_pos_eq x) by auto. rewrite Rabs_pos_eq; auto. rewrite <- Z. apply (rn_mono _ _ _ RN). auto.
  - rewrite (Rabs_left x) by auto. rewrite (rn_opp _ _ _ RN). rewrite Rabs_left1; auto. rewrite <- Z. apply (rn_mono _ _ _ RN). lra.
Qed.
(** multiplication by a factor of magnitude at most 2 *)
Lemma mul2_fin x a : fin x -> fin a -> Rabs (val a) <= 2 -> inr (21 / 10 * Rabs (val x)) -> fin (nmul x a) /\ Rabs (val (nmul x a)) <= 21 / 10 * Rabs (val x).
Proof.
  intros Fx Fa Ha HI. pose proof (rn_u _ _ _ RN) as [U U1]. set (v := Rabs (val x)) in *. assert (V0 : 0 <= v) by apply Rabs_pos.
  assert (FV : rnd v = v) by (unfold v; rewrite rnd_abs, (FF _ Fx); auto).
  assert (B : Rabs (rnd (val x * val a)) <= 21 / 10 * v).
  { rewrite <- rnd_abs. apply Rle_trans with (rnd (v + v)).
    - apply (rn_mono _ _ _ RN). rewrite Rabs_mult. fold v. pose proof (Rmult_le_compat_l v _ _ V0 Ha). lra.
    - pose proof (rn_sum _ _ _ RN v v FV FV) as Es. rewrite (Rabs_pos_eq (v + v)) in Es by lra. apply Rabs_le_inv in Es. assert (u * (v + v) <= / 64 * (v + v)) by (apply Rmult_le_compat_r; lra). lra. }
  assert (F : fin (nmul x a)). { apply (fa_mulF _ _ _ _ _ _ _ _ FA); auto. eapply (inr_le FA); [|exact B|auto]. lra. }
  split; auto. destruct (fa_mul _ _ _ _ _ _ _ _ FA _ _ F) as (_ & _ & ->). auto.
Qed.
Lemma inr_down x y : 0 <= x <= y -> inr y -> inr x.
Proof. intros H. apply (inr_le FA). lra. rewrite Rabs_pos_eq; lra. Qed.
Lemma rsum_pick n (f : nat -> R) j : (forall i, (i < n)%nat -> 0 <= f i) -> (j < n)%nat -> f j <= rsum n f.
Proof. intros. apply rsum_elem; auto. Qed.
Lemma cor_le n : (2 <= n)%nat -> (Z.of_nat n <= zmax)%Z -> fin (fwd_cor (A := A) n) /\ Rabs (val (fwd_cor (A := A) n)) <= 2.
Proof.
  intros Hn Hz. destruct (two_ok FA) as [F2 E2].
  assert (F2' : fin (nmul (nadd n1 n1) n1) /\ val (nmul (nadd n1 n1) n1) = 2).
  { assert (RM : rnd (val (nadd n1 n1) * val n1) = 2). { rewrite E2, (proj2 (fa_1 _ _ _ _ _ _ _ _ FA)), Rmult_1_r. apply (rnd_int FA 2). cbn; lia. }
    assert (F : fin (nmul (nadd n1 n1) n1)). { apply (fa_mulF _ _ _ _ _ _ _ _ FA); auto. apply (fa_1 _ _ _ _ _ _ _ _ FA). rewrite RM. apply (inr_small FA). rewrite Rabs_pos_eq; lra. }
    split; auto. destruct (fa_mul _ _ _ _ _ _ _ _ FA _ _ F) as (_ & _ & ->). auto. }
  destruct F2' as [F2' E2']. destruct (int_val FA (n - 1) ltac:(lia)) as [Fn En]. pose proof (INR_n1 n Hn) as N1.
  destruct (div_fin FA _ _ F2' Fn) as [F B]. rewrite En, Rabs_pos_eq; lra. rewrite E2'. apply (inr_small FA). rewrite Rabs_pos_eq; lra.
  split. exact F. rewrite E2', (Rabs_pos_eq 2) in B by lra. exact B.
Qed.
Lemma half_le : fin (fwd_half (A := A)) /\ Rabs (val (fwd_half (A := A))) <= 1.
Proof.
  destruct (fa_int _ _ _ _ _ _ _ _ FA 2) as [F2 E2]. { pose proof (fa_zmax _ _ _ _ _ _ _ _ FA). cbn; lia. }
  destruct (fa_1 _ _ _ _ _ _ _ _ FA) as [F1 E1]. destruct (div_fin FA _ _ F1 F2) as [F B]. rewrite E2, Rabs_pos_eq; lra. rewrite E1. apply (inr_small FA). rewrite Rabs_R1; lra.
  split. exact F. rewrite E1, Rabs_R1 in B. exact B.
Qed.
Lemma inv_cor_le n : (1 <= n)%nat -> (Z.of_nat n <= zmax)%Z -> fin (inv_cor (A := A) n) /\ Rabs (val (inv_cor (A := A) n)) <= 1.
Proof.
  intros Hn Hz. destruct (int_val FA n Hz) as [Fn En]. pose proof (INR_1 n Hn) as N1. destruct (fa_1 _ _ _ _ _ _ _ _ FA) as [F1 E1].
  destruct (div_fin FA _ _ F1 Fn) as [F B]. rewrite En, Rabs_pos_eq; lra. rewrite E1. apply (inr_small FA). rewrite Rabs_R1; lra.
  split. exact F. rewrite E1, Rabs_R1 in B. exact B.
Qed.
Lemma mul_fin' x a : fin x -> fin a -> Rabs (val a) <= 1 -> inr (val x) -> fin (nmul a x) /\ Rabs (val (nmul a x)) <= Rabs (val x).
Proof.
  intros Fx Fa Ha HI.
  assert (B : Rabs (rnd (val a * val x)) <= Rabs (val x)).
  { apply (rnd_abs_le RN); auto. rewrite Rabs_mult. pose proof (Rmult_le_compat_r (Rabs (val x)) _ _ (Rabs_pos _) Ha). lra. }
  assert (F : fin (nmul a x)). { apply (fa_mulF _ _ _ _ _ _ _ _ FA); auto. eapply (fa_inr _ _ _ _ _ _ _ _ FA); [exact B|auto]. }
  split; auto. destruct (fa_mul _ _ _ _ _ _ _ _ FA _ _ F) as (_ & _ & ->). auto.
Qed.

Definition size (n : nat) (x : list A) : R := rsum n (fun j => Rabs (val x.[j])).
Lemma size_pos n x : 0 <= size n x.
Proof. apply rsum_pos. intros. apply Rabs_pos. Qed.
Lemma size_le n (x : list A) B : (forall j, (j < n)%nat -> Rabs (val x.[j]) <= B) -> size n x <= INR n * B.
Proof. intros H. unfold size. rewrite <- rsum_const. apply rsum_le. auto. Qed.

(** ** Chebyshev *)
Lemma cheb_forward_fin n dl zt (x o : list A) : (2 <= n)%nat -> (Z.of_nat n <= zmax)%Z -> 0 <= dl <= 1 -> 0 <= zt ->
  dct1_accurate E fin val n dl zt -> dct1_in_range E fin val inr n -> length x = n -> length o = n ->
  (forall j, (j < n)%nat -> fin x.[j]) -> inr (9 * size n x + zt) ->
  exists a, cheb_forward_x E (mk_cheb n n) x o = Ok a /\ length a = n /\ forall k, (k < n)%nat -> fin a.[k].
Proof.
  intros Hn Hz Hd Hzt HE HR Lx Lo Fx HI. pose proof (size_pos n x) as S0. destruct (cor_le n Hn Hz) as [FC BC].
  assert (LI : length (fwd_in n x) = n) by (unfold fwd_in; rewrite map_length, rev_length; auto).
  assert (EI : forall j, (j < n)%nat -> fin (fwd_in n x).[j] /\ Rabs (val (fwd_in n x).[j]) <= 21 / 10 * Rabs (val x.[n - 1 - j])).
  { intros j Hj. unfold fwd_in. rewrite (at_map (fun v => nmul v (fwd_cor n))) by (rewrite rev_length; lia). rewrite at_rev by lia. rewrite Lx.
    apply mul2_fin; auto. apply Fx; lia. eapply inr_down; [|exact HI].
    pose proof (rsum_pick n (fun j => Rabs (val x.[j])) (n - 1 - j) ltac:(intros; apply Rabs_pos) ltac:(lia)) as P. cbv beta in P. fold (size n x) in P. pose proof (Rabs_pos (val x.[n - 1 - j])). lra. }
  assert (SI : rsum n (fun j => Rabs (val (fwd_in n x).[j])) <= 21 / 10 * size n x).
  { eapply Rle_trans. apply rsum_le. intros j Hj. apply (EI j Hj). rewrite rsum_scal_l, (rsum_rev' n (fun j => Rabs (val x.[j]))). unfold size. lra. }
  assert (SI0 : 0 <= rsum n (fun j => Rabs (val (fwd_in n x).[j]))) by (apply rsum_pos; intros; apply Rabs_pos).
  assert (FD : forall k, (k < n)%nat -> fin (x_dct1 E n (fwd_in n x)).[k]).
  { apply HR; auto. intros j Hj. apply EI; auto. eapply inr_down; [|exact HI]. lra. }
  destruct (HE _ LI) as [LD HD]. destruct (HD FD) as [_ HDk]. pose proof (cheb_forward_x_steps E n x o Hn Lx Lo LD) as W. apply wp_Ok in W as (a & Ea & La & Hk).
  exists a. split; auto. split; auto. intros k Hk'. rewrite Hk by auto. destruct (is_end n k); auto. destruct half_le as [FH BH]. apply (mul_fin FA); auto.
  specialize (HDk k Hk'). eapply (inr_le FA); [| |exact HI]. lra. set (D := val (x_dct1 E n (fwd_in n x)).[k]) in *. set (G := rsum n (fun j => _ * _ * val _)) in HDk.
  assert (GB : Rabs G <= rsum n (fun j => Rabs (val (fwd_in n x).[j]))). { unfold G. eapply Rle_trans; [apply rsum_abs|]. apply rsum_le. intros j Hj. apply (wcc_abs (n - 1) j k). }
  replace D with (G + (D - G)) by ring. eapply Rle_trans; [apply Rabs_triang|].
  assert (dl * rsum n (fun j => Rabs (val (fwd_in n x).[j])) <= 1 * rsum n (fun j => Rabs (val (fwd_in n x).[j]))) by (apply Rmult_le_compat_r; lra). lra.
Qed.
Lemma bwd_sign_fin k v : fin v -> inr (val v) -> fin (bwd_sign k v) /\ Rabs (val (bwd_sign k v)) <= Rabs (val v).
Proof.
  intros Fv Hi. unfold bwd_sign. destruct (k mod 2 =? 0). split; auto; lra. apply (mul_fin FA); auto. apply (fa_opp _ _ _ _ _ _ _ _ FA), (fa_1 _ _ _ _ _ _ _ _ FA).
  destruct (fa_1 _ _ _ _ _ _ _ _ FA) as [F1 E1]. rewrite (proj2 (fin_m1 FA)). rewrite Rabs_left; lra.
Qed.
Lemma cheb_backward_fin n (a o : list A) : (2 <= n)%nat ->
  (forall x, length x = n -> length (x_dct1 E n x) = n) -> dct1_in_range E fin val inr n -> length a = n -> length o = n ->
  (forall j, (j < n)%nat -> fin a.[j]) -> inr (9 * size n a) ->
  exists y, cheb_backward_x E (mk_cheb n n) a o = Ok y /\ length y = n /\ forall k, (k < n)%nat -> fin y.[k].
Proof.
  intros Hn HE HR La Lo Fa HI. pose proof (size_pos n a) as S0. pose proof (cheb_backward_x_steps E n a o Hn La Lo) as W. apply wp_Ok in W as (y & Ey & b & Lb & -> & Hb).
  assert (EB : forall k, (k < n)%nat -> fin b.[k] /\ Rabs (val b.[k]) <= 21 / 10 * Rabs (val a.[k])).
  { intros k Hk. rewrite Hb by auto. pose proof (rsum_pick n (fun j => Rabs (val a.[j])) k ltac:(intros; apply Rabs_pos) Hk) as P. cbv beta in P. fold (size n a) in P. pose proof (Rabs_pos (val a.[k])) as P0.
    destruct (bwd_sign_fin k a.[k] (Fa k Hk)) as [FS BS]. { eapply (inr_le FA); [| |exact HI]; lra. }
    destruct (is_end n k). 2: { split; auto. lra. }
    destruct (two_ok FA) as [F2 E2]. destruct (mul2_fin (bwd_sign k a.[k]) (nadd n1 n1) FS F2) as [FM BM]. rewrite E2, Rabs_pos_eq; lra.
    - pose proof (Rabs_pos (val (bwd_sign k a.[k]))). eapply inr_down; [|exact HI]. lra.
    - split; auto. lra. }
  exists (x_dct1 E n b). split; auto. split; auto. apply HR; auto. intros; apply EB; auto.
  assert (rsum n (fun j => Rabs (val b.[j])) <= 21 / 10 * size n a). { unfold size. rewrite <- rsum_scal_l. apply rsum_le. intros j Hj. apply EB; auto. }
  assert (0 <= rsum n (fun j => Rabs (val b.[j]))) by (apply rsum_pos; intros; apply Rabs_pos). eapply inr_down; [|exact HI]. lra.
Qed.

Lemma len_of_acc n dl zt : dct1_accurate E fin val n dl zt -> forall x, length x = n -> length (x_dct1 E n x) = n.
Proof. intros H x Lx. apply (H x Lx). Qed.
(** magnitude of the results *)
Lemma cheb_forward_mag n dl zt (x o a : list A) : (2 <= n)%nat -> (Z.of_nat n <= zmax)%Z -> INR n * eta <= u -> 0 <= dl <= / 16 -> 0 <= zt ->
  dct1_accurate E fin val n dl zt -> length x = n -> length o = n -> cheb_forward_x E (mk_cheb n n) x o = Ok a ->
  (forall k, (k < n)%nat -> fin a.[k]) -> forall k, (k < n)%nat -> Rabs (val a.[k]) <= 23 / 20 * (2 / INR (n - 1) * size n x) + 3 * INR n * eta + zt.
Proof.
  intros Hn Hz Hs Hd Hzt HE Lx Lo Ea Fa k Hk. destruct (cheb_forward_err FA E n dl zt x o a Hn Hz Hs ltac:(lra) Hzt HE Lx Lo Ea Fa) as (_ & _ & HF).
  specialize (HF k Hk). pose proof (Fex_abs n (V_ x) k Hn) as FB. cbv beta in FB. fold (size n x) in *. unfold fwd_err in HF. set (P := 2 / INR (n - 1) * size n x) in *.
  assert (P0 : 0 <= P). { apply Rmult_le_pos. pose proof (cor_pos n Hn); lra. apply size_pos. }
  pose proof (rn_u _ _ _ RN) as [U U1]. set (F := Fex n _ k) in *. replace (val a.[k]) with (F + (val a.[k] - F)) by ring. eapply Rle_trans; [apply Rabs_triang|].
  assert ((11 / 10 * dl + 4 * u) * P <= (11 / 160 + 4 / 64) * P) by (apply Rmult_le_compat_r; lra). lra.
Qed.
Lemma cheb_backward_mag n dl zt (a o y : list A) : (2 <= n)%nat -> 0 <= dl <= / 16 -> 0 <= zt ->
  dct1_accurate E fin val n dl zt -> length a = n -> length o = n -> cheb_backward_x E (mk_cheb n n) a o = Ok y ->
  (forall k, (k < n)%nat -> fin y.[k]) -> forall k, (k < n)%nat -> Rabs (val y.[k]) <= 23 / 20 * size n a + 2 * INR n * eta + zt.
Proof.
  intros Hn Hd Hzt HE La Lo Ey Fy k Hk. destruct (cheb_backward_err FA E n dl zt a o y Hn ltac:(lra) Hzt HE La Lo Ey Fy) as (_ & _ & HB).
  specialize (HB k Hk). pose proof (Bex_abs n (V_ a) k Hn) as BB. cbv beta in BB. fold (size n a) in *. unfold bwd_err in HB. pose proof (size_pos n a) as P0.
  pose proof (rn_u _ _ _ RN) as [U U1]. set (F := Bex n _ k) in *. replace (val y.[k]) with (F + (val y.[k] - F)) by ring. eapply Rle_trans; [apply Rabs_triang|].
  assert ((21 / 10 * dl + u) * size n a <= (21 / 160 + / 64) * size n a) by (apply Rmult_le_compat_r; lra). lra.
Qed.
Lemma n_over n : (2 <= n)%nat -> 1 <= INR n /\ INR n * (2 / INR (n - 1)) <= 4.
Proof.
  intros Hn. pose proof (INR_n1 n Hn). assert (INR n = INR (n - 1) + 1). { rewrite <- S_INR. f_equal. lia. } split. lra. rewrite H0.
  apply Rmult_le_reg_r with (INR (n - 1)). lra. replace ((INR (n - 1) + 1) * (2 / INR (n - 1)) * INR (n - 1)) with ((INR (n - 1) + 1) * 2) by (field; lra). lra.
Qed.
Lemma cheb_bwd_fwd_fin n dl zt (x o1 o2 : list A) : (2 <= n)%nat -> (Z.of_nat n <= zmax)%Z -> INR n * eta <= u -> 0 <= dl <= / 16 -> 0 <= zt ->
  dct1_accurate E fin val n dl zt -> dct1_in_range E fin val inr n -> length x = n -> length o1 = n -> length o2 = n ->
  (forall j, (j < n)%nat -> fin x.[j]) -> inr (42 * size n x + 27 * (INR n * INR n) * eta + 9 * INR n * zt) ->
  exists a y, cheb_forward_x E (mk_cheb n n) x o1 = Ok a /\ cheb_backward_x E (mk_cheb n n) a o2 = Ok y /\ (forall k, (k < n)%nat -> fin a.[k]) /\ forall k, (k < n)%nat -> fin y.[k].
Proof.
  intros Hn Hz Hs Hd Hzt HE HR Lx L1 L2 Fx HI. pose proof (size_pos n x) as S0. pose proof (rn_eta _ _ _ RN) as H0. destruct (n_over n Hn) as [N1 N2].
  assert (NN : 0 <= INR n * INR n * eta) by (apply Rmult_le_pos; auto; apply Rmult_le_pos; lra). assert (NZ : zt <= INR n * zt). { rewrite <- (Rmult_1_l zt) at 1. apply Rmult_le_compat_r; auto. }
  destruct (cheb_forward_fin n dl zt x o1 Hn Hz ltac:(lra) Hzt HE HR Lx L1 Fx) as (a & Ea & La & Fa). { eapply inr_down; [|exact HI]. lra. }
  pose proof (size_le n a _ (cheb_forward_mag n dl zt x o1 a Hn Hz Hs Hd Hzt HE Lx L1 Ea Fa)) as SA. pose proof (size_pos n a) as SA0.
  destruct (cheb_backward_fin n a o2 Hn (len_of_acc n dl zt HE) HR La L2 Fa) as (y & Ey & Ly & Fy).
  { eapply inr_down; [|exact HI]. split. lra.
    assert (M : INR n * (2 / INR (n - 1)) * size n x <= 4 * size n x) by (apply Rmult_le_compat_r; auto). lra. }
  exists a, y. auto.
Qed.
Lemma cheb_fwd_bwd_fin n dl zt (a o1 o2 : list A) : (2 <= n)%nat -> (Z.of_nat n <= zmax)%Z -> 0 <= dl <= / 16 -> 0 <= zt ->
  dct1_accurate E fin val n dl zt -> dct1_in_range E fin val inr n -> length a = n -> length o1 = n -> length o2 = n ->
  (forall j, (j < n)%nat -> fin a.[j]) -> inr (11 * INR n * size n a + 18 * (INR n * INR n) * eta + 10 * INR n * zt) ->
  exists y b, cheb_backward_x E (mk_cheb n n) a o1 = Ok y /\ cheb_forward_x E (mk_cheb n n) y o2 = Ok b /\ (forall k, (k < n)%nat -> fin y.[k]) /\ forall k, (k < n)%nat -> fin b.[k].
Proof.
  intros Hn Hz Hd Hzt HE HR La L1 L2 Fa HI. pose proof (size_pos n a) as S0. pose proof (rn_eta _ _ _ RN) as H0. destruct (n_over n Hn) as [N1 N2].
  assert (NN : 0 <= INR n * INR n * eta) by (apply Rmult_le_pos; auto; apply Rmult_le_pos; lra). assert (NZ : zt <= INR n * zt). { rewrite <- (Rmult_1_l zt) at 1. apply Rmult_le_compat_r; auto. }
  assert (NS : size n a <= INR n * size n a). { rewrite <- (Rmult_1_l (size n a)) at 1. apply Rmult_le_compat_r; auto. }
  destruct (cheb_backward_fin n a o1 Hn (len_of_acc n dl zt HE) HR La L1 Fa) as (y & Ey & Ly & Fy). { eapply inr_down; [|exact HI]. lra. }
  pose proof (size_le n y _ (cheb_backward_mag n dl zt a o1 y Hn Hd Hzt HE La L1 Ey Fy)) as SY. pose proof (size_pos n y) as SY0.
  destruct (cheb_forward_fin n dl zt y o2 Hn Hz ltac:(lra) Hzt HE HR Ly L2 Fy) as (b & Eb & Lb & Fb). { eapply inr_down; [|exact HI]. lra. }
  exists y, b. auto.
Qed.

(** ** Composite bases: forward of backward *)
Lemma compo_mid_fin n dl zt (a o1 o2 : list A) Sa : (2 <= n)%nat -> (Z.of_nat n <= zmax)%Z -> INR n * eta <= u -> 0 <= dl <= / 16 -> 0 <= zt ->
  dct1_accurate E fin val n dl zt -> dct1_in_range E fin val inr n -> length a = n -> length o1 = n -> length o2 = n ->
  (forall j, (j < n)%nat -> fin a.[j]) -> size n a <= Sa -> inr (11 * INR n * Sa + 18 * (INR n * INR n) * eta + 10 * INR n * zt) ->
  exists y b, cheb_backward_x E (mk_cheb n n) a o1 = Ok y /\ cheb_forward_x E (mk_cheb n n) y o2 = Ok b /\ length y = n /\ length b = n /\
    forall k, (k < n)%nat -> fin b.[k] /\ Rabs (val b.[k]) <= 6 * Sa + 13 * (INR n * eta) + 6 * zt.
Proof.
  intros Hn Hz Hs Hd Hzt HE HR La L1 L2 Fa HS HI. pose proof (size_pos n a) as S0. pose proof (rn_eta _ _ _ RN) as H0. destruct (n_over n Hn) as [N1 N2].
  assert (NN : 0 <= INR n * eta) by (apply Rmult_le_pos; lra). assert (NNN : 0 <= INR n * INR n * eta) by (apply Rmult_le_pos; auto; apply Rmult_le_pos; lra).
  assert (NZ : zt <= INR n * zt). { rewrite <- (Rmult_1_l zt) at 1. apply Rmult_le_compat_r; auto. }
  assert (NS : INR n * size n a <= INR n * Sa) by (apply Rmult_le_compat_l; lra). assert (NS0 : 0 <= INR n * size n a) by (apply Rmult_le_pos; lra).
  destruct (cheb_fwd_bwd_fin n dl zt a o1 o2 Hn Hz Hd Hzt HE HR La L1 L2 Fa) as (y & b & Ey & Eb & Fy & Fb). { eapply inr_down; [|exact HI]. lra. }
  assert (Ly : length y = n). { pose proof (cheb_backward_x_steps E n a o1 Hn La L1) as W. rewrite Ey in W. destruct W as (q & Lq & -> & _). apply (HE q Lq). }
  assert (Lb : length b = n). { assert (LI : length (fwd_in n y) = n) by (unfold fwd_in; rewrite map_length, rev_length; auto).
    pose proof (cheb_forward_x_steps E n y o2 Hn Ly L2 (proj1 (HE _ LI))) as W. rewrite Eb in W. apply W. }
  exists y, b. split; auto. split; auto. split; auto. split; auto. intros k Hk. split; auto.
  pose proof (cheb_forward_mag n dl zt y o2 b Hn Hz Hs Hd Hzt HE Ly L2 Eb Fb k Hk) as MB.
  pose proof (size_le n y _ (cheb_backward_mag n dl zt a o1 y Hn Hd Hzt HE La L1 Ey Fy)) as SY.
  pose proof (cor_pos n Hn) as CP. apply (Rmult_le_compat_l (2 / INR (n - 1))) in SY; [|lra].
  set (w := 23 / 20 * size n a + 2 * INR n * eta + zt) in *. assert (W0 : 0 <= w) by (unfold w; lra).
  assert (Q : 2 / INR (n - 1) * (INR n * w) <= 4 * w). { replace (2 / INR (n - 1) * (INR n * w)) with (INR n * (2 / INR (n - 1)) * w) by ring. apply Rmult_le_compat_r; auto. }
  unfold w in *. lra.
Qed.
Notation dirc n := (mk_compo n (n - 2) (mk_cheb n n) (Dirichlet (dir_st2 (n - 2)))).
Notation neuc n := (mk_compo n (n - 2) (mk_cheb n n) (Neumann (neu_st2 (n - 2)))).
Lemma dir_fwd_bwd_fin n dl zt (c o1 o2 : list A) : (5 <= n)%nat -> (Z.of_nat n <= zmax)%Z -> INR n * eta <= u -> INR n * u <= 1 -> 0 <= dl <= / 16 -> 0 <= zt ->
  dct1_accurate E fin val n dl zt -> dct1_in_range E fin val inr n -> length c = (n - 2)%nat -> length o1 = n -> length o2 = (n - 2)%nat ->
  (forall j, (j < n - 2)%nat -> fin c.[j]) -> inr (27 * INR n * INR n * (14 * size (n - 2) c + 26 * (INR n * eta) + 6 * zt)) ->
  exists y x, compo_backward_x E (dirc n) c o1 = Ok y /\ compo_forward_x E (dirc n) y o2 = Ok x /\ forall k, (k < n - 2)%nat -> fin x.[k].
Proof.
  intros Hn Hz Hs Hu Hd Hzt HE HR Lc L1 L2 Fc HI. set (S := size (n - 2) c) in *. assert (S0 : 0 <= S) by apply size_pos. pose proof (rn_eta _ _ _ RN) as H0. pose proof (rn_u _ _ _ RN) as [U U1].
  assert (N5 : 5 <= INR n). { apply le_INR in Hn. replace (INR 5) with 5 in Hn by (cbn; ring). auto. }
  assert (NN : 5 <= 27 * INR n) by lra. assert (NE : 0 <= INR n * eta) by (apply Rmult_le_pos; lra).
  set (Am := 14 * S + 26 * (INR n * eta) + 6 * zt) in *. assert (A0 : 0 <= Am) by (unfold Am; lra).
  assert (NA0 : Am <= INR n * Am). { rewrite <- (Rmult_1_l Am) at 1. apply Rmult_le_compat_r; lra. }
  assert (NA1 : 5 * (INR n * Am) <= INR n * INR n * Am). { rewrite Rmult_assoc. apply Rmult_le_compat_r; lra. }
  assert (L0 : length (repeat (n0 (A := A)) n) = n) by apply repeat_length.
  destruct (dir_to_ortho_fin FA (VC := vecC_self N) n c (repeat n0 n) S ltac:(lia) Lc L0) as (a & Ea & La & Ha).
  { intros p k Hk. split. apply Fc; auto. apply (rsum_pick (n - 2) (fun j => Rabs (val c.[j]))); auto. intros; apply Rabs_pos. }
  { eapply inr_down; [|exact HI]. unfold Am in *. lra. }
  assert (Fa : forall k, (k < n)%nat -> fin a.[k]) by (intros; apply (Ha tt); auto).
  destruct (dir_scratch FA n c _ a ltac:(lia) Lc L0 Ea Fa) as (_ & _ & _ & _ & HS). change (rsum (n - 2) (fun k => Rabs (val c.[k]))) with S in HS. change (rsum n (fun k => Rabs (val a.[k]))) with (size n a) in HS.
  assert (US : u * S <= / 64 * S) by (apply Rmult_le_compat_r; auto).
  destruct (compo_mid_fin n dl zt a o1 (repeat n0 n) (21 / 10 * S) ltac:(lia) Hz Hs Hd Hzt HE HR La L1 L0 Fa ltac:(lra)) as (y & b & Ey & Eb & Ly & Lb & Hb).
  { eapply inr_down; [|exact HI]. split.
    - assert (0 <= INR n * S) by (apply Rmult_le_pos; lra). assert (0 <= INR n * INR n * eta) by (rewrite Rmult_assoc; apply Rmult_le_pos; lra). assert (0 <= INR n * zt) by (apply Rmult_le_pos; lra). lra.
    - apply Rle_trans with (2 * (INR n * Am)).
      + replace (18 * (INR n * INR n) * eta) with (INR n * (18 * (INR n * eta))) by ring. replace (11 * INR n * (21 / 10 * S)) with (INR n * (231 / 10 * S)) by field. replace (10 * INR n * zt) with (INR n * (10 * zt)) by ring.
        rewrite <- !Rmult_plus_distr_l. replace (2 * (INR n * Am)) with (INR n * (2 * Am)) by ring. apply Rmult_le_compat_l. lra. unfold Am. lra.
      + assert (0 <= INR n * Am) by (apply Rmult_le_pos; lra). lra. }
  destruct (dir_from_ortho_fin FA (VC := vecC_self N) n b o2 Am Hn Lb L2 Hu A0) as (x & Ex & Lx & Hx).
  { intros p k Hk. split. apply Hb; auto. eapply Rle_trans. apply (Hb k Hk). unfold Am. lra. }
  { exact HI. }
  exists y, x. unfold compo_backward_x, compo_forward_x, compo_len_orth. cbn [p_ortho cheb_len_orth]. change (cheb_len_orth (mk_cheb n n)) with n. rewrite Ea. cbn [bind]. rewrite Ey, Eb. cbn [bind]. split; auto. split; auto. intros k Hk. apply (Hx tt). auto.
Qed.
Lemma neu_fwd_bwd_fin n dl zt (c o1 o2 : list A) : (5 <= n)%nat -> (Z.of_nat n * Z.of_nat n <= zmax)%Z -> INR n * eta <= u -> 10 * (INR n ^ 2 * (u + eta)) <= 1 -> 0 <= dl <= / 16 -> 0 <= zt ->
  dct1_accurate E fin val n dl zt -> dct1_in_range E fin val inr n -> length c = (n - 2)%nat -> length o1 = n -> length o2 = (n - 2)%nat ->
  (forall j, (j < n - 2)%nat -> fin c.[j]) -> inr (27 * INR n * INR n * (14 * size (n - 2) c + 26 * (INR n * eta) + 6 * zt)) ->
  exists y x, compo_backward_x E (neuc n) c o1 = Ok y /\ compo_forward_x E (neuc n) y o2 = Ok x /\ forall k, (k < n - 2)%nat -> fin x.[k].
Proof.
  intros Hn Hz Hs Hsm Hd Hzt HE HR Lc L1 L2 Fc HI. set (S := size (n - 2) c) in *. assert (S0 : 0 <= S) by apply size_pos. pose proof (rn_eta _ _ _ RN) as H0. pose proof (rn_u _ _ _ RN) as [U U1].
  assert (Hz1 : (Z.of_nat n <= zmax)%Z) by nia.
  assert (N5 : 5 <= INR n). { apply le_INR in Hn. replace (INR 5) with 5 in Hn by (cbn; ring). auto. }
  assert (NN : 5 <= 27 * INR n) by lra. assert (NE : 0 <= INR n * eta) by (apply Rmult_le_pos; lra).
  set (Am := 14 * S + 26 * (INR n * eta) + 6 * zt) in *. assert (A0 : 0 <= Am) by (unfold Am; lra).
  assert (NA0 : Am <= INR n * Am). { rewrite <- (Rmult_1_l Am) at 1. apply Rmult_le_compat_r; lra. }
  assert (NA1 : 5 * (INR n * Am) <= INR n * INR n * Am). { rewrite Rmult_assoc. apply Rmult_le_compat_r; lra. }
  assert (L0 : length (repeat (n0 (A := A)) n) = n) by apply repeat_length.
  destruct (neu_to_ortho_fin FA (VC := vecC_self N) n c (repeat n0 n) S ltac:(lia) Hz Lc L0) as (a & Ea & La & Ha).
  { intros p k Hk. split. apply Fc; auto. apply (rsum_pick (n - 2) (fun j => Rabs (val c.[j]))); auto. intros; apply Rabs_pos. }
  { eapply inr_down; [|exact HI]. unfold Am in *. lra. }
  assert (Fa : forall k, (k < n)%nat -> fin a.[k]) by (intros; apply (Ha tt); auto).
  destruct (neu_scratch FA n c _ a ltac:(lia) Hz Hs Lc L0 Ea Fa) as (_ & _ & _ & _ & HS). change (rsum (n - 2) (fun k => Rabs (val c.[k]))) with S in HS. change (rsum n (fun k => Rabs (val a.[k]))) with (size n a) in HS.
  assert (US : u * S <= / 64 * S) by (apply Rmult_le_compat_r; auto).
  destruct (compo_mid_fin n dl zt a o1 (repeat n0 n) (21 / 10 * S + 2 * (INR n * eta)) ltac:(lia) Hz1 Hs Hd Hzt HE HR La L1 L0 Fa ltac:(lra)) as (y & b & Ey & Eb & Ly & Lb & Hb).
  { eapply inr_down; [|exact HI]. split.
    - assert (0 <= INR n * S) by (apply Rmult_le_pos; lra). assert (0 <= INR n * INR n * eta) by (rewrite Rmult_assoc; apply Rmult_le_pos; lra). assert (0 <= INR n * zt) by (apply Rmult_le_pos; lra). lra.
    - apply Rle_trans with (2 * (INR n * Am)).
      + replace (18 * (INR n * INR n) * eta) with (INR n * (18 * (INR n * eta))) by ring. replace (11 * INR n * (21 / 10 * S + 2 * (INR n * eta))) with (INR n * (231 / 10 * S + 22 * (INR n * eta))) by field. replace (10 * INR n * zt) with (INR n * (10 * zt)) by ring.
        rewrite <- !Rmult_plus_distr_l. replace (2 * (INR n * Am)) with (INR n * (2 * Am)) by ring. apply Rmult_le_compat_l. lra. unfold Am. lra.
      + assert (0 <= INR n * Am) by (apply Rmult_le_pos; lra). lra. }
  assert (Hsm' : 10 * (INR n * INR n * (u + eta)) <= 1) by (replace (INR n * INR n) with (INR n ^ 2) by ring; auto).
  destruct (neu_from_ortho_fin FA (VC := vecC_self N) n b o2 Am Hn Hz Hsm' Lb L2 A0) as (x & Ex & Lx & Hx).
  { intros p k Hk. split. apply Hb; auto. eapply Rle_trans. apply (Hb k Hk). unfold Am. lra. }
  { exact HI. }
  exists y, x. unfold compo_backward_x, compo_forward_x, compo_len_orth. cbn [p_ortho cheb_len_orth]. change (cheb_len_orth (mk_cheb n n)) with n. rewrite Ea. cbn [bind]. rewrite Ey, Eb. cbn [bind]. split; auto. split; auto. intros k Hk. apply (Hx tt). auto.
Qed.

(** ** Complex Fourier *)
Definition zsize (n : nat) (x : list (cplx A)) : R := rsum n (fun j => csize val x.[j]).
Lemma csize_pos (z : cplx A) : 0 <= csize val z.
Proof. unfold csize. pose proof (Rabs_pos (val (fst z))). pose proof (Rabs_pos (val (snd z))). lra. Qed.
Lemma zsize_pos n x : 0 <= zsize n x.
Proof. apply rsum_pos. intros. apply csize_pos. Qed.
Lemma zsize_le n (x : list (cplx A)) B : (forall j, (j < n)%nat -> Rabs (val (fst x.[j])) <= B /\ Rabs (val (snd x.[j])) <= B) -> zsize n x <= INR n * (2 * B).
Proof. intros H. unfold zsize. rewrite <- rsum_const. apply rsum_le. intros j Hj. unfold csize. destruct (H j Hj). lra. Qed.
Lemma bwd_in_fin n m (c : list (cplx A)) : (1 <= n)%nat -> (Z.of_nat n <= zmax)%Z -> length c = m -> (forall k, (k < m)%nat -> cfin fin c.[k]) -> inr (zsize m c) ->
  forall k, (k < m)%nat -> cfin fin (bwd_in n c).[k] /\ csize val (bwd_in n c).[k] <= csize val c.[k].
Proof.
  intros Hn Hz Lc Fc HI k Hk. rewrite bwd_in_at by lia. destruct (Fc k Hk) as [F1 F2]. destruct (inv_cor_le n Hn Hz) as [FC BC].
  pose proof (rsum_pick m (fun j => csize val c.[j]) k ltac:(intros; apply csize_pos) Hk) as P. change (csize val c.[k] <= zsize m c) in P. unfold csize in P.
  pose proof (Rabs_pos (val (fst c.[k]))). pose proof (Rabs_pos (val (snd c.[k]))). pose proof (zsize_pos m c).
  destruct (mul_fin' _ _ F1 FC BC) as [G1 B1]. { eapply (inr_le FA); [| |exact HI]; lra. }
  destruct (mul_fin' _ _ F2 FC BC) as [G2 B2]. { eapply (inr_le FA); [| |exact HI]; lra. }
  split. split; auto. unfold csize. cbn [fst snd]. lra.
Qed.
Lemma c2c_backward_fin n (c o : list (cplx A)) : (1 <= n)%nat -> (Z.of_nat n <= zmax)%Z -> fft_in_range E fin val inr true n -> length c = n -> length o = n ->
  (forall k, (k < n)%nat -> cfin fin c.[k]) -> inr (4 * zsize n c) ->
  exists y, c2c_backward_x E (mk_c2c n n) c o = Ok y /\ y = x_fft E true n (bwd_in n c) /\ zsize n (bwd_in n c) <= zsize n c /\ forall k, (k < n)%nat -> cfin fin y.[k].
Proof.
  intros Hn Hz HR Lc Lo Fc HI. pose proof (zsize_pos n c) as S0. pose proof (bwd_in_fin n n c Hn Hz Lc Fc) as BF.
  assert (BF' : forall k, (k < n)%nat -> cfin fin (bwd_in n c).[k] /\ csize val (bwd_in n c).[k] <= csize val c.[k]). { apply BF. eapply inr_down; [|exact HI]. lra. }
  assert (SB : zsize n (bwd_in n c) <= zsize n c) by (apply rsum_le; intros; apply BF'; auto).
  rewrite c2c_backward_x_eq by auto. eexists. split; [reflexivity|]. split; auto. split; auto. intros k Hk. apply HR; auto. rewrite bwd_in_len; auto. intros; apply BF'; auto.
  fold (zsize n (bwd_in n c)). pose proof (zsize_pos n (bwd_in n c)). eapply inr_down; [|exact HI]. lra.
Qed.
Lemma fft_mag s n dl zt (x : list (cplx A)) : 0 <= dl <= / 16 -> fft_accurate E fin val s n dl zt -> length x = n -> (forall k, (k < n)%nat -> cfin fin (x_fft E s n x).[k]) ->
  forall k, (k < n)%nat -> Rabs (val (fst (x_fft E s n x).[k])) <= 17 / 16 * zsize n x + zt /\ Rabs (val (snd (x_fft E s n x).[k])) <= 17 / 16 * zsize n x + zt.
Proof.
  intros Hd HE Lx F k Hk. destruct (fft_acc E s n dl zt x HE Lx F) as (_ & _ & HA). specialize (HA k Hk). cbv zeta in HA.
  change (rsum n (fun j => cn (cv x j))) with (zsize n x) in HA. destruct (Dft_abs n s (cv (val := val) x) k) as [D1 D2].
  change (rsum n (fun j => cn (cv x j))) with (zsize n x) in D1, D2. pose proof (zsize_pos n x) as S0. assert (dl * zsize n x <= / 16 * zsize n x) by (apply Rmult_le_compat_r; lra).
  change (val (fst (x_fft E s n x).[k])) with (fst (cv (val := val) (x_fft E s n x) k)). change (val (snd (x_fft E s n x).[k])) with (snd (cv (val := val) (x_fft E s n x) k)).
  set (y := cv (x_fft E s n x) k) in *. set (d := Dft n s (cv x) k) in *. destruct HA as [H1 H2]. split.
  - replace (fst y) with (fst d + (fst y - fst d)) by ring. eapply Rle_trans; [apply Rabs_triang|]. lra.
  - replace (snd y) with (snd d + (snd y - snd d)) by ring. eapply Rle_trans; [apply Rabs_triang|]. lra.
Qed.
Lemma c2c_bwd_fwd_fin n dl zt (x o1 o2 : list (cplx A)) : (1 <= n)%nat -> (Z.of_nat n <= zmax)%Z -> 0 <= dl <= / 16 -> 0 <= zt ->
  (forall s, fft_accurate E fin val s n dl zt) -> (forall s, fft_in_range E fin val inr s n) -> length x = n -> length o1 = n -> length o2 = n ->
  (forall j, (j < n)%nat -> cfin fin x.[j]) -> inr (9 * INR n * zsize n x + 8 * INR n * zt) ->
  exists c y, c2c_forward_x E (mk_c2c n n) x o1 = Ok c /\ c2c_backward_x E (mk_c2c n n) c o2 = Ok y /\ (forall k, (k < n)%nat -> cfin fin c.[k]) /\ forall k, (k < n)%nat -> cfin fin y.[k].
Proof.
  intros Hn Hz Hd Hzt HE HR Lx L1 L2 Fx HI. pose proof (zsize_pos n x) as S0. pose proof (INR_1 n Hn) as N1. assert (NZ : 0 <= INR n * zt) by (apply Rmult_le_pos; lra).
  assert (NS : zsize n x <= INR n * zsize n x). { rewrite <- (Rmult_1_l (zsize n x)) at 1. apply Rmult_le_compat_r; auto. }
  assert (Fc : forall k, (k < n)%nat -> cfin fin (x_fft E false n x).[k]). { apply HR; auto. fold (zsize n x). eapply inr_down; [|exact HI]. lra. }
  pose proof (zsize_le n _ _ (fft_mag false n dl zt x Hd (HE false) Lx Fc)) as SC. pose proof (zsize_pos n (x_fft E false n x)) as SC0.
  destruct (c2c_backward_fin n (x_fft E false n x) o2 Hn Hz (HR true)) as (y & Ey & _ & _ & Fy); auto. apply (HE false x Lx). { eapply inr_down; [|exact HI]. lra. }
  exists (x_fft E false n x), y. split. apply c2c_forward_x_eq; auto. auto.
Qed.
Lemma c2c_fwd_bwd_fin n dl zt (c o1 o2 : list (cplx A)) : (1 <= n)%nat -> (Z.of_nat n <= zmax)%Z -> 0 <= dl <= / 16 -> 0 <= zt ->
  (forall s, fft_accurate E fin val s n dl zt) -> (forall s, fft_in_range E fin val inr s n) -> length c = n -> length o1 = n -> length o2 = n ->
  (forall j, (j < n)%nat -> cfin fin c.[j]) -> inr (9 * INR n * zsize n c + 8 * INR n * zt) ->
  exists y d, c2c_backward_x E (mk_c2c n n) c o1 = Ok y /\ c2c_forward_x E (mk_c2c n n) y o2 = Ok d /\ (forall k, (k < n)%nat -> cfin fin y.[k]) /\ forall k, (k < n)%nat -> cfin fin d.[k].
Proof.
  intros Hn Hz Hd Hzt HE HR Lc L1 L2 Fc HI. pose proof (zsize_pos n c) as S0. pose proof (INR_1 n Hn) as N1. assert (NZ : 0 <= INR n * zt) by (apply Rmult_le_pos; lra).
  assert (NS : zsize n c <= INR n * zsize n c). { rewrite <- (Rmult_1_l (zsize n c)) at 1. apply Rmult_le_compat_r; auto. }
  destruct (c2c_backward_fin n c o1 Hn Hz (HR true) Lc L1 Fc) as (y & Ey & -> & SB & Fy). { eapply inr_down; [|exact HI]. lra. }
  assert (LB : length (bwd_in n c) = n) by (rewrite bwd_in_len; auto).
  pose proof (zsize_le n _ _ (fft_mag true n dl zt (bwd_in n c) Hd (HE true) LB Fy)) as SY. set (y := x_fft E true n (bwd_in n c)) in *. pose proof (zsize_pos n y) as SY0.
  assert (Ly : length y = n) by apply (HE true _ LB).
  exists y, (x_fft E false n y). split; auto. split. apply c2c_forward_x_eq; auto. split; auto. apply HR; auto. fold (zsize n y). eapply inr_down; [|exact HI]. split. lra.
  assert (INR n * zsize n (bwd_in n c) <= INR n * zsize n c) by (apply Rmult_le_compat_l; lra). lra.
Qed.

(** ** Real-to-complex Fourier *)
Lemma r2c_backward_x_ok {Z0 : EqZ A} n (c : list (cplx A)) (o : list A) : is0 (n0 (A := A)) = true -> (1 <= n)%nat -> length c = (n / 2 + 1)%nat -> length o = n ->
  exists y, r2c_backward_x E (mk_r2c n (n / 2 + 1)) c o = Ok y.
Proof.
  intros HZ Hn Lc Lo. unfold r2c_backward_x, r2c_len_phys, r2c_len_spec. cbn [r_n r_m]. rewrite Lc, Lo, !Nat.eqb_refl. cbn [assertb bind].
  change (map _ c) with (bwd_in n c). rewrite zip_write_full by (rewrite bwd_in_len, repeat_length; auto).
  rewrite zero_im_eq by (rewrite bwd_in_len; lia). cbn [bind]. set (c1 := upd (bwd_in n c) 0 _). assert (L1 : length c1 = (n / 2 + 1)%nat) by (unfold c1; rewrite upd_length, bwd_in_len; auto).
  assert (E1 : snd c1.[0] = n0) by (unfold c1; rewrite upd_at by (rewrite bwd_in_len; lia); reflexivity). clearbody c1.
  destruct (Nat.eqb_spec (n mod 2) 0) as [Ev|Od].
  - rewrite usub_ok by lia. cbn [bind]. rewrite zero_im_eq by lia. cbn [bind]. set (c2 := upd c1 _ _). assert (L2 : length c2 = (n / 2 + 1)%nat) by (unfold c2; rewrite upd_length; auto).
    unfold process_c2r_x. rewrite L2, Lo, !Nat.eqb_refl. cbn [assertb bind].
    assert (E2 : snd c2.[0] = n0). { unfold c2. rewrite upd_at by lia. destruct (0 =? n / 2 + 1 - 1)%nat; auto. } assert (E3 : snd c2.[n / 2] = n0). { unfold c2. rewrite upd_at by lia. replace (n / 2 + 1 - 1)%nat with (n / 2)%nat by lia. rewrite Nat.eqb_refl. auto. }
    rewrite E2, E3, HZ. destruct (n mod 2 =? 0)%nat; cbn [assertb bind]; eauto.
  - cbn [bind]. unfold process_c2r_x. rewrite L1, Lo, !Nat.eqb_refl. cbn [assertb bind]. rewrite E1, HZ. destruct (Nat.eqb_spec (n mod 2) 0); [contradiction|]. cbn [assertb bind]. eauto.
Qed.
Lemma r2c_backward_fin {Z0 : EqZ A} n (c : list (cplx A)) (o : list A) : is0 (n0 (A := A)) = true -> (1 <= n)%nat -> (Z.of_nat n <= zmax)%Z -> c2r_in_range E fin val inr n -> length c = (n / 2 + 1)%nat -> length o = n ->
  (forall k, (k < n / 2 + 1)%nat -> cfin fin c.[k]) -> inr (4 * zsize (n / 2 + 1) c) ->
  exists y b, r2c_backward_x E (mk_r2c n (n / 2 + 1)) c o = Ok y /\ y = x_c2r E n b /\ length b = (n / 2 + 1)%nat /\ (forall k, (k < n / 2 + 1)%nat -> (k =? 0) || (2 * k =? n) = true -> snd b.[k] = n0) /\ zsize (n / 2 + 1) b <= zsize (n / 2 + 1) c /\ forall k, (k < n)%nat -> fin y.[k].
Proof.
  intros HZ Hn Hz HR Lc Lo Fc HI. set (m := (n / 2 + 1)%nat) in *. pose proof (zsize_pos m c) as S0. destruct (r2c_backward_x_ok n c o HZ Hn Lc Lo) as (y & Ey).
  destruct (r2c_backward_x_steps E n c o y Hn Lc Lo Ey) as (b & Lb & Hy & Hb). fold m in Lb, Hb, Ey.
  assert (BF : forall k, (k < m)%nat -> cfin fin (bwd_in n c).[k] /\ csize val (bwd_in n c).[k] <= csize val c.[k]). { apply (bwd_in_fin n m c); auto. eapply inr_down; [|exact HI]. lra. }
  assert (Hr : forall k, (k < m)%nat -> (k =? 0) || (2 * k =? n) = true -> snd b.[k] = n0). { intros k Hk Sk. rewrite Hb by auto. unfold selfc. rewrite Sk. auto. }
  assert (BB : forall k, (k < m)%nat -> cfin fin b.[k] /\ csize val b.[k] <= csize val c.[k]).
  { intros k Hk. destruct (BF k Hk) as [[F1 F2] B]. rewrite bwd_in_at in * by lia. rewrite Hb by auto. unfold csize in B. cbn [fst snd] in *. destruct (selfc n k).
    - destruct (fa_0 _ _ _ _ _ _ _ _ FA) as [G0 V0]. split. split; auto. unfold csize at 1. cbn [fst snd]. rewrite V0, Rabs_R0. unfold csize. pose proof (Rabs_pos (val (nmul (inv_cor n) (snd c.[k])))). lra.
    - split. split; auto. unfold csize. cbn [fst snd]. lra. }
  assert (SB : zsize m b <= zsize m c) by (apply rsum_le; intros; apply BB; auto).
  exists y, b. split; auto. split; auto. split; auto. split; auto. split; auto. intros k Hk. rewrite Hy. apply HR; auto. intros; apply BB; auto. fold m. fold (zsize m b). pose proof (zsize_pos m b). eapply inr_down; [|exact HI]. lra.
Qed.
Lemma r2c_bwd_fwd_fin {Z0 : EqZ A} n dl zt (x o2 : list A) (o1 : list (cplx A)) : is0 (n0 (A := A)) = true -> (1 <= n)%nat -> (Z.of_nat n <= zmax)%Z -> 0 <= dl <= / 16 -> 0 <= zt ->
  r2c_accurate E fin val n dl zt -> r2c_in_range E fin val inr n -> c2r_in_range E fin val inr n -> length x = n -> length o1 = (n / 2 + 1)%nat -> length o2 = n ->
  (forall j, (j < n)%nat -> fin x.[j]) -> inr (9 * INR n * size n x + 8 * INR n * zt) ->
  exists c y, r2c_forward_x E (mk_r2c n (n / 2 + 1)) x o1 = Ok c /\ r2c_backward_x E (mk_r2c n (n / 2 + 1)) c o2 = Ok y /\ (forall k, (k < n / 2 + 1)%nat -> cfin fin c.[k]) /\ forall k, (k < n)%nat -> fin y.[k].
Proof.
  intros HZ Hn Hz Hd Hzt HE HR HR2 Lx L1 L2 Fx HI. pose proof (size_pos n x) as S0. pose proof (INR_1 n Hn) as N1. assert (NZ : 0 <= INR n * zt) by (apply Rmult_le_pos; lra).
  assert (NS : size n x <= INR n * size n x). { rewrite <- (Rmult_1_l (size n x)) at 1. apply Rmult_le_compat_r; auto. }
  assert (Fc : forall k, (k < n / 2 + 1)%nat -> cfin fin (x_r2c E n x).[k]). { apply HR; auto. fold (size n x). eapply inr_down; [|exact HI]. lra. }
  set (m := (n / 2 + 1)%nat) in *. set (c := x_r2c E n x) in *.
  assert (SC : zsize m c <= INR m * (2 * (17 / 16 * size n x + zt))).
  { apply zsize_le. intros k Hk. destruct (r2c_acc E n dl zt x HE Lx Fc) as (_ & _ & HA). specialize (HA k Hk). cbv zeta in HA. fold c in HA. fold (size n x) in HA.
    destruct (RF_abs n (V_ x) k) as [D1 D2]. cbv beta in D1, D2. fold (size n x) in D1, D2. assert (dl * size n x <= / 16 * size n x) by (apply Rmult_le_compat_r; lra).
    change (val (fst c.[k])) with (fst (cv (val := val) c k)). change (val (snd c.[k])) with (snd (cv (val := val) c k)).
    set (y := cv c k) in *. set (d := RF n _ k) in *. destruct HA as [H1 H2]. split.
    - replace (fst y) with (fst d + (fst y - fst d)) by ring. eapply Rle_trans; [apply Rabs_triang|]. lra.
    - replace (snd y) with (snd d + (snd y - snd d)) by ring. eapply Rle_trans; [apply Rabs_triang|]. lra. }
  assert (MN : INR m <= INR n) by (apply le_INR; unfold m; apply div2_lt1; auto). pose proof (zsize_pos m c) as SC0.
  assert (MB : INR m * (2 * (17 / 16 * size n x + zt)) <= INR n * (2 * (17 / 16 * size n x + zt))) by (apply Rmult_le_compat_r; lra).
  destruct (r2c_backward_fin n c o2 HZ Hn Hz HR2) as (y & b & Ey & _ & _ & _ & _ & Fy); auto. apply (HE x Lx). { fold m. eapply inr_down; [|exact HI]. lra. }
  exists c, y. split. apply r2c_forward_x_eq; auto. auto.
Qed.
Lemma r2c_fwd_bwd_fin {Z0 : EqZ A} n dl zt (c o2 : list (cplx A)) (o1 : list A) : is0 (n0 (A := A)) = true -> (1 <= n)%nat -> (Z.of_nat n <= zmax)%Z -> 0 <= dl <= / 16 -> 0 <= zt ->
  c2r_accurate E fin val n dl zt -> r2c_in_range E fin val inr n -> c2r_in_range E fin val inr n -> length c = (n / 2 + 1)%nat -> length o1 = n -> length o2 = (n / 2 + 1)%nat ->
  (forall j, (j < n / 2 + 1)%nat -> cfin fin c.[j]) -> inr (9 * INR n * zsize (n / 2 + 1) c + 8 * INR n * zt) ->
  exists y d, r2c_backward_x E (mk_r2c n (n / 2 + 1)) c o1 = Ok y /\ r2c_forward_x E (mk_r2c n (n / 2 + 1)) y o2 = Ok d /\ (forall k, (k < n)%nat -> fin y.[k]) /\ forall k, (k < n / 2 + 1)%nat -> cfin fin d.[k].
Proof.
  intros HZ Hn Hz Hd Hzt HE HR HR2 Lc L1 L2 Fc HI. set (m := (n / 2 + 1)%nat) in *. pose proof (zsize_pos m c) as S0. pose proof (INR_1 n Hn) as N1. assert (NZ : 0 <= INR n * zt) by (apply Rmult_le_pos; lra).
  assert (NS : zsize m c <= INR n * zsize m c). { rewrite <- (Rmult_1_l (zsize m c)) at 1. apply Rmult_le_compat_r; auto. }
  destruct (r2c_backward_fin n c o1 HZ Hn Hz HR2 Lc L1 Fc) as (y & b & Ey & Hy & Lb & Hr & SB & Fy). { fold m. eapply inr_down; [|exact HI]. lra. }
  fold m in Ey, Lb, Hr, SB. assert (Ly : length y = n) by (rewrite Hy; apply (HE b Lb Hr)). pose proof (zsize_pos m b) as SB0.
  assert (SY : size n y <= INR n * (17 / 8 * zsize m b + zt)).
  { apply size_le. intros j Hj. rewrite Hy in *. destruct (c2r_acc E n dl zt b HE Lb Hr Fy) as (_ & _ & HA). specialize (HA j Hj Hn).
    change (rsum (n / 2 + 1) (fun k => cn (cv b k))) with (zsize m b) in HA. pose proof (RB_abs n (cv (val := val) b) j Hn) as RBB. change (rsum (n / 2 + 1) (fun k => cn (cv b k))) with (zsize m b) in RBB.
    set (B := RB n (cv b) j) in *. assert (NB : Rabs (INR n * B) <= 2 * zsize m b).
    { rewrite Rabs_mult, (Rabs_pos_eq (INR n)) by lra. apply (Rmult_le_compat_l (INR n)) in RBB; [|lra]. eapply Rle_trans; [exact RBB|]. right. field. lra. }
    assert (dl * zsize m b <= / 16 * zsize m b) by (apply Rmult_le_compat_r; lra). set (v := val _) in *.
    replace v with (INR n * B + (v - INR n * B)) by ring. eapply Rle_trans; [apply Rabs_triang|]. lra. }
  pose proof (size_pos n y) as SY0. assert (INR n * zsize m b <= INR n * zsize m c) by (apply Rmult_le_compat_l; lra).
  exists y, (x_r2c E n y). split; auto. split. apply r2c_forward_x_eq; auto. split; auto. apply HR; auto. fold (size n y). eapply inr_down; [|exact HI]. lra.
Qed.
End Fl.
