(** The transforms of the Chebyshev and Fourier bases as accurate slice
    operations (RndAxis.v), in both directions (C56). *)
From Coq Require Import List Arith ZArith Reals Bool Lra Lia.
From Verif Require Import Base Num Linalg LinalgProofs StencilProofs Cheb ChebGrad Fourier FourierFacts FourierProofs CompoProofs ExtLib AxisFacts AxisProps
  Rounding RndTdma RndDirichlet RndCheb RndFft RndR2c LibAcc PropRound RndFinite RndFinite2 RndAxis.
Import ListNotations.
Local Open Scope R_scope.

Section Fl.
Context {A : Type} {N : Num A} {u eta : R} {rnd : R -> R} {zmax : Z} {inr : R -> Prop} {fin : A -> Prop} {val : A -> R}
  (FA : float_arith N u eta rnd zmax inr fin val) (E : ext A).
Let RN := fa_rnd _ _ _ _ _ _ _ _ FA.

Definition rel : fel A := mk_fel fin (fun a => (val a, 0)).
Definition cel : fel (cplx A) := mk_fel (cfin fin) (fun z => (val (fst z), val (snd z))).

Lemma cn_real x : cn (x, 0) = Rabs x.
Proof. unfold cn. cbn [fst snd]. rewrite Rabs_R0. lra. Qed.
Lemma cn_fst z : Rabs (fst z) <= cn z.
Proof. unfold cn. pose proof (Rabs_pos (snd z)). lra. Qed.
Lemma real_sum {d : Dflt A} n (x : list A) : length x = n -> rsum n (fun j => cn (ev rel x.[j])) = size (val := val) n x.
Proof. intros L. apply rsum_ext. intros j Hj. cbn [rel ev]. rewrite cn_real. do 2 f_equal. apply at_dflt. lia. Qed.
Lemma cplx_sum {d : Dflt (cplx A)} n (x : list (cplx A)) : length x = n -> rsum n (fun j => cn (ev cel x.[j])) = zsize (val := val) n x.
Proof. intros L. apply rsum_ext. intros j Hj. cbn [cel ev]. unfold cn, csize. cbn [fst snd]. rewrite (at_dflt d dflt_vec) by lia. auto. Qed.

(** ** Chebyshev *)
Definition Fc n (g : nat -> CR) k : CR := (Fex n (fun j => fst (g j)) k, 0).
Definition Bc n (g : nat -> CR) k : CR := (Bex n (fun j => fst (g j)) k, 0).
Lemma Fc_bounded n : (2 <= n)%nat -> bounded (Fc n) n n (2 / INR (n - 1)).
Proof.
  intros Hn. split.
  - intros g h k Hk. unfold Fc. apply ceq; cbn [csub fst snd nsub num_R]; [apply Fex_sub|ring].
  - intros g k Hk. unfold Fc. rewrite cn_real. eapply Rle_trans; [apply Fex_abs; auto|]. apply Rmult_le_compat_l. pose proof (cor_pos n Hn); lra. apply rsum_le. intros. apply cn_fst.
Qed.
Lemma Bc_bounded n : (2 <= n)%nat -> bounded (Bc n) n n 1.
Proof.
  intros Hn. split.
  - intros g h k Hk. unfold Bc. apply ceq; cbn [csub fst snd nsub num_R]; [apply Bex_sub|ring].
  - intros g k Hk. unfold Bc. rewrite cn_real, Rmult_1_l. eapply Rle_trans; [apply Bex_abs; auto|]. apply rsum_le. intros. apply cn_fst.
Qed.
Lemma cheb_fwd_near n dl zt Rg be : (2 <= n)%nat -> (Z.of_nat n <= zmax)%Z -> INR n * eta <= u -> 0 <= dl <= 1 -> 0 <= zt ->
  dct1_accurate E fin val n dl zt -> dct1_in_range E fin val inr n -> inr (9 * Rg + zt) -> 3 * INR n * eta + zt <= be ->
  near (cheb_forward_x E (mk_cheb n n)) n n rel rel (Fc n) Rg ((11 / 10 * dl + 4 * u) * (2 / INR (n - 1))) be.
Proof.
  intros Hn Hz Hs Hd Hzt HE HR HI Hb d1 d2 x o Lx Lo Fx Sx. rewrite (real_sum (d := d1) _ x Lx) in *. pose proof (size_pos (val := val) n x).
  destruct (cheb_forward_fin FA E n dl zt x o Hn Hz Hd Hzt HE HR Lx Lo) as (a & Ea & La & Fa).
  { intros j Hj. rewrite (at_dflt _ d1) by lia. apply Fx; auto. } { eapply (inr_down FA); [|exact HI]. lra. }
  exists a. split; auto. split; auto. intros k Hk. destruct (cheb_forward_err FA E n dl zt x o a Hn Hz Hs Hd Hzt HE Lx Lo Ea Fa) as (_ & _ & HF). specialize (HF k Hk).
  rewrite (at_dflt d2 dflt_num) by lia. split. apply Fa; auto. cbn [rel ev]. unfold Fc. unfold csub. cbn [fst snd nsub num_R]. replace (0 - 0) with 0 by ring. rewrite cn_real.
  rewrite (Fex_ext n _ (fun j => val (@at_ A dflt_num x j)) k Hn) by (intros; rewrite (at_dflt d1 dflt_num) by lia; auto). eapply Rle_trans; [exact HF|]. unfold fwd_err. fold (size (val := val) n x). lra.
Qed.
Lemma cheb_bwd_near n dl zt Rg be : (2 <= n)%nat -> 0 <= dl <= 1 -> 0 <= zt ->
  dct1_accurate E fin val n dl zt -> dct1_in_range E fin val inr n -> inr (9 * Rg + zt) -> 2 * INR n * eta + zt <= be ->
  near (cheb_backward_x E (mk_cheb n n)) n n rel rel (Bc n) Rg (21 / 10 * dl + u) be.
Proof.
  intros Hn Hd Hzt HE HR HI Hb d1 d2 x o Lx Lo Fx Sx. rewrite (real_sum (d := d1) _ x Lx) in *. pose proof (size_pos (val := val) n x).
  destruct (cheb_backward_fin FA E n x o Hn (len_of_acc E n dl zt HE) HR Lx Lo) as (a & Ea & La & Fa).
  { intros j Hj. rewrite (at_dflt _ d1) by lia. apply Fx; auto. } { eapply (inr_down FA); [|exact HI]. lra. }
  exists a. split; auto. split; auto. intros k Hk. destruct (cheb_backward_err FA E n dl zt x o a Hn Hd Hzt HE Lx Lo Ea Fa) as (_ & _ & HF). specialize (HF k Hk).
  rewrite (at_dflt d2 dflt_num) by lia. split. apply Fa; auto. cbn [rel ev]. unfold Bc. unfold csub. cbn [fst snd nsub num_R]. replace (0 - 0) with 0 by ring. rewrite cn_real.
  rewrite (Bex_ext n _ (fun j => val (@at_ A dflt_num x j)) k) by (intros; rewrite (at_dflt d1 dflt_num) by lia; auto). eapply Rle_trans; [exact HF|]. unfold bwd_err. fold (size (val := val) n x). lra.
Qed.
Definition same (k : nat) (z : CR) : CR := z.
Lemma n1_le n : (2 <= n)%nat -> 0 <= 2 / INR (n - 1) <= 2.
Proof.
  intros Hn. pose proof (cor_pos n Hn). pose proof (INR_n1 n Hn). split. lra. apply Rmult_le_reg_r with (INR (n - 1)). lra. replace (2 / INR (n - 1) * INR (n - 1)) with 2 by (field; lra). lra.
Qed.
Lemma cheb_good n dl zt Rg : (2 <= n)%nat -> (Z.of_nat n <= zmax)%Z -> INR n * eta <= u -> 0 <= dl <= 1 -> 0 <= zt ->
  dct1_accurate E fin val n dl zt -> dct1_in_range E fin val inr n -> inr (9 * Rg + zt) ->
  good_ops (cheb_forward_x E (mk_cheb n n)) (cheb_backward_x E (mk_cheb n n)) n n n rel rel same (dl + u) (eta + zt) 4 Rg /\
  good_ops (cheb_backward_x E (mk_cheb n n)) (cheb_forward_x E (mk_cheb n n)) n n n rel rel same (dl + u) (eta + zt) 4 Rg.
Proof.
  intros Hn Hz Hs Hd Hzt HE HR HI. pose proof (rn_u _ _ _ RN) as [U U1]. pose proof (rn_eta _ _ _ RN) as H0. destruct (n_over n Hn) as [N1 N2]. pose proof (n1_le n Hn) as C. 
  assert (NE : 0 <= INR n * eta) by (apply Rmult_le_pos; lra). assert (NZ : zt <= INR n * zt). { rewrite <- (Rmult_1_l zt) at 1. apply Rmult_le_compat_r; auto. }
  assert (HF := cheb_fwd_near n dl zt Rg (8 * INR n * (eta + zt)) Hn Hz Hs Hd Hzt HE HR HI ltac:(lra)). assert (HB := cheb_bwd_near n dl zt Rg (8 * INR n * (eta + zt)) Hn Hd Hzt HE HR HI ltac:(lra)).
  assert (AF : 0 <= (11 / 10 * dl + 4 * u) * (2 / INR (n - 1)) <= 4 * (dl + u) * (2 / INR (n - 1))). { split. apply Rmult_le_pos; lra. apply Rmult_le_compat_r; lra. }
  split.
  - exists (Fc n), (Bc n), (2 / INR (n - 1)), 1, ((11 / 10 * dl + 4 * u) * (2 / INR (n - 1))), (21 / 10 * dl + u). split; auto. split; auto. split. apply Fc_bounded; auto. split. apply Bc_bounded; auto.
    split. auto. split. lra. split. lra. split. auto. split. lra. split. lia. split. lia.
    intros d x j Hj Lx. unfold same, Fc, Bc, rel. cbn [ev fst]. f_equal. rewrite Bex_Fex; auto.
  - exists (Bc n), (Fc n), 1, (2 / INR (n - 1)), (21 / 10 * dl + u), ((11 / 10 * dl + 4 * u) * (2 / INR (n - 1))). split; auto. split; auto. split. apply Bc_bounded; auto. split. apply Fc_bounded; auto.
    split. lra. split. auto. split. lra. split. lra. split. auto. split. lia. split. lia.
    intros d x j Hj Lx. unfold same, Fc, Bc, rel. cbn [ev fst]. f_equal. rewrite Fex_Bex; auto.
Qed.

(** ** Complex Fourier *)
Definition Bd n (g : nat -> CR) k : CR := over n (Dft n true g k).
Lemma Dft_bounded n s : bounded (Dft n s) n n 2.
Proof. split. intros; apply Dft_sub. intros g k _. apply cn_le2; apply Dft_abs. Qed.
Lemma over_sub n a b : over n (csub a b) = csub (over n a) (over n b).
Proof. apply ceq; unc; ring. Qed.
Lemma Bd_bounded n : (1 <= n)%nat -> bounded (Bd n) n n (2 / INR n).
Proof.
  intros Hn. split. intros; unfold Bd; rewrite Dft_sub, over_sub; auto. intros g k Hk. unfold Bd. rewrite cn_over by auto. pose proof (INR_1 n Hn). assert (0 < / INR n) by (apply Rinv_0_lt_compat; lra).
  unfold Rdiv. replace (2 * / INR n * rsum n (fun j => cn (g j))) with (2 * rsum n (fun j => cn (g j)) * / INR n) by ring. apply Rmult_le_compat_r. lra. apply (proj2 (Dft_bounded n true)); auto.
Qed.
Lemma c2c_fwd_near n dl zt Rg be : 0 <= dl <= 1 -> 0 <= zt -> fft_accurate E fin val false n dl zt -> fft_in_range E fin val inr false n -> inr (9 * Rg + zt) -> 2 * zt <= be ->
  near (c2c_forward_x E (mk_c2c n n)) n n cel cel (Dft n false) Rg (2 * dl) be.
Proof.
  intros Hd Hzt HE HR HI Hb d1 d2 x o Lx Lo Fx Sx. rewrite (cplx_sum (d := d1) _ x Lx) in *. pose proof (zsize_pos (val := val) n x).
  pose proof (HR x Lx) as Fc. specialize (Fc ltac:(intros j Hj; rewrite (at_dflt _ d1) by lia; exact (Fx j Hj))).
  specialize (Fc ltac:(change (inr (4 * zsize (val := val) n x)); eapply (inr_down FA); [|exact HI]; lra)).
  destruct (fft_acc E false n dl zt x HE Lx Fc) as (Lc & _ & HA). exists (x_fft E false n x). split. apply c2c_forward_x_eq; auto. split; auto. intros k Hk. destruct (HA k Hk) as [A1 A2].
  rewrite (at_dflt d2 dflt_vec) by lia. split. exact (Fc k Hk). change (ev cel (@at_ (cplx A) dflt_vec (x_fft E false n x) k)) with (cv (val := val) (x_fft E false n x) k).
  rewrite (Dft_ext n false _ (cv (val := val) x)) by (intros j Hj; rewrite (at_dflt d1 dflt_vec) by lia; auto).
  change (rsum n (fun j => cn (cv x j))) with (zsize (val := val) n x) in A1, A2. eapply Rle_trans; [apply cn_le2; [exact A1|exact A2]|]. lra.
Qed.
Lemma c2c_bwd_near n dl zt Rg be : (1 <= n)%nat -> (Z.of_nat n <= zmax)%Z -> INR n * eta <= u -> 0 <= dl <= 1 -> 0 <= zt ->
  fft_accurate E fin val true n dl zt -> fft_in_range E fin val inr true n -> inr (9 * Rg + zt) -> 8 * INR n * eta + 2 * zt <= be ->
  near (c2c_backward_x E (mk_c2c n n)) n n cel cel (Bd n) Rg ((11 / 10 * dl + 4 * u) * (2 / INR n)) be.
Proof.
  intros Hn Hz Hs Hd Hzt HE HR HI Hb d1 d2 x o Lx Lo Fx Sx. rewrite (cplx_sum (d := d1) _ x Lx) in *. pose proof (zsize_pos (val := val) n x).
  destruct (c2c_backward_fin FA E n x o Hn Hz HR Lx Lo) as (y & Ey & _ & _ & Fy).
  { intros j Hj. specialize (Fx j Hj). rewrite (at_dflt d1 dflt_vec) in Fx by lia. exact Fx. } { eapply (inr_down FA); [|exact HI]. lra. }
  destruct (c2c_backward_err FA E n dl zt x o y Hn Hz Hs Hd Hzt HE Lx Lo Ey Fy) as (Ly & _ & HA). exists y. split; auto. split; auto. intros k Hk. destruct (HA k Hk) as [A1 A2].
  rewrite (at_dflt d2 dflt_vec) by lia. split. exact (Fy k Hk). change (ev cel (@at_ (cplx A) dflt_vec y k)) with (cv (val := val) y k). unfold Bd.
  rewrite (Dft_ext n true _ (cv (val := val) x)) by (intros j Hj; rewrite (at_dflt d1 dflt_vec) by lia; auto).
  change (rsum n (fun j => cn (cv x j))) with (zsize (val := val) n x) in A1, A2. eapply Rle_trans; [apply cn_le2; [exact A1|exact A2]|]. unfold bwd_e, Rdiv. lra.
Qed.
Lemma ninv_le n : (1 <= n)%nat -> 0 <= 2 / INR n <= 2 /\ 2 / INR n * INR n = 2.
Proof.
  intros Hn. pose proof (INR_1 n Hn). assert (0 < / INR n) by (apply Rinv_0_lt_compat; lra). assert (2 / INR n * INR n = 2) by (field; lra). split; auto. split. unfold Rdiv; lra. apply Rmult_le_reg_r with (INR n); lra.
Qed.
Lemma c2c_good n dl zt Rg : (1 <= n)%nat -> (Z.of_nat n <= zmax)%Z -> INR n * eta <= u -> 0 <= dl <= 1 -> 0 <= zt ->
  (forall s, fft_accurate E fin val s n dl zt) -> (forall s, fft_in_range E fin val inr s n) -> inr (9 * Rg + zt) ->
  good_ops (c2c_forward_x E (mk_c2c n n)) (c2c_backward_x E (mk_c2c n n)) n n n cel cel same (dl + u) (eta + zt) 4 Rg /\
  good_ops (c2c_backward_x E (mk_c2c n n)) (c2c_forward_x E (mk_c2c n n)) n n n cel cel same (dl + u) (eta + zt) 4 Rg.
Proof.
  intros Hn Hz Hs Hd Hzt HE HR HI. pose proof (rn_u _ _ _ RN) as [U U1]. pose proof (rn_eta _ _ _ RN) as H0. pose proof (INR_1 n Hn) as N1. destruct (ninv_le n Hn) as [C C2].
  assert (NE : 0 <= INR n * eta) by (apply Rmult_le_pos; lra). assert (NZ : zt <= INR n * zt). { rewrite <- (Rmult_1_l zt) at 1. apply Rmult_le_compat_r; auto. }
  assert (HF := c2c_fwd_near n dl zt Rg (8 * INR n * (eta + zt)) Hd Hzt (HE false) (HR false) HI ltac:(lra)). assert (HB := c2c_bwd_near n dl zt Rg (8 * INR n * (eta + zt)) Hn Hz Hs Hd Hzt (HE true) (HR true) HI ltac:(lra)).
  assert (AF : 0 <= (11 / 10 * dl + 4 * u) * (2 / INR n) <= 4 * (dl + u) * (2 / INR n)). { split. apply Rmult_le_pos; lra. apply Rmult_le_compat_r; lra. }
  split.
  - exists (Dft n false), (Bd n), 2, (2 / INR n), (2 * dl), ((11 / 10 * dl + 4 * u) * (2 / INR n)). split; auto. split; auto. split. apply Dft_bounded; auto. split. apply Bd_bounded; auto.
    split. lra. split. auto. split. lra. split. lra. split. auto. split. lia. split. lia.
    intros d x j Hj Lx. unfold same, Bd. rewrite (Dft_inv n false (fun j => ev cel x.[j]) j Hn Hj). auto.
  - exists (Bd n), (Dft n false), (2 / INR n), 2, ((11 / 10 * dl + 4 * u) * (2 / INR n)), (2 * dl). split; auto. split; auto. split. apply Bd_bounded; auto. split. apply Dft_bounded; auto.
    split. auto. split. lra. split. lra. split. auto. split. lra. split. lia. split. lia.
    intros d x j Hj Lx. unfold same, Bd. rewrite Dft_over. rewrite (Dft_inv n true (fun j => ev cel x.[j]) j Hn Hj). auto.
Qed.

(** ** Real-to-complex Fourier *)
Definition Fr n (g : nat -> CR) k : CR := RF n (fun j => fst (g j)) k.
Definition Br n (g : nat -> CR) j : CR := (RB n g j, 0).
Lemma Fr_bounded n m : bounded (Fr n) n m 2.
Proof.
  split. intros; unfold Fr; cbn [csub fst nsub num_R]; apply RF_sub. intros g k _. unfold Fr. destruct (RF_abs n (fun j => fst (g j)) k) as [A1 A2]. eapply Rle_trans; [apply cn_le2; [exact A1|exact A2]|].
  apply Rmult_le_compat_l. lra. apply rsum_le. intros. apply cn_fst.
Qed.
Lemma Br_bounded n : (1 <= n)%nat -> bounded (Br n) (n / 2 + 1) n (2 / INR n).
Proof.
  intros Hn. split. intros; unfold Br; rewrite RB_sub; apply ceq; cbn [csub fst snd nsub num_R]; ring. intros g k Hk. unfold Br. rewrite cn_real. eapply Rle_trans; [apply RB_abs; auto|]. unfold Rdiv. lra.
Qed.
Lemma r2c_fwd_near n dl zt Rg be : 0 <= dl <= 1 -> 0 <= zt -> r2c_accurate E fin val n dl zt -> r2c_in_range E fin val inr n -> inr (9 * Rg + zt) -> 2 * zt <= be ->
  near (r2c_forward_x E (mk_r2c n (n / 2 + 1))) n (n / 2 + 1) rel cel (Fr n) Rg (2 * dl) be.
Proof.
  intros Hd Hzt HE HR HI Hb d1 d2 x o Lx Lo Fx Sx. rewrite (real_sum (d := d1) _ x Lx) in *. pose proof (size_pos (val := val) n x).
  pose proof (HR x Lx) as Fc. specialize (Fc ltac:(intros j Hj; rewrite (at_dflt _ d1) by lia; exact (Fx j Hj))).
  specialize (Fc ltac:(change (inr (4 * size (val := val) n x)); eapply (inr_down FA); [|exact HI]; lra)).
  destruct (r2c_acc E n dl zt x HE Lx Fc) as (Lc & _ & HA). exists (x_r2c E n x). split. apply r2c_forward_x_eq; auto. split; auto. intros k Hk. destruct (HA k Hk) as [A1 A2].
  rewrite (at_dflt d2 dflt_vec) by lia. split. exact (Fc k Hk). change (ev cel (@at_ (cplx A) dflt_vec (x_r2c E n x) k)) with (cv (val := val) (x_r2c E n x) k). unfold Fr.
  rewrite (RF_ext n _ (fun j => val (@at_ A dflt_num x j))) by (intros j Hj; rewrite (at_dflt d1 dflt_num) by lia; auto).
  fold (size (val := val) n x) in A1, A2. eapply Rle_trans; [apply cn_le2; [exact A1|exact A2]|]. lra.
Qed.
Lemma r2c_bwd_near {Z0 : EqZ A} n dl zt Rg be : is0 (n0 (A := A)) = true -> (1 <= n)%nat -> (Z.of_nat n <= zmax)%Z -> INR n * eta <= u -> 0 <= dl <= 1 -> 0 <= zt ->
  c2r_accurate E fin val n dl zt -> c2r_in_range E fin val inr n -> inr (9 * Rg + zt) -> 6 * INR n * eta + zt <= be ->
  near (r2c_backward_x E (mk_r2c n (n / 2 + 1))) (n / 2 + 1) n cel rel (Br n) Rg ((11 / 10 * dl + 8 * u) * / INR n) be.
Proof.
  intros HZ Hn Hz Hs Hd Hzt HE HR HI Hb d1 d2 x o Lx Lo Fx Sx. rewrite (cplx_sum (d := d1) _ x Lx) in *. pose proof (zsize_pos (val := val) (n / 2 + 1) x).
  destruct (r2c_backward_fin FA E n x o HZ Hn Hz HR Lx Lo) as (y & _ & Ey & _ & _ & _ & _ & Fy).
  { intros j Hj. specialize (Fx j Hj). rewrite (at_dflt d1 dflt_vec) in Fx by lia. exact Fx. } { eapply (inr_down FA); [|exact HI]. lra. }
  destruct (r2c_backward_err FA E n dl zt x o y Hn Hz Hs Hd Hzt HE Lx Lo Ey Fy) as (Ly & _ & HA). exists y. split; auto. split; auto. intros k Hk. specialize (HA k Hk).
  rewrite (at_dflt d2 dflt_num) by lia. split. exact (Fy k Hk). unfold Br, rel, csub. cbn [ev fst snd nsub num_R]. replace (0 - 0) with 0 by ring. rewrite cn_real.
  rewrite (RB_ext n _ (cv (val := val) x)) by (intros j Hj; rewrite (at_dflt d1 dflt_vec) by lia; auto).
  change (rsum (n / 2 + 1) (fun j => cn (cv x j))) with (zsize (val := val) (n / 2 + 1) x) in HA. eapply Rle_trans; [exact HA|]. unfold rbwd_e, Rdiv. lra.
Qed.
Lemma r2c_good {Z0 : EqZ A} n dl zt Rg : is0 (n0 (A := A)) = true -> (1 <= n)%nat -> (Z.of_nat n <= zmax)%Z -> INR n * eta <= u -> 0 <= dl <= 1 -> 0 <= zt ->
  r2c_accurate E fin val n dl zt -> r2c_in_range E fin val inr n -> c2r_accurate E fin val n dl zt -> c2r_in_range E fin val inr n -> inr (9 * Rg + zt) ->
  good_ops (r2c_forward_x E (mk_r2c n (n / 2 + 1))) (r2c_backward_x E (mk_r2c n (n / 2 + 1))) n (n / 2 + 1) n rel cel same (dl + u) (eta + zt) 4 Rg.
Proof.
  intros HZ Hn Hz Hs Hd Hzt HF HFR HB HBR HI. pose proof (rn_u _ _ _ RN) as [U U1]. pose proof (rn_eta _ _ _ RN) as H0. pose proof (INR_1 n Hn) as N1. destruct (ninv_le n Hn) as [C C2].
  assert (NE : 0 <= INR n * eta) by (apply Rmult_le_pos; lra). assert (NZ : zt <= INR n * zt). { rewrite <- (Rmult_1_l zt) at 1. apply Rmult_le_compat_r; auto. }
  pose proof (div2_lt1 n Hn) as DN. assert (MN : INR (n / 2 + 1) <= INR n) by (apply le_INR; lia). pose proof (pos_INR (n / 2 + 1)).
  assert (K4 : 2 / INR n * INR (n / 2 + 1) <= 2) by (rewrite <- C2 at 2; apply Rmult_le_compat_l; lra).
  exists (Fr n), (Br n), 2, (2 / INR n), (2 * dl), ((11 / 10 * dl + 8 * u) * / INR n).
  split. apply (r2c_fwd_near n dl zt); auto; lra. split. apply (r2c_bwd_near n dl zt); auto; lra. split. apply Fr_bounded; auto. split. apply Br_bounded; auto.
  assert (IN : 0 <= / INR n) by (unfold Rdiv in C; lra).
  split. lra. split. auto. split. lra. split. lra. split. { split. apply Rmult_le_pos; lra. unfold Rdiv. rewrite <- Rmult_assoc. apply Rmult_le_compat_r; lra. } split. lia. split. lia.
  intros d x j Hj Lx. unfold same, Fr, Br, rel. cbn [ev fst]. f_equal. apply RB_RF; auto.
Qed.
(** spectral direction: the imaginary parts of the self-conjugate modes are lost *)
Lemma r2c_good_spectral {Z0 : EqZ A} n dl zt Rg : is0 (n0 (A := A)) = true -> (1 <= n)%nat -> (Z.of_nat n <= zmax)%Z -> INR n * eta <= u -> 0 <= dl <= 1 -> 0 <= zt ->
  r2c_accurate E fin val n dl zt -> r2c_in_range E fin val inr n -> c2r_accurate E fin val n dl zt -> c2r_in_range E fin val inr n -> inr (9 * Rg + zt) ->
  good_ops (r2c_backward_x E (mk_r2c n (n / 2 + 1))) (r2c_forward_x E (mk_r2c n (n / 2 + 1))) (n / 2 + 1) n n cel rel (realed n) (dl + u) (eta + zt) 4 Rg.
Proof.
  intros HZ Hn Hz Hs Hd Hzt HF HFR HB HBR HI. pose proof (rn_u _ _ _ RN) as [U U1]. pose proof (rn_eta _ _ _ RN) as H0. pose proof (INR_1 n Hn) as N1. destruct (ninv_le n Hn) as [C C2].
  assert (NE : 0 <= INR n * eta) by (apply Rmult_le_pos; lra). assert (NZ : zt <= INR n * zt). { rewrite <- (Rmult_1_l zt) at 1. apply Rmult_le_compat_r; auto. }
  pose proof (div2_lt1 n Hn) as DN.
  exists (Br n), (Fr n), (2 / INR n), 2, ((11 / 10 * dl + 8 * u) * / INR n), (2 * dl).
  split. apply (r2c_bwd_near n dl zt); auto; lra. split. apply (r2c_fwd_near n dl zt); auto; lra. split. apply Br_bounded; auto. split. apply Fr_bounded; auto.
  assert (IN : 0 <= / INR n) by (unfold Rdiv in C; lra).
  split. auto. split. lra. split. lra. split. { split. apply Rmult_le_pos; lra. unfold Rdiv. rewrite <- Rmult_assoc. apply Rmult_le_compat_r; lra. } split. lra. split. lia. split. lia.
  intros d c k Hk Lc. unfold Fr, Br. cbn [fst]. rewrite (RF_RB n (fun k => ev cel c.[k]) k); auto.
Qed.
End Fl.
