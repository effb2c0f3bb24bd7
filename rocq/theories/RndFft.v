(** Rounding errors of the Fourier transforms on top of accurate libraries (C55). *)
From Coq Require Import List Arith ZArith Reals Bool Lra Lia.
From Verif Require Import Base Num Linalg LinalgProofs StencilProofs Cheb ChebGrad Fourier FourierFacts FourierProofs CompoProofs ExtLib Rounding RndTdma RndDirichlet RndCheb LibAcc PropRound.
Import ListNotations.
Local Open Scope R_scope.

Definition over (n : nat) (z : CR) : CR := (fst z / INR n, snd z / INR n).
Ltac unc := unfold over, sc, cmul, csub, conj, Rdiv; cbn [fst snd nmul nsub nadd nopp num_R].
(** ** Magnitudes *)
Definition cn (z : CR) : R := Rabs (fst z) + Rabs (snd z).
Lemma cn_pos z : 0 <= cn z.
Proof. unfold cn. pose proof (Rabs_pos (fst z)). pose proof (Rabs_pos (snd z)). lra. Qed.
Lemma E_abs n z : Rabs (fst (E n z)) <= 1 /\ Rabs (snd (E n z)) <= 1.
Proof. unfold E. cbn [fst snd]. split; apply Rabs_le; [apply COS_bound|apply SIN_bound]. Qed.
Lemma two_prod a b c d : Rabs c <= 1 -> Rabs d <= 1 -> Rabs (a * c + b * d) <= Rabs a + Rabs b.
Proof.
  intros Hc Hd. eapply Rle_trans; [apply Rabs_triang|]. rewrite !Rabs_mult. pose proof (Rabs_pos a). pose proof (Rabs_pos b).
  assert (Rabs a * Rabs c <= Rabs a * 1) by (apply Rmult_le_compat_l; auto). assert (Rabs b * Rabs d <= Rabs b * 1) by (apply Rmult_le_compat_l; auto). lra.
Qed.
Lemma cmulE_abs (z : CR) n k : Rabs (fst (cmul z (E n k))) <= cn z /\ Rabs (snd (cmul z (E n k))) <= cn z.
Proof.
  destruct (E_abs n k) as [A B]. destruct z as [a b]. unfold cn, cmul. cbn [fst snd nmul nsub nadd num_R]. split.
  - unfold Rminus. rewrite Ropp_mult_distr_r. apply two_prod; auto. rewrite Rabs_Ropp. auto.
  - apply two_prod; auto.
Qed.
Definition Dft (n : nat) (s : bool) (f : nat -> CR) (k : nat) : CR := csum n (fun j => cmul (f j) (E n (sgn s (Z.of_nat j * Z.of_nat k)))).
Lemma Dft_abs n s f k : Rabs (fst (Dft n s f k)) <= rsum n (fun j => cn (f j)) /\ Rabs (snd (Dft n s f k)) <= rsum n (fun j => cn (f j)).
Proof.
  unfold Dft, csum. cbn [fst snd]. split; (eapply Rle_trans; [apply rsum_abs|]); apply rsum_le; intros j Hj; apply cmulE_abs.
Qed.
Lemma Dft_sub n s f g k : Dft n s (fun j => csub (f j) (g j)) k = csub (Dft n s f k) (Dft n s g k).
Proof.
  unfold Dft. apply ceq; unfold csum, csub; cbn [fst snd nsub num_R]; rewrite <- rsum_sub; apply rsum_ext; intros j _;
    destruct (f j), (g j), (E n (sgn s (Z.of_nat j * Z.of_nat k))); unc; ring.
Qed.
Lemma Dft_ext n s f g k : (forall j, (j < n)%nat -> f j = g j) -> Dft n s f k = Dft n s g k.
Proof. intros H. apply csum_ext. intros j Hj. rewrite H; auto. Qed.
Lemma over_sc n z : over n z = sc n z.
Proof. unfold over, sc. destruct z. apply ceq; unc; ring. Qed.
Lemma cmul_over n z w : cmul (over n z) w = over n (cmul z w).
Proof. unfold over. destruct z, w. apply ceq; unc; ring. Qed.
Lemma csum_over n m f : csum m (fun k => over n (f k)) = over n (csum m f).
Proof. unfold csum, over, Rdiv. cbn [fst snd]. rewrite !rsum_scal_r. auto. Qed.
Lemma Dft_over n s f k m : Dft n s (fun j => over m (f j)) k = over m (Dft n s f k).
Proof. unfold Dft. rewrite <- csum_over. apply csum_ext. intros. apply cmul_over. Qed.
Lemma Dft_inv n s f k : (1 <= n)%nat -> (k < n)%nat -> over n (Dft n (negb s) (Dft n s f) k) = f k.
Proof. intros Hn Hk. unfold Dft. rewrite (dft_inv n s f k Hk). rewrite over_sc. apply sc_inv. auto. Qed.

(** the angles as written in LibAcc *)
Lemma E_at n j k : E n (Z.of_nat j * Z.of_nat k) = (cos (2 * PI * INR (j * k) / INR n), sin (2 * PI * INR (j * k) / INR n)).
Proof. unfold E, arg. rewrite <- Nat2Z.inj_mul, <- INR_IZR_INZ. auto. Qed.
Lemma E_sgn n s j k : E n (sgn s (Z.of_nat j * Z.of_nat k)) =
  (cos ((if s then 1 else -1) * (2 * PI * INR (j * k) / INR n)), sin ((if s then 1 else -1) * (2 * PI * INR (j * k) / INR n))).
Proof.
  unfold sgn. destruct s.
  - rewrite E_at, Rmult_1_l. auto.
  - rewrite E_opp, E_at. unfold conj. cbn [fst snd nopp num_R]. replace (-1 * (2 * PI * INR (j * k) / INR n)) with (- (2 * PI * INR (j * k) / INR n)) by ring.
    rewrite cos_neg, sin_neg. auto.
Qed.

(** ** What the programs hand to the libraries, in any arithmetic *)
Section Any.
Context {A : Type} {N : Num A} (X : ext A).
Definition inv_cor (n : nat) : A := ndiv n1 (nofN n).
Definition bwd_in (n : nat) (c : list (cplx A)) : list (cplx A) := map (fun b => (nmul (inv_cor n) (fst b), nmul (inv_cor n) (snd b))) c.
Lemma bwd_in_len n c : length (bwd_in n c) = length c.
Proof. unfold bwd_in. apply map_length. Qed.
Lemma bwd_in_at n c k : (k < length c)%nat -> (bwd_in n c).[k] = (nmul (inv_cor n) (fst c.[k]), nmul (inv_cor n) (snd c.[k])).
Proof. intros. unfold bwd_in. apply (at_map (fun b : cplx A => (nmul (inv_cor n) (fst b), nmul (inv_cor n) (snd b)))). auto. Qed.

Lemma c2c_forward_x_eq n (x o : list (cplx A)) : length x = n -> length o = n -> c2c_forward_x X (mk_c2c n n) x o = Ok (x_fft X false n x).
Proof.
  intros Hx Ho. unfold c2c_forward_x, c2c_len_phys, c2c_len_spec, process_fft_x. cbn [cc_n cc_m]. rewrite zip_write_full by congruence.
  rewrite Hx, Ho, !Nat.eqb_refl. reflexivity.
Qed.
Lemma c2c_backward_x_eq n (c o : list (cplx A)) : length c = n -> length o = n -> c2c_backward_x X (mk_c2c n n) c o = Ok (x_fft X true n (bwd_in n c)).
Proof.
  intros Hx Hy. unfold c2c_backward_x, c2c_len_phys, c2c_len_spec, process_fft_x. cbn [cc_n cc_m].
  change (map _ c) with (bwd_in n c). rewrite zip_write_full by (rewrite bwd_in_len; congruence).
  rewrite bwd_in_len, Hx, Hy, !Nat.eqb_refl. reflexivity.
Qed.
Lemma r2c_forward_x_eq n (x : list A) (o : list (cplx A)) : length x = n -> length o = (n / 2 + 1)%nat ->
  r2c_forward_x X (mk_r2c n (n / 2 + 1)) x o = Ok (x_r2c X n x).
Proof.
  intros Hx Hy. unfold r2c_forward_x, r2c_len_phys, r2c_len_spec, process_r2c_x. cbn [r_n r_m]. rewrite zip_write_full by (rewrite repeat_length; auto).
  rewrite Hx, Hy, !Nat.eqb_refl. reflexivity.
Qed.
Lemma zero_im_eq (c : list (cplx A)) i : (i < length c)%nat -> zero_im c i = Ok (upd c i (fst c.[i], n0)).
Proof. intros. unfold zero_im. rewrite rd_at by auto. cbn [bind]. rewrite wr_at by auto. auto. Qed.
Lemma upd_at {T} {d : Dflt T} (l : list T) i v k : (i < length l)%nat -> (upd l i v).[k] = if (k =? i)%nat then v else l.[k].
Proof. intros. destruct (Nat.eqb_spec k i). subst. apply at_upd_eq; auto. apply at_upd_ne; auto. Qed.
Lemma r2c_backward_x_steps {Z0 : EqZ A} n (c : list (cplx A)) (o y : list A) : (1 <= n)%nat -> length c = (n / 2 + 1)%nat -> length o = n ->
  r2c_backward_x X (mk_r2c n (n / 2 + 1)) c o = Ok y ->
  exists b, length b = (n / 2 + 1)%nat /\ y = x_c2r X n b /\
    forall k, (k < n / 2 + 1)%nat -> b.[k] = (nmul (inv_cor n) (fst c.[k]), if selfc n k then n0 else nmul (inv_cor n) (snd c.[k])).
Proof.
  intros Hn Lc Lo. unfold r2c_backward_x, r2c_len_phys, r2c_len_spec. cbn [r_n r_m]. rewrite Lc, Lo, !Nat.eqb_refl. cbn [assertb bind].
  change (map _ c) with (bwd_in n c). rewrite zip_write_full by (rewrite bwd_in_len, repeat_length; auto).
  rewrite zero_im_eq by (rewrite bwd_in_len; lia). cbn [bind]. set (c1 := upd (bwd_in n c) 0 _). assert (L1 : length c1 = (n / 2 + 1)%nat) by (unfold c1; rewrite upd_length, bwd_in_len; auto).
  assert (E1 : forall k, (k < n / 2 + 1)%nat -> c1.[k] = (nmul (inv_cor n) (fst c.[k]), if (k =? 0)%nat then n0 else nmul (inv_cor n) (snd c.[k]))).
  { intros k Hk. unfold c1. rewrite upd_at by (rewrite bwd_in_len; lia). destruct (Nat.eqb_spec k 0). subst. rewrite bwd_in_at by lia. auto. rewrite bwd_in_at by lia. auto. }
  clearbody c1. assert (H : forall b, length b = (n / 2 + 1)%nat -> process_c2r_x X n b o = Ok y -> y = x_c2r X n b).
  { intros b Lb. unfold process_c2r_x. rewrite Lb, Lo, !Nat.eqb_refl. cbn [assertb bind]. destruct (is0 (snd b.[0])); [|discriminate]. cbn [assertb bind].
    destruct (n mod 2 =? 0)%nat. destruct (is0 (snd b.[n / 2])); [|discriminate]. all: cbn [assertb bind]; intros G; injection G; auto. }
  destruct (Nat.eqb_spec (n mod 2) 0) as [Ev|Od].
  - rewrite usub_ok by lia. cbn [bind]. rewrite zero_im_eq by lia. cbn [bind]. intros G. eexists. split; [|split; [apply H; [|exact G]|]]; try (rewrite upd_length; auto).
    intros k Hk. rewrite upd_at by lia. rewrite !E1 by lia. replace (n / 2 + 1 - 1)%nat with (n / 2)%nat by lia. cbn [fst snd]. pose proof (even_half n Ev). unfold selfc.
    destruct (Nat.eqb_spec k (n / 2)). { subst k. destruct (Nat.eqb_spec (2 * (n / 2)) n); [|lia]. rewrite orb_true_r. auto. }
    destruct (Nat.eqb_spec (2 * k) n); [lia|]. rewrite orb_false_r. auto.
  - cbn [bind]. intros G. exists c1. split; auto. split. apply H; auto. intros k Hk. rewrite E1 by auto. unfold selfc. pose proof (odd_half n Od).
    destruct (Nat.eqb_spec (2 * k) n); [lia|]. rewrite orb_false_r. auto.
Qed.
End Any.

(** ** Errors *)
Section Fl.
Context {A : Type} {N : Num A} {u eta : R} {rnd : R -> R} {zmax : Z} {inr : R -> Prop} {fin : A -> Prop} {val : A -> R}
  (FA : float_arith N u eta rnd zmax inr fin val) (X : ext A).
Let RN := fa_rnd _ _ _ _ _ _ _ _ FA.
Let FF := fa_float _ _ _ _ _ _ _ _ FA.
Definition cv (x : list (cplx A)) (j : nat) : CR := (val (fst x.[j]), val (snd x.[j])).

Lemma INR_1 n : (1 <= n)%nat -> 1 <= INR n.
Proof. intros. replace 1 with (INR 1) by reflexivity. apply le_INR. lia. Qed.
Lemma inv_cor_ok n : (1 <= n)%nat -> (Z.of_nat n <= zmax)%Z -> INR n * eta <= u -> fin (inv_cor n) /\ Rabs (val (inv_cor n) - / INR n) <= 2 * u / INR n.
Proof.
  intros Hn Hz Hs. destruct (int_val FA n Hz) as [Fn En]. pose proof (INR_1 n Hn) as N1. destruct (fa_1 _ _ _ _ _ _ _ _ FA) as [F1 E1].
  pose proof (rn_eta _ _ _ RN) as H0.
  destruct (quot_ok FA _ _ F1 Fn ltac:(lra) ltac:(rewrite E1, Rabs_pos_eq; lra)) as [Fc Ec]. rewrite E1, En in Ec. split. exact Fc.
  unfold inv_cor. rewrite Ec. replace (/ INR n) with (1 / INR n) by (unfold Rdiv; ring). eapply Rle_trans; [apply (rn_err _ _ _ RN)|].
  assert (0 < / INR n) by (apply Rinv_0_lt_compat; lra). rewrite (Rabs_pos_eq (1 / INR n)) by (unfold Rdiv; lra).
  assert (eta <= u * / INR n). { apply Rmult_le_reg_l with (INR n). lra. replace (INR n * (u * / INR n)) with u by (field; lra). auto. }
  unfold Rdiv. lra.
Qed.
Lemma bwd_mul_err n v : (1 <= n)%nat -> (Z.of_nat n <= zmax)%Z -> INR n * eta <= u -> fin (nmul (inv_cor n) v) ->
  fin v /\ Rabs (val (nmul (inv_cor n) v) - val v / INR n) <= 4 * u * (Rabs (val v) / INR n) + eta.
Proof.
  intros Hn Hz Hs F. destruct (fa_mul _ _ _ _ _ _ _ _ FA _ _ F) as (Fc & Fv & ->). split; auto. destruct (inv_cor_ok n Hn Hz Hs) as [_ HC].
  pose proof (rn_u _ _ _ RN) as [U U1]. pose proof (INR_1 n Hn) as N1. assert (IP : 0 < / INR n) by (apply Rinv_0_lt_compat; lra).
  set (c := / INR n) in *. set (w := val v). set (ct := val (inv_cor n)) in *. unfold Rdiv. fold c. replace (2 * u / INR n) with (2 * u * c) in HC by reflexivity.
  pose proof (rn_err _ _ _ RN (ct * w)) as Er. rewrite Rabs_mult in Er. pose proof (Rabs_pos w) as W0.
  assert (CT : Rabs ct <= (1 + 2 * u) * c). { replace ct with (c + (ct - c)) by ring. eapply Rle_trans; [apply Rabs_triang|]. rewrite (Rabs_pos_eq c) by lra. lra. }
  replace (rnd (ct * w) - w * c) with ((rnd (ct * w) - ct * w) + (ct - c) * w) by ring. eapply Rle_trans; [apply Rabs_triang|]. rewrite (Rabs_mult (ct - c)).
  pose proof (Rmult_le_compat_r _ _ _ W0 CT) as M1. apply (Rmult_le_compat_l u) in M1; auto. pose proof (Rmult_le_compat_r _ _ _ W0 HC) as M2.
  assert (0 <= Rabs w * c) by (apply Rmult_le_pos; lra). assert (u * u * (Rabs w * c) <= / 64 * u * (Rabs w * c)). { apply Rmult_le_compat_r; auto. apply Rmult_le_compat_r; auto. }
  assert (0 <= u * (Rabs w * c)) by (apply Rmult_le_pos; auto). lra.
Qed.

(** *** complex to complex *)
Lemma fft_acc s n dl zt x : fft_accurate X fin val s n dl zt -> length x = n -> (forall k, (k < n)%nat -> cfin fin (x_fft X s n x).[k]) ->
  length (x_fft X s n x) = n /\ (forall j, (j < n)%nat -> cfin fin x.[j]) /\
  forall k, (k < n)%nat -> let e := dl * rsum n (fun j => cn (cv x j)) + zt in
    Rabs (fst (cv (x_fft X s n x) k) - fst (Dft n s (cv x) k)) <= e /\ Rabs (snd (cv (x_fft X s n x) k) - snd (Dft n s (cv x) k)) <= e.
Proof.
  intros H Lx F. destruct (H x Lx) as [L G]. split; auto. destruct (G F) as [G1 G2]. split; auto. intros k Hk e. specialize (G2 k Hk). cbv zeta in G2.
  assert (E1 : Dft n s (cv x) k = (rsum n (fun j => val (fst x.[j]) * cos ((if s then 1 else -1) * (2 * PI * INR (j * k) / INR n)) - val (snd x.[j]) * sin ((if s then 1 else -1) * (2 * PI * INR (j * k) / INR n))),
     rsum n (fun j => val (fst x.[j]) * sin ((if s then 1 else -1) * (2 * PI * INR (j * k) / INR n)) + val (snd x.[j]) * cos ((if s then 1 else -1) * (2 * PI * INR (j * k) / INR n))))).
  { unfold Dft, csum. f_equal; apply rsum_ext; intros j _; rewrite E_sgn; unfold cv; unc; ring. }
  rewrite E1. cbn [fst snd]. exact G2.
Qed.

Lemma bwd_in_err n m (c : list (cplx A)) : (1 <= n)%nat -> (Z.of_nat n <= zmax)%Z -> INR n * eta <= u -> length c = m -> (forall k, (k < m)%nat -> cfin fin (bwd_in n c).[k]) ->
  (forall k, (k < m)%nat -> cfin fin c.[k]) /\
  forall k, (k < m)%nat -> cn (csub (cv (bwd_in n c) k) (over n (cv c k))) <= 4 * u * (cn (cv c k) / INR n) + 2 * eta.
Proof.
  intros Hn Hz Hs Lc F. assert (G : forall k, (k < m)%nat -> cfin fin c.[k] /\ cn (csub (cv (bwd_in n c) k) (over n (cv c k))) <= 4 * u * (cn (cv c k) / INR n) + 2 * eta).
  { intros k Hk. specialize (F k Hk). unfold cv. rewrite bwd_in_at in * by lia. destruct F as [F1 F2]. cbn [fst snd] in *.
    destruct (bwd_mul_err n _ Hn Hz Hs F1) as [G1 E1]. destruct (bwd_mul_err n _ Hn Hz Hs F2) as [G2 E2]. split. split; auto.
    unfold cn, csub, over. cbn [fst snd nsub num_R]. unfold Rdiv in *. rewrite Rmult_plus_distr_r, Rmult_plus_distr_l. lra. }
  split; intros k Hk; apply G; auto.
Qed.
Lemma cn_split a b : cn a <= cn b + cn (csub a b).
Proof.
  unfold cn, csub. cbn [fst snd nsub num_R]. pose proof (Rabs_triang (fst b) (fst a - fst b)) as T1. pose proof (Rabs_triang (snd b) (snd a - snd b)) as T2.
  replace (fst b + (fst a - fst b)) with (fst a) in T1 by ring. replace (snd b + (snd a - snd b)) with (snd a) in T2 by ring. lra.
Qed.
Lemma cn_over n z : (1 <= n)%nat -> cn (over n z) = cn z / INR n.
Proof. intros. pose proof (INR_1 n H). assert (0 < / INR n) by (apply Rinv_0_lt_compat; lra). unfold cn, over, Rdiv. cbn [fst snd]. rewrite !Rabs_mult, !(Rabs_pos_eq (/ INR n)) by lra. ring. Qed.

Definition bwd_e (n : nat) (dl zt S : R) : R := (11 / 10 * dl + 4 * u) * (S / INR n) + 4 * INR n * eta + zt.
Lemma c2c_backward_err n dl zt (c o y : list (cplx A)) : (1 <= n)%nat -> (Z.of_nat n <= zmax)%Z -> INR n * eta <= u -> 0 <= dl <= 1 -> 0 <= zt ->
  fft_accurate X fin val true n dl zt -> length c = n -> length o = n -> c2c_backward_x X (mk_c2c n n) c o = Ok y -> (forall k, (k < n)%nat -> cfin fin y.[k]) ->
  length y = n /\ (forall j, (j < n)%nat -> cfin fin c.[j]) /\
  forall j, (j < n)%nat -> let e := bwd_e n dl zt (rsum n (fun k => cn (cv c k))) in
    Rabs (fst (cv y j) - fst (over n (Dft n true (cv c) j))) <= e /\ Rabs (snd (cv y j) - snd (over n (Dft n true (cv c) j))) <= e.
Proof.
  intros Hn Hz Hs Hd Hzt HE Lc Lo Ey Fy. rewrite c2c_backward_x_eq in Ey by auto. injection Ey as <-.
  assert (LI : length (bwd_in n c) = n) by (rewrite bwd_in_len; auto). destruct (fft_acc true n dl zt _ HE LI Fy) as (Ly & Fb & HA). split; auto.
  destruct (bwd_in_err n n c Hn Hz Hs Lc Fb) as [Fc EB]. split; auto. intros j Hj e. specialize (HA j Hj). cbv zeta in HA.
  pose proof (rn_u _ _ _ RN) as [U U1]. pose proof (rn_eta _ _ _ RN) as H0. pose proof (INR_1 n Hn) as N1. assert (IP : 0 < / INR n) by (apply Rinv_0_lt_compat; lra).
  set (S := rsum n (fun k => cn (cv c k))) in *. assert (S0 : 0 <= S) by (apply rsum_pos; intros; apply cn_pos). set (Q := S / INR n). assert (Q0 : 0 <= Q) by (unfold Q, Rdiv; apply Rmult_le_pos; lra).
  assert (SD : rsum n (fun k => cn (csub (cv (bwd_in n c) k) (over n (cv c k)))) <= 4 * u * Q + 2 * (INR n * eta)).
  { eapply Rle_trans. apply rsum_le. intros k Hk. apply (EB k Hk). rewrite rsum_add, rsum_const, rsum_scal_l. unfold Rdiv. rewrite rsum_scal_r. fold S. change (S * / INR n) with Q. lra. }
  assert (SB : rsum n (fun k => cn (cv (bwd_in n c) k)) <= (1 + 4 * u) * Q + 2 * (INR n * eta)).
  { eapply Rle_trans. apply rsum_le. intros k Hk. apply (cn_split _ (over n (cv c k))). rewrite rsum_add.
    rewrite (rsum_ext n (fun k => cn (over n (cv c k))) (fun k => cn (cv c k) * / INR n)) by (intros; apply cn_over; auto). rewrite rsum_scal_r. fold S. change (S * / INR n) with Q. lra. }
  assert (DD : csub (Dft n true (cv (bwd_in n c)) j) (over n (Dft n true (cv c) j)) = Dft n true (fun k => csub (cv (bwd_in n c) k) (over n (cv c k))) j).
  { rewrite Dft_sub, Dft_over. auto. }
  destruct (Dft_abs n true (fun k => csub (cv (bwd_in n c) k) (over n (cv c k))) j) as [D1 D2]. rewrite <- DD in D1, D2. cbn [csub fst snd nsub num_R] in D1, D2.
  apply (Rmult_le_compat_l dl) in SB; [|lra].
  assert (NN : 0 <= INR n * eta) by (apply Rmult_le_pos; lra).
  assert (DQ : 0 <= dl * Q) by (apply Rmult_le_pos; lra). assert (UD : u * (dl * Q) <= / 64 * (dl * Q)) by (apply Rmult_le_compat_r; lra).
  assert (DN : 0 <= dl * (INR n * eta) <= INR n * eta). { split. apply Rmult_le_pos; lra. rewrite <- (Rmult_1_l (INR n * eta)) at 2. apply Rmult_le_compat_r; lra. }
  assert (TOT : dl * ((1 + 4 * u) * Q + 2 * (INR n * eta)) + zt + (4 * u * Q + 2 * (INR n * eta)) <= e) by (unfold e, bwd_e; fold Q; lra).
  destruct HA as [H1 H2]. set (y := x_fft X true n (bwd_in n c)) in *. set (Db := Dft n true (cv (bwd_in n c)) j) in *. set (Dc := over n (Dft n true (cv c) j)) in *. split.
  - replace (fst (cv y j) - fst Dc) with ((fst (cv y j) - fst Db) + (fst Db - fst Dc)) by ring. eapply Rle_trans; [apply Rabs_triang|]. lra.
  - replace (snd (cv y j) - snd Dc) with ((snd (cv y j) - snd Db) + (snd Db - snd Dc)) by ring. eapply Rle_trans; [apply Rabs_triang|]. lra.
Qed.

Lemma cn_le2 (z : CR) e : Rabs (fst z) <= e -> Rabs (snd z) <= e -> cn z <= 2 * e.
Proof. unfold cn. lra. Qed.
Lemma c2c_bwd_fwd_err n dl zt (x o1 c o2 y : list (cplx A)) : (1 <= n)%nat -> (Z.of_nat n <= zmax)%Z -> INR n * eta <= u -> 0 <= dl <= / 16 -> 0 <= zt ->
  (forall s, fft_accurate X fin val s n dl zt) -> length x = n -> length o1 = n -> length o2 = n ->
  c2c_forward_x X (mk_c2c n n) x o1 = Ok c -> c2c_backward_x X (mk_c2c n n) c o2 = Ok y -> (forall k, (k < n)%nat -> cfin fin y.[k]) ->
  (forall j, (j < n)%nat -> cfin fin x.[j]) /\
  forall j, (j < n)%nat -> let e := (5 * dl + 8 * u) * rsum n (fun k => cn (cv x k)) + 4 * INR n * eta + 4 * zt in
    Rabs (fst (cv y j) - fst (cv x j)) <= e /\ Rabs (snd (cv y j) - snd (cv x j)) <= e.
Proof.
  intros Hn Hz Hs Hd Hzt HE Lx L1 L2 Ec Ey Fy. rewrite c2c_forward_x_eq in Ec by auto. injection Ec as <-.
  set (c := x_fft X false n x) in *. assert (Lc : length c = n) by (apply (HE false x Lx)).
  destruct (c2c_backward_err n dl zt c o2 y Hn Hz Hs ltac:(lra) Hzt (HE true) Lc L2 Ey Fy) as (_ & Fc & HB).
  destruct (fft_acc false n dl zt x (HE false) Lx Fc) as (_ & Fx & HF). fold c in HF. split; auto. intros j Hj e. specialize (HB j Hj). cbv zeta in HB.
  pose proof (rn_u _ _ _ RN) as [U U1]. pose proof (rn_eta _ _ _ RN) as H0. pose proof (INR_1 n Hn) as N1. assert (IP : 0 < / INR n) by (apply Rinv_0_lt_compat; lra).
  set (S := rsum n (fun k => cn (cv x k))) in *. assert (S0 : 0 <= S) by (apply rsum_pos; intros; apply cn_pos).
  set (ef := dl * S + zt). assert (ef0 : 0 <= ef) by (unfold ef; assert (0 <= dl * S) by (apply Rmult_le_pos; lra); lra).
  assert (CD : forall k, (k < n)%nat -> cn (csub (cv c k) (Dft n false (cv x) k)) <= 2 * ef).
  { intros k Hk. apply cn_le2; apply (HF k Hk). }
  assert (SC : rsum n (fun k => cn (cv c k)) <= INR n * (2 * S + 2 * ef)).
  { rewrite <- rsum_const. apply rsum_le. intros k Hk. eapply Rle_trans; [apply (cn_split _ (Dft n false (cv x) k))|]. specialize (CD k Hk). destruct (Dft_abs n false (cv x) k). fold S in H, H1.
    pose proof (cn_le2 _ _ H H1). lra. }
  assert (QC : rsum n (fun k => cn (cv c k)) / INR n <= 2 * S + 2 * ef).
  { apply Rmult_le_reg_r with (INR n). lra. unfold Rdiv. rewrite Rmult_assoc, Rinv_l by lra. lra. }
  assert (IV : over n (Dft n true (Dft n false (cv x)) j) = cv x j) by (apply (Dft_inv n false); auto).
  assert (BD : forall q, (q = fst \/ q = snd) -> Rabs (q (over n (Dft n true (cv c) j)) - q (cv x j)) <= 2 * ef).
  { intros q Hq. rewrite <- IV at 1. rewrite <- !Dft_over.
    assert (W : Rabs (q (Dft n true (fun k => csub (over n (cv c k)) (over n (Dft n false (cv x) k))) j)) <= 2 * ef).
    { destruct (Dft_abs n true (fun k => csub (over n (cv c k)) (over n (Dft n false (cv x) k))) j) as [A1 A2].
      assert (B : rsum n (fun k => cn (csub (over n (cv c k)) (over n (Dft n false (cv x) k)))) <= 2 * ef).
      { apply Rle_trans with (rsum n (fun _ => 2 * ef * / INR n)).
        - apply rsum_le. intros k Hk. replace (csub (over n (cv c k)) (over n (Dft n false (cv x) k))) with (over n (csub (cv c k) (Dft n false (cv x) k))).
          rewrite cn_over by auto. apply Rmult_le_compat_r. lra. auto. unfold csub, over. cbn [fst snd nsub num_R]. unfold Rdiv. f_equal; ring.
        - rewrite rsum_const. right. field. lra. }
      destruct Hq as [-> | ->]; lra. }
    rewrite Dft_sub in W. destruct Hq as [-> | ->]; exact W. }
  unfold bwd_e in HB. set (Sc := rsum n (fun k => cn (cv c k))) in *. set (Qc := Sc / INR n) in *.
  assert (M : (11 / 10 * dl + 4 * u) * Qc <= (11 / 10 * dl + 4 * u) * (2 * S + 2 * ef)) by (apply Rmult_le_compat_l; lra).
  assert (M2 : (11 / 10 * dl + 4 * u) * ef <= 132 / 1000 * ef) by (apply Rmult_le_compat_r; lra).
  assert (DS : 0 <= dl * S) by (apply Rmult_le_pos; lra). assert (NN : 0 <= INR n * eta) by (apply Rmult_le_pos; lra).
  assert (TOT : (11 / 10 * dl + 4 * u) * Qc + 4 * INR n * eta + zt + 2 * ef <= e) by (unfold e; unfold ef in *; lra).
  destruct HB as [B1 B2]. split.
  - replace (fst (cv y j) - fst (cv x j)) with ((fst (cv y j) - fst (over n (Dft n true (cv c) j))) + (fst (over n (Dft n true (cv c) j)) - fst (cv x j))) by ring.
    eapply Rle_trans; [apply Rabs_triang|]. pose proof (BD fst (or_introl eq_refl)). lra.
  - replace (snd (cv y j) - snd (cv x j)) with ((snd (cv y j) - snd (over n (Dft n true (cv c) j))) + (snd (over n (Dft n true (cv c) j)) - snd (cv x j))) by ring.
    eapply Rle_trans; [apply Rabs_triang|]. pose proof (BD snd (or_intror eq_refl)). lra.
Qed.

Lemma c2c_fwd_bwd_err n dl zt (c o1 y o2 d : list (cplx A)) : (1 <= n)%nat -> (Z.of_nat n <= zmax)%Z -> INR n * eta <= u -> 0 <= dl <= / 16 -> 0 <= zt ->
  (forall s, fft_accurate X fin val s n dl zt) -> length c = n -> length o1 = n -> length o2 = n ->
  c2c_backward_x X (mk_c2c n n) c o1 = Ok y -> c2c_forward_x X (mk_c2c n n) y o2 = Ok d -> (forall k, (k < n)%nat -> cfin fin d.[k]) ->
  (forall j, (j < n)%nat -> cfin fin c.[j]) /\
  forall k, (k < n)%nat -> let e := (5 * dl + 9 * u) * rsum n (fun k => cn (cv c k)) + 9 * (INR n * INR n) * eta + 4 * INR n * zt in
    Rabs (fst (cv d k) - fst (cv c k)) <= e /\ Rabs (snd (cv d k) - snd (cv c k)) <= e.
Proof.
  intros Hn Hz Hs Hd Hzt HE Lc L1 L2 Ey Ed Fd.
  assert (Ly : length y = n). { rewrite c2c_backward_x_eq in Ey by auto. injection Ey as <-. apply (HE true). rewrite bwd_in_len. auto. }
  rewrite c2c_forward_x_eq in Ed by auto. injection Ed as <-. set (d := x_fft X false n y) in *.
  destruct (fft_acc false n dl zt y (HE false) Ly Fd) as (_ & Fy & HF). fold d in HF.
  destruct (c2c_backward_err n dl zt c o1 y Hn Hz Hs ltac:(lra) Hzt (HE true) Lc L1 Ey Fy) as (_ & Fc & HB). split; auto. intros k Hk e. specialize (HF k Hk). cbv zeta in HF.
  pose proof (rn_u _ _ _ RN) as [U U1]. pose proof (rn_eta _ _ _ RN) as H0. pose proof (INR_1 n Hn) as N1. assert (IP : 0 < / INR n) by (apply Rinv_0_lt_compat; lra).
  set (S := rsum n (fun k => cn (cv c k))) in *. assert (S0 : 0 <= S) by (apply rsum_pos; intros; apply cn_pos). cbv zeta in HB. set (eb := bwd_e n dl zt S) in *.
  set (ex := fun j => over n (Dft n true (cv c) j)) in *.
  assert (CD : forall j, (j < n)%nat -> cn (csub (cv y j) (ex j)) <= 2 * eb). { intros j Hj. apply cn_le2; apply (HB j Hj). }
  assert (SY : rsum n (fun j => cn (cv y j)) <= INR n * (2 * S / INR n + 2 * eb)).
  { rewrite <- rsum_const. apply rsum_le. intros j Hj. eapply Rle_trans; [apply (cn_split _ (ex j))|]. specialize (CD j Hj). unfold ex in *. rewrite (cn_over n (Dft n true (cv c) j)) by auto.
    destruct (Dft_abs n true (cv c) j) as [A1 A2]. fold S in A1, A2. pose proof (cn_le2 _ _ A1 A2) as A3. apply (Rmult_le_compat_r (/ INR n)) in A3; [|lra]. unfold Rdiv in *. lra. }
  assert (IV : Dft n false ex k = cv c k). { unfold ex. rewrite (Dft_over n false (Dft n true (cv c)) k n). apply (Dft_inv n true); auto. }
  assert (BD : Rabs (fst (Dft n false (cv y) k) - fst (cv c k)) <= 2 * (INR n * eb) /\ Rabs (snd (Dft n false (cv y) k) - snd (cv c k)) <= 2 * (INR n * eb)).
  { rewrite <- IV. destruct (Dft_abs n false (fun j => csub (cv y j) (ex j)) k) as [A1 A2]. rewrite Dft_sub in A1, A2. cbn [csub fst snd nsub num_R] in A1, A2.
    assert (B : rsum n (fun j => cn (csub (cv y j) (ex j))) <= 2 * (INR n * eb)). { eapply Rle_trans; [apply rsum_le; exact CD|]. rewrite rsum_const. lra. }
    cbn [csub nsub num_R] in B. split; lra. }
  assert (NE : INR n * eb = (11 / 10 * dl + 4 * u) * S + 4 * (INR n * INR n * eta) + INR n * zt). { unfold eb, bwd_e. field. lra. }
  assert (NY : INR n * (2 * S / INR n + 2 * eb) = 2 * S + 2 * (INR n * eb)) by (field; lra). rewrite NY in SY. apply (Rmult_le_compat_l dl) in SY; [|lra].
  assert (DS : 0 <= dl * S) by (apply Rmult_le_pos; lra). assert (US : 0 <= u * S) by (apply Rmult_le_pos; lra).
  assert (NN : 0 <= INR n * INR n * eta) by (repeat apply Rmult_le_pos; lra). assert (ZN : zt <= INR n * zt) by (rewrite <- (Rmult_1_l zt) at 1; apply Rmult_le_compat_r; lra).
  assert (NE0 : 0 <= INR n * eb) by (rewrite NE; lra).
  assert (M2 : dl * (INR n * eb) <= / 16 * (INR n * eb)) by (apply Rmult_le_compat_r; lra).
  assert (TOT : dl * (2 * S + 2 * (INR n * eb)) + zt + 2 * (INR n * eb) <= e) by (unfold e; rewrite NE in *; lra).
  destruct HF as [F1 F2], BD as [D1 D2]. split.
  - replace (fst (cv d k) - fst (cv c k)) with ((fst (cv d k) - fst (Dft n false (cv y) k)) + (fst (Dft n false (cv y) k) - fst (cv c k))) by ring. eapply Rle_trans; [apply Rabs_triang|]. lra.
  - replace (snd (cv d k) - snd (cv c k)) with ((snd (cv d k) - snd (Dft n false (cv y) k)) + (snd (Dft n false (cv y) k) - snd (cv c k))) by ring. eapply Rle_trans; [apply Rabs_triang|]. lra.
Qed.
End Fl.
