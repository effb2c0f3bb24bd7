(** Rounding errors of the DirichletNeumann base: the stencil coefficients,
    to_ortho and the backward transform, in any floating-point arithmetic (C54). *)
From Coq Require Import List Arith ZArith Reals Bool Lra Lia.
From Flocq Require Import Raux.
From Verif Require Import Base Num Linalg Stencils StencilProofs Cheb Compo CompoProofs AnyArith ArithSteps Rounding RndTdma RndDirichlet RndFinite RndNeumann RndCompo PropRound.
Import ListNotations.
Local Open Scope R_scope.

(** ** The stencil in any arithmetic *)
Section Gen.
Context {A T : Type} {N : Num A} {V : Vec A T}.
Definition dn_st (n : nat) (h : st3 A) : Prop :=
  st3_lens (n - 2) 1 2 h /\ d3_diag h = repeat n1 (n - 2) /\ d3_lowa h = map dn_low1 (seq 0 (n - 2)) /\ d3_lowb h = map dn_low2 (seq 0 (n - 2)).
Lemma dn_inv n c : compo_new KDirichletNeumann n = Ok c ->
  (4 <= n)%nat /\ exists h, c = mk_compo n (n - 2) (mk_cheb n n) (DirichletNeumann h) /\ dn_st n h.
Proof.
  intros H. destruct (le_lt_dec 4 n) as [Hn|Hn].
  2: { rewrite compo_new_panics in H. discriminate. cbn [smin]. lia. }
  split; auto. revert H. unfold compo_new, stencil_new, get_m, usub, cheb_new. destruct (Nat.leb_spec 2 n); [|lia]. cbn [bind].
  rewrite (fill_eq _ _ dn_low1), (fill_eq _ _ dn_low2) by (intros; reflexivity). cbn [bind]. rewrite !repeat_length.
  pose proof (st3_new_len (repeat n1 (n - 2)) (map dn_low1 (seq 0 (n - 2))) (map dn_low2 (seq 0 (n - 2))) (n - 2) ltac:(lia)) as W.
  rewrite repeat_length, !map_length, !seq_length in W. specialize (W eq_refl eq_refl eq_refl).
  destruct (st3_new _ _ _) as [h| |] eqn:Eh; cbn [bind wp] in *; try discriminate. intros E.
  exists h. split. injection E as <-. reflexivity. split; auto.
  revert Eh. unfold st3_new. destruct (get_fdma_diagonals _ _ _) as [[[f1 f2] f3]| |]; cbn [bind]; intros Eh; try discriminate. injection Eh as <-. auto.
Qed.
Lemma dn_to_ortho n h (v o : list T) : (4 <= n)%nat -> dn_st n h -> length v = (n - 2)%nat -> length o = n ->
  wp (compo_to_ortho (mk_compo n (n - 2) (mk_cheb n n) (DirichletNeumann h)) v o)
    (fun a => length a = n /\ forall k, (k < n)%nat -> a.[k] =
      if k =? 0 then vmul v.[0] n1 else if k =? 1 then vadd (vmul v.[1] n1) (vmul v.[0] (dn_low1 0)) else
      if k <? n - 2 then vadd (vadd (vmul v.[k] n1) (vmul v.[k - 1] (dn_low1 (k - 1)))) (vmul v.[k - 2] (dn_low2 (k - 2))) else
      if k =? n - 2 then vadd (vmul v.[k - 1] (dn_low1 (k - 1))) (vmul v.[k - 2] (dn_low2 (k - 2))) else vmul v.[k - 2] (dn_low2 (k - 2))).
Proof.
  intros Hn (L & E1 & E2 & E3) Lv Lo. unfold compo_to_ortho, stencil_dot. cbn [p_st]. eapply wp_mono. { apply (st3_dot_entries h n); auto. }
  intros a [La Ea]. split; auto. intros k Hk. rewrite Ea by auto. unfold dot3_entry. rewrite E1, E2, E3. clear Ea.
  destruct (Nat.eqb_spec k 0). { rewrite at_repeat by lia. auto. } destruct (Nat.eqb_spec k 1). { rewrite at_repeat, at_map_seq by lia. auto. }
  destruct (Nat.ltb_spec k (n - 2)). { rewrite at_repeat, !at_map_seq by lia. auto. }
  destruct (Nat.eqb_spec k (n - 2)) as [E|E]. { rewrite !at_map_seq by lia. rewrite E. replace (n - 2 - 1)%nat with (n - 3)%nat by lia. replace (n - 2 - 2)%nat with (n - 4)%nat by lia. auto. }
  rewrite at_map_seq by lia. replace (k - 2)%nat with (n - 3)%nat by lia. auto.
Qed.
End Gen.

(** ** The exact coefficients *)
Definition dr (j : nat) : R := (4 * INR j + 4) / ((INR j + 1) * (INR j + 1) + (INR j + 2) * (INR j + 2)).
Definition ds (j : nat) : R := (INR j * INR j + (INR j + 1) * (INR j + 1)) / ((INR j + 1) * (INR j + 1) + (INR j + 2) * (INR j + 2)).
Lemma dden_pos j : 0 < (INR j + 1) * (INR j + 1) + (INR j + 2) * (INR j + 2).
Proof. pose proof (pos_INR j). nra. Qed.
Lemma drs j : dr j + ds j = 1.
Proof. unfold dr, ds. pose proof (dden_pos j). field. lra. Qed.
Lemma dr_range j : 0 <= dr j <= 4 / 5.
Proof.
  pose proof (pos_INR j) as J. pose proof (dden_pos j) as D. unfold dr. split. apply Rmult_le_pos; [lra|]. apply Rlt_le, Rinv_0_lt_compat; auto.
  apply Rmult_le_reg_r with (1 := D). unfold Rdiv. rewrite Rmult_assoc, Rinv_l by lra. nra.
Qed.
Lemma ds_range j : 0 <= ds j <= 1.
Proof.
  pose proof (drs j). pose proof (dr_range j). pose proof (pos_INR j) as J. pose proof (dden_pos j) as D. split; [|lra].
  unfold ds. apply Rmult_le_pos; [nra|]. apply Rlt_le, Rinv_0_lt_compat; auto.
Qed.
(** sum_(k < n-2) c_k (T_k + r_k T_(k+1) - s_k T_(k+2)) = sum_(k < n) [dn_coef n c k] T_k *)
Definition dn_coef (n : nat) (c : nat -> R) (k : nat) : R :=
  (if k <? n - 2 then c k else 0) + (if (0 <? k) && (k <? n - 1) then dr (k - 1) * c (k - 1)%nat else 0) - (if k <? 2 then 0 else ds (k - 2) * c (k - 2)%nat).
Lemma rsum_mid n f : (4 <= n)%nat -> rsum n (fun k => if (0 <? k) && (k <? n - 1) then f (k - 1)%nat else 0) = rsum (n - 2) f.
Proof.
  intros Hn. replace n with (1 + (n - 2 + 1))%nat at 1 by lia. rewrite rsum_split, (rsum_0 1). 2: { intros k Hk. replace k with 0%nat by lia. reflexivity. }
  rewrite rsum_split, (rsum_0 1). 2: { intros k Hk. destruct (Nat.ltb_spec (1 + (n - 2 + k)) (n - 1)); [lia|]. rewrite andb_false_r. auto. }
  rewrite Rplus_0_l, Rplus_0_r. apply rsum_ext. intros k Hk. destruct (Nat.ltb_spec 0 (1 + k)), (Nat.ltb_spec (1 + k) (n - 1)); cbn [andb]; try lia. f_equal. lia.
Qed.
Lemma dn_parts n (c : nat -> R) k : Rabs (dn_coef n c k) <=
  (if k <? n - 2 then Rabs (c k) else 0) + (if (0 <? k) && (k <? n - 1) then dr (k - 1) * Rabs (c (k - 1)%nat) else 0) + (if k <? 2 then 0 else ds (k - 2) * Rabs (c (k - 2)%nat)).
Proof.
  unfold dn_coef, Rminus. eapply Rle_trans; [apply Rabs_triang|]. rewrite Rabs_Ropp. apply Rplus_le_compat. eapply Rle_trans; [apply Rabs_triang|]. apply Rplus_le_compat.
  - destruct (k <? n - 2); rewrite ?Rabs_R0; lra.
  - destruct (_ && _); rewrite ?Rabs_R0; [|lra]. rewrite Rabs_mult, Rabs_pos_eq by apply dr_range. lra.
  - destruct (k <? 2); rewrite ?Rabs_R0; [lra|]. rewrite Rabs_mult, Rabs_pos_eq by apply ds_range. lra.
Qed.
(** a weighted sum over the three diagonals, column by column *)
Lemma dn_columns n (w : nat -> R) a b c : (4 <= n)%nat -> (forall k, 0 <= w k) ->
  rsum n (fun k => a * (if k <? n - 2 then w k else 0) + b * (if (0 <? k) && (k <? n - 1) then dr (k - 1) * w (k - 1)%nat else 0) + c * (if k <? 2 then 0 else ds (k - 2) * w (k - 2)%nat)) =
  rsum (n - 2) (fun k => (a + b * dr k + c * ds k) * w k).
Proof.
  intros Hn Hw. rewrite !rsum_add, !rsum_scal_l. rewrite (rsum_head2 n w), (rsum_mid n (fun k => dr k * w k)), (rsum_tail2 n (fun k => ds k * w k)) by lia.
  rewrite <- !rsum_scal_l, <- !rsum_add. apply rsum_ext. intros; ring.
Qed.
Lemma dn_coef_abs n (c : nat -> R) : (4 <= n)%nat -> rsum n (fun k => Rabs (dn_coef n c k)) <= 2 * rsum (n - 2) (fun k => Rabs (c k)).
Proof.
  intros Hn. eapply Rle_trans. { apply rsum_le. intros k Hk. apply dn_parts. }
  rewrite (rsum_ext n _ (fun k => 1 * (if k <? n - 2 then Rabs (c k) else 0) + 1 * (if (0 <? k) && (k <? n - 1) then dr (k - 1) * Rabs (c (k - 1)%nat) else 0) + 1 * (if k <? 2 then 0 else ds (k - 2) * Rabs (c (k - 2)%nat)))) by (intros; ring).
  rewrite (dn_columns n (fun k => Rabs (c k))) by (auto; intros; apply Rabs_pos). rewrite <- rsum_scal_l. apply rsum_le. intros k Hk. pose proof (drs k). rewrite <- Rplus_assoc || idtac.
  replace (1 + 1 * dr k + 1 * ds k) with 2 by lra. lra.
Qed.

Section Fl.
Context {A : Type} {N : Num A} {u eta : R} {rnd : R -> R} {zmax : Z} {inr : R -> Prop} {fin : A -> Prop} {val : A -> R}
  (FA : float_arith N u eta rnd zmax inr fin val).
Let RN := fa_rnd _ _ _ _ _ _ _ _ FA.
Let FF := fa_float _ _ _ _ _ _ _ _ FA.

(** integers in range are exact *)
Definition isz (x : A) (z : Z) : Prop := fin x /\ val x = IZR z.
Lemma rnd_z z : (Z.abs z <= zmax)%Z -> rnd (IZR z) = IZR z.
Proof. intros H. destruct (fa_int _ _ _ _ _ _ _ _ FA z H) as [F E]. rewrite <- E. auto. Qed.
Lemma isz_int z : (Z.abs z <= zmax)%Z -> isz (nofZ z) z.
Proof. apply (fa_int _ _ _ _ _ _ _ _ FA). Qed.
Lemma isz_add x y a b : isz x a -> isz y b -> (Z.abs (a + b) <= zmax)%Z -> isz (nadd x y) (a + b).
Proof.
  intros [Fx Ex] [Fy Ey] H. assert (E : rnd (val x + val y) = IZR (a + b)) by (rewrite Ex, Ey, <- plus_IZR; apply rnd_z; auto).
  assert (F : fin (nadd x y)). { apply (fa_addF _ _ _ _ _ _ _ _ FA); auto. rewrite E. apply (fa_inrz _ _ _ _ _ _ _ _ FA); auto. }
  split; auto. destruct (fa_add _ _ _ _ _ _ _ _ FA _ _ F) as (_ & _ & ->). auto.
Qed.
Lemma isz_sub x y a b : isz x a -> isz y b -> (Z.abs (a - b) <= zmax)%Z -> isz (nsub x y) (a - b).
Proof.
  intros [Fx Ex] [Fy Ey] H. assert (E : rnd (val x - val y) = IZR (a - b)) by (rewrite Ex, Ey, <- minus_IZR; apply rnd_z; auto).
  assert (F : fin (nsub x y)). { apply (fa_subF _ _ _ _ _ _ _ _ FA); auto. rewrite E. apply (fa_inrz _ _ _ _ _ _ _ _ FA); auto. }
  split; auto. destruct (fa_sub _ _ _ _ _ _ _ _ FA _ _ F) as (_ & _ & ->). auto.
Qed.
Lemma isz_mul x y a b : isz x a -> isz y b -> (Z.abs (a * b) <= zmax)%Z -> isz (nmul x y) (a * b).
Proof.
  intros [Fx Ex] [Fy Ey] H. assert (E : rnd (val x * val y) = IZR (a * b)) by (rewrite Ex, Ey, <- mult_IZR; apply rnd_z; auto).
  assert (F : fin (nmul x y)). { apply (fa_mulF _ _ _ _ _ _ _ _ FA); auto. rewrite E. apply (fa_inrz _ _ _ _ _ _ _ _ FA); auto. }
  split; auto. destruct (fa_mul _ _ _ _ _ _ _ _ FA _ _ F) as (_ & _ & ->). auto.
Qed.
(** a stencil coefficient: close to the exact one and not larger than one *)
Definition lcoef (l : A) (q : R) : Prop := fin l /\ Rabs (val l - q) <= u * Rabs q + eta /\ Rabs (val l) <= 1.
Lemma isz_div x y a b q : isz x a -> isz y b -> IZR b <> 0 -> IZR a / IZR b = q -> Rabs q <= 1 -> lcoef (ndiv x y) q.
Proof.
  intros [Fx Ex] [Fy Ey] NZ Eq B1. assert (B : Rabs (rnd q) <= 1) by (apply (rnd_le1 FA); auto).
  assert (F : fin (ndiv x y)). { apply (fa_divF _ _ _ _ _ _ _ _ FA); auto. rewrite Ey; auto. rewrite Ex, Ey, Eq. apply (inr_small FA). lra. }
  destruct (fa_div _ _ _ _ _ _ _ _ FA _ _ F Fy) as [_ E]. rewrite Ey; auto. rewrite Ex, Ey, Eq in E. split; auto. rewrite E. split; auto. apply (rn_err _ _ _ RN).
Qed.
Lemma dn_ints n j : (2 * (Z.of_nat n * Z.of_nat n) <= zmax)%Z -> (j < n - 2)%nat -> let z := Z.of_nat j in let k : A := nofN j in
  isz (nmul k k) (z * z) /\ isz (nmul (nadd k (nofZ 1)) (nadd k (nofZ 1))) ((z + 1) * (z + 1)) /\ isz (nmul (nadd k (nofZ 2)) (nadd k (nofZ 2))) ((z + 2) * (z + 2)) /\
  isz (nofZ (-1)) (-1) /\ (0 <= z)%Z /\ ((z + 2) * (z + 2) <= Z.of_nat n * Z.of_nat n)%Z.
Proof.
  intros Hz Hj z k. pose proof (fa_zmax _ _ _ _ _ _ _ _ FA) as ZM. assert (Z0 : (0 <= z)%Z) by (unfold z; lia). assert (Zn : (z + 2 <= Z.of_nat n)%Z) by (unfold z; lia).
  assert (SQ : ((z + 2) * (z + 2) <= Z.of_nat n * Z.of_nat n)%Z) by (clear - Z0 Zn; nia).
  assert (zm : ((z + 2) * (z + 2) <= zmax)%Z) by (clear - SQ Hz Z0; nia). assert (zl : (z + 2 <= zmax)%Z) by (clear - zm Z0; nia).
  assert (K : isz k z). { apply isz_int. lia. } assert (K1 : isz (nadd k (nofZ 1)) (z + 1)). { apply isz_add; auto. apply isz_int. lia. lia. }
  assert (K2 : isz (nadd k (nofZ 2)) (z + 2)). { apply isz_add; auto. apply isz_int. lia. lia. }
  split; [apply isz_mul; auto; clear - zm Z0; nia|]. split; [apply isz_mul; auto; clear - zm Z0; nia|]. split; [apply isz_mul; auto; clear - zm Z0; nia|]. split; [apply isz_int; lia|]. auto.
Qed.
Lemma dn_den j : IZR ((Z.of_nat j + 1) * (Z.of_nat j + 1) + (Z.of_nat j + 2) * (Z.of_nat j + 2)) = (INR j + 1) * (INR j + 1) + (INR j + 2) * (INR j + 2).
Proof. rewrite plus_IZR, !mult_IZR, !plus_IZR, <- INR_IZR_INZ. ring. Qed.
Lemma dn_low1_ok n j : (2 * (Z.of_nat n * Z.of_nat n) <= zmax)%Z -> (j < n - 2)%nat -> lcoef (dn_low1 j) (dr j).
Proof.
  intros Hz Hj. destruct (dn_ints n j Hz Hj) as (I0 & I1 & I2 & Im & Z0 & SQ). set (z := Z.of_nat j) in *. unfold dn_low1. cbv zeta.
  pose proof (dden_pos j) as D. pose proof (dn_den j) as DD. fold z in DD.
  apply isz_div with (a := (-1 * (z * z) + (z + 2) * (z + 2))%Z) (b := ((z + 1) * (z + 1) + (z + 2) * (z + 2))%Z).
  - apply isz_add; auto. apply isz_mul; auto. clear - SQ Hz Z0; nia. clear - SQ Hz Z0; nia.
  - apply isz_add; auto. clear - SQ Hz Z0; nia.
  - rewrite DD. lra.
  - rewrite DD. unfold dr. f_equal. rewrite plus_IZR, !mult_IZR, !plus_IZR. unfold z. rewrite <- INR_IZR_INZ. ring.
  - pose proof (dr_range j). rewrite Rabs_pos_eq; lra.
Qed.
Lemma dn_low2_ok n j : (2 * (Z.of_nat n * Z.of_nat n) <= zmax)%Z -> (j < n - 2)%nat -> lcoef (dn_low2 j) (- ds j).
Proof.
  intros Hz Hj. destruct (dn_ints n j Hz Hj) as (I0 & I1 & I2 & Im & Z0 & SQ). set (z := Z.of_nat j) in *. unfold dn_low2. cbv zeta.
  pose proof (dden_pos j) as D. pose proof (dn_den j) as DD. fold z in DD.
  apply isz_div with (a := (-1 * (z * z) - (z + 1) * (z + 1))%Z) (b := ((z + 1) * (z + 1) + (z + 2) * (z + 2))%Z).
  - apply isz_sub; auto. apply isz_mul; auto. clear - SQ Hz Z0; nia. clear - SQ Hz Z0; nia.
  - apply isz_add; auto. clear - SQ Hz Z0; nia.
  - rewrite DD. lra.
  - rewrite DD. unfold ds. rewrite minus_IZR, !mult_IZR, !plus_IZR. unfold z. rewrite <- INR_IZR_INZ. field. lra.
  - pose proof (ds_range j). rewrite Rabs_Ropp, Rabs_pos_eq; lra.
Qed.
(** one product with a coefficient *)
Lemma coef_mul x l q : lcoef l q -> Rabs q <= 1 -> fin (nmul x l) -> fin x /\
  Rabs (val (nmul x l) - q * val x) <= 2.02 * u * (Rabs q * Rabs (val x)) + 1.1 * eta * (1 + Rabs (val x)).
Proof.
  intros (Fl & H1 & _) Q F. destruct (fa_mul _ _ _ _ _ _ _ _ FA _ _ F) as (Fx & _ & ->). split; auto. set (v := val l) in *. set (c := val x).
  pose proof (rn_u _ _ _ RN) as [U U1]. pose proof (rn_eta _ _ _ RN) as H0. pose proof (Rabs_pos c) as C0. pose proof (Rabs_pos q) as Q0.
  pose proof (rn_err _ _ _ RN (c * v)) as H2.
  assert (L : Rabs v <= Rabs q + u * Rabs q + eta). { replace v with ((v - q) + q) by ring. eapply Rle_trans; [apply Rabs_triang|]. lra. }
  replace (rnd (c * v) - q * c) with ((rnd (c * v) - c * v) + c * (v - q)) by ring. eapply Rle_trans; [apply Rabs_triang|].
  rewrite Rabs_mult in H2. rewrite (Rabs_mult c). set (aq := Rabs q) in *. set (ac := Rabs c) in *.
  assert (G1 : ac * Rabs (v - q) <= ac * (u * aq + eta)) by (apply Rmult_le_compat_l; auto).
  assert (G2 : u * (ac * Rabs v) <= u * (ac * (aq + u * aq + eta))) by (apply Rmult_le_compat_l; auto; apply Rmult_le_compat_l; auto).
  pose proof (Rmult_le_pos _ _ C0 Q0) as CQ. pose proof (Rmult_le_pos _ _ C0 H0) as CE. pose proof (Rmult_le_pos _ _ U CQ) as UCQ. pose proof (Rmult_le_pos _ _ U CE) as UCE.
  assert (G3 : u * (u * (ac * aq)) <= / 64 * (u * (ac * aq))) by (apply Rmult_le_compat_r; auto).
  assert (G4 : u * (ac * eta) <= / 64 * (ac * eta)) by (apply Rmult_le_compat_r; auto).
  lra.
Qed.
Lemma coef_sum x y a b ea eb (Fxy : fin (nadd x y)) : Rabs (val x - a) <= ea -> Rabs (val y - b) <= eb ->
  Rabs (val (nadd x y) - (a + b)) <= u * (Rabs a + Rabs b) + 1.016 * (ea + eb).
Proof.
  intros Ha Hb. destruct (fa_add _ _ _ _ _ _ _ _ FA _ _ Fxy) as (Fx & Fy & ->). pose proof (rn_u _ _ _ RN) as [U U1].
  pose proof (rn_sum _ _ _ RN (val x) (val y) (FF x Fx) (FF y Fy)) as S. 
  assert (SB : Rabs (val x + val y) <= Rabs a + Rabs b + (ea + eb)).
  { replace (val x + val y) with ((a + b) + ((val x - a) + (val y - b))) by ring. eapply Rle_trans; [apply Rabs_triang|]. pose proof (Rabs_triang a b). pose proof (Rabs_triang (val x - a) (val y - b)). lra. }
  replace (rnd (val x + val y) - (a + b)) with ((rnd (val x + val y) - (val x + val y)) + ((val x - a) + (val y - b))) by ring. eapply Rle_trans; [apply Rabs_triang|].
  pose proof (Rabs_triang (val x - a) (val y - b)). apply (Rmult_le_compat_l u) in SB; auto.
  assert (0 <= ea + eb) by (pose proof (Rabs_pos (val x - a)); pose proof (Rabs_pos (val y - b)); lra). assert (u * (ea + eb) <= / 64 * (ea + eb)) by (apply Rmult_le_compat_r; auto). lra.
Qed.

Context {T : Type} {V : Vec A T} {VC : VecC N T V}.
Notation Xv := (X (val := val)).
Lemma dn_to_ortho_err n h (v o a : list T) p : (4 <= n)%nat -> (2 * (Z.of_nat n * Z.of_nat n) <= zmax)%Z -> dn_st n h -> length v = (n - 2)%nat -> length o = n ->
  compo_to_ortho (mk_compo n (n - 2) (mk_cheb n n) (DirichletNeumann h)) v o = Ok a ->
  forall k, (k < n)%nat -> fin (cp p a.[k]) ->
    Rabs (Xv p a k - dn_coef n (Xv p v) k) <=
      2.02 * u * (if k <? n - 2 then Rabs (Xv p v k) else 0) + 4.12 * u * (if (0 <? k) && (k <? n - 1) then dr (k - 1) * Rabs (Xv p v (k - 1)) else 0) +
      3.08 * u * (if k <? 2 then 0 else ds (k - 2) * Rabs (Xv p v (k - 2))) +
      1.2 * eta * ((if (0 <? k) && (k <? n - 1) then 1 + Rabs (Xv p v (k - 1)) else 0) + (if k <? 2 then 0 else 1 + Rabs (Xv p v (k - 2)))) /\
    ((k < n - 2)%nat -> fin (cp p v.[k])) /\ ((0 < k < n - 1)%nat -> fin (cp p v.[k - 1])) /\ ((2 <= k)%nat -> fin (cp p v.[k - 2])).
Proof.
  intros Hn Hz HS Lv Lo E k Hk F. pose proof (dn_to_ortho n h v o Hn HS Lv Lo) as W. rewrite E in W. cbn [wp] in W. destruct W as [_ W].
  specialize (W k Hk). unfold dn_coef. unfold X at 1. rewrite W in F |- *. pose proof (rn_u _ _ _ RN) as [U U1]. pose proof (rn_eta _ _ _ RN) as H0.
  assert (P1 : forall j x, (j < n - 2)%nat -> fin (nmul x (dn_low1 j)) -> fin x /\ Rabs (val (nmul x (dn_low1 j)) - dr j * val x) <= 2.02 * u * (dr j * Rabs (val x)) + 1.1 * eta * (1 + Rabs (val x))).
  { intros j x Hj Fj. pose proof (dr_range j) as B. pose proof (coef_mul x _ _ (dn_low1_ok n j Hz Hj)) as G. rewrite Rabs_pos_eq in G by lra. apply G; auto; lra. }
  assert (P2 : forall j x, (j < n - 2)%nat -> fin (nmul x (dn_low2 j)) -> fin x /\ Rabs (val (nmul x (dn_low2 j)) - - (ds j * val x)) <= 2.02 * u * (ds j * Rabs (val x)) + 1.1 * eta * (1 + Rabs (val x))).
  { intros j x Hj Fj. pose proof (ds_range j) as B. pose proof (coef_mul x _ _ (dn_low2_ok n j Hz Hj)) as G. rewrite Rabs_Ropp, Rabs_pos_eq in G by lra. rewrite Ropp_mult_distr_l. apply G; auto; lra. }
  assert (Q1 : forall j x, Rabs (dr j * x) = dr j * Rabs x). { intros. rewrite Rabs_mult, Rabs_pos_eq by apply dr_range. auto. }
  assert (Q2 : forall j x, Rabs (- (ds j * x)) = ds j * Rabs x). { intros. rewrite Rabs_Ropp, Rabs_mult, Rabs_pos_eq by apply ds_range. auto. }
  assert (R1 : forall j x, 0 <= u * (dr j * Rabs x)). { intros. apply Rmult_le_pos; auto. apply Rmult_le_pos. apply dr_range. apply Rabs_pos. }
  assert (R2 : forall j x, 0 <= u * (ds j * Rabs x)). { intros. apply Rmult_le_pos; auto. apply Rmult_le_pos. apply ds_range. apply Rabs_pos. }
  assert (R3 : forall x, 0 <= eta * (1 + Rabs x)). { intros. apply Rmult_le_pos; auto. pose proof (Rabs_pos x); lra. }
  assert (R4 : forall x, 0 <= u * Rabs x). { intros. apply Rmult_le_pos; auto. apply Rabs_pos. }
  assert (AB : forall y, 0 <= y -> u * y <= / 64 * y). { intros. apply Rmult_le_compat_r; auto. }
  assert (ONE : forall x, fin (nmul x n1) -> fin x /\ Rabs (val (nmul x n1) - val x) <= 0). { intros x Fx. destruct (mul_1 FA _ Fx) as [Fx' ->]. rewrite Rminus_eq_0, Rabs_R0. split; auto. lra. }
  destruct (Nat.eqb_spec k 0) as [->|K0]; [|destruct (Nat.eqb_spec k 1) as [->|K1]; [|destruct (Nat.ltb_spec k (n - 2)) as [K2|K2]; [|destruct (Nat.eqb_spec k (n - 2)) as [K3|K3]]]].
  - destruct (Nat.ltb_spec 0 (n - 2)); [|lia]. cbn [Nat.ltb Nat.leb andb]. rewrite cp_mul in F |- *. destruct (mul_1 FA _ F) as [F1 ->]. split; [|repeat split; auto; lia].
    fold (Xv p v 0). rewrite !Rplus_0_r, Rminus_0_r, Rminus_eq_0, Rabs_R0. pose proof (R4 (Xv p v 0)). lra.
  - destruct (Nat.ltb_spec 1 (n - 2)); [|lia]. destruct (Nat.ltb_spec 1 (n - 1)); [|lia]. cbn [Nat.ltb Nat.leb andb Nat.sub]. rewrite cp_add, !cp_mul in F |- *.
    destruct (fa_add _ _ _ _ _ _ _ _ FA _ _ F) as (Fa & Fb & _). destruct (ONE _ Fa) as [F1 H1'']. destruct (P1 0%nat _ ltac:(lia) Fb) as [F2 H2'']. split; [|repeat split; auto; lia].
    pose proof (coef_sum _ _ _ _ _ _ F H1'' H2'') as G. rewrite Q1 in G. fold (Xv p v 1) in *. fold (Xv p v 0) in *. rewrite Rminus_0_r. eapply Rle_trans; [exact G|].
    pose proof (R4 (Xv p v 1)). pose proof (R1 0%nat (Xv p v 0)). pose proof (R3 (Xv p v 0)). lra.
  - destruct (Nat.ltb_spec 0 k); [|lia]. destruct (Nat.ltb_spec k (n - 1)); [|lia]. destruct (Nat.ltb_spec k 2); [lia|]. cbn [andb]. rewrite !cp_add, !cp_mul in F |- *.
    destruct (fa_add _ _ _ _ _ _ _ _ FA _ _ F) as (Fab & Fc & _). destruct (fa_add _ _ _ _ _ _ _ _ FA _ _ Fab) as (Fa & Fb & _).
    destruct (ONE _ Fa) as [F1 H1']. destruct (P1 (k - 1)%nat _ ltac:(lia) Fb) as [F2 H2']. destruct (P2 (k - 2)%nat _ ltac:(lia) Fc) as [F3 H3]. split; [|repeat split; auto; lia].
    pose proof (coef_sum _ _ _ _ _ _ Fab H1' H2') as G. rewrite Q1 in G. pose proof (coef_sum _ _ _ _ _ _ F G H3) as G'. rewrite Q2 in G'.
    fold (Xv p v k) in *. fold (Xv p v (k - 1)) in *. fold (Xv p v (k - 2)) in *. unfold Rminus at 2. eapply Rle_trans; [exact G'|].
    pose proof (R4 (Xv p v k)). pose proof (R1 (k - 1)%nat (Xv p v (k - 1))). pose proof (R2 (k - 2)%nat (Xv p v (k - 2))). pose proof (R3 (Xv p v (k - 1))). pose proof (R3 (Xv p v (k - 2))).
    assert (TR : Rabs (Xv p v k + dr (k - 1) * Xv p v (k - 1)) <= Rabs (Xv p v k) + dr (k - 1) * Rabs (Xv p v (k - 1))). { eapply Rle_trans; [apply Rabs_triang|]. rewrite Q1. lra. }
    apply (Rmult_le_compat_l u) in TR; auto. lra.
  - destruct (Nat.ltb_spec 0 k); [|lia]. destruct (Nat.ltb_spec k (n - 1)); [|lia]. destruct (Nat.ltb_spec k 2); [lia|]. cbn [andb]. rewrite !cp_add, !cp_mul in F |- *.
    destruct (fa_add _ _ _ _ _ _ _ _ FA _ _ F) as (Fb & Fc & _).
    destruct (P1 (k - 1)%nat _ ltac:(lia) Fb) as [F2 H2']. destruct (P2 (k - 2)%nat _ ltac:(lia) Fc) as [F3 H3]. split; [|repeat split; auto; lia].
    pose proof (coef_sum _ _ _ _ _ _ F H2' H3) as G. rewrite Q1, Q2 in G. fold (Xv p v (k - 1)) in *. fold (Xv p v (k - 2)) in *. rewrite Rplus_0_l. unfold Rminus at 2. eapply Rle_trans; [exact G|].
    pose proof (R1 (k - 1)%nat (Xv p v (k - 1))). pose proof (R2 (k - 2)%nat (Xv p v (k - 2))). pose proof (R3 (Xv p v (k - 1))). pose proof (R3 (Xv p v (k - 2))). lra.
  - destruct (Nat.ltb_spec k (n - 1)); [lia|]. destruct (Nat.ltb_spec k 2); [lia|]. rewrite andb_false_r. rewrite cp_mul in F |- *.
    destruct (P2 (k - 2)%nat _ ltac:(lia) F) as [F3 H3]. split; [|repeat split; auto; lia]. fold (Xv p v (k - 2)) in *. unfold Rminus at 2. rewrite !Rplus_0_l, !Rmult_0_r, !Rplus_0_l. eapply Rle_trans; [exact H3|].
    pose proof (R2 (k - 2)%nat (Xv p v (k - 2))). pose proof (R3 (Xv p v (k - 2))). lra.
Qed.
(** ... summed over the result *)
Lemma dn_sum_err n h (v o a : list T) p : (4 <= n)%nat -> (2 * (Z.of_nat n * Z.of_nat n) <= zmax)%Z -> 100 * eta <= u -> dn_st n h -> length v = (n - 2)%nat -> length o = n ->
  compo_to_ortho (mk_compo n (n - 2) (mk_cheb n n) (DirichletNeumann h)) v o = Ok a -> (forall k, (k < n)%nat -> fin (cp p a.[k])) ->
  (forall k, (k < n - 2)%nat -> fin (cp p v.[k])) /\
  rsum n (fun k => Rabs (Xv p a k - dn_coef n (Xv p v) k)) <= 6 * u * rsum (n - 2) (fun k => Rabs (Xv p v k)) + 3 * INR n * eta.
Proof.
  intros Hn Hz He HS Lv Lo E F. pose proof (fun k Hk => dn_to_ortho_err n h v o a p Hn Hz HS Lv Lo E k Hk (F k Hk)) as H. split. { intros k Hk. apply (H k); lia. }
  pose proof (rn_u _ _ _ RN) as [U U1]. pose proof (rn_eta _ _ _ RN) as H0. set (w := fun k => Rabs (Xv p v k)). assert (W0 : forall k, 0 <= w k) by (intros; apply Rabs_pos). set (S := rsum (n - 2) w). assert (S0 : 0 <= S) by (apply rsum_pos; auto).
  apply Rle_trans with (rsum n (fun k => (2.02 * u) * (if k <? n - 2 then w k else 0) + (4.12 * u) * (if (0 <? k) && (k <? n - 1) then dr (k - 1) * w (k - 1)%nat else 0) + (3.08 * u) * (if k <? 2 then 0 else ds (k - 2) * w (k - 2)%nat)) +
     1.2 * eta * (rsum n (fun k => if (0 <? k) && (k <? n - 1) then 1 + w (k - 1)%nat else 0) + rsum n (fun k => if k <? 2 then 0 else 1 + w (k - 2)%nat))).
  { rewrite <- rsum_add, <- rsum_scal_l, <- rsum_add. apply rsum_le. intros k Hk. eapply Rle_trans; [apply (H k Hk)|]. apply Req_le. reflexivity. }
  rewrite (dn_columns n w) by auto. rewrite (rsum_mid n (fun k => 1 + w k)), (rsum_tail2 n (fun k => 1 + w k)) by lia. rewrite rsum_add, rsum_const. change (rsum (n - 2) (fun k => w k)) with S.
  assert (C : rsum (n - 2) (fun k => (2.02 * u + 4.12 * u * dr k + 3.08 * u * ds k) * w k) <= 5.94 * u * S).
  { unfold S. rewrite <- rsum_scal_l. apply rsum_le. intros k Hk. apply Rmult_le_compat_r; auto. pose proof (drs k). pose proof (dr_range k) as D.
    replace (ds k) with (1 - dr k) by lra. assert (u * dr k <= u * (4 / 5)) by (apply Rmult_le_compat_l; lra). lra. }
  assert (M : INR (n - 2) <= INR n) by (apply le_INR; lia). pose proof (Rmult_le_compat_r eta _ _ H0 M). apply (Rmult_le_compat_r S) in He; auto. pose proof (pos_INR n). assert (0 <= INR n * eta) by (apply Rmult_le_pos; auto). assert (0 <= u * S) by (apply Rmult_le_pos; auto). fold S. lra.
Qed.
Lemma dn_to_ortho_fin n h (v o : list T) Cm : (4 <= n)%nat -> (2 * (Z.of_nat n * Z.of_nat n) <= zmax)%Z -> dn_st n h -> length v = (n - 2)%nat -> length o = n ->
  (forall p k, (k < n - 2)%nat -> fin (cp p v.[k]) /\ Rabs (Xv p v k) <= Cm) -> inr (4 * Cm) ->
  exists a, compo_to_ortho (mk_compo n (n - 2) (mk_cheb n n) (DirichletNeumann h)) v o = Ok a /\ length a = n /\
    forall p k, (k < n)%nat -> fin (cp p a.[k]) /\ Rabs (Xv p a k) <= 4 * Cm.
Proof.
  intros Hn Hz HS Lv Lo HC HI. pose proof (dn_to_ortho n h v o Hn HS Lv Lo) as W.
  destruct (compo_to_ortho _ v o) as [a| |] eqn:E; cbn [wp] in W; try contradiction. exists a. split; auto. destruct W as [La Ea]. split; auto.
  pose proof (rn_u _ _ _ RN) as [U U1]. intros p k Hk. unfold X. rewrite Ea by auto.
  assert (C0 : 0 <= Cm). { destruct (HC p 0%nat ltac:(lia)) as [_ H]. pose proof (Rabs_pos (Xv p v 0)). lra. }
  assert (IC : forall x, Rabs x <= 4 * Cm -> inr x). { intros x Hx. eapply (inr_le FA); [|exact Hx|auto]. lra. }
  assert (UC : u * Cm <= / 64 * Cm) by (apply Rmult_le_compat_r; auto). pose proof (Rmult_le_pos u Cm U C0) as UC0. assert (UU : u * (u * Cm) <= / 64 * (u * Cm)) by (apply Rmult_le_compat_r; auto).
  pose proof (Rmult_le_pos u _ U UC0) as UU0.
  assert (P0 : forall j, (j < n - 2)%nat -> fin (nmul (cp p v.[j]) n1) /\ Rabs (val (nmul (cp p v.[j]) n1)) <= Cm).
  { intros j Hj. destruct (HC p j Hj) as [F B]. unfold X in B. destruct (mul_1_fin FA _ F) as [F1 B1]. apply IC; lra. split; auto. lra. }
  assert (P1 : forall j, (j < n - 2)%nat -> fin (nmul (cp p v.[j]) (dn_low1 j)) /\ Rabs (val (nmul (cp p v.[j]) (dn_low1 j))) <= Cm).
  { intros j Hj. destruct (HC p j Hj) as [F B]. unfold X in B. destruct (dn_low1_ok n j Hz Hj) as (Fl & _ & Bl). destruct (mul_fin FA _ _ F Fl Bl) as [F1 B1]. apply IC; lra. split; auto. lra. }
  assert (P2 : forall j, (j < n - 2)%nat -> fin (nmul (cp p v.[j]) (dn_low2 j)) /\ Rabs (val (nmul (cp p v.[j]) (dn_low2 j))) <= Cm).
  { intros j Hj. destruct (HC p j Hj) as [F B]. unfold X in B. destruct (dn_low2_ok n j Hz Hj) as (Fl & _ & Bl). destruct (mul_fin FA _ _ F Fl Bl) as [F1 B1]. apply IC; lra. split; auto. lra. }
  assert (S2 : forall x y, fin x -> fin y -> Rabs (val x) <= Cm -> Rabs (val y) <= Cm -> fin (nadd x y) /\ Rabs (val (nadd x y)) <= (1 + u) * (2 * Cm)).
  { intros x y Fx Fy Bx By. apply (add_fin FA); auto. lra. apply IC. rewrite Rabs_pos_eq; lra. }
  destruct (Nat.eqb_spec k 0) as [->|K0]; [|destruct (Nat.eqb_spec k 1) as [->|K1]; [|destruct (Nat.ltb_spec k (n - 2)) as [K2|K2]; [|destruct (Nat.eqb_spec k (n - 2)) as [K3|K3]]]]; rewrite ?cp_add, ?cp_mul.
  - destruct (P0 0%nat ltac:(lia)). split; auto. lra.
  - destruct (P0 1%nat ltac:(lia)) as [A1 B1]. destruct (P1 0%nat ltac:(lia)) as [A2 B2]. destruct (S2 _ _ A1 A2 B1 B2). split; auto. lra.
  - destruct (P0 k ltac:(lia)) as [A1 B1]. destruct (P1 (k - 1)%nat ltac:(lia)) as [A2 B2]. destruct (P2 (k - 2)%nat ltac:(lia)) as [A3 B3]. destruct (S2 _ _ A1 A2 B1 B2) as [A4 B4].
    destruct (add_fin FA _ _ ((1 + u) * (2 * Cm) + Cm) A4 A3) as [A5 B5]. lra. apply IC. rewrite Rabs_pos_eq; lra. split; auto. lra.
  - destruct (P1 (k - 1)%nat ltac:(lia)) as [A2 B2]. destruct (P2 (k - 2)%nat ltac:(lia)) as [A3 B3]. destruct (S2 _ _ A2 A3 B2 B3). split; auto. lra.
  - destruct (P2 (k - 2)%nat ltac:(lia)). split; auto. lra.
Qed.
End Fl.
