(** C59: the derivative of a Chebyshev series as a matrix, and its size. *)
From Coq Require Import List Arith ZArith Reals Bool Lra Lia.
From Flocq Require Import Core.
From Verif Require Import Base Num Fourier Cheb RndGrad PropRound RndFinite2 GradSpec.
Import ListNotations.
Local Open Scope R_scope.

(** twice the sum without halving *)
Definition gw (k p : nat) : bool := ((k <? p) && Nat.odd (p - k))%nat.
Definition gsum (n : nat) (a : nat -> R) (k : nat) : R := rsum n (fun p => if gw k p then 2 * INR p * a p else 0).
Lemma gw_step k p : gw k p = (p =? k + 1)%nat || gw (k + 2) p.
Proof.
  unfold gw. destruct (Nat.ltb_spec k p), (Nat.eqb_spec p (k + 1)), (Nat.ltb_spec (k + 2) p); cbn [andb orb]; try lia; auto.
  - subst p. replace (k + 1 - k)%nat with 1%nat by lia. reflexivity.
  - replace (p - k)%nat with (p - (k + 2) + 2)%nat by lia. rewrite Nat.odd_add. cbn. destruct (Nat.odd (p - (k + 2))); reflexivity.
  - assert (p = k + 2)%nat as -> by lia. replace (k + 2 - k)%nat with 2%nat by lia. reflexivity.
Qed.
Lemma gw_1 k : gw (k + 2) (k + 1) = false.
Proof. unfold gw. destruct (Nat.ltb_spec (k + 2) (k + 1)); auto; lia. Qed.
Lemma gsum_step n a k : (k + 1 < n)%nat -> gsum n a k = 2 * INR (k + 1) * a (k + 1)%nat + gsum n a (k + 2).
Proof.
  intros H. unfold gsum. replace (2 * INR (k + 1) * a (k + 1)%nat) with (rsum n (fun p => if (p =? k + 1)%nat then 2 * INR (k + 1) * a (k + 1)%nat else 0)).
  2: { rewrite rsum_ind. destruct (Nat.ltb_spec (k + 1) n); auto; lia. }
  rewrite <- rsum_add. apply rsum_ext. intros p Hp. rewrite (gw_step k p). destruct (Nat.eqb_spec p (k + 1)) as [->|]; cbn [orb]; [rewrite gw_1|]; ring.
Qed.
Lemma gsum_end n a k : (n <= k + 1)%nat -> gsum n a k = 0.
Proof. intros H. apply rsum_0. intros p Hp. unfold gw. destruct (Nat.ltb_spec k p); auto; lia. Qed.
Lemma gs_gsum n a t : forall k, (t = (n - k) / 2)%nat -> gs a t k = gsum n a k.
Proof.
  induction t as [|t IH]; intros k Ht; cbn [gs].
  - symmetry. apply gsum_end. pose proof (Nat.div_mod_eq (n - k) 2). pose proof (Nat.mod_upper_bound (n - k) 2 ltac:(lia)). lia.
  - pose proof (Nat.div_mod_eq (n - k) 2). pose proof (Nat.mod_upper_bound (n - k) 2 ltac:(lia)). rewrite gsum_step by lia. f_equal. apply IH.
    replace (n - (k + 2))%nat with (n - k - 1 * 2)%nat by lia. pose proof (Nat.div_add (n - k - 1 * 2) 1 2 ltac:(lia)) as D. replace (n - k - 1 * 2 + 1 * 2)%nat with (n - k)%nat in D by lia. lia.
Qed.
Lemma cheb_d_gsum n a k : cheb_d n a k = (if (k =? 0)%nat then / 2 else 1) * gsum n a k.
Proof.
  unfold cheb_d, gsum. rewrite <- rsum_scal_l. apply rsum_ext. intros p Hp. unfold gw. destruct ((k <? p) && Nat.odd (p - k))%nat, (k =? 0)%nat; field.
Qed.
Lemma Gop_d n a k : (3 <= n)%nat -> Gop n a k = cheb_d n a k.
Proof.
  intros Hn. rewrite cheb_d_gsum. unfold Gop. destruct (Nat.eqb_spec k 0) as [->|].
  - rewrite (gs_gsum n a _ 2 eq_refl). rewrite (gsum_step n a 0) by lia. change (0 + 1)%nat with 1%nat. change (0 + 2)%nat with 2%nat. cbn [INR]. field.
  - rewrite (gs_gsum n a _ k eq_refl). ring.
Qed.

(** weights of one column *)
Definition cw (k p : nat) : R := if gw k p then (if (k =? 0)%nat then 1 else 2) else 0.
Lemma cw_pos k p : 0 <= cw k p <= 2.
Proof. unfold cw. destruct (gw k p), (k =? 0)%nat; lra. Qed.
Lemma col_sum n p : (p < n)%nat -> rsum n (fun k => cw k p) = INR p.
Proof.
  assert (G : forall p, ((p < n)%nat -> rsum n (fun k => cw k p) = INR p) /\ ((S p < n)%nat -> rsum n (fun k => cw k (S p)) = INR (S p))); [|apply G].
  clear p. induction p as [|p [IH1 IH2]].
  - split; intros H.
    + apply rsum_0. intros k Hk. unfold cw, gw. destruct (Nat.ltb_spec k 0); auto; lia.
    + rewrite (rsum_delta n 0) by (try lia; intros k Hk Hne; unfold cw, gw; destruct (Nat.ltb_spec k 1); auto; lia). reflexivity.
  - split; auto. intros H. replace (INR (S (S p))) with (INR p + 2) by (rewrite !S_INR; ring). rewrite <- IH1 by lia.
    replace 2 with (rsum n (fun k => if (k =? p + 1)%nat then 2 else 0)) by (rewrite rsum_ind; destruct (Nat.ltb_spec (p + 1) n); auto; lia).
    rewrite <- rsum_add. apply rsum_ext. intros k Hk. unfold cw, gw. destruct (Nat.eqb_spec k (p + 1)) as [->|].
    + destruct (Nat.ltb_spec (p + 1) (S (S p))), (Nat.ltb_spec (p + 1) p); try lia. replace (S (S p) - (p + 1))%nat with 1%nat by lia. cbn [Nat.odd Nat.even negb andb]. destruct (Nat.eqb_spec (p + 1) 0); [lia|]. ring.
    + destruct (Nat.ltb_spec k (S (S p))), (Nat.ltb_spec k p); cbn [andb]; try lia; try ring.
      * replace (S (S p) - k)%nat with (p - k + 2)%nat by lia. rewrite Nat.odd_add. cbn. destruct (Nat.odd (p - k)); cbn; ring.
      * assert (k = p) as -> by lia. replace (S (S p) - p)%nat with 2%nat by lia. cbn. ring.
Qed.
Lemma cheb_d_cw n a k : cheb_d n a k = rsum n (fun p => cw k p * (INR p * a p)).
Proof. unfold cheb_d, cw, gw. apply rsum_ext. intros p Hp. destruct ((k <? p) && Nat.odd (p - k))%nat, (k =? 0)%nat; ring. Qed.

Lemma cheb_d_l1 n a : (forall p, (p < n)%nat -> 0 <= a p) -> rsum n (cheb_d n a) <= INR n * INR n * rsum n a.
Proof.
  intros Ha. rewrite (rsum_ext n (cheb_d n a) (fun k => rsum n (fun p => cw k p * (INR p * a p)))) by (intros; apply cheb_d_cw). rewrite rsum_swap. rewrite <- rsum_scal_l. apply rsum_le. intros p Hp.
  rewrite (rsum_ext n _ (fun k => (INR p * a p) * cw k p)) by (intros; ring). rewrite rsum_scal_l, col_sum by auto.
  assert (P : 0 <= INR p <= INR n) by (split; [apply pos_INR|apply le_INR; lia]). specialize (Ha p Hp).
  replace (INR p * a p * INR p) with (INR p * INR p * a p) by ring. apply Rmult_le_compat_r; auto. apply Rmult_le_compat; lra.
Qed.
Lemma cheb_d_max n a k : (forall p, (p < n)%nat -> 0 <= a p) -> cheb_d n a k <= 2 * INR n * rsum n a.
Proof.
  intros Ha. rewrite cheb_d_cw, <- rsum_scal_l. apply rsum_le. intros p Hp. specialize (Ha p Hp). pose proof (cw_pos k p).
  assert (P : 0 <= INR p <= INR n) by (split; [apply pos_INR|apply le_INR; lia]). assert (0 <= INR p * a p <= INR n * a p) by (split; [apply Rmult_le_pos; lra|apply Rmult_le_compat_r; lra]).
  rewrite Rmult_assoc. apply Rmult_le_compat; lra.
Qed.
Lemma cheb_d_pos n a k : (forall p, (p < n)%nat -> 0 <= a p) -> 0 <= cheb_d n a k.
Proof. intros Ha. apply rsum_pos. intros p Hp. pose proof (pos_INR p). specialize (Ha p Hp). destruct ((k <? p) && Nat.odd (p - k))%nat, (k =? 0)%nat; try lra; apply Rmult_le_pos; lra. Qed.
Lemma cheb_d_sub n a b k : cheb_d n (fun p => a p - b p) k = cheb_d n a k - cheb_d n b k.
Proof. unfold cheb_d. rewrite <- rsum_sub. apply rsum_ext. intros p Hp. destruct ((k <? p) && Nat.odd (p - k))%nat; ring. Qed.

(** d derivatives of non-negative coefficients *)
Definition gK (n d : nat) : R := 2 * INR n ^ (2 * d - 1).
Lemma gK_ge1 n d : (1 <= n)%nat -> 2 <= gK n d.
Proof. intros H. unfold gK. assert (1 <= INR n ^ (2 * d - 1)). { apply pow_R1_Rle. change 1 with (INR 1). apply le_INR. lia. } lra. Qed.
Lemma Gpow_l1 n d a : (3 <= n)%nat -> (forall p, 0 <= a p) -> rsum n (Gpow n d a) <= (INR n * INR n) ^ d * rsum n a.
Proof.
  intros Hn Ha. induction d as [|d IH]; cbn [Gpow pow]. lra.
  rewrite (rsum_ext n _ (cheb_d n (Gpow n d a))) by (intros; apply Gop_d; auto). eapply Rle_trans; [apply cheb_d_l1|].
  - intros p Hp. apply Gpow_pos; auto.
  - replace (INR n * INR n * (INR n * INR n) ^ d * rsum n a) with (INR n * INR n * ((INR n * INR n) ^ d * rsum n a)) by ring. pose proof (pos_INR n). apply Rmult_le_compat_l; auto. apply Rmult_le_pos; auto.
Qed.
Lemma Gpow_max n d a k : (3 <= n)%nat -> (k < n)%nat -> (forall p, 0 <= a p) -> Gpow n d a k <= gK n d * rsum n a.
Proof.
  intros Hn Hk Ha. assert (S0 : 0 <= rsum n a) by (apply rsum_pos; auto). destruct d as [|d].
  - cbn [Gpow]. unfold gK. change (2 * 0 - 1)%nat with 0%nat. cbn [pow]. pose proof (rsum_pick n a k ltac:(auto) Hk). lra.
  - cbn [Gpow]. rewrite Gop_d by auto. eapply Rle_trans; [apply cheb_d_max; intros p Hp; apply Gpow_pos; auto|].
    pose proof (Gpow_l1 n d a Hn Ha) as L. pose proof (pos_INR n). apply (Rmult_le_compat_l (2 * INR n)) in L; [|lra]. eapply Rle_trans; [exact L|]. apply Req_le. unfold gK.
    replace (2 * S d - 1)%nat with (S (2 * d))%nat by lia. cbn [pow]. rewrite pow_mult. cbn [pow]. rewrite Rmult_1_r. ring.
Qed.
