(** Chebyshev polynomials: the specification side of the Chebyshev bases. *)
From Coq Require Import List Arith Lia Bool ZArith Reals Lra.
From Verif Require Import Base Num.
Import ListNotations.
Local Open Scope R_scope.

(** ** Specification *)
(** T_k by the three-term recurrence. *)
Fixpoint TT (k : nat) (x : R) : R :=
  match k with
  | O => 1
  | S k1 => match k1 with O => x | S k2 => 2 * x * TT k1 x - TT k2 x end
  end.

(** Value at x of the series with coefficients a (coordinate p of it). *)
Definition pevalf (n : nat) (a : nat -> R) (x : R) : R := rsum n (fun k => a k * TT k x).
Definition peval {T} {V : Vec R T} {L : VecR T} (a : list T) (p : vI) (x : R) : R :=
  rsum (length a) (fun k => vproj p a.[k] * TT k x).

(** g is the d-th derivative of f, everywhere. *)
Fixpoint nth_deriv (d : nat) (f g : R -> R) : Prop :=
  match d with
  | O => forall x, f x = g x
  | S d' => exists h, (forall x, derivable_pt_lim f x (h x)) /\ nth_deriv d' h g
  end.

(** ** Facts *)
Lemma TT_SS k x : TT (S (S k)) x = 2 * x * TT (S k) x - TT k x.
Proof. reflexivity. Qed.

(** V_k = U_{k-1}: T_k' = k V_k *)
Fixpoint VV (k : nat) (x : R) : R :=
  match k with
  | O => 0
  | S k1 => match k1 with O => 1 | S k2 => 2 * x * VV k1 x - VV k2 x end
  end.
Lemma VV_SS k x : VV (S (S k)) x = 2 * x * VV (S k) x - VV k x.
Proof. reflexivity. Qed.

Fixpoint WW (k : nat) (x : R) : R :=
  match k with
  | O => 0
  | S k1 => match k1 with O => 0 | S k2 => 2 * VV k1 x + 2 * x * WW k1 x - WW k2 x end
  end.
Lemma WW_SS k x : WW (S (S k)) x = 2 * VV (S k) x + 2 * x * WW (S k) x - WW k x.
Proof. reflexivity. Qed.

Opaque TT VV WW.

Lemma TT_0 x : TT 0 x = 1. Proof. reflexivity. Qed.
Lemma TT_1 x : TT 1 x = x. Proof. reflexivity. Qed.
Lemma VV_0 x : VV 0 x = 0. Proof. reflexivity. Qed.
Lemma VV_1 x : VV 1 x = 1. Proof. reflexivity. Qed.
Lemma WW_0 x : WW 0 x = 0. Proof. reflexivity. Qed.
Lemma WW_1 x : WW 1 x = 0. Proof. reflexivity. Qed.

(** two-step induction *)
Lemma ind2 (P : nat -> Prop) : P 0%nat -> P 1%nat -> (forall k, P k -> P (S k) -> P (S (S k))) -> forall k, P k.
Proof. intros H0 H1 HS k. enough (P k /\ P (S k)) by tauto. induction k; split; auto; try tauto. apply HS; tauto. Qed.

Lemma TT_cos k t : TT k (cos t) = cos (INR k * t).
Proof.
  pattern k. apply ind2; clear k.
  - rewrite TT_0. simpl. rewrite Rmult_0_l, cos_0. auto.
  - rewrite TT_1. simpl. rewrite Rmult_1_l. auto.
  - intros k H0 H1. rewrite TT_SS, H0, H1.
    replace (INR (S (S k)) * t) with (INR (S k) * t + t) by (rewrite (S_INR (S k)); ring).
    replace (INR k * t) with (INR (S k) * t - t) by (rewrite (S_INR k); ring).
    rewrite cos_plus, cos_minus. ring.
Qed.

(** T_{k+1} = x V_{k+1} - V_k *)
Lemma TT_VV k x : TT (S k) x = x * VV (S k) x - VV k x.
Proof.
  pattern k. apply ind2; clear k.
  - rewrite TT_1, VV_1, VV_0. ring.
  - rewrite TT_SS, VV_SS, TT_1, TT_0, VV_1, VV_0. ring.
  - intros k H0 H1. rewrite TT_SS, H0, H1, (VV_SS (S k)), (VV_SS k). ring.
Qed.

(** 2 T_{k+1} = V_{k+2} - V_k *)
Lemma TT_VV2 k x : 2 * TT (S k) x = VV (S (S k)) x - VV k x.
Proof. rewrite TT_VV, VV_SS. ring. Qed.

Lemma dlim_ext (f g : R -> R) x l l' : (forall y, f y = g y) -> l = l' -> derivable_pt_lim f x l -> derivable_pt_lim g x l'.
Proof.
  intros E <- H eps He. destruct (H eps He) as [dl Hd]. exists dl. intros h Hh0 Hh.
  rewrite <- !E. apply Hd; auto.
Qed.

Lemma TT_deriv k x : derivable_pt_lim (TT k) x (INR k * VV k x).
Proof.
  pattern k. apply ind2; clear k.
  - eapply dlim_ext; [| |apply (derivable_pt_lim_const 1)]. intros; rewrite TT_0; auto. simpl; ring.
  - eapply dlim_ext; [| |apply derivable_pt_lim_id]. intros; rewrite TT_1; auto. rewrite VV_1. simpl; ring.
  - intros k H0 H1.
    assert (H2 : derivable_pt_lim (fun x => 2 * x) x 2).
    { eapply dlim_ext; [| |apply (derivable_pt_lim_scal id 2 x 1), derivable_pt_lim_id].
      reflexivity. ring. }
    pose proof (derivable_pt_lim_mult _ _ _ _ _ H2 H1) as H3.
    pose proof (derivable_pt_lim_minus _ _ _ _ _ H3 H0) as H4.
    eapply dlim_ext; [| |exact H4].
    + intros y. rewrite TT_SS. reflexivity.
    + rewrite VV_SS, TT_VV, !S_INR. ring.
Qed.

Lemma VV_deriv k x : derivable_pt_lim (VV k) x (WW k x).
Proof.
  pattern k. apply ind2; clear k.
  - eapply dlim_ext; [| |apply (derivable_pt_lim_const 0)]. intros; rewrite VV_0; auto. rewrite WW_0; ring.
  - eapply dlim_ext; [| |apply (derivable_pt_lim_const 1)]. intros; rewrite VV_1; auto. rewrite WW_1; ring.
  - intros k H0 H1.
    assert (H2 : derivable_pt_lim (fun x => 2 * x) x 2).
    { eapply dlim_ext; [| |apply (derivable_pt_lim_scal id 2 x 1), derivable_pt_lim_id].
      reflexivity. ring. }
    pose proof (derivable_pt_lim_mult _ _ _ _ _ H2 H1) as H3.
    pose proof (derivable_pt_lim_minus _ _ _ _ _ H3 H0) as H4.
    eapply dlim_ext; [| |exact H4].
    + intros y. rewrite VV_SS. reflexivity.
    + rewrite WW_SS. ring.
Qed.

(** values at the end points *)
Lemma TT_p1 k : TT k 1 = 1.
Proof. pattern k. apply ind2; clear k. apply TT_0. apply TT_1. intros k H0 H1. rewrite TT_SS, H0, H1. ring. Qed.
Lemma TT_m1 k : TT k (-1) = (-1) ^ k.
Proof.
  pattern k. apply ind2; clear k. apply TT_0. rewrite TT_1; simpl; ring.
  intros k H0 H1. rewrite TT_SS, H0, H1. simpl. ring.
Qed.
Lemma VV_p1 k : VV k 1 = INR k.
Proof.
  pattern k. apply ind2; clear k. apply VV_0. apply VV_1.
  intros k H0 H1. rewrite VV_SS, H0, H1, !S_INR. ring.
Qed.
Lemma VV_m1 k : VV k (-1) = - (-1) ^ k * INR k.
Proof.
  pattern k. apply ind2; clear k. rewrite VV_0; simpl; ring. rewrite VV_1; simpl; ring.
  intros k H0 H1. rewrite VV_SS, H0, H1, !S_INR. simpl. ring.
Qed.
Lemma WW_p1 k : 3 * WW k 1 = INR k * (INR k * INR k - 1).
Proof.
  pattern k. apply ind2; clear k. rewrite WW_0; simpl; ring. rewrite WW_1; simpl; ring.
  intros k H0 H1. rewrite WW_SS, VV_p1.
  replace (3 * (2 * INR (S k) + 2 * 1 * WW (S k) 1 - WW k 1)) with
    (6 * INR (S k) + 2 * (3 * WW (S k) 1) - 3 * WW k 1) by ring.
  rewrite H0, H1, !S_INR. ring.
Qed.
Lemma WW_m1 k : 3 * WW k (-1) = (-1) ^ k * INR k * (INR k * INR k - 1).
Proof.
  pattern k. apply ind2; clear k. rewrite WW_0; simpl; ring. rewrite WW_1; simpl; ring.
  intros k H0 H1. rewrite WW_SS, VV_m1.
  replace (3 * (2 * (- (-1) ^ S k * INR (S k)) + 2 * (-1) * WW (S k) (-1) - WW k (-1))) with
    (- 6 * (-1) ^ S k * INR (S k) - 2 * (3 * WW (S k) (-1)) - 3 * WW k (-1)) by ring.
  rewrite H0, H1, !S_INR. simpl. ring.
Qed.

(** derivative of a series *)
Lemma rsum_deriv n (a : nat -> R) (F G : nat -> R -> R) x :
  (forall k, derivable_pt_lim (F k) x (G k x)) ->
  derivable_pt_lim (fun y => rsum n (fun k => a k * F k y)) x (rsum n (fun k => a k * G k x)).
Proof.
  intros H. induction n; simpl.
  - apply (derivable_pt_lim_const 0).
  - apply (derivable_pt_lim_plus (fun y => rsum n (fun k => a k * F k y)) (fun y => a n * F n y)); auto.
    apply (derivable_pt_lim_scal (F n)); auto.
Qed.

Lemma pevalf_deriv n a x :
  derivable_pt_lim (pevalf n a) x (rsum n (fun k => a k * (INR k * VV k x))).
Proof. apply (rsum_deriv n a TT (fun k x => INR k * VV k x)). intros; apply TT_deriv. Qed.

Lemma pevalf_deriv2 n a x :
  derivable_pt_lim (fun y => rsum n (fun k => a k * (INR k * VV k y))) x (rsum n (fun k => a k * (INR k * WW k x))).
Proof.
  apply (rsum_deriv n a (fun k x => INR k * VV k x) (fun k x => INR k * WW k x)). intros.
  apply (derivable_pt_lim_scal (VV k)), VV_deriv.
Qed.

(** Coefficient recurrence of the derivative:
    b is the derivative of a iff  2 b_0 = 2 a_1 + b_2  and  b_{k} = 2(k+1) a_{k+1} + b_{k+2}. *)
Definition grad_rec (a b : nat -> R) : Prop :=
  2 * b 0%nat = 2 * a 1%nat + b 2%nat /\
  forall k, (1 <= k)%nat -> b k = 2 * INR (k+1) * a (k+1)%nat + b (k+2)%nat.

Lemma grad_rec_peval n a b x :
  (forall k, (n <= k)%nat -> a k = 0) -> (forall k, (n <= k)%nat -> b k = 0) ->
  grad_rec a b ->
  pevalf n b x = rsum n (fun k => a k * (INR k * VV k x)).
Proof.
  intros Za Zb [R0 Rk]. unfold pevalf.
  (* partial sums: sum_{k<=m} b_k T_k = sum_{k<=m} k a_k V_k  + (b_{m+1} V_m + b_m V_{m+1}... )/2 *)
  assert (P : forall m, rsum (S m) (fun k => b k * TT k x) =
     rsum (S m) (fun k => a k * (INR k * VV k x)) + (b m * VV (S m) x + b (S m) * VV m x) / 2
     + (if (m =? 0)%nat then b 0%nat * VV 1 x / 2 else 0)).
  { induction m.
    - simpl rsum. simpl (_ =? _)%nat. rewrite TT_0, VV_0, VV_1. simpl. field.
    - change (rsum (S (S m)) (fun k => b k * TT k x)) with (rsum (S m) (fun k => b k * TT k x) + b (S m) * TT (S m) x).
      change (rsum (S (S m)) (fun k => a k * (INR k * VV k x))) with
        (rsum (S m) (fun k => a k * (INR k * VV k x)) + a (S m) * (INR (S m) * VV (S m) x)).
      rewrite IHm. replace (TT (S m) x) with ((VV (S (S m)) x - VV m x) / 2) by (rewrite <- TT_VV2; field).
      destruct m.
      + simpl (_ =? _)%nat. cbv iota. rewrite VV_0, VV_1. simpl INR.
        replace (b 2%nat) with (2 * b 0%nat - 2 * a 1%nat) by lra. field.
      + simpl (_ =? _)%nat. cbv iota. 
        rewrite (Rk (S m)) by lia. replace (S m + 1)%nat with (S (S m)) by lia.
        replace (S m + 2)%nat with (S (S (S m))) by lia. field. }
  destruct n as [|n]; [reflexivity|].
  (* extend by one zero term *)
  pose proof (P (S n)) as E.
  change (rsum (S (S n)) (fun k => b k * TT k x)) with (rsum (S n) (fun k => b k * TT k x) + b (S n) * TT (S n) x) in E.
  change (rsum (S (S n)) (fun k => a k * (INR k * VV k x))) with
        (rsum (S n) (fun k => a k * (INR k * VV k x)) + a (S n) * (INR (S n) * VV (S n) x)) in E.
  rewrite (Zb (S n)), (Zb (S (S n))), (Za (S n)) in E by lia. simpl (_ =? _)%nat in E. lra.
Qed.

Lemma grad_rec_deriv n a b :
  (forall k, (n <= k)%nat -> a k = 0) -> (forall k, (n <= k)%nat -> b k = 0) ->
  grad_rec a b -> forall x, derivable_pt_lim (pevalf n a) x (pevalf n b x).
Proof. intros. rewrite (grad_rec_peval n a b x); auto. apply pevalf_deriv. Qed.

(** The recurrence determines b. *)
Lemma grad_rec_unique n a b b' :
  (forall k, (n <= k)%nat -> b k = 0) -> (forall k, (n <= k)%nat -> b' k = 0) ->
  grad_rec a b -> grad_rec a b' -> forall k, b k = b' k.
Proof.
  intros Zb Zb' [R0 Rk] [R0' Rk'].
  assert (G : forall j k, (1 <= k)%nat -> (n <= k + j)%nat -> b k = b' k).
  { induction j as [j IH] using (well_founded_induction Wf_nat.lt_wf). intros k Hk Hn.
    destruct (le_dec n k). rewrite Zb, Zb'; auto.
    rewrite Rk, Rk' by auto. f_equal. destruct (le_dec n (k+2)). rewrite Zb, Zb'; auto.
    apply (IH (j-2)%nat); lia. }
  intros [|k].
  - pose proof (G n 2%nat ltac:(lia) ltac:(lia)). lra.
  - apply (G n); lia.
Qed.

Lemma grad_rec_ext a a' b b' : (forall k, a k = a' k) -> (forall k, b k = b' k) -> grad_rec a b -> grad_rec a' b'.
Proof. intros Ea Eb [H0 Hk]. split. rewrite <- !Ea, <- !Eb; auto. intros. rewrite <- Ea, <- !Eb; auto. Qed.
