(** Rounding errors of the Fourier derivatives, any order (C54). *)
From Coq Require Import List Arith ZArith Reals Bool Lra Lia.
From Verif Require Import Base Num Linalg Cheb ChebGrad Fourier FourierFacts FourierProofs FourierOps Rounding RndTdma RndGrad.
Import ListNotations.
Local Open Scope R_scope.

(** ** The gradients over any arithmetic: mode k is multiplied d times by (0, w k) *)
Section Any.
Context {A : Type} {N : Num A}.
Fixpoint mul_iter (z : cplx A) (d : nat) (x : cplx A) : cplx A :=
  match d with O => x | S d => cmul (mul_iter z d x) z end.

Lemma wp_mul_at_any (out : list (cplx A)) i z (Q : list (cplx A) -> Prop) : (i < length out)%nat ->
  Q (upd out i (cmul out.[i] z)) -> wp (mul_at out i z) Q.
Proof. intros. unfold mul_at. rewrite rd_at by auto. cbn [bind]. rewrite wr_at by auto. auto. Qed.

Lemma mul_up_any hi (g : nat -> cplx A) (out : list (cplx A)) : (hi <= length out)%nat ->
  wp (for_each (range 0 hi) (fun k out => mul_at out k (g k)) out) (fun o => length o = length out /\
    forall i, (i < length out)%nat -> o.[i] = if (i <? hi)%nat then cmul out.[i] (g i) else out.[i]).
Proof.
  intros H.
  apply (wp_for_each_range 0 hi _ (fun t (o : list (cplx A)) => length o = length out /\
    forall i, (i < length out)%nat -> o.[i] = if (i <? t)%nat then cmul out.[i] (g i) else out.[i])); auto.
  - lia.
  - intros i s Hi [L I]. apply wp_mul_at_any. lia. split. rewrite upd_length; auto.
    intros j Hj. destruct (Nat.eq_dec i j) as [<-|].
    + rewrite at_upd_eq by lia. rewrite I by lia.
      destruct (Nat.ltb_spec i i), (Nat.ltb_spec i (i + 1)); auto; lia.
    + rewrite at_upd_ne by auto. rewrite I by lia.
      destruct (Nat.ltb_spec j i), (Nat.ltb_spec j (i + 1)); auto; lia.
Qed.
Lemma mul_down_any n hi (g : nat -> cplx A) (out : list (cplx A)) : length out = n -> (hi <= n)%nat ->
  wp (for_each (range 0 hi) (fun k out => mul_at out (length out - 1 - k) (g k)) out) (fun o => length o = n /\
    forall i, (i < n)%nat -> o.[i] = if (n <=? i + hi)%nat then cmul out.[i] (g (n - 1 - i)%nat) else out.[i]).
Proof.
  intros Hn H.
  apply (wp_for_each_range 0 hi _ (fun t (o : list (cplx A)) => length o = n /\
    forall i, (i < n)%nat -> o.[i] = if (n <=? i + t)%nat then cmul out.[i] (g (n - 1 - i)%nat) else out.[i])); auto.
  - lia.
  - split; auto. intros. destruct (Nat.leb_spec n (i + 0)); auto; lia.
  - intros i s Hi [L I]. apply wp_mul_at_any. lia. split. rewrite upd_length; auto.
    intros j Hj. rewrite L. destruct (Nat.eq_dec (n - 1 - i) j) as [<-|].
    + rewrite at_upd_eq by lia. rewrite I by lia.
      replace (n - 1 - (n - 1 - i))%nat with i by lia.
      destruct (Nat.leb_spec n (n - 1 - i + i)), (Nat.leb_spec n (n - 1 - i + (i + 1))); auto; lia.
    + rewrite at_upd_ne by auto. rewrite I by lia.
      destruct (Nat.leb_spec n (j + i)), (Nat.leb_spec n (j + (i + 1))); auto; lia.
Qed.
Lemma grad_iter_any n (body : list (cplx A) -> res (list (cplx A))) (g : nat -> cplx A) (x : list (cplx A)) d :
  length x = n ->
  (forall o, length o = n -> wp (body o) (fun o' => length o' = n /\ forall i, (i < n)%nat -> o'.[i] = cmul o.[i] (g i))) ->
  wp (for_each (range 0 d) (fun _ o => body o) x) (fun o => length o = n /\
    forall i, (i < n)%nat -> o.[i] = mul_iter (g i) d x.[i]).
Proof.
  intros Hx Hb.
  apply (wp_for_each_range 0 d _ (fun t (o : list (cplx A)) => length o = n /\
    forall i, (i < n)%nat -> o.[i] = mul_iter (g i) t x.[i])); auto; try lia.
  - intros t o Ht [L I]. eapply wp_mono; [apply Hb; auto|]. intros o' [L' I']. split; auto.
    intros. rewrite I', I by auto. replace (t + 1)%nat with (S t) by lia. reflexivity.
Qed.
Lemma r2c_gradient_any n (x o : list (cplx A)) d :
  length x = (n / 2 + 1)%nat -> length o = (n / 2 + 1)%nat ->
  wp (r2c_gradient (mk_r2c n (n / 2 + 1)) x o d) (fun y => length y = (n / 2 + 1)%nat /\
    forall k, (k < n / 2 + 1)%nat -> y.[k] = mul_iter (ik k) d x.[k]).
Proof.
  intros. unfold r2c_gradient, r2c_len_spec. cbn [r_m].
  rewrite !assert_ok by (apply Nat.eqb_eq; congruence). rewrite zip_write_full by congruence.
  apply (grad_iter_any _ _ (fun k => ik k)); auto.
  intros q Hq. eapply wp_mono; [apply mul_up_any; auto|]. intros q' [L I]. split. lia.
  intros. rewrite I by lia. destruct (Nat.ltb_spec i (length q)); [|lia]. auto.
Qed.
(** the factor the c2c gradient applies to mode k (C23) *)
Definition c2c_w (n k : nat) : nat := if (k <? npos n)%nat then k else (n - 1 - k)%nat.
Lemma c2c_gradient_any n (x o : list (cplx A)) d : (1 <= n)%nat -> length x = n -> length o = n ->
  wp (c2c_gradient (mk_c2c n n) x o d) (fun y => length y = n /\
    forall k, (k < n)%nat -> y.[k] = mul_iter (ik (c2c_w n k)) d x.[k]).
Proof.
  intros Hn Hx Ho. unfold c2c_gradient, c2c_len_spec. cbn [cc_m].
  rewrite !assert_ok by (apply Nat.eqb_eq; congruence). rewrite zip_write_full by congruence.
  apply wp_bind, wp_usub; [lia|].
  apply (grad_iter_any _ _ (fun k => ik (c2c_w n k))); auto.
  intros q Hq. unfold c2c_grad_once. apply wp_bind, wp_usub; [lia|].
  pose proof (npos_split n Hn) as NP. fold (npos n).
  apply wp_bind. eapply wp_mono; [apply mul_up_any; lia|]. cbv beta. intros q1 [L1 I1].
  eapply wp_mono; [apply (mul_down_any n); lia|]. intros q2 [L2 I2]. split; auto.
  intros i Hi. rewrite I2, I1 by lia. unfold c2c_w.
  destruct (Nat.leb_spec n (i + Nat.min (n / 2) (length q1))), (Nat.ltb_spec i (Nat.min (npos n) (length q))), (Nat.ltb_spec i (npos n)); try lia; auto.
Qed.
End Any.

Section Fl.
Context {A : Type} {N : Num A} {u eta : R} {rnd : R -> R} {zmax : Z} {inr : R -> Prop} {fin : A -> Prop} {val : A -> R}.
Hypothesis FA : float_arith N u eta rnd zmax inr fin val.
Let RN : rounding u eta rnd := fa_rnd _ _ _ _ _ _ _ _ FA.
Definition cval (x : cplx A) : cplx R := (val (fst x), val (snd x)).
Lemma cval_re_im p x : re_im p (cval x) = val (re_im p x).
Proof. destruct p; reflexivity. Qed.

Lemma ik_mul p k (x : cplx A) : (Z.of_nat k <= zmax)%Z -> fin (re_im p (cmul x (ik k))) ->
  fin (fst x) /\ fin (snd x) /\
  val (re_im p (cmul x (ik k))) = if p then - rnd (val (snd x) * INR k) else rnd (val (fst x) * INR k).
Proof.
  intros Hk F. destruct (fa_0 _ _ _ _ _ _ _ _ FA) as [F0 E0].
  destruct (fa_int _ _ _ _ _ _ _ _ FA (Z.of_nat k) ltac:(lia)) as [Fk Ek]. rewrite <- INR_IZR_INZ in Ek.
  unfold cmul, ik in *. cbn [fst snd] in *. destruct p; cbn [re_im fst snd] in *.
  - destruct (fa_sub _ _ _ _ _ _ _ _ FA _ _ F) as (G1 & G2 & ->).
    destruct (fa_mul _ _ _ _ _ _ _ _ FA _ _ G1) as (Fx & _ & ->). destruct (fa_mul _ _ _ _ _ _ _ _ FA _ _ G2) as (Fy & _ & ->).
    split; auto. split; auto. rewrite E0, Rmult_0_r, (rnd_0 RN). unfold nofN. rewrite Ek, Rminus_0_l, (rn_opp _ _ _ RN), (rn_idem _ _ _ RN). auto.
  - destruct (fa_add _ _ _ _ _ _ _ _ FA _ _ F) as (G1 & G2 & ->).
    destruct (fa_mul _ _ _ _ _ _ _ _ FA _ _ G1) as (Fx & _ & ->). destruct (fa_mul _ _ _ _ _ _ _ _ FA _ _ G2) as (Fy & _ & ->).
    split; auto. split; auto. rewrite E0, Rmult_0_r, (rnd_0 RN). unfold nofN. rewrite Ek, Rplus_0_r, (rn_idem _ _ _ RN). auto.
Qed.
Lemma step_err k v e d : Rabs (v - e) <= ((1 + u) ^ d - 1) * Rabs e + INR d * ((1 + u) * INR k) ^ (d - 1) * eta ->
  Rabs (rnd (v * INR k) - e * INR k) <= ((1 + u) ^ S d - 1) * Rabs (e * INR k) + INR (S d) * ((1 + u) * INR k) ^ (S d - 1) * eta.
Proof.
  intros H. destruct (rn_u _ _ _ RN) as [U0 _]. pose proof (rn_eta _ _ _ RN) as E0. pose proof (pos_INR k) as K0.
  assert (G0 : 0 <= INR (S d) * ((1 + u) * INR k) ^ (S d - 1) * eta).
  { apply Rmult_le_pos; auto. apply Rmult_le_pos. apply pos_INR. apply pow_le. apply Rmult_le_pos; lra. }
  destruct k as [|k].
  { cbn [INR] in *. rewrite !Rmult_0_r, (rnd_0 RN), Rminus_0_r, Rabs_R0, Rmult_0_r. cbn [INR] in G0. rewrite !Rmult_0_r in G0. lra. }
  assert (K1 : 1 <= INR (S k)) by (rewrite S_INR; pose proof (pos_INR k); lra). set (q := INR (S k)) in *. clearbody q. clear K0.
  replace (S d - 1)%nat with d in * by lia. replace (rnd (v * q) - e * q) with ((rnd (v * q) - v * q) + (v - e) * q) by ring.
  eapply Rle_trans; [apply Rabs_triang|]. pose proof (rn_err _ _ _ RN (v * q)) as H1. rewrite Rabs_mult, (Rabs_pos_eq q) in H1 by lra.
  rewrite !Rabs_mult, (Rabs_pos_eq q) by lra.
  assert (H2 : Rabs v <= Rabs e + Rabs (v - e)). { replace v with (e + (v - e)) at 1 by ring. apply Rabs_triang. }
  set (B := ((1 + u) ^ d - 1) * Rabs e + INR d * ((1 + u) * q) ^ (d - 1) * eta) in *.
  assert (H3 : u * (Rabs v * q) <= u * q * (Rabs e + B)). { replace (u * (Rabs v * q)) with (u * q * Rabs v) by ring. apply Rmult_le_compat_l. apply Rmult_le_pos; lra. lra. }
  assert (H4 : Rabs (v - e) * q <= B * q) by (apply Rmult_le_compat_r; lra).
  apply Rle_trans with (u * q * Rabs e + (1 + u) * q * B + eta). { lra. } unfold B. clear H H1 H2 H3 H4 B.
  rewrite S_INR. set (W := (1 + u) * q). assert (W1 : 1 <= W). { unfold W. pose proof (Rmult_le_compat 1 (1 + u) 1 q). lra. }
  assert (WD : W * (INR d * W ^ (d - 1)) = INR d * W ^ d).
  { destruct d. cbn. ring. replace (S d - 1)%nat with d by lia. cbn [pow]. ring. }
  assert (PW : 1 <= W ^ d) by (apply pow_R1_Rle; auto).
  replace ((1 + u) ^ S d - 1) with ((1 + u) * ((1 + u) ^ d - 1) + u) by (cbn [pow]; ring).
  assert (eta <= W ^ d * eta). { rewrite <- (Rmult_1_l eta) at 1. apply Rmult_le_compat_r; auto. }
  replace (W * (((1 + u) ^ d - 1) * Rabs e + INR d * W ^ (d - 1) * eta)) with ((1 + u) * ((1 + u) ^ d - 1) * Rabs e * q + W * (INR d * W ^ (d - 1)) * eta) by (unfold W; ring).
  rewrite WD. lra.
Qed.
Lemma mul_iter_err k d (x : cplx A) : (Z.of_nat k <= zmax)%Z -> forall p, fin (re_im p (mul_iter (ik k) d x)) ->
  let e := re_im p (mul_iter (A := R) (N := num_R) (ik k) d (cval x)) in
  Rabs (val (re_im p (mul_iter (ik k) d x)) - e) <= ((1 + u) ^ d - 1) * Rabs e + INR d * ((1 + u) * INR k) ^ (d - 1) * eta.
Proof.
  intros Hk. induction d as [|d IH]; intros p F e.
  - unfold e. cbn [mul_iter]. rewrite cval_re_im, Rminus_eq_0, Rabs_R0. cbn. lra.
  - unfold e. cbn [mul_iter] in *. destruct (ik_mul p k _ Hk F) as (F1 & F2 & ->).
    set (z := mul_iter (A := R) (N := num_R) (ik k) d (cval x)) in *.
    assert (EZ : re_im p (cmul z (ik k)) = if p then - (snd z * INR k) else fst z * INR k).
    { unfold cmul, ik, nofN. cbn. rewrite <- INR_IZR_INZ. destruct p; cbn; ring. }
    rewrite EZ. destruct p.
    + rewrite !Rabs_Ropp. replace (- rnd (val (snd (mul_iter (ik k) d x)) * INR k) - - (snd z * INR k)) with (- (rnd (val (snd (mul_iter (ik k) d x)) * INR k) - snd z * INR k)) by ring.
      rewrite Rabs_Ropp. apply step_err. exact (IH false F2).
    + apply step_err. exact (IH true F1).
Qed.
End Fl.
