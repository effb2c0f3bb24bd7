(** C59, C68: gradients on FourierC2c axes in f64 and f32.  The theorems of PropGrad.v,
    PropGrad2.v, PropGrad3.v, PropGrad4.v and PropDistF64.v hold for spaces with such axes;
    what they approximate is [c2c_derivative] (GradSpec.v), the derivative of the modes of
    frequency >= 0 only (C23). *)
From Coq Require Import List Arith ZArith Reals Bool Lra Lia.
From Flocq Require Import Core BinarySingleNaN.
From Verif Require Import Base Num Fourier FourierF64 FourierFacts FourierProofs Bases NdArray ExtLib Rounding RndFft RndAxis SpaceAcc RndGrad5 GradSpec SpaceVal32 GradSpec32.
Import ListNotations.
Local Open Scope R_scope.

Theorem C59_c2c_gradient_exists :
  forall (E : ext f64) d n, (1 <= n)%nat ->
  exists f, c2c_new n = Ok f /\
    f64_gradient E d (INR n ^ d) (4 * INR (d + 1) * INR n) (cplx f64) (cplx f64) (cplx f64) (c2c_ops_x E f) f64_cplx (times d (c2c_derivative n)).
Proof.
  intros E d n Hn. exists (mk_c2c n n). assert (H : c2c_new n = Ok (mk_c2c n n)). { unfold c2c_new. destruct (Nat.leb_spec 1 n); [reflexivity|lia]. } split; auto. apply fg_c2c; auto.
Qed.
Print Assumptions C59_c2c_gradient_exists.
Theorem C68_c2c_gradient_exists :
  forall (E : ext f32) d n, (1 <= n)%nat ->
  exists f, c2c_new n = Ok f /\
    f32_gradient E d (INR n ^ d) (4 * INR (d + 1) * INR n) (cplx f32) (cplx f32) (cplx f32) (c2c_ops_x E f) f32_cplx (times d (c2c_derivative n)).
Proof.
  intros E d n Hn. exists (mk_c2c n n). assert (H : c2c_new n = Ok (mk_c2c n n)). { unfold c2c_new. destruct (Nat.leb_spec 1 n); [reflexivity|lia]. } split; auto. apply fg32_c2c; auto.
Qed.
Print Assumptions C68_c2c_gradient_exists.

(** (sum_k c_k e^(i f_k x))' where f_k = k for 2k < n and k - n otherwise *)
Definition mode_freq (n k : nat) : R := if (2 * k <? n)%nat then INR k else INR k - INR n.
Definition true_derivative (n : nat) (c : nat -> R * R) (k : nat) : R * R := (- mode_freq n k * snd (c k), mode_freq n k * fst (c k)).

Lemma cn_times_w d (w : nat -> R) (c : nat -> CR) k : cn (times d (fun c k => (- w k * snd (c k), w k * fst (c k))) c k) = Rabs (w k) ^ d * cn (c k).
Proof.
  induction d as [|d IH]; cbn [times pow]. ring. unfold cn at 1. cbn [fst snd]. rewrite !Rabs_mult, Rabs_Ropp, <- Rmult_plus_distr_l. rewrite (Rplus_comm (Rabs (snd _))). fold (cn (times d (fun c k => (- w k * snd (c k), w k * fst (c k))) c k)). rewrite IH. ring.
Qed.
(** the gradient is the derivative of a mode exactly if its frequency is not negative or it vanishes *)
Theorem C59_c2c_right_iff :
  forall n d c k, (1 <= d)%nat -> (k < n)%nat ->
  (times d (c2c_derivative n) c k = times d (true_derivative n) c k <-> ((2 * k < n)%nat \/ c k = (0, 0))).
Proof.
  intros n d c k Hd Hk. split.
  - intros H. destruct (Nat.lt_ge_cases (2 * k) n) as [|H2]; [auto|right]. apply (f_equal cn) in H.
    change (c2c_derivative n) with (fun (c : nat -> R * R) k => (- (fun k => INR (c2c_factor n k)) k * snd (c k), (fun k => INR (c2c_factor n k)) k * fst (c k))) in H.
    change (true_derivative n) with (fun (c : nat -> R * R) k => (- mode_freq n k * snd (c k), mode_freq n k * fst (c k))) in H.
    rewrite !cn_times_w in H. unfold c2c_factor, mode_freq in H. destruct (Nat.ltb_spec (2 * k) n); [lia|].
    rewrite (Rabs_pos_eq (INR (n - 1 - k))) in H by apply pos_INR. replace (Rabs (INR k - INR n)) with (INR (n - k)) in H. 2: { rewrite minus_INR by lia. rewrite Rabs_minus_sym, Rabs_pos_eq; auto. apply le_INR in Hk. rewrite S_INR in Hk. lra. }
    assert (L : INR (n - 1 - k) < INR (n - k)) by (apply lt_INR; lia). assert (P : INR (n - 1 - k) ^ d < INR (n - k) ^ d).
    { destruct d as [|d]; [lia|]. cbn [pow]. apply Rle_lt_trans with (INR (n - 1 - k) * INR (n - k) ^ d). apply Rmult_le_compat_l. apply pos_INR. apply pow_incr. split. apply pos_INR. lra. apply Rmult_lt_compat_r; auto. apply pow_lt. eapply Rle_lt_trans; [|exact L]. apply pos_INR. }
    assert (Z : cn (c k) = 0). { assert ((INR (n - k) ^ d - INR (n - 1 - k) ^ d) * cn (c k) = 0) by lra. apply Rmult_integral in H1. destruct H1; lra. }
    unfold cn in Z. pose proof (Rabs_pos (fst (c k))). pose proof (Rabs_pos (snd (c k))). destruct (c k) as [x y]. cbn [fst snd] in *.
    f_equal; [destruct (Req_dec x 0) as [|N]|destruct (Req_dec y 0) as [|N]]; auto; apply Rabs_pos_lt in N; lra.
  - intros H. induction d as [|d IH]; [lia|]. cbn [times]. unfold c2c_derivative at 1, true_derivative at 1.
    assert (T : times d (c2c_derivative n) c k = times d (true_derivative n) c k) by (destruct d; [reflexivity|apply IH; lia]). rewrite T.
    destruct H as [H|H].
    + unfold c2c_factor, mode_freq. destruct (Nat.ltb_spec (2 * k) n); [reflexivity|lia].
    + assert (Z : times d (true_derivative n) c k = (0, 0)). { clear - H. induction d as [|d IH]; cbn [times]; auto. unfold true_derivative at 1. rewrite IH. cbn [fst snd]. f_equal; ring. }
      rewrite Z. cbn [fst snd]. rewrite !Rmult_0_r. reflexivity.
Qed.
Print Assumptions C59_c2c_right_iff.
