(** The assumptions of LibAcc.v can be met: for every IEEE format there is a
    transform library that computes the documented sums and rounds each result
    once.  Its relative error is at most twice the unit roundoff, its absolute error half the smallest subnormal number, and
    it does not overflow on sums in range. *)
From Coq Require Import List Arith ZArith Reals Bool Lra Lia.
From Flocq Require Import Core BinarySingleNaN.
From Verif Require Import Base Num Cheb Fourier FourierF64 ExtLib Rounding RndTdma RndDirichlet PropRound LibAcc.
Import ListNotations.
Local Open Scope R_scope.

Section Ideal.
Variables prec emax : Z.
Context (HP : Prec_gt_0 prec) (HL : Prec_lt_emax prec emax).
Hypothesis Hprec : (10 <= prec)%Z.
Hypothesis Hemax : (prec + 3 <= emax)%Z.
Let fl := binary_float prec emax.
Local Existing Instance ieee_num.
Let fexp := FLT_exp (3 - emax - prec) prec.
Local Notation rnd := (ieee_rnd prec emax).
Local Notation u := (ieee_u prec).
Local Notation eta := (ieee_eta prec emax).
Local Notation fin := (ieee_fin prec emax).
Local Notation inr := (ieee_inr emax).

(** the floating-point number nearest to x (an infinity if x is too large) *)
Definition of_R (x : R) : fl :=
  binary_normalize prec emax HP HL mode_NE (Ztrunc (scaled_mantissa radix2 fexp (rnd x))) (cexp radix2 fexp (rnd x)) false.
Lemma of_R_spec x : (inr (rnd x) -> fin (of_R x)) /\ (fin (of_R x) -> B2R (of_R x) = rnd x).
Proof.
  assert (FX : generic_format radix2 fexp (rnd x)) by (apply generic_format_round; unfold fexp; auto with typeclass_instances).
  pose proof (binary_normalize_correct prec emax HP HL mode_NE (Ztrunc (scaled_mantissa radix2 fexp (rnd x))) (cexp radix2 fexp (rnd x)) false) as H. cbv zeta in H.
  rewrite <- FX in H. change (SpecFloat.fexp prec emax) with fexp in H. rewrite round_generic in H; auto with typeclass_instances. fold (of_R x) in H.
  unfold ieee_inr, ieee_fin. destruct (Rlt_bool_spec (Rabs (rnd x)) (bpow radix2 emax)).
  - destruct H as (H1 & H2 & _). auto.
  - apply (overflow_inf prec emax) in H. split. lra. intros. congruence.
Qed.

Definition allfin (l : list fl) : bool := forallb is_finite l.
Definition nan : fl := B754_nan.
Definition ideal_dct1 (n : nat) (x : list fl) : list fl :=
  if allfin x then
    map (fun k => of_R (rsum n (fun j => (if (j =? 0) || (j =? n - 1) then / 2 else 1) * cos (PI * INR (j * k) / INR (n - 1)) * B2R x.[j]))) (seq 0 n)
  else repeat nan n.
Definition callfin (l : list (cplx fl)) : bool := forallb (fun z => is_finite (fst z) && is_finite (snd z)) l.
Definition ideal_fft (inverse : bool) (n : nat) (x : list (cplx fl)) : list (cplx fl) :=
  if callfin x then
    map (fun k =>
      let s := if inverse then 1 else -1 in
      let th j := s * (2 * PI * INR (j * k) / INR n) in
      (of_R (rsum n (fun j => B2R (fst x.[j]) * cos (th j) - B2R (snd x.[j]) * sin (th j))),
       of_R (rsum n (fun j => B2R (fst x.[j]) * sin (th j) + B2R (snd x.[j]) * cos (th j))))) (seq 0 n)
  else repeat (nan, nan) n.
Definition ideal_r2c (n : nat) (x : list fl) : list (cplx fl) :=
  if allfin x then
    map (fun k =>
      (of_R (rsum n (fun j => B2R x.[j] * cos (2 * PI * INR (j * k) / INR n))),
       of_R (- rsum n (fun j => B2R x.[j] * sin (2 * PI * INR (j * k) / INR n))))) (seq 0 (n / 2 + 1))
  else repeat (nan, nan) (n / 2 + 1).
Definition ideal_c2r (n : nat) (c : list (cplx fl)) : list fl :=
  if callfin c then
    map (fun j => of_R (rsum (n / 2 + 1) (fun k => c2r_weight n k *
        (B2R (fst c.[k]) * cos (2 * PI * INR (j * k) / INR n) - B2R (snd c.[k]) * sin (2 * PI * INR (j * k) / INR n))))) (seq 0 n)
  else repeat nan n.
Definition ideal : ext fl := mk_ext ideal_dct1 ideal_fft ideal_r2c ideal_c2r.

Let RR : rounding u eta rnd := ieee_rounding prec emax HP Hprec.
Lemma u_small : 0 <= u <= / 64.
Proof. apply (rn_u _ _ _ RR). Qed.
Lemma of_R_err x D : Rabs x <= D -> fin (of_R x) -> Rabs (B2R (of_R x) - x) <= u * D + eta.
Proof.
  intros HD F. rewrite (proj2 (of_R_spec x) F). pose proof (rn_err _ _ _ RR x). pose proof u_small. pose proof (Rabs_pos x). nra.
Qed.
Lemma of_R_err2 x D : Rabs x <= D -> fin (of_R x) -> Rabs (B2R (of_R x) - x) <= 2 * u * D + eta.
Proof. intros HD F. pose proof (of_R_err x D HD F). pose proof u_small. pose proof (Rabs_pos x). assert (0 <= u * D) by (apply Rmult_le_pos; lra). lra. Qed.
Lemma inr_2 x D : Rabs x <= 2 * D -> inr (4 * D) -> inr (rnd x).
Proof.
  intros H1 H2. unfold ieee_inr in *. pose proof (rn_err _ _ _ RR x) as He. pose proof u_small. pose proof (Rabs_pos x).
  assert (D0 : 0 <= D) by lra. rewrite Rabs_pos_eq in H2 by lra.
  assert (eta <= bpow radix2 (emax - 3)). { unfold ieee_eta. apply bpow_le. unfold Prec_gt_0 in HP. lia. }
  assert (B : bpow radix2 emax = 8 * bpow radix2 (emax - 3)).
  { transitivity (bpow radix2 (3 + (emax - 3))). f_equal; ring. rewrite bpow_plus. reflexivity. }
  assert (Rabs (rnd x) <= Rabs x + (u * Rabs x + eta)). { replace (rnd x) with (x + (rnd x - x)) by ring. pose proof (Rabs_triang x (rnd x - x)). lra. }
  pose proof (bpow_gt_0 radix2 (emax - 3)). nra.
Qed.
Lemma inr_1 x D : Rabs x <= D -> inr (4 * D) -> inr (rnd x).
Proof. intros H. apply inr_2. pose proof (Rabs_pos x). lra. Qed.
Lemma allfin_spec (x : list fl) n : length x = n -> (allfin x = true <-> forall j, (j < n)%nat -> fin x.[j]).
Proof.
  intros Lx. unfold allfin. rewrite forallb_forall. split; intros H.
  - intros j Hj. apply H. apply nth_In. rewrite Lx. auto.
  - intros v Hv. apply In_nth with (d := dflt) in Hv as (j & Hj & <-). apply H. rewrite <- Lx. exact Hj.
Qed.
Lemma callfin_spec (x : list (cplx fl)) n : length x = n -> (callfin x = true <-> forall j, (j < n)%nat -> cfin fin x.[j]).
Proof.
  intros Lx. unfold callfin. rewrite forallb_forall. split; intros H.
  - intros j Hj. assert (I : In x.[j] x) by (apply nth_In; lia). apply H in I. apply andb_true_iff in I. exact I.
  - intros v Hv. apply In_nth with (d := dflt) in Hv as (j & Hj & <-). apply andb_true_iff. apply H. rewrite <- Lx. exact Hj.
Qed.
Lemma nan_at n k : (k < n)%nat -> (repeat nan n).[k] = nan.
Proof. intros. apply at_repeat; auto. Qed.
Lemma nan2_at n k : (k < n)%nat -> (repeat (nan, nan) n : list (cplx fl)).[k] = (nan, nan).
Proof. intros. apply at_repeat; auto. Qed.
Lemma rsum_bound n (f g : nat -> R) : (forall j, (j < n)%nat -> Rabs (f j) <= g j) -> Rabs (rsum n f) <= rsum n g.
Proof. intros H. eapply Rle_trans. apply rsum_abs. apply rsum_le. auto. Qed.
Lemma trig_abs x : Rabs (cos x) <= 1 /\ Rabs (sin x) <= 1.
Proof. pose proof (COS_bound x). pose proof (SIN_bound x). split; apply Rabs_le; lra. Qed.
Lemma mul_abs_1 x c : Rabs c <= 1 -> Rabs (x * c) <= Rabs x.
Proof. intros. rewrite Rabs_mult. pose proof (Rabs_pos x). nra. Qed.
Lemma two_abs x y c s : Rabs c <= 1 -> Rabs s <= 1 -> Rabs (x * c - y * s) <= Rabs x + Rabs y /\ Rabs (x * s + y * c) <= Rabs x + Rabs y.
Proof.
  intros. pose proof (mul_abs_1 x c H). pose proof (mul_abs_1 y s H0). pose proof (mul_abs_1 x s H0). pose proof (mul_abs_1 y c H).
  pose proof (Rabs_triang (x * c) (- (y * s))). pose proof (Rabs_triang (x * s) (y * c)). rewrite Rabs_Ropp in H5. unfold Rminus. lra.
Qed.
Lemma dct_sum n k (v : nat -> R) : Rabs (rsum n (fun j => (if (j =? 0) || (j =? n - 1) then / 2 else 1) * cos (PI * INR (j * k) / INR (n - 1)) * v j)) <= rsum n (fun j => Rabs (v j)).
Proof.
  apply rsum_bound. intros j _. rewrite Rmult_comm. apply mul_abs_1. destruct (trig_abs (PI * INR (j * k) / INR (n - 1))) as [C _].
  rewrite Rabs_mult. pose proof (Rabs_pos (cos (PI * INR (j * k) / INR (n - 1)))). destruct ((j =? 0) || (j =? n - 1)); rewrite Rabs_pos_eq by lra; lra.
Qed.

Theorem ideal_dct1_ok n : dct1_accurate ideal fin B2R n (2 * u) eta /\ dct1_in_range ideal fin B2R inr n.
Proof.
  split.
  - intros x Lx. cbn [x_dct1 ideal]. unfold ideal_dct1. pose proof (allfin_spec x n Lx) as AF. destruct (allfin x).
    + split. rewrite map_length, seq_length. auto. intros F. split. apply AF; auto. intros k Hk. specialize (F k Hk). rewrite at_map_seq in * by auto.
      apply of_R_err2; auto. apply dct_sum.
    + split. apply repeat_length. intros F. destruct n. { split; intros; lia. } exfalso. specialize (F O ltac:(lia)). rewrite nan_at in F by lia. discriminate.
  - intros x Lx Fx Hr k Hk. cbn [x_dct1 ideal]. unfold ideal_dct1. rewrite (proj2 (allfin_spec x n Lx) Fx). rewrite at_map_seq by auto.
    apply of_R_spec. eapply inr_2; [|exact Hr]. eapply Rle_trans. apply (dct_sum n k (fun j => B2R x.[j])). assert (0 <= rsum n (fun j => Rabs (B2R x.[j]))) by (apply rsum_pos; intros; apply Rabs_pos). cbv beta. lra.
Qed.
Lemma fft_sum (s : R) n k (x : list (cplx fl)) : let th j := s * (2 * PI * INR (j * k) / INR n) in
  Rabs (rsum n (fun j => B2R (fst x.[j]) * cos (th j) - B2R (snd x.[j]) * sin (th j))) <= rsum n (fun j => csize B2R x.[j]) /\
  Rabs (rsum n (fun j => B2R (fst x.[j]) * sin (th j) + B2R (snd x.[j]) * cos (th j))) <= rsum n (fun j => csize B2R x.[j]).
Proof. intros th. split; apply rsum_bound; intros j _; unfold csize; apply two_abs; apply trig_abs. Qed.
Theorem ideal_fft_ok inverse n : fft_accurate ideal fin B2R inverse n (2 * u) eta /\ fft_in_range ideal fin B2R inr inverse n.
Proof.
  split.
  - intros x Lx. cbn [x_fft ideal]. unfold ideal_fft. pose proof (callfin_spec x n Lx) as AF. destruct (callfin x).
    + split. rewrite map_length, seq_length. auto. intros F. split. apply AF; auto. intros k Hk. specialize (F k Hk). rewrite at_map_seq in * by auto.
      cbv zeta in *. cbn [fst snd] in *. destruct F as [F1 F2]. cbn [fst snd] in *. split; apply of_R_err2; auto; apply fft_sum.
    + split. apply repeat_length. intros F. destruct n. { split; intros; lia. } exfalso. specialize (F O ltac:(lia)). rewrite nan2_at in F by lia. destruct F. discriminate.
  - intros x Lx Fx Hr k Hk. cbn [x_fft ideal]. unfold ideal_fft. rewrite (proj2 (callfin_spec x n Lx) Fx). rewrite at_map_seq by auto. cbv zeta.
    destruct (fft_sum (if inverse then 1 else -1) n k x) as [S1 S2].
    split; cbn [fst snd]; apply of_R_spec; eapply inr_1; [exact S1|exact Hr|exact S2|exact Hr].
Qed.
Lemma r2c_sum n k (x : list fl) :
  Rabs (rsum n (fun j => B2R x.[j] * cos (2 * PI * INR (j * k) / INR n))) <= rsum n (fun j => Rabs (B2R x.[j])) /\
  Rabs (- rsum n (fun j => B2R x.[j] * sin (2 * PI * INR (j * k) / INR n))) <= rsum n (fun j => Rabs (B2R x.[j])).
Proof. rewrite Rabs_Ropp. split; apply rsum_bound; intros j _; apply mul_abs_1; apply trig_abs. Qed.
Theorem ideal_r2c_ok n : r2c_accurate ideal fin B2R n (2 * u) eta /\ r2c_in_range ideal fin B2R inr n.
Proof.
  split.
  - intros x Lx. cbn [x_r2c ideal]. unfold ideal_r2c. pose proof (allfin_spec x n Lx) as AF. destruct (allfin x).
    + split. rewrite map_length, seq_length. auto. intros F. split. apply AF; auto. intros k Hk. specialize (F k Hk). rewrite at_map_seq in * by auto.
      destruct F as [F1 F2]. cbn [fst snd] in *. destruct (r2c_sum n k x). split. apply of_R_err2; auto.
      match goal with |- Rabs (_ + ?S) <= _ => replace S with (- (- S)) by ring; apply (of_R_err2 (- S)); auto end.
    + split. apply repeat_length. intros F. exfalso. specialize (F O ltac:(lia)). rewrite nan2_at in F by lia. destruct F. discriminate.
  - intros x Lx Fx Hr k Hk. cbn [x_r2c ideal]. unfold ideal_r2c. rewrite (proj2 (allfin_spec x n Lx) Fx). rewrite at_map_seq by auto.
    destruct (r2c_sum n k x) as [S1 S2].
    split; cbn [fst snd]; apply of_R_spec; eapply inr_1; [exact S1|exact Hr|exact S2|exact Hr].
Qed.
Lemma c2r_sum n j (c : list (cplx fl)) :
  Rabs (rsum (n / 2 + 1) (fun k => c2r_weight n k * (B2R (fst c.[k]) * cos (2 * PI * INR (j * k) / INR n) - B2R (snd c.[k]) * sin (2 * PI * INR (j * k) / INR n)))) <=
  2 * rsum (n / 2 + 1) (fun k => csize B2R c.[k]).
Proof.
  rewrite <- rsum_scal_l. apply rsum_bound. intros k _. rewrite Rabs_mult. unfold csize.
  destruct (two_abs (B2R (fst c.[k])) (B2R (snd c.[k])) (cos (2 * PI * INR (j * k) / INR n)) (sin (2 * PI * INR (j * k) / INR n))) as [T _]; try apply trig_abs.
  assert (W : 0 <= c2r_weight n k <= 2) by (unfold c2r_weight; destruct ((k =? 0) || (2 * k =? n)); lra). rewrite (Rabs_pos_eq (c2r_weight n k)) by lra.
  apply Rmult_le_compat; auto. lra. apply Rabs_pos. lra.
Qed.
Theorem ideal_c2r_ok n : (1 <= n)%nat -> c2r_accurate ideal fin B2R n (2 * u) eta /\ c2r_in_range ideal fin B2R inr n.
Proof.
  intros Hn. split.
  - intros c Lc _. cbn [x_c2r ideal]. unfold ideal_c2r. pose proof (callfin_spec c _ Lc) as AF. destruct (callfin c).
    + split. rewrite map_length, seq_length. auto. intros F. split. apply AF; auto. intros j Hj. specialize (F j Hj). rewrite at_map_seq in * by auto.
      replace (2 * u * rsum (n / 2 + 1) (fun k => csize B2R c.[k])) with (u * (2 * rsum (n / 2 + 1) (fun k => csize B2R c.[k]))) by ring.
      apply of_R_err; auto. apply c2r_sum.
    + split. apply repeat_length. intros F. exfalso. specialize (F O ltac:(lia)). rewrite nan_at in F by lia. discriminate.
  - intros c Lc _ Fc Hr j Hj. cbn [x_c2r ideal]. unfold ideal_c2r. rewrite (proj2 (callfin_spec c _ Lc) Fc). rewrite at_map_seq by auto.
    apply of_R_spec. eapply inr_2; [|exact Hr]. apply c2r_sum.
Qed.
End Ideal.
