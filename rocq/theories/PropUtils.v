(** C42: what the approx_eq helpers accept, in exact arithmetic and in binary64. *)
From Coq Require Import List Bool ZArith Reals Arith Lra Lia.
From Flocq Require Import Core BinarySingleNaN.
From Verif Require Import Base Num NdArray FourierF64 Utils.
Import ListNotations.
Local Open Scope R_scope.

(** Specification: [x] and [y] stand at the same position of the two sequences
    (positions beyond the shorter one do not count). *)
Definition paired {T} (l m : list T) (x y : T) : Prop :=
  exists i, nth_error l i = Some x /\ nth_error m i = Some y.

Lemma paired_nil_l {T} (m : list T) x y : ~ paired [] m x y.
Proof. intros ([|i] & H & _); discriminate. Qed.
Lemma paired_nil_r {T} (l : list T) x y : ~ paired l [] x y.
Proof. intros ([|i] & _ & H); discriminate. Qed.
Lemma paired_cons {T} (a b : T) l m x y : paired (a :: l) (b :: m) x y <-> (x = a /\ y = b) \/ paired l m x y.
Proof.
  split.
  - intros ([|i] & H1 & H2); cbn in *. left. split; congruence. right. exists i; auto.
  - intros [[-> ->]|(i & H1 & H2)]. exists 0%nat; auto. exists (Datatypes.S i); auto.
Qed.
Lemma paired_sym {T} (l m : list T) x y : paired l m x y <-> paired m l y x.
Proof. split; intros (i & H1 & H2); exists i; auto. Qed.

(** The common loop: every pair passes, or the call panics. *)
Lemma approx_gen {A} sub abs lt tol (l m : list A) :
  (approx_eq sub abs lt tol l m = Ok tt /\ forall x y, paired l m x y -> lt (abs (sub x y)) tol = true) \/
  (approx_eq sub abs lt tol l m = Panic /\ exists x y, paired l m x y /\ lt (abs (sub x y)) tol = false).
Proof.
  revert m. induction l as [|a l IH]; intros m; [|destruct m as [|b m]]; cbn.
  - left. split; auto. intros x y H. destruct (paired_nil_l _ _ _ H).
  - left. split; auto. intros x y H. destruct (paired_nil_r _ _ _ H).
  - destruct (lt (abs (sub a b)) tol) eqn:E; cbn.
    + destruct (IH m) as [[-> K]|[-> (x & y & K & K')]].
      * left. split; auto. intros x y H. apply paired_cons in H as [[-> ->]|H]; auto.
      * right. split; auto. exists x, y. rewrite paired_cons. auto.
    + right. split; auto. exists a, b. rewrite paired_cons. auto.
Qed.
Lemma approx_gen_c {A} sub abs lt tol (l m : list (A * A)) (ok := fun x y : A * A => lt (abs (sub (fst x) (fst y))) tol || lt (abs (sub (snd x) (snd y))) tol) :
  (approx_eq_complex sub abs lt tol l m = Ok tt /\ forall x y, paired l m x y -> ok x y = true) \/
  (approx_eq_complex sub abs lt tol l m = Panic /\ exists x y, paired l m x y /\ ok x y = false).
Proof.
  revert m. induction l as [|a l IH]; intros m; [|destruct m as [|b m]]; cbn.
  - left. split; auto. intros x y H. destruct (paired_nil_l _ _ _ H).
  - left. split; auto. intros x y H. destruct (paired_nil_r _ _ _ H).
  - change (lt (abs (sub (fst a) (fst b))) tol || lt (abs (sub (snd a) (snd b))) tol) with (ok a b).
    destruct (ok a b) eqn:E; cbn.
    + destruct (IH m) as [[-> K]|[-> (x & y & K & K')]].
      * left. split; auto. intros x y H. apply paired_cons in H as [[-> ->]|H]; auto.
      * right. split; auto. exists x, y. rewrite paired_cons. auto.
    + right. split; auto. exists a, b. rewrite paired_cons. auto.
Qed.
Lemma Rltb_true x y : Rltb x y = true <-> x < y.
Proof. unfold Rltb. destruct (Rlt_dec x y); split; intros; auto; discriminate. Qed.
Lemma Rltb_false x y : Rltb x y = false <-> y <= x.
Proof. unfold Rltb. destruct (Rlt_dec x y); split; intros; auto; try discriminate; lra. Qed.

(** C42, exact arithmetic: each helper either returns or panics; it panics iff
    some pair in the common prefix is at distance 1e-3 or more. *)
Theorem C42_approx_eq : forall a b : list R,
  (R_approx_eq a b = Ok tt <-> forall x y, paired a b x y -> Rabs (x - y) < 1 / 1000) /\
  (R_approx_eq a b = Panic <-> exists x y, paired a b x y /\ 1 / 1000 <= Rabs (x - y)).
Proof.
  intros a b. unfold R_approx_eq. destruct (approx_gen Rminus Rabs Rltb (1 / 1000) a b) as [[-> K]|[-> (x & y & P & K)]].
  - split; split; try discriminate; auto.
    + intros _ x y P. apply Rltb_true. auto.
    + intros (x & y & P & H). specialize (K x y P). apply Rltb_true in K. lra.
  - apply Rltb_false in K. split; split; try discriminate; auto.
    + intros H. specialize (H x y P). lra.
    + intros _. exists x, y. auto.
Qed.
Print Assumptions C42_approx_eq.
(** Complex: it panics iff in some pair *both* components are 1e-3 or more apart. *)
Theorem C42_approx_eq_complex : forall a b : list (R * R),
  (R_approx_eq_complex a b = Ok tt <->
     forall x y, paired a b x y -> Rabs (fst x - fst y) < 1 / 1000 \/ Rabs (snd x - snd y) < 1 / 1000) /\
  (R_approx_eq_complex a b = Panic <->
     exists x y, paired a b x y /\ 1 / 1000 <= Rabs (fst x - fst y) /\ 1 / 1000 <= Rabs (snd x - snd y)).
Proof.
  intros a b. unfold R_approx_eq_complex. destruct (approx_gen_c Rminus Rabs Rltb (1 / 1000) a b) as [[-> K]|[-> (x & y & P & K)]].
  - split; split; try discriminate; auto.
    + intros _ x y P. specialize (K x y P). apply orb_true_iff in K as [K|K]; apply Rltb_true in K; auto.
    + intros (x & y & P & H1 & H2). specialize (K x y P). apply orb_true_iff in K as [K|K]; apply Rltb_true in K; lra.
  - apply orb_false_iff in K as [K1 K2]. apply Rltb_false in K1, K2. split; split; try discriminate; auto.
    + intros H. destruct (H x y P); lra.
    + intros _. exists x, y. auto.
Qed.
Print Assumptions C42_approx_eq_complex.
(** The ndarray versions compare the elements in row-major order; the shapes and
    memory layouts play no role, and neither does the order of the arguments. *)
Theorem C42_ndarray : forall (result expected : arr R) (resultc expectedc : arr (R * R)),
  (R_approx_eq_ndarray result expected = Ok tt <->
     forall x y, paired (dat result) (dat expected) x y -> Rabs (x - y) < 1 / 1000) /\
  (R_approx_eq_ndarray result expected = Panic <->
     exists x y, paired (dat result) (dat expected) x y /\ 1 / 1000 <= Rabs (x - y)) /\
  (R_approx_eq_complex_ndarray resultc expectedc = Ok tt <->
     forall x y, paired (dat resultc) (dat expectedc) x y -> Rabs (fst x - fst y) < 1 / 1000 \/ Rabs (snd x - snd y) < 1 / 1000) /\
  (R_approx_eq_complex_ndarray resultc expectedc = Panic <->
     exists x y, paired (dat resultc) (dat expectedc) x y /\ 1 / 1000 <= Rabs (fst x - fst y) /\ 1 / 1000 <= Rabs (snd x - snd y)).
Proof.
  intros r e rc ec. unfold R_approx_eq_ndarray, R_approx_eq_complex_ndarray, approx_eq_ndarray, approx_eq_complex_ndarray.
  destruct (C42_approx_eq (dat e) (dat r)) as [A B]. destruct (C42_approx_eq_complex (dat ec) (dat rc)) as [C D].
  unfold R_approx_eq, R_approx_eq_complex in *.
  split; [|split; [|split]].
  - rewrite A. split; intros H x y P; [rewrite Rabs_minus_sym|rewrite Rabs_minus_sym]; apply H; apply paired_sym; auto.
  - rewrite B. split; intros (x & y & P & H); exists y, x; rewrite Rabs_minus_sym; split; auto; apply paired_sym; auto.
  - rewrite C. split; intros H x y P; destruct (H y x) as [K|K]; try (apply paired_sym; auto); rewrite Rabs_minus_sym in K; auto.
  - rewrite D. split; intros (x & y & P & H1 & H2); exists y, x; rewrite Rabs_minus_sym, (Rabs_minus_sym (snd y)); repeat split; auto; apply paired_sym; auto.
Qed.
Print Assumptions C42_ndarray.

(** The natural claim "returns only on vectors of equal length with close
    entries" is false: anything is accepted beyond the shorter vector, and any
    difference in one component of a complex number. *)
Theorem C42_not_a_closeness_test :
  (forall a extra : list R, R_approx_eq a (a ++ extra) = Ok tt /\ R_approx_eq (a ++ extra) a = Ok tt) /\
  (forall re im im' : R, R_approx_eq_complex [(re, im)] [(re, im')] = Ok tt) /\
  (forall re re' im : R, R_approx_eq_complex [(re, im)] [(re', im)] = Ok tt).
Proof.
  assert (Z : forall x, Rabs (x - x) < 1 / 1000) by (intros; rewrite Rminus_eq_0, Rabs_R0; lra).
  assert (Q : forall a e : list R, forall x y, paired a (a ++ e) x y -> x = y).
  { intros a e x y (i & H1 & H2). rewrite nth_error_app1 in H2. congruence. apply nth_error_Some. congruence. }
  split; [|split].
  - intros a e. split; apply C42_approx_eq; intros x y P; [|apply paired_sym in P]; apply Q in P; subst; apply Z.
  - intros. apply C42_approx_eq_complex. intros x y P. apply paired_cons in P as [[-> ->]|P]. cbn [fst]. auto. destruct (paired_nil_l _ _ _ P).
  - intros. apply C42_approx_eq_complex. intros x y P. apply paired_cons in P as [[-> ->]|P]. cbn [snd]. auto. destruct (paired_nil_l _ _ _ P).
Qed.
Print Assumptions C42_not_a_closeness_test.

(** ** binary64 *)
(** Specification: both are finite and their difference, rounded to nearest
    even, is below the double nearest to 1e-3 in absolute value. *)
Definition f64_close (x y : f64) : Prop :=
  is_finite x = true /\ is_finite y = true /\ Rabs (RN (B2R x - B2R y)) < 4611686018427388 * powerRZ 2 (-62).

Lemma tol_val : B2R f64_tol = 4611686018427388 * powerRZ 2 (-62) /\ is_finite f64_tol = true.
Proof.
  assert (H : B2SF f64_tol = SpecFloat.S754_finite false 4611686018427388 (-62)) by (vm_compute; reflexivity).
  split. rewrite <- SF2R_B2SF, H. unfold SF2R, F2R. cbn [Fnum Fexp SpecFloat.cond_Zopp]. rewrite bp. reflexivity.
  rewrite <- is_finite_SF_B2SF, H. reflexivity.
Qed.
Lemma tol_small : 4611686018427388 * powerRZ 2 (-62) < bpow radix2 1024.
Proof.
  apply Rlt_trans with (bpow radix2 0). rewrite bp. simpl. lra. apply bpow_lt. lia.
Qed.
Lemma f64_test x y : f64_lt (Babs (@nsub f64 _ x y)) f64_tol = true <-> f64_close x y.
Proof.
  unfold f64_lt, f64_close. destruct tol_val as [Tv Tf]. cbn [nsub num_f64].
  assert (FT : exists s m e H, f64_tol = B754_finite s m e H /\ s = false).
  { destruct f64_tol as [| | |s m e H]; try discriminate Tf.
    - exfalso. revert Tv. change (B2R (B754_zero s)) with 0. intros Tv. assert (0 < 4611686018427388 * powerRZ 2 (-62)) by (simpl; lra). lra.
    - exists s, m, e, H. split; auto. destruct s; auto. exfalso.
      assert (0 < 4611686018427388 * powerRZ 2 (-62)) by (simpl; lra).
      assert (B2R (B754_finite true m e H : f64) < 0) by (apply F2R_lt_0; reflexivity). lra. }
  destruct (is_finite x) eqn:Fx.
  2:{ split; [|intros [C _]; discriminate]. destruct FT as (s & m & e & H & -> & ->).
      destruct x as [|sx| |]; try discriminate Fx; destruct y as [|sy| |]; cbn; try discriminate; destruct sx; try destruct sy; cbn; discriminate. }
  destruct (is_finite y) eqn:Fy.
  2:{ split; [|intros (_ & C & _); discriminate]. destruct FT as (s & m & e & H & -> & ->).
      destruct y as [|sy| |]; try discriminate Fy; destruct x as [|sx| |]; try discriminate Fx; cbn; try discriminate; destruct sy; cbn; discriminate. }
  pose proof (Bminus_correct 53 1024 P53 L53 mode_NE x y Fx Fy) as M.
  change (round radix2 (SpecFloat.fexp 53 1024) (round_mode mode_NE) (B2R x - B2R y)) with (RN (B2R x - B2R y)) in M.
  destruct (Rlt_bool (Rabs (RN (B2R x - B2R y))) (bpow radix2 1024)) eqn:O.
  - destruct M as (Mv & Mf & _).
    rewrite (Bcompare_correct 53 1024) by (rewrite ?is_finite_Babs; auto). rewrite B2R_Babs, Mv, Tv.
    destruct (Rcompare_spec (Rabs (RN (B2R x - B2R y))) (4611686018427388 * powerRZ 2 (-62))); split; auto; try discriminate; intros (_ & _ & K); lra.
  - split.
    + destruct M as [M _]. destruct FT as (s & m & e & H & -> & ->).
      destruct (Bminus mode_NE x y) as [s'|s'| |s' m' e' H']; cbn in M |- *; try discriminate.
    + intros (_ & _ & K). pose proof tol_small. unfold Rlt_bool in O.
      destruct (Rcompare_spec (Rabs (RN (B2R x - B2R y))) (bpow radix2 1024)); try discriminate O; lra.
Qed.

(** C42 in binary64: the helpers accept exactly the vectors whose pairs (in the
    common prefix) are finite and close after rounding; they panic otherwise. *)
Theorem C42_f64 : forall (a b : list f64) (ac bc : list (f64 * f64)),
  (F64_approx_eq a b = Ok tt <-> forall x y, paired a b x y -> f64_close x y) /\
  (F64_approx_eq a b = Panic <-> exists x y, paired a b x y /\ ~ f64_close x y) /\
  (F64_approx_eq_complex ac bc = Ok tt <->
     forall x y, paired ac bc x y -> f64_close (fst x) (fst y) \/ f64_close (snd x) (snd y)) /\
  (F64_approx_eq_complex ac bc = Panic <->
     exists x y, paired ac bc x y /\ ~ f64_close (fst x) (fst y) /\ ~ f64_close (snd x) (snd y)).
Proof.
  intros a b ac bc. unfold F64_approx_eq, F64_approx_eq_complex. split; [|split; [|split]].
  - destruct (approx_gen (@nsub f64 _) (@Babs 53 1024) f64_lt f64_tol a b) as [[-> K]|[-> (x & y & P & K)]]; split; auto; try discriminate.
    + intros _ x y P. apply f64_test. auto.
    + intros H. specialize (H x y P). apply f64_test in H. (rewrite K in H; discriminate H).
  - destruct (approx_gen (@nsub f64 _) (@Babs 53 1024) f64_lt f64_tol a b) as [[-> K]|[-> (x & y & P & K)]]; split; auto; try discriminate.
    + intros (x & y & P & H). exfalso. apply H. apply f64_test. auto.
    + intros _. exists x, y. split; auto. intros C. apply f64_test in C. rewrite K in C. discriminate C.
  - destruct (approx_gen_c (@nsub f64 _) (@Babs 53 1024) f64_lt f64_tol ac bc) as [[-> K]|[-> (x & y & P & K)]]; split; auto; try discriminate.
    + intros _ x y P. rewrite <- !f64_test. apply orb_true_iff. auto.
    + intros H. specialize (H x y P). rewrite <- !f64_test in H. apply orb_true_iff in H. rewrite K in H. discriminate H.
  - destruct (approx_gen_c (@nsub f64 _) (@Babs 53 1024) f64_lt f64_tol ac bc) as [[-> K]|[-> (x & y & P & K)]]; split; auto; try discriminate.
    + intros (x & y & P & H1 & H2). exfalso. specialize (K x y P). apply orb_true_iff in K. rewrite !f64_test in K. tauto.
    + intros _. exists x, y. split; auto. apply orb_false_iff in K as [K1 K2]. split; intros C; apply f64_test in C; [rewrite K1 in C|rewrite K2 in C]; discriminate C.
Qed.
Print Assumptions C42_f64.
(** Hence in binary64: what is accepted is finite and truly (before rounding)
    closer than the double 1e-3; NaN and infinities are always rejected; and a
    difference of 0.0009 or less is always accepted. *)
Theorem C42_f64_sound : forall x y : f64, f64_close x y ->
  is_finite x = true /\ is_finite y = true /\ Rabs (B2R x - B2R y) < 4611686018427388 * powerRZ 2 (-62).
Proof.
  intros x y (Fx & Fy & H). repeat split; auto. destruct (Rlt_or_le (Rabs (B2R x - B2R y)) (4611686018427388 * powerRZ 2 (-62))) as [L|L]; auto. exfalso.
  apply (Rlt_irrefl (4611686018427388 * powerRZ 2 (-62))). eapply Rle_lt_trans; [|exact H].
  destruct tol_val as [Tv Tf].
  unfold RN. rewrite <- round_NE_abs by (apply FLT_exp_valid; reflexivity).
  apply round_ge_generic; auto using valid_rnd_N. apply FLT_exp_valid; reflexivity.
  rewrite <- Tv. apply (generic_format_B2R 53 1024 f64_tol).
Qed.
Print Assumptions C42_f64_sound.
Theorem C42_f64_accepts : forall x y : f64, is_finite x = true -> is_finite y = true -> Rabs (B2R x - B2R y) <= 9 / 10000 -> f64_close x y.
Proof.
  intros x y Fx Fy H. split; auto. split; auto.
  set (c := 4147 * bpow radix2 (-22)).
  assert (Hc : 9 / 10000 <= c < 4611686018427388 * powerRZ 2 (-62)) by (unfold c; rewrite bp; simpl; lra).
  apply Rle_lt_trans with c; [|apply Hc].
  unfold RN. rewrite <- round_NE_abs by (apply FLT_exp_valid; reflexivity).
  apply round_le_generic. apply FLT_exp_valid; reflexivity. apply valid_rnd_N.
  - apply generic_format_FLT. exists (Float radix2 4147 (-22)); cbn. reflexivity. reflexivity. discriminate.
  - lra.
Qed.
Print Assumptions C42_f64_accepts.

Lemma round_same x : Rabs (x - x) < 1 / 1000.
Proof. rewrite Rminus_eq_0, Rabs_R0. lra. Qed.
Example C42_nonvacuous :
  R_approx_eq [1; 2] [1 + 1 / 2000; 2] = Ok tt /\ R_approx_eq [1; 2] [1; 3] = Panic /\
  R_approx_eq_complex [(1, 2)] [(3, 4)] = Panic /\
  F64_approx_eq [n1; nofZ 2%Z] [n1; nofZ 2%Z] = Ok tt /\ F64_approx_eq [n1; B754_nan] [n1; B754_nan] = Panic.
Proof.
  split; [|split; [|split; [|split]]].
  - apply C42_approx_eq. intros x y P. apply paired_cons in P as [[-> ->]|P].
    + rewrite Rabs_minus_sym, Rabs_pos_eq; lra.
    + apply paired_cons in P as [[-> ->]|P]. apply round_same. destruct (paired_nil_l _ _ _ P).
  - apply C42_approx_eq. exists 2, 3. split. exists 1%nat; auto. rewrite Rabs_minus_sym, Rabs_pos_eq; lra.
  - apply C42_approx_eq_complex. exists (1, 2), (3, 4). split. exists 0%nat; auto. cbn [fst snd].
    rewrite Rabs_minus_sym, Rabs_pos_eq, Rabs_minus_sym, Rabs_pos_eq; lra.
  - vm_compute. reflexivity.
  - vm_compute. reflexivity.
Qed.
