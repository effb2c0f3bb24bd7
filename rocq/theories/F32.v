(** Single precision: the conversion [x as f32] (A::from_f64), and what the
    library computes in f64 and then converts. *)
From Coq Require Import List Arith Lia Bool ZArith Reals Lra.
From Flocq Require Import Core BinarySingleNaN Relative.
From Verif Require Import Base Num Cheb Compo Stencils Fourier FourierF64 Rounding MatRel MatF64.
Import ListNotations.
Local Open Scope R_scope.
(** precision of binary32 *)
#[local] Instance P24s : Prec_gt_0 24 := eq_refl.
(** exponent range of binary32 *)
#[local] Instance L24s : Prec_lt_emax 24 128 := eq_refl.

Notation rnd32 := (ieee_rnd 24 128).
Notation u32 := (bpow radix2 (-24)).

(** [x as f32]: nearest, ties to even; too large becomes an infinity
    (num_traits' FromPrimitive::from_f64 for f32, used by every A::from_f64) *)
Definition to_f32 (x : f64) : f32 :=
  match x with
  | B754_zero s => B754_zero s
  | B754_infinity s => B754_infinity s
  | B754_nan => B754_nan
  | B754_finite s m e _ => binary_normalize 24 128 P24s L24s mode_NE (cond_Zopp s (Zpos m)) e s
  end.

Lemma rnd32_le x k : (-120 <= k <= 127)%Z -> Rabs x <= bpow radix2 k -> Rabs (rnd32 x) <= bpow radix2 k /\ ieee_inr 128 (rnd32 x).
Proof.
  intros Hk Hx. assert (H : Rabs (rnd32 x) <= bpow radix2 k).
  { unfold ieee_rnd. apply abs_round_le_generic; auto with typeclass_instances. apply generic_format_bpow. unfold FLT_exp. lia. }
  split; auto. unfold ieee_inr. eapply Rle_lt_trans. exact H. apply bpow_lt. lia.
Qed.
Lemma rnd32_opp x : rnd32 (- x) = - rnd32 x.
Proof. apply round_NE_opp. Qed.
Lemma rnd32_0 : rnd32 0 = 0.
Proof. apply round_0; auto with typeclass_instances. Qed.
Lemma rnd32_mono x y : x <= y -> rnd32 x <= rnd32 y.
Proof. intros H. unfold ieee_rnd. apply round_le; auto with typeclass_instances. Qed.
Lemma rnd32_rel x : bpow radix2 (-126) <= Rabs x -> Rabs (rnd32 x - x) <= u32 * Rabs x.
Proof.
  intros H. unfold ieee_rnd. eapply Rle_trans. apply (relative_error_N_FLT radix2 (3 - 128 - 24) 24 eq_refl (fun z => negb (Z.even z)) x).
  eapply Rle_trans. 2: exact H. apply bpow_le. lia.
  replace (/ 2 * bpow radix2 (- (24) + 1)) with u32. lra.
  rewrite bpow_plus. change (bpow radix2 1) with 2. change (- (24))%Z with (-24)%Z. lra.
Qed.

Lemma to_f32_spec x : f64_fin x -> Rabs (f64_val x) <= bpow radix2 127 ->
  f32_fin (to_f32 x) /\ f32_val (to_f32 x) = rnd32 (f64_val x).
Proof.
  intros F B. destruct (rnd32_le _ 127 ltac:(lia) B) as [_ I]. destruct x as [s|s| |s m e He]; try discriminate.
  - split. reflexivity. unfold f64_val. cbn [B2R to_f32 f32_val]. unfold f32_val. cbn [B2R]. rewrite rnd32_0. reflexivity.
  - pose proof (binary_normalize_correct 24 128 P24s L24s mode_NE (cond_Zopp s (Zpos m)) e s) as H. cbv zeta in H.
    change (F2R (Float radix2 (cond_Zopp s (Zpos m)) e)) with (f64_val (B754_finite s m e He)) in H.
    change (round radix2 (SpecFloat.fexp 24 128) (round_mode mode_NE) (f64_val (B754_finite s m e He))) with (rnd32 (f64_val (B754_finite s m e He))) in H.
    rewrite Rlt_bool_true in H by exact I. destruct H as (H1 & H2 & _). split; auto.
Qed.

Lemma u32_small : 0 < u32 <= / 10000000 /\ u64 = u32 * bpow radix2 (-29).
Proof. change u32 with (/ 16777216). split. lra. change (/ 16777216) with u32. rewrite <- bpow_plus. reflexivity. Qed.

(** entries of a matrix computed in f64 within 3 * 2^-53, then converted *)
Lemma to_f32_ent a x : ent a x -> f32_fin (to_f32 a) /\ Rabs (f32_val (to_f32 a) - x) <= (u32 + bpow radix2 (-50)) * Rabs x.
Proof.
  intros H. pose proof (ent_size a x H) as S. destruct H as (F & E & M).
  destruct (to_f32_spec a F) as [F' V].
  { destruct S as [S|[_ S]]. rewrite S, Rabs_R0. apply bpow_ge_0. eapply Rle_trans. exact S. apply bpow_le; lia. }
  split; auto. rewrite V. set (y := f64_val a) in *. pose proof (Rabs_pos x).
  assert (R : Rabs (rnd32 y - y) <= u32 * Rabs y).
  { destruct S as [S|[S _]]. rewrite S, rnd32_0, Rminus_0_r, Rabs_R0. pose proof (bpow_ge_0 radix2 (-24)). lra.
    apply rnd32_rel. eapply Rle_trans. 2: exact S. apply bpow_le; lia. }
  assert (Y : Rabs y <= Rabs x + 3 * u64 * Rabs x).
  { replace y with ((y - x) + x) by ring. eapply Rle_trans. apply Rabs_triang. lra. }
  replace (rnd32 y - x) with ((rnd32 y - y) + (y - x)) by ring. eapply Rle_trans. apply Rabs_triang.
  change u32 with (/ 16777216) in *. change u64 with (/ 9007199254740992) in *. change (bpow radix2 (-50)) with (/ 1125899906842624). nra.
Qed.

(** ** The code at A = f32 *)
(** [Chebyshev::<f32>::diffmat] and [diffmat_pinv]: ortho.rs:88-138, 157-248, 294-316
    (computed in f64, then [mapv(|elem| A::from_f64(elem).unwrap())]) *)
Definition cheb_diffmat32 (bm : bmode) (c : cheb) (d : nat) : res (list (list f32)) :=
  let* M := cheb_diffmat (A := f64) bm c d in Ok (map (map to_f32) M).
(** chebyshev/ortho.rs:310-313 *)
Definition cheb_diffmat_pinv32 (bm : bmode) (c : cheb) (d : nat) : res (list (list f32) * list (list f32)) :=
  let* PE := cheb_diffmat_pinv (A := f64) bm c d in Ok (map (map to_f32) (fst PE), map (map to_f32) (snd PE)).
(** [Chebyshev::<f32>::nodes]: ortho.rs:64-79 (the argument in f64, converted; then the sine of f32) *)
Definition cheb_nodes32 (sin32 : f32 -> f32) (n : nat) : res (list f32) :=
  let* m1 := usub n 1 in
  let m := nofN m1 : f64 in
  Ok (map (fun k =>
        let arg := to_f32 (ndiv (nmul pi64 (nsub m (nmul (nofZ 2%Z) (nofN k)))) (nmul (nofZ 2%Z) m)) in
        nmul (nopp n1) (sin32 arg)) (seq 0 n)).
(** [FourierR2c::<f32>::nodes], [FourierC2c::<f32>::nodes]: r2c.rs:49-54, c2c.rs:48-53 *)
Definition fourier_nodes32 (n : nat) : list f32 := map to_f32 (nodes64 n).
(** [stencil()] of a composite base at f32: stencils.rs:80-87, 227-248, 311-327, 390-407;
    the entries of all but the Neumann base are computed in f64 and converted *)
Definition compo_stencil32 (k : skind) (n : nat) : res (list (list f32)) :=
  let* p := compo_new (A := f64) k n in
  let* M := compo_stencil p in Ok (map (map to_f32) M).

Lemma map_map_at (f : f64 -> f32) (M : list (list f64)) r c : mat_dims M r c -> mat_dims (map (map f) M) r c /\
  forall i j, (i < r)%nat -> (j < c)%nat -> (map (map f) M).[i].[j] = f M.[i].[j].
Proof.
  intros [L H]. assert (X : forall i, (i < r)%nat -> (map (map f) M).[i] = map f M.[i]).
  { intros i Hi. unfold at_. rewrite (nth_indep _ _ (map f dflt)) by (rewrite map_length; lia). apply map_nth. }
  split. split. rewrite map_length; auto. intros i Hi. rewrite X by auto. rewrite map_length; auto.
  intros i j Hi Hj. rewrite X by auto. unfold at_ at 1. rewrite (nth_indep _ _ (f dflt)) by (rewrite map_length; rewrite H; auto).
  rewrite map_nth. reflexivity.
Qed.
