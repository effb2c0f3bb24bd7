(** C59: in f64 `gradient` of Space1, Space2 and Space3 neither overflows nor
    strays: every coefficient it returns is finite and close to that of the exact
    derivative, for every order of differentiation.  The exact derivatives are
    those of GradSpec.v. *)
From Coq Require Import List Arith ZArith Reals Bool Lra Lia.
From Flocq Require Import Core BinarySingleNaN.
From Verif Require Import Base Num Linalg Stencils ChebPoly ChebGrad Cheb ChebFacts Compo CompoProofs Fourier FourierF64 FourierFacts FourierProofs Bases BaseLin LibBase NdArray NdArrayFacts AxisFacts AxisProps PropAxis SpaceFacts SpaceBases SpaceStages SpaceOrder Space PropSpace PropSpace2 PropSpace3 PropSpace4 PropElements
  ExtLib AnyArith ExtFacts AnyBase PropAny PropAny2 Rounding LibAcc LibIdeal RndCheb RndFft RndR2c RndFinite2 RndDirichlet RndNeumann RndGrad PropRound PropRound2 PropRound4 PropTrans2 RndAxis RndOps RndAxis2 RndOps2 SpaceAcc RndSpace PropTrans3 SpaceAcc2 PropTrans4 SpaceVal RndVal RndVal2 PropTrans5 GradSpec GradOp RndGrad3 RndGrad4 RndGrad5 RndGrad6.
Import ListNotations.
Local Open Scope R_scope.
Local Notation u64 := (bpow radix2 (-53)).
Local Notation eta64 := (bpow radix2 (-1075)).

(** ** The maps of GradSpec.v are derivatives *)
Lemma cheb_d_deriv n c x : derivable_pt_lim (fun x => rsum n (fun k => c k * TT k x)) x (rsum n (fun k => cheb_d n c k * TT k x)).
Proof.
  set (a := fun k => if (k <? n)%nat then c k else 0). assert (AE : forall k, (k < n)%nat -> a k = c k) by (intros k Hk; unfold a; apply Nat.ltb_lt in Hk; rewrite Hk; auto).
  assert (A0 : forall k, (n <= k)%nat -> a k = 0) by (intros k Hk; unfold a; destruct (Nat.ltb_spec k n); auto; lia).
  assert (GE : forall k, (n <= k + 1)%nat -> gsum n c k = 0) by (intros; apply gsum_end; auto).
  eapply (dlim_ext (pevalf n a)); [| |apply (grad_rec_deriv n a (cheb_d n c))]; auto.
  - intros y. apply rsum_ext. intros k Hk. rewrite AE; auto.
  - intros k Hk. rewrite cheb_d_gsum, GE by lia. ring.
  - assert (ST : forall k, gsum n c k = 2 * INR (k + 1) * a (k + 1)%nat + gsum n c (k + 2)).
    { intros k. destruct (lt_dec (k + 1) n). rewrite gsum_step, AE by auto. auto. rewrite !GE, A0 by lia. ring. }
    split.
    + rewrite !cheb_d_gsum. cbn [Nat.eqb]. rewrite (ST 0%nat). cbn [Nat.add INR]. field.
    + intros k Hk. rewrite !cheb_d_gsum. destruct (Nat.eqb_spec k 0); [lia|]. destruct (Nat.eqb_spec (k + 2) 0); [lia|]. rewrite (ST k). ring.
Qed.
Lemma fourier_deriv m c x :
  derivable_pt_lim (fun x => rsum m (fun k => fst (c k) * cos (INR k * x) - snd (c k) * sin (INR k * x))) x
    (rsum m (fun k => fst (fourier_derivative c k) * cos (INR k * x) - snd (fourier_derivative c k) * sin (INR k * x))) /\
  derivable_pt_lim (fun x => rsum m (fun k => fst (c k) * sin (INR k * x) + snd (c k) * cos (INR k * x))) x
    (rsum m (fun k => fst (fourier_derivative c k) * sin (INR k * x) + snd (fourier_derivative c k) * cos (INR k * x))).
Proof.
  assert (DC : forall k : nat, derivable_pt_lim (fun x => cos (INR k * x)) x (- INR k * sin (INR k * x))).
  { intros k. eapply dlim_ext; [| |apply (derivable_pt_lim_comp (fun x => INR k * x) cos x (INR k * 1) (- sin (INR k * x)))]. reflexivity. ring. apply derivable_pt_lim_scal, derivable_pt_lim_id. apply derivable_pt_lim_cos. }
  assert (DS : forall k : nat, derivable_pt_lim (fun x => sin (INR k * x)) x (INR k * cos (INR k * x))).
  { intros k. eapply dlim_ext; [| |apply (derivable_pt_lim_comp (fun x => INR k * x) sin x (INR k * 1) (cos (INR k * x)))]. reflexivity. ring. apply derivable_pt_lim_scal, derivable_pt_lim_id. apply derivable_pt_lim_sin. }
  assert (D1 : forall k : nat, derivable_pt_lim (fun x => fst (c k) * cos (INR k * x) - snd (c k) * sin (INR k * x)) x (fst (fourier_derivative c k) * cos (INR k * x) - snd (fourier_derivative c k) * sin (INR k * x))).
  { intros k. eapply dlim_ext; [| |apply (derivable_pt_lim_minus (fun x => fst (c k) * cos (INR k * x)) (fun x => snd (c k) * sin (INR k * x))); [apply derivable_pt_lim_scal, DC|apply derivable_pt_lim_scal, DS]]. reflexivity. unfold fourier_derivative. cbn [fst snd]. ring. }
  assert (D2 : forall k : nat, derivable_pt_lim (fun x => fst (c k) * sin (INR k * x) + snd (c k) * cos (INR k * x)) x (fst (fourier_derivative c k) * sin (INR k * x) + snd (fourier_derivative c k) * cos (INR k * x))).
  { intros k. eapply dlim_ext; [| |apply (derivable_pt_lim_plus (fun x => fst (c k) * sin (INR k * x)) (fun x => snd (c k) * cos (INR k * x))); [apply derivable_pt_lim_scal, DS|apply derivable_pt_lim_scal, DC]]. reflexivity. unfold fourier_derivative. cbn [fst snd]. ring. }
  split; induction m as [|m IH]; try apply (derivable_pt_lim_const 0).
  - exact (derivable_pt_lim_plus _ _ _ _ _ IH (D1 m)).
  - exact (derivable_pt_lim_plus _ _ _ _ _ IH (D2 m)).
Qed.
Theorem C59_exact_maps_are_derivatives :
  (forall n d c, nth_deriv d (fun x => rsum n (fun k => fst (c k) * TT k x)) (fun x => rsum n (fun k => fst (times d (cheb_derivative n) c k) * TT k x)) /\
                 nth_deriv d (fun x => rsum n (fun k => snd (c k) * TT k x)) (fun x => rsum n (fun k => snd (times d (cheb_derivative n) c k) * TT k x))) /\
  (forall n q c x, (2 <= n)%nat -> rsum n (fun k => fst (compo_ortho n q c k) * TT k x) = rsum (n - 2) (fun k => fst (c k) * (TT k x - q k * TT (k + 2) x)) /\
                                   rsum n (fun k => snd (compo_ortho n q c k) * TT k x) = rsum (n - 2) (fun k => snd (c k) * (TT k x - q k * TT (k + 2) x))) /\
  (forall m d c, let re c x := rsum m (fun k => fst (c k) * cos (INR k * x) - snd (c k) * sin (INR k * x)) in
                 let im c x := rsum m (fun k => fst (c k) * sin (INR k * x) + snd (c k) * cos (INR k * x)) in
                 nth_deriv d (re c) (re (times d fourier_derivative c)) /\ nth_deriv d (im c) (im (times d fourier_derivative c))) /\
  (forall k t, TT k (cos t) = cos (INR k * t)).
Proof.
  split; [|split; [|split]].
  - intros n d c. split; (induction d as [|d IH]; [intros x; reflexivity|]); (eapply nth_deriv_snoc; [exact IH|]); intros x; cbn [times]; unfold cheb_derivative at 2; cbn [fst snd]; apply cheb_d_deriv.
  - intros n q c x Hn. split; [exact (stencil_sum n q (fun k => fst (c k)) (fun k => TT k x) Hn)|exact (stencil_sum n q (fun k => snd (c k)) (fun k => TT k x) Hn)].
  - intros m d c re im. split; (induction d as [|d IH]; [intros x; reflexivity|]); (eapply nth_deriv_snoc; [exact IH|]); intros x; cbn [times]; apply fourier_deriv.
  - intros. apply TT_cos.
Qed.
Print Assumptions C59_exact_maps_are_derivatives.

(** In every arithmetic: `gradient` of Space3 applies its first base along the first
    axis, and its second base along the second and the third (space3.rs:331-338;
    see C31). *)
Theorem C53_space3_gradient :
  forall A (N : Num A) (Z0 : EqZ A) (E : ext A), ext_ok E -> is0 (n0 (A := A)) = true ->
  forall P I J S T (b0 : base_ops J S T) (b1 : base_ops I J T) (b2 : base_ops P I T), any_usable E J S T b0 -> any_usable E I J T b1 ->
  forall (dT : Dflt T) A' (N' : Num A') (D : DivInto A' T) zo, zip_ok zo -> let sp := mk_space3 b0 b1 b2 in
  forall d0 d1 d2, total_gradient b0 d0 -> total_gradient b1 d1 -> total_gradient b1 d2 -> forall a, proper (s3_shape_spectral sp) a ->
  (len_spec b2 <> len_spec b1 -> forall s : option (A' * A' * A'), s3_gradient zo sp a d0 d1 d2 s = Panic) /\
  (len_spec b2 = len_spec b1 -> exists m m' r, s3_gradient zo sp a d0 d1 d2 (None (A := A' * A' * A')) = Ok r /\ proper [len_orth b0; len_orth b1; len_orth b1] r /\
    axis_op (grad b0 d0) (len_orth b0) 0 a m /\ axis_op (grad b1 d1) (len_orth b1) 1 m m' /\ axis_op (grad b1 d2) (len_orth b1) 2 m' r).
Proof.
  intros A NN Z0 EX HE HZ P I J S T b0 b1 b2 U0 U1 dT A' N' D zo Hz sp d0 d1 d2 T0 T1 T2 a Ha. pose (VT := deg dT : Vec R T). pose proof Ha as (Sa & Ta & Wa).
  pose proof (any_grad_linop EX HE HZ J S T b0 d0 dT U0 T0) as L0. pose proof (any_grad_linop EX HE HZ I J T b1 d1 dT U1 T1) as L1. pose proof (any_grad_linop EX HE HZ I J T b1 d2 dT U1 T2) as L2.
  destruct (axop_runs (grad b0 d0) (len_spec b0) (len_orth b0) zo a 0 L0 Hz Ta) as (m & Em & Am); [rewrite Sa; reflexivity|].
  assert (Pm : proper [len_orth b0; len_spec b1; len_spec b2] m) by exact (proper_op _ _ _ _ _ _ _ Am Ha eq_refl). pose proof Pm as (Sm & Tm & Wm).
  destruct (axop_runs (grad b1 d1) (len_spec b1) (len_orth b1) zo m 1 L1 Hz Tm) as (m' & Em' & Am'); [rewrite Sm; reflexivity|].
  assert (Pm' : proper [len_orth b0; len_orth b1; len_spec b2] m') by exact (proper_op _ _ _ _ _ _ _ Am' Pm eq_refl). pose proof Pm' as (Sm' & Tm' & Wm').
  unfold s3_gradient. cbn [sp s3_base0 s3_base1]. rewrite gradient_axop, Em. cbn [bind]. rewrite gradient_axop, Em'. cbn [bind]. rewrite gradient_axop.
  split.
  - intros NE s. rewrite axop_no. reflexivity. left. rewrite Sm'. cbn. congruence.
  - intros EQ. destruct (axop_runs (grad b1 d2) (len_spec b1) (len_orth b1) zo m' 2 L2 Hz Tm') as (r & E & Ar); [rewrite Sm'; cbn; congruence|].
    rewrite E. cbn [bind]. exists m, m', r. split; auto. split; auto. exact (proper_op _ _ _ _ _ _ _ Ar Pm' eq_refl).
Qed.
Print Assumptions C53_space3_gradient.

(** ** The spaces *)
Lemma space1_gradient_close :
  forall E : ext f64, ext_ok E -> forall d K0 L0 F0 P S T (b0 : base_ops P S T) (e : fel T),
  f64_gradient E d K0 L0 P S T b0 e F0 -> L0 * bpow radix2 (-53) <= / 100 ->
  forall (dP : Dflt P) (dS : Dflt S) (dT : Dflt T) A' (N' : Num A') (D : DivInto A' T) zo, zip_ok zo ->
  let sp := mk_space1 b0 in let n0 := len_phys b0 in let m0 := len_spec b0 in let o0 := len_orth b0 in
  forall a : arr T, proper [m0] a -> (forall p, (p < m0)%nat -> ef e (get a [p])) ->
  let Sum := rsum m0 (fun p => esize e (get a [p])) in K0 * (1 + Sum) <= bpow radix2 900 ->
  exists y, s1_gradient zo sp a d (None (A := A')) = Ok y /\ proper [o0] y /\
    forall i, (i < o0)%nat -> close e (get y [i]) (F0 (fun p => ev e (get a [p])) i) (L0 * bpow radix2 (-53)) K0 Sum (L0 * K0 * INR n0 * bpow radix2 (-1075)).
Proof.
  intros E HE d K0 L0 F0 P S T b0 e H0 HL0 dP dS dT A' N' D zo HZ sp n0 m0 o0 a Pa Fa Sum Sa.
  destruct (C53_space1_gradient f64 _ _ E HE eq_refl P S T b0 (gradient_usable _ _ _ _ _ _ _ _ _ _ H0) dP dS dT A' N' D zo HZ d (gradient_total _ _ _ _ _ _ _ _ _ _ H0) a Pa) as (y & Ey & Py & Ay).
  exists y. split; [exact Ey|]. split; [exact Py|]. intros i Hi. pose proof (gradient_acc _ _ _ _ _ _ _ _ _ _ H0 HL0) as A0. pose proof (proj1 Pa) as Sha.
  assert (R0 : rows (fun _ : unit => True) (grad b0 d) m0 o0 (fun _ x => get a [x]) (fun _ x => get y [x])).
  { axr a y (fun _ : unit => @nil nat) (fun _ : unit => @nil nat). rewrite Sha. reflexivity. rewrite Sha. vrow. }
  destruct (ga1 _ _ _ _ _ _ _ _ _ (fun x => get a [x]) (fun x => get y [x]) A0 HL0 R0 (fun p Qp => Fa p Qp) ltac:(eapply Rle_trans; [exact Sa|apply bpow_le; lia]) i Hi) as (FY & EY & KY).
  split; [exact FY|]. split; [|exact KY]. eapply Rle_trans; [exact EY|]. right. unfold Sum, esize, cn, n0, m0. ring.
Qed.
Theorem C59_space1_gradient_f64 :
  forall E : ext f64, ext_ok E -> forall d K0 L0 F0 P S T (b0 : base_ops P S T) (e : fel T),
  f64_gradient E d K0 L0 P S T b0 e F0 -> L0 * bpow radix2 (-53) <= / 100 ->
  forall (dP : Dflt P) (dS : Dflt S) (dT : Dflt T) A' (N' : Num A') (D : DivInto A' T) zo, zip_ok zo ->
  let sp := mk_space1 b0 in let n0 := len_phys b0 in let m0 := len_spec b0 in let o0 := len_orth b0 in
  forall a : arr T, proper [m0] a -> (forall p, (p < m0)%nat -> ef e (get a [p])) ->
  let Sum := rsum m0 (fun p => esize e (get a [p])) in K0 * (1 + Sum) <= bpow radix2 900 ->
  exists y, s1_gradient zo sp a d (None (A := A')) = Ok y /\ proper [o0] y /\
    forall i, (i < o0)%nat -> ef e (get y [i]) /\
      edist e (get y [i]) (F0 (fun p => ev e (get a [p])) i) <= L0 * K0 * bpow radix2 (-53) * Sum + L0 * K0 * INR n0 * bpow radix2 (-1075).
Proof.
  intros E HE d K0 L0 F0 P S T b0 e H0 HL0 dP dS dT A' N' D zo HZ sp n0 m0 o0 a Pa Fa Sum Sa.
  destruct (space1_gradient_close E HE d K0 L0 F0 P S T b0 e H0 HL0 dP dS dT A' N' D zo HZ a Pa Fa Sa) as (y & Ey & Py & H).
  exists y. split; [exact Ey|]. split; [exact Py|]. intros i Hi. destruct (H i Hi) as (FY & EY & _). split; [exact FY|]. eapply Rle_trans; [exact EY|]. right. fold m0 n0. fold Sum. ring.
Qed.
Print Assumptions C59_space1_gradient_f64.

Lemma space2_gradient_close :
  forall E : ext f64, ext_ok E -> forall d0 d1 K0 L0 F0 K1 L1 F1 P I S T (b0 : base_ops I S T) (b1 : base_ops P I T) (e : fel T),
  f64_gradient E d0 K0 L0 I S T b0 e F0 -> L0 * bpow radix2 (-53) <= / 100 -> f64_gradient E d1 K1 L1 P I T b1 e F1 -> L1 * bpow radix2 (-53) <= / 100 ->
  forall (dP : Dflt P) (dI : Dflt I) (dS : Dflt S) (dT : Dflt T) A' (N' : Num A') (D : DivInto A' T) zo, zip_ok zo ->
  let sp := mk_space2 b0 b1 in let n0 := len_phys b0 in let m0 := len_spec b0 in let o0 := len_orth b0 in let n1 := len_phys b1 in let m1 := len_spec b1 in let o1 := len_orth b1 in
  forall a : arr T, proper [m0; m1] a -> (forall p q, (p < m0)%nat -> (q < m1)%nat -> ef e (get a [p; q])) ->
  let Sum := rsum m0 (fun p => rsum m1 (fun q => esize e (get a [p; q]))) in K0 * K1 * (1 + Sum) <= bpow radix2 900 ->
  exists y, s2_gradient zo sp a d0 d1 (None (A := A' * A')) = Ok y /\ proper [o0; o1] y /\
    forall i j, (i < o0)%nat -> (j < o1)%nat -> close e (get y [i; j]) (F1 (fun q => F0 (fun p => ev e (get a [p; q])) i) j) (21 / 20 * (L0 + L1) * bpow radix2 (-53)) (K0 * K1) Sum (L0 * L1 * (K0 * K1) * (INR n0 * INR n1) * bpow radix2 (-1075)).
Proof.
  intros E HE d0 d1 K0 L0 F0 K1 L1 F1 P I S T b0 b1 e H0 HL0 H1 HL1 dP dI dS dT A' N' D zo HZ sp n0 m0 o0 n1 m1 o1 a Pa Fa Sum Sa.
  destruct (C53_space2_gradient f64 _ _ E HE eq_refl P I S T b0 b1 (gradient_usable _ _ _ _ _ _ _ _ _ _ H0) (gradient_usable _ _ _ _ _ _ _ _ _ _ H1) dP dI dS dT A' N' D zo HZ d0 d1 (gradient_total _ _ _ _ _ _ _ _ _ _ H0) (gradient_total _ _ _ _ _ _ _ _ _ _ H1) a Pa) as (z & y & Ey & Py & Az & Ay).
  exists y. split; [exact Ey|]. split; [exact Py|]. intros i j Hi Hj. pose proof (gradient_acc _ _ _ _ _ _ _ _ _ _ H0 HL0) as A0. pose proof (gradient_acc _ _ _ _ _ _ _ _ _ _ H1 HL1) as A1.
  pose proof (proper_op _ _ _ _ _ _ _ Az Pa eq_refl) as Pz. pose proof (proj1 Pa) as Sha. pose proof (proj1 Pz) as Shz.
  assert (SW : Sum = rsum m1 (fun q => rsum m0 (fun p => cn (ev e (get a [p; q]))))).
  { unfold Sum. rewrite rsum_swap. reflexivity. }
  rewrite SW in Sa.
  assert (R0 : forall q, (q < m1)%nat -> rows (fun _ : unit => True) (grad b0 d0) m0 o0 (fun _ x => get a [x; q]) (fun _ x => get z [x; q])).
  { intros q Q0. axr a z (fun _ : unit => @nil nat) (fun _ : unit => [q]). rewrite Sha. reflexivity. rewrite Sha. vrow. }
  assert (R1 : forall p, (p < o0)%nat -> rows (fun _ : unit => True) (grad b1 d1) m1 o1 (fun _ x => get z [p; x]) (fun _ x => get y [p; x])).
  { intros p Q0. axr z y (fun _ : unit => [p]) (fun _ : unit => @nil nat). rewrite Shz. reflexivity. rewrite Shz. vrow. }
  destruct (ga2 _ _ _ _ _ _ _ _ _ _ _ _ _ _ _ _ _ (fun x v => get a [x; v]) (fun x v => get z [x; v]) (fun x v => get y [x; v]) A0 HL0 A1 HL1 R0 R1 (fun p q Qp Qq => Fa p q Qp Qq) Sa i j Hi Hj) as (FY & EY & KY).
  split; [exact FY|]. rewrite SW. split; [|exact KY]. eapply Rle_trans; [exact EY|]. right. unfold n0, m0, n1, m1. ring.
Qed.
Theorem C59_space2_gradient_f64 :
  forall E : ext f64, ext_ok E -> forall d0 d1 K0 L0 F0 K1 L1 F1 P I S T (b0 : base_ops I S T) (b1 : base_ops P I T) (e : fel T),
  f64_gradient E d0 K0 L0 I S T b0 e F0 -> L0 * bpow radix2 (-53) <= / 100 -> f64_gradient E d1 K1 L1 P I T b1 e F1 -> L1 * bpow radix2 (-53) <= / 100 ->
  forall (dP : Dflt P) (dI : Dflt I) (dS : Dflt S) (dT : Dflt T) A' (N' : Num A') (D : DivInto A' T) zo, zip_ok zo ->
  let sp := mk_space2 b0 b1 in let n0 := len_phys b0 in let m0 := len_spec b0 in let o0 := len_orth b0 in let n1 := len_phys b1 in let m1 := len_spec b1 in let o1 := len_orth b1 in
  forall a : arr T, proper [m0; m1] a -> (forall p q, (p < m0)%nat -> (q < m1)%nat -> ef e (get a [p; q])) ->
  let Sum := rsum m0 (fun p => rsum m1 (fun q => esize e (get a [p; q]))) in K0 * K1 * (1 + Sum) <= bpow radix2 900 ->
  exists y, s2_gradient zo sp a d0 d1 (None (A := A' * A')) = Ok y /\ proper [o0; o1] y /\
    forall i j, (i < o0)%nat -> (j < o1)%nat -> ef e (get y [i; j]) /\
      edist e (get y [i; j]) (F1 (fun q => F0 (fun p => ev e (get a [p; q])) i) j) <=
        21 / 20 * (L0 + L1) * (K0 * K1) * bpow radix2 (-53) * Sum + L0 * L1 * (K0 * K1) * (INR n0 * INR n1) * bpow radix2 (-1075).
Proof.
  intros E HE d0 d1 K0 L0 F0 K1 L1 F1 P I S T b0 b1 e H0 HL0 H1 HL1 dP dI dS dT A' N' D zo HZ sp n0 m0 o0 n1 m1 o1 a Pa Fa Sum Sa.
  destruct (space2_gradient_close E HE d0 d1 K0 L0 F0 K1 L1 F1 P I S T b0 b1 e H0 HL0 H1 HL1 dP dI dS dT A' N' D zo HZ a Pa Fa Sa) as (y & Ey & Py & H).
  exists y. split; [exact Ey|]. split; [exact Py|]. intros i j Hi Hj. destruct (H i j Hi Hj) as (FY & EY & _). split; [exact FY|]. eapply Rle_trans; [exact EY|]. right. fold m0 n0 m1 n1. fold Sum. ring.
Qed.
Print Assumptions C59_space2_gradient_f64.

(** Space3 differentiates along its third axis with its second base (C31), so the
    second base appears twice. *)
Lemma space3_gradient_close :
  forall E : ext f64, ext_ok E -> forall d0 d1 d2 K0 L0 F0 K1 L1 F1 K2 L2 F2 P I J S T (b0 : base_ops J S T) (b1 : base_ops I J T) (b2 : base_ops P I T) (e : fel T),
  f64_gradient E d0 K0 L0 J S T b0 e F0 -> L0 * bpow radix2 (-53) <= / 100 -> f64_gradient E d1 K1 L1 I J T b1 e F1 -> L1 * bpow radix2 (-53) <= / 100 ->
  f64_gradient E d2 K2 L2 I J T b1 e F2 -> L2 * bpow radix2 (-53) <= / 100 -> len_spec b2 = len_spec b1 ->
  forall (dT : Dflt T) A' (N' : Num A') (D : DivInto A' T) zo, zip_ok zo ->
  let sp := mk_space3 b0 b1 b2 in let n0 := len_phys b0 in let m0 := len_spec b0 in let o0 := len_orth b0 in let n1 := len_phys b1 in let m1 := len_spec b1 in let o1 := len_orth b1 in
  forall a : arr T, proper [m0; m1; m1] a -> (forall p q r, (p < m0)%nat -> (q < m1)%nat -> (r < m1)%nat -> ef e (get a [p; q; r])) ->
  let Sum := rsum m0 (fun p => rsum m1 (fun q => rsum m1 (fun r => esize e (get a [p; q; r])))) in K0 * K1 * K2 * (1 + Sum) <= bpow radix2 900 ->
  exists y, s3_gradient zo sp a d0 d1 d2 (None (A := A' * A' * A')) = Ok y /\ proper [o0; o1; o1] y /\
    forall i j k, (i < o0)%nat -> (j < o1)%nat -> (k < o1)%nat -> close e (get y [i; j; k]) (F2 (fun r => F1 (fun q => F0 (fun p => ev e (get a [p; q; r])) i) j) k) (11 / 10 * (L0 + L1 + L2) * bpow radix2 (-53)) (K0 * K1 * K2) Sum (L0 * L1 * L2 * (K0 * K1 * K2) * (INR n0 * INR n1 * INR n1) * bpow radix2 (-1075)).
Proof.
  intros E HE d0 d1 d2 K0 L0 F0 K1 L1 F1 K2 L2 F2 P I J S T b0 b1 b2 e H0 HL0 H1 HL1 H2 HL2 EQ dT A' N' D zo HZ sp n0 m0 o0 n1 m1 o1 a Pa Fa Sum Sa.
  assert (Pa' : proper (s3_shape_spectral sp) a) by (unfold s3_shape_spectral; cbn [sp s3_base0 s3_base1 s3_base2]; rewrite EQ; exact Pa).
  destruct (proj2 (C53_space3_gradient f64 _ _ E HE eq_refl P I J S T b0 b1 b2 (gradient_usable _ _ _ _ _ _ _ _ _ _ H0) (gradient_usable _ _ _ _ _ _ _ _ _ _ H1) dT A' N' D zo HZ d0 d1 d2 (gradient_total _ _ _ _ _ _ _ _ _ _ H0) (gradient_total _ _ _ _ _ _ _ _ _ _ H1) (gradient_total _ _ _ _ _ _ _ _ _ _ H2) a Pa') EQ) as (z & v & y & Ey & Py & Az & Av & Ay).
  exists y. split; [exact Ey|]. split; [exact Py|]. intros i j k Hi Hj Hk. pose proof (gradient_acc _ _ _ _ _ _ _ _ _ _ H0 HL0) as A0. pose proof (gradient_acc _ _ _ _ _ _ _ _ _ _ H1 HL1) as A1. pose proof (gradient_acc _ _ _ _ _ _ _ _ _ _ H2 HL2) as A2.
  pose proof (proper_op _ _ _ _ _ _ _ Az Pa eq_refl) as Pz. pose proof (proper_op _ _ _ _ _ _ _ Av Pz eq_refl) as Pv. pose proof (proj1 Pa) as Sha. pose proof (proj1 Pz) as Shz. pose proof (proj1 Pv) as Shv.
  assert (SW : Sum = rsum m1 (fun r => rsum m1 (fun q => rsum m0 (fun p => cn (ev e (get a [p; q; r])))))).
  { unfold Sum. erewrite rsum_ext; [|intros; apply rsum_swap]. rewrite rsum_swap. apply rsum_ext; intros. apply rsum_swap. }
  rewrite SW in Sa.
  assert (R0 : forall q r, (q < m1)%nat -> (r < m1)%nat -> rows (fun _ : unit => True) (grad b0 d0) m0 o0 (fun _ x => get a [x; q; r]) (fun _ x => get z [x; q; r])).
  { intros q r Q0 Q1. axr a z (fun _ : unit => @nil nat) (fun _ : unit => [q; r]). rewrite Sha. reflexivity. rewrite Sha. vrow. }
  assert (R1 : forall p r, (p < o0)%nat -> (r < m1)%nat -> rows (fun _ : unit => True) (grad b1 d1) m1 o1 (fun _ x => get z [p; x; r]) (fun _ x => get v [p; x; r])).
  { intros p r Q0 Q1. axr z v (fun _ : unit => [p]) (fun _ : unit => [r]). rewrite Shz. reflexivity. rewrite Shz. vrow. }
  assert (R2 : forall p q, (p < o0)%nat -> (q < o1)%nat -> rows (fun _ : unit => True) (grad b1 d2) m1 o1 (fun _ x => get v [p; q; x]) (fun _ x => get y [p; q; x])).
  { intros p q Q0 Q1. axr v y (fun _ : unit => [p; q]) (fun _ : unit => @nil nat). rewrite Shv. reflexivity. rewrite Shv. vrow. }
  destruct (ga3 _ _ _ _ _ _ _ _ _ _ _ _ _ _ _ _ _ _ _ _ _ _ _ _ _ (fun x w t => get a [x; w; t]) (fun x w t => get z [x; w; t]) (fun x w t => get v [x; w; t]) (fun x w t => get y [x; w; t]) A0 HL0 A1 HL1 A2 HL2 R0 R1 R2 (fun p q r Qp Qq Qr => Fa p q r Qp Qq Qr) Sa i j k Hi Hj Hk) as (FY & EY & KY).
  split; [exact FY|]. rewrite SW. split; [|exact KY]. eapply Rle_trans; [exact EY|]. right. unfold n0, m0, n1, m1. ring.
Qed.
Theorem C59_space3_gradient_f64 :
  forall E : ext f64, ext_ok E -> forall d0 d1 d2 K0 L0 F0 K1 L1 F1 K2 L2 F2 P I J S T (b0 : base_ops J S T) (b1 : base_ops I J T) (b2 : base_ops P I T) (e : fel T),
  f64_gradient E d0 K0 L0 J S T b0 e F0 -> L0 * bpow radix2 (-53) <= / 100 -> f64_gradient E d1 K1 L1 I J T b1 e F1 -> L1 * bpow radix2 (-53) <= / 100 ->
  f64_gradient E d2 K2 L2 I J T b1 e F2 -> L2 * bpow radix2 (-53) <= / 100 -> len_spec b2 = len_spec b1 ->
  forall (dT : Dflt T) A' (N' : Num A') (D : DivInto A' T) zo, zip_ok zo ->
  let sp := mk_space3 b0 b1 b2 in let n0 := len_phys b0 in let m0 := len_spec b0 in let o0 := len_orth b0 in let n1 := len_phys b1 in let m1 := len_spec b1 in let o1 := len_orth b1 in
  forall a : arr T, proper [m0; m1; m1] a -> (forall p q r, (p < m0)%nat -> (q < m1)%nat -> (r < m1)%nat -> ef e (get a [p; q; r])) ->
  let Sum := rsum m0 (fun p => rsum m1 (fun q => rsum m1 (fun r => esize e (get a [p; q; r])))) in K0 * K1 * K2 * (1 + Sum) <= bpow radix2 900 ->
  exists y, s3_gradient zo sp a d0 d1 d2 (None (A := A' * A' * A')) = Ok y /\ proper [o0; o1; o1] y /\
    forall i j k, (i < o0)%nat -> (j < o1)%nat -> (k < o1)%nat -> ef e (get y [i; j; k]) /\
      edist e (get y [i; j; k]) (F2 (fun r => F1 (fun q => F0 (fun p => ev e (get a [p; q; r])) i) j) k) <=
        11 / 10 * (L0 + L1 + L2) * (K0 * K1 * K2) * bpow radix2 (-53) * Sum + L0 * L1 * L2 * (K0 * K1 * K2) * (INR n0 * INR n1 * INR n1) * bpow radix2 (-1075).
Proof.
  intros E HE d0 d1 d2 K0 L0 F0 K1 L1 F1 K2 L2 F2 P I J S T b0 b1 b2 e H0 HL0 H1 HL1 H2 HL2 EQ dT A' N' D zo HZ sp n0 m0 o0 n1 m1 o1 a Pa Fa Sum Sa.
  destruct (space3_gradient_close E HE d0 d1 d2 K0 L0 F0 K1 L1 F1 K2 L2 F2 P I J S T b0 b1 b2 e H0 HL0 H1 HL1 H2 HL2 EQ dT A' N' D zo HZ a Pa Fa Sa) as (y & Ey & Py & H).
  exists y. split; [exact Ey|]. split; [exact Py|]. intros i j k Hi Hj Hk. destruct (H i j k Hi Hj Hk) as (FY & EY & _). split; [exact FY|]. eapply Rle_trans; [exact EY|]. right. fold m0 n0 m1 n1. fold Sum. ring.
Qed.
Print Assumptions C59_space3_gradient_f64.

(** ** Bases that meet the hypotheses *)
Theorem C59_gradients_exist :
  forall (E : ext f64) d n, (3 <= n)%nat ->
  (forall T V e, f64_scalar T V e -> exists b, new_chebyshev n = Ok b /\ f64_gradient E d (2 * INR n ^ (2 * d - 1)) (4 * INR (d + 1) * INR n) f64 f64 T (r2r_ops_x E b) e (times d (cheb_derivative n))) /\
  (exists b, new_chebyshev n = Ok b /\ f64_gradient E d (2 * INR n ^ (2 * d - 1)) (4 * INR (d + 1) * INR n) f64 f64 (cplx f64) (r2r_ops_x (V := vec_num_complex) E b) f64_cplx (times d (cheb_derivative n))) /\
  (forall T V e, f64_scalar T V e -> (5 <= n)%nat -> exists b, new_composite KDirichlet n = Ok b /\
     f64_gradient E d (4 * INR n ^ (2 * d - 1)) (4 * INR (d + 1) * INR n) f64 f64 T (r2r_ops_x E b) e (fun c => times d (cheb_derivative n) (compo_ortho n dir_q c))) /\
  (forall T V e, f64_scalar T V e -> (5 <= n)%nat -> (Z.of_nat n * Z.of_nat n <= 2 ^ 53)%Z -> exists b, new_composite KNeumann n = Ok b /\
     f64_gradient E d (4 * INR n ^ (2 * d - 1)) (4 * INR (d + 1) * INR n) f64 f64 T (r2r_ops_x E b) e (fun c => times d (cheb_derivative n) (compo_ortho n neu_q c))) /\
  (exists f, r2c_new n = Ok f /\ f64_gradient E d (INR (n / 2 + 1) ^ d) (4 * INR (d + 1) * INR n) f64 (cplx f64) (cplx f64) (r2c_ops_x E f) f64_cplx (times d fourier_derivative)) /\
  ((Z.of_nat (d + 1) * Z.of_nat n <= 2 ^ 44)%Z -> 4 * INR (d + 1) * INR n * bpow radix2 (-53) <= / 100).
Proof.
  intros E d n Hn. split; [|split; [|split; [|split; [|split]]]].
  - intros T V e Hs. pose proof (proj1 (C53_constructors f64 num_f64) n) as K. destruct (new_chebyshev n) as [b| |] eqn:Eb; [|cbn in K; lia|tauto]. exists b. split; auto. apply fg_chebyshev; auto.
  - pose proof (proj1 (C53_constructors f64 num_f64) n) as K. destruct (new_chebyshev n) as [b| |] eqn:Eb; [|cbn in K; lia|tauto]. exists b. split; auto. apply fg_num_complex; auto.
  - intros T V e Hs H5. pose proof (proj1 (proj2 (C53_constructors f64 num_f64)) KDirichlet n) as K. destruct (new_composite KDirichlet n) as [b| |] eqn:Eb; [|cbn in K; lia|tauto]. exists b. split; auto. apply fg_dirichlet; auto.
  - intros T V e Hs H5 HZ. pose proof (proj1 (proj2 (C53_constructors f64 num_f64)) KNeumann n) as K. destruct (new_composite KNeumann n) as [b| |] eqn:Eb; [|cbn in K; lia|tauto]. exists b. split; auto. apply fg_neumann; auto.
  - exists (mk_r2c n (n / 2 + 1)). assert (HB : r2c_new n = Ok (mk_r2c n (n / 2 + 1))). { unfold r2c_new. destruct (Nat.leb_spec 1 n); [reflexivity|lia]. } split; auto. apply fg_r2c; auto. lia.
  - intros HZ. apply IZR_le in HZ. rewrite mult_IZR, <- !INR_IZR_INZ in HZ. change (bpow radix2 (-53)) with (/ IZR (2 ^ 53)). cbv [Z.pow Z.pow_pos Pos.iter Z.mul Pos.mul] in *. lra.
Qed.
Print Assumptions C59_gradients_exist.

(** d^3/(dx dy^2) on Fourier (4 points) x Dirichlet (7 points), of the coefficients 0.1, 0.2, ... *)
Example C59_example_space2 :
  forall (E : ext f64), ext_ok E -> exists b1, let sp := mk_space2 (r2c_ops_x E (mk_r2c 4 3)) (r2r_ops_x E b1) in new_composite KDirichlet 7 = Ok b1 /\ exists zo, zip_ok zo /\
  exists y, s2_gradient zo sp coef35 1 2 (None (A := f64 * f64)) = Ok y /\
    forall i j, (i < 3)%nat -> (j < 7)%nat -> is_finite (fst (get y [i; j])) = true /\ is_finite (snd (get y [i; j])) = true /\
      edist f64_cplx (get y [i; j]) (times 2 (cheb_derivative 7) (compo_ortho 7 dir_q (fun q => fourier_derivative (fun p => ev f64_cplx (get coef35 [p; q])) i)) j) <= bpow radix2 (-28).
Proof.
  intros E HE. destruct (C59_gradients_exist E 2 7 ltac:(lia)) as (_ & _ & HC & _ & _ & HL1). destruct (HC (cplx f64) _ f64_cplx fs_cplx ltac:(lia)) as (b1 & N1 & H1). clear HC. specialize (HL1 ltac:(cbn; lia)).
  destruct (C59_gradients_exist E 1 4 ltac:(lia)) as (_ & _ & _ & _ & (f & N0 & H0) & HL0). specialize (HL0 ltac:(cbn; lia)). 
  exists b1. intros sp. split; auto. destruct some_zip as [zo HZ]. exists zo. split; auto. injection N0 as <-.
  assert (L1 : len_phys (r2r_ops_x (T := cplx f64) E b1) = 7%nat /\ len_spec (r2r_ops_x (T := cplx f64) E b1) = 5%nat /\ len_orth (r2r_ops_x (T := cplx f64) E b1) = 7%nat).
  { unfold new_composite in N1. destruct (compo_new KDirichlet 7) as [cc| |] eqn:Ec; cbn [bind] in N1; try discriminate. injection N1 as <-. destruct (dir_inv 7 cc Ec) as [_ ->]. repeat split; reflexivity. }
  destruct L1 as (L1 & L1' & L1'').
  assert (V : forall j, (j < 5)%nat -> is_finite tenths.[j] = true /\ Rabs (B2R tenths.[j]) <= 1).
  { intros j Hj. destruct j as [|[|[|[|[|]]]]]; try lia; (split; [vm_compute; reflexivity|]); rewrite <- SF2R_B2SF;
      match goal with |- Rabs (SF2R _ ?t) <= _ => let t' := eval vm_compute in t in replace t with t' by (vm_compute; reflexivity) end;
      cbn [SF2R SpecFloat.cond_Zopp]; unfold F2R; cbn [Fnum Fexp cond_Zopp]; rewrite Rabs_pos_eq; cbn; lra. }
  assert (VG : forall i j, (i < 3)%nat -> (j < 5)%nat -> get coef35 [i; j] = (tenths.[j], n0)).
  { intros i j Hi Hj. destruct i as [|[|[|]]]; try lia; destruct j as [|[|[|[|[|]]]]]; try lia; reflexivity. }
  assert (Z0 : B2R (n0 (A := f64)) = 0) by reflexivity.
  set (S := rsum 3 (fun i => rsum 5 (fun j => esize f64_cplx (get coef35 [i; j])))).
  assert (S1 : 0 <= S <= 15). { split. apply rsum_pos; intros; apply rsum_pos; intros; apply esize_pos.
    eapply Rle_trans. apply (rsum_le 3 _ (fun _ => 5)). intros i Hi. eapply Rle_trans. apply (rsum_le 5 _ (fun _ => 1)). intros j Hj. rewrite VG by auto. unfold esize. cbn [ev f64_cplx fst snd]. unfold f64_val. rewrite Z0, Rabs_R0. destruct (V j Hj). lra.
    rewrite rsum_const. cbn; lra. rewrite rsum_const. cbn; lra. }
  assert (EK : INR (4 / 2 + 1) ^ 1 * (4 * INR 7 ^ (2 * 2 - 1)) = 4116). { cbn. ring. }
  destruct (C59_space2_gradient_f64 E HE 1 2 _ _ _ _ _ _ _ _ _ _ _ _ f64_cplx H0 HL0 H1 HL1 dflt_num dflt_num dflt_vec dflt_vec f64 _ _ zo HZ coef35) as (y & Ey & _ & H).
  - rewrite L1'. repeat split.
  - rewrite L1'. intros i j Hi Hj. rewrite (VG i j Hi Hj). split; [apply V; auto|reflexivity].
  - rewrite L1'. change (INR (4 / 2 + 1) ^ 1 * (4 * INR 7 ^ (2 * 2 - 1)) * (1 + S) <= bpow radix2 900). rewrite EK. apply Rle_trans with (bpow radix2 17). change (bpow radix2 17) with (IZR (2 ^ 17)). cbv [Z.pow Z.pow_pos Pos.iter Z.mul Pos.mul]. lra. apply bpow_le; lia.
  - exists y. split; [exact Ey|]. intros i j Hi Hj. rewrite L1, ?L1', ?L1'' in H. destruct (H i j Hi Hj) as [F B]. destruct F as [F1 F2]. split; [exact F1|]. split; [exact F2|]. clear H Ey.
    change (edist f64_cplx (get y [i; j]) (times 2 (cheb_derivative 7) (compo_ortho 7 dir_q (fun q => fourier_derivative (fun p => ev f64_cplx (get coef35 [p; q])) i)) j) <=
      21 / 20 * (4 * INR (1 + 1) * INR 4 + 4 * INR (2 + 1) * INR 7) * (INR (4 / 2 + 1) ^ 1 * (4 * INR 7 ^ (2 * 2 - 1))) * u64 * S + 4 * INR (1 + 1) * INR 4 * (4 * INR (2 + 1) * INR 7) * (INR (4 / 2 + 1) ^ 1 * (4 * INR 7 ^ (2 * 2 - 1))) * (INR 4 * INR 7) * eta64) in B.
    eapply Rle_trans; [exact B|]. clear B F1 F2 V VG. rewrite EK.
    assert (E1 : eta64 <= bpow radix2 (-80)) by (apply bpow_le; lia). pose proof (bpow_gt_0 radix2 (-1075)) as E0. revert S1. generalize S. revert E1 E0. generalize eta64. clear. intros et E1 E0 S S1.
    change (bpow radix2 (-80)) with (/ IZR (2 ^ 80)) in E1. change (bpow radix2 (-53)) with (/ IZR (2 ^ 53)). change (bpow radix2 (-28)) with (/ IZR (2 ^ 28)). change (1 + 1)%nat with 2%nat. change (2 + 1)%nat with 3%nat.
    replace (INR 7) with 7 by (cbn; lra). replace (INR 4) with 4 by (cbn; lra). replace (INR 3) with 3 by (cbn; lra). replace (INR 2) with 2 by (cbn; lra). cbv [Z.pow Z.pow_pos Pos.iter Z.mul Pos.mul] in *. lra.
Qed.
