(** C65: the grids a base hands out, in f64.

    The nodes are computed with the f64 constant PI and, for the Chebyshev
    bases, the sine of the standard library (external).  What is asked of the
    sine is stated in [sine_accurate] and [sine_odd]. *)
From Coq Require Import List Arith Lia Bool ZArith Reals Lra.
From Flocq Require Import Core BinarySingleNaN.
From Verif Require Import Base Num Cheb ChebDct Compo Stencils CompoProofs Fourier FourierF64 FourierProofs Rounding LibIdeal ChebFacts MatF64 MatSten GridF64 PropCheb PropF64.
Import ListNotations.
Local Open Scope R_scope.

(** on [-2, 2] the sine is finite and within dl (absolutely) of sin *)
Definition sine_accurate (Tr : Trig f64) (dl : R) : Prop :=
  forall x, f64_fin x -> Rabs (f64_val x) <= 2 -> f64_fin (tsin x) /\ Rabs (f64_val (tsin x) - sin (f64_val x)) <= dl.
(** opposite arguments give opposite values (so 0 gives 0) *)
Definition sine_odd (Tr : Trig f64) : Prop :=
  forall x y, f64_fin x -> f64_fin y -> f64_val y = - f64_val x -> f64_val (tsin y) = - f64_val (tsin x).

Lemma minus_one (a : f64) : f64_fin a -> f64_fin (nmul (nopp n1) a) /\ f64_val (nmul (nopp n1) a) = - f64_val a.
Proof.
  intros F. pose proof f64_float_arith as FA. destruct (fa_1 _ _ _ _ _ _ _ _ FA) as [F1 V1]. destruct (fa_opp _ _ _ _ _ _ _ _ FA n1) as [Fo Vo].
  destruct (fa_opp _ _ _ _ _ _ _ _ FA a) as [Fa Va].
  assert (R : rnd64 (f64_val (nopp n1) * f64_val a) = - f64_val a).
  { rewrite Vo, V1. replace (- (1) * f64_val a) with (f64_val (nopp a)) by (rewrite Va; ring). rewrite <- Va. apply (fa_float _ _ _ _ _ _ _ _ FA). apply Fa; auto. }
  assert (Fm : f64_fin (nmul (nopp n1) a)).
  { apply (fa_mulF _ _ _ _ _ _ _ _ FA); auto. rewrite R. unfold ieee_inr. rewrite Rabs_Ropp. apply (abs_B2R_lt_emax 53 1024 a). }
  split; auto. destruct (fa_mul _ _ _ _ _ _ _ _ FA _ _ Fm) as (_ & _ & V). rewrite V. exact R.
Qed.

(** what the nodes are *)
Lemma nodes_f64 (Tr : Trig f64) n dl : tpi = pi64 -> sine_accurate Tr dl -> (2 <= n)%nat -> (Z.of_nat n <= 2 ^ 52)%Z ->
  wp (cheb_nodes (A := f64) n) (fun x => length x = n /\ forall k, (k < n)%nat ->
    exists a : f64, f64_fin a /\ f64_val a = arg64 (Z.of_nat (n - 1)) (Z.of_nat (n - 1) - 2 * Z.of_nat k) /\
      f64_fin (tsin a) /\ f64_fin x.[k] /\ f64_val x.[k] = - f64_val (tsin a) /\
      Rabs (f64_val x.[k] - node n k) <= dl + 4 * bpow radix2 (-53)).
Proof.
  intros Ep Hs Hn H52. unfold cheb_nodes, usub. destruct (Nat.leb_spec 1 n); [|lia]. cbn [bind wp].
  split. rewrite map_length, seq_length. reflexivity. intros k Hk.
  rewrite at_map_seq by auto. cbv beta zeta. rewrite Ep. unfold nofN. cbn [Nat.add]. set (m := Z.of_nat (n - 1)).
  set (a := ndiv (nmul pi64 (nsub (nofZ m) (nmul (nofZ 2%Z) (nofZ (Z.of_nat k))))) (nmul (nofZ 2%Z) (nofZ m))  : f64). change (ndiv (nmul pi64 (nsub (nofZ m) (nmul (nofZ 2%Z) (nofZ (Z.of_nat k))))) (nmul (nofZ 2%Z) (nofZ m))) with a.
  destruct (arg_f64 m (Z.of_nat k) ltac:(lia) ltac:(lia)) as [Fa Va]. fold a in Fa, Va.
  exists a. split; auto. split; auto.
  destruct (arg64_near m (m - 2 * Z.of_nat k) ltac:(lia) ltac:(lia)) as [E1 E2].
  destruct (Hs a Fa ltac:(rewrite Va; exact E2)) as [Ft Et]. destruct (minus_one _ Ft) as [Fx Vx].
  split; auto. split; auto. split; auto. rewrite Vx. rewrite node_arg by auto. fold m.
  rewrite Va in Et. pose proof (sin_lip (arg64 m (m - 2 * Z.of_nat k)) (argR m (m - 2 * Z.of_nat k))) as L.
  replace (- f64_val (tsin a) - - sin (argR m (m - 2 * Z.of_nat k))) with
    (- ((f64_val (tsin a) - sin (arg64 m (m - 2 * Z.of_nat k))) + (sin (arg64 m (m - 2 * Z.of_nat k)) - sin (argR m (m - 2 * Z.of_nat k))))) by ring.
  rewrite Rabs_Ropp. eapply Rle_trans. apply Rabs_triang. lra.
Qed.

(** The grid of a Chebyshev base (the composite ones use the same): the
    points are within dl + 4 * 2^-53 of -cos(pi k/(n-1)); they increase strictly
    if dl is small against 1/(n-1)^2; and they are symmetric, the middle one is 0. *)
Definition accurate_grid (n : nat) (dl : R) (x : list f64) : Prop :=
  length x = n /\ forall k, (k < n)%nat -> f64_fin x.[k] /\
    Rabs (f64_val x.[k] - - cos (PI * INR k / INR (n - 1))) <= dl + 4 * bpow radix2 (-53).

Lemma grid_l (Tr : Trig f64) n dl : tpi = pi64 -> sine_accurate Tr dl -> (2 <= n)%nat -> (Z.of_nat n <= 2 ^ 52)%Z ->
  wp (cheb_nodes (A := f64) n) (fun x => accurate_grid n dl x /\
    (2 * (dl + 4 * bpow radix2 (-53)) * (INR (n - 1) * INR (n - 1)) < 1 ->
      forall i j, (i < j)%nat -> (j < n)%nat -> f64_val x.[i] < f64_val x.[j]) /\
    (sine_odd Tr -> forall k, (k < n)%nat -> f64_val x.[n - 1 - k] = - f64_val x.[k])).
Proof.
  intros Ep Hs Hn H52. eapply wp_mono. apply (nodes_f64 Tr n dl); auto. cbv beta. intros x [L H]. split; [|split].
  - split; auto. intros k Hk. destruct (H k Hk) as (a & _ & _ & _ & F & _ & E). split; auto.
  - intros Hd i j Hij Hj. assert (Step : forall k, (S k < n)%nat -> f64_val x.[k] < f64_val x.[S k]).
    { intros k Hk. destruct (H k ltac:(lia)) as (_ & _ & _ & _ & _ & _ & E1). destruct (H (S k) Hk) as (_ & _ & _ & _ & _ & _ & E2).
      pose proof (node_gap n k Hn Hk) as G. set (M := INR (n - 1) * INR (n - 1)) in *.
      assert (0 < M). { assert (1 <= INR (n - 1)) by (change 1 with (INR 1); apply le_INR; lia). unfold M. nra. }
      assert (2 * (dl + 4 * bpow radix2 (-53)) < / M). { apply Rmult_lt_reg_r with M; auto. rewrite Rinv_l by lra. exact Hd. }
      apply Rabs_le_inv in E1, E2. lra. }
    induction j; [lia|]. destruct (Nat.eq_dec i j) as [->|]. apply Step; auto. eapply Rlt_trans. apply IHj; lia. apply Step; auto.
  - intros Ho k Hk. destruct (H k Hk) as (a & Fa & Va & _ & _ & V & _). destruct (H (n - 1 - k)%nat ltac:(lia)) as (b & Fb & Vb & _ & _ & V' & _).
    rewrite V, V'. f_equal. apply Ho; auto. rewrite Va, Vb, <- arg64_opp. f_equal. lia.
Qed.

Theorem C65_chebyshev_coords_f64 : forall (Tr : Trig f64) n c dl, tpi = pi64 -> sine_accurate Tr dl ->
  cheb_new n = Ok c -> (Z.of_nat n <= 2 ^ 52)%Z ->
  wp (cheb_coords c) (fun x => accurate_grid n dl x /\
    (2 * (dl + 4 * bpow radix2 (-53)) * (INR (n - 1) * INR (n - 1)) < 1 ->
      forall i j, (i < j)%nat -> (j < n)%nat -> f64_val x.[i] < f64_val x.[j]) /\
    (sine_odd Tr -> forall k, (k < n)%nat -> f64_val x.[n - 1 - k] = - f64_val x.[k])).
Proof.
  intros Tr n c dl Ep Hs Hc H52. apply cheb_new_inv in Hc as [Hn ->]. apply grid_l; auto.
Qed.
Print Assumptions C65_chebyshev_coords_f64.

Theorem C65_composite_coords_f64 : forall (Tr : Trig f64) k n (c : compo f64) dl, tpi = pi64 -> sine_accurate Tr dl ->
  compo_new k n = Ok c -> (Z.of_nat n <= 2 ^ 52)%Z ->
  wp (compo_coords c) (fun x => accurate_grid n dl x /\
    (2 * (dl + 4 * bpow radix2 (-53)) * (INR (n - 1) * INR (n - 1)) < 1 ->
      forall i j, (i < j)%nat -> (j < n)%nat -> f64_val x.[i] < f64_val x.[j]) /\
    (sine_odd Tr -> forall k, (k < n)%nat -> f64_val x.[n - 1 - k] = - f64_val x.[k])).
Proof.
  intros Tr k n c dl Ep Hs H H52. unfold compo_new in H.
  destruct (stencil_new k n); try discriminate. destruct (get_m k n); try discriminate. cbn [bind] in H.
  destruct (cheb_new n) as [ch| |] eqn:E; try discriminate. cbn [bind] in H. injection H as <-.
  apply cheb_new_inv in E as [Hn ->]. apply grid_l; auto.
Qed.
Print Assumptions C65_composite_coords_f64.

(** With a sine as good as f64 allows (within 2^-53) the grid is strictly
    increasing up to 2^24 points. *)
Theorem C65_distinct_points : forall (Tr : Trig f64) n c, tpi = pi64 -> sine_accurate Tr (bpow radix2 (-53)) ->
  cheb_new n = Ok c -> (Z.of_nat n <= 2 ^ 24)%Z ->
  wp (cheb_coords c) (fun x => forall i j, (i < j)%nat -> (j < n)%nat -> f64_val x.[i] < f64_val x.[j]).
Proof.
  intros Tr n c Ep Hs Hc H24. eapply wp_mono. apply (C65_chebyshev_coords_f64 Tr n c (bpow radix2 (-53))); auto. lia.
  cbv beta. intros x (_ & H & _). apply H.
  assert (0 <= INR (n - 1) <= 16777216). { split. apply pos_INR. rewrite INR_IZR_INZ. apply IZR_le. lia. }
  change (bpow radix2 (-53)) with (/ 9007199254740992). assert (INR (n - 1) * INR (n - 1) <= 16777216 * 16777216) by nra. lra.
Qed.
Print Assumptions C65_distinct_points.

(** The Fourier grid: point j within 3 * 2^-53, relatively, of 2 pi j/n, for
    each point there is (C43: n or n + 1 of them); the first is 0; strictly
    increasing up to 2^50 points. *)
Definition accurate_circle (n : nat) (x : list f64) : Prop :=
  (length x = n \/ length x = (n + 1)%nat) /\
  (forall j, (j < length x)%nat -> f64_fin x.[j] /\ Rabs (f64_val x.[j] - 2 * PI * INR j / INR n) <= 3 * bpow radix2 (-53) * (2 * PI * INR j / INR n)) /\
  f64_val x.[0%nat] = 0 /\
  ((Z.of_nat n <= 2 ^ 50)%Z -> forall i j, (i < j)%nat -> (j < length x)%nat -> f64_val x.[i] < f64_val x.[j]).

Lemma circle_l n : (1 <= n)%nat -> (Z.of_nat n <= 2 ^ 51)%Z -> accurate_circle n (nodes64 n).
Proof.
  intros Hn H51. pose proof (C43_f64_length n Hn H51) as L. pose proof pi_bounds as PB.
  assert (N1 : 1 <= INR n) by (change 1 with (INR 1); apply le_INR; auto).
  assert (V : forall j, (j < length (nodes64 n))%nat -> f64_fin (nodes64 n).[j] /\ f64_val (nodes64 n).[j] = fnode64 n j).
  { intros j Hj. assert (j <= n)%nat by lia. pose proof (fnode_f64 n j Hn H51 H) as G. cbv zeta in G.
    unfold nodes64, nodes_with, nd_range in Hj |- *. rewrite map_length, seq_length in Hj. rewrite at_map_seq by auto. exact G. }
  assert (W : forall j, (j < length (nodes64 n))%nat -> f64_fin (nodes64 n).[j] /\ Rabs (f64_val (nodes64 n).[j] - 2 * PI * INR j / INR n) <= 3 * bpow radix2 (-53) * (2 * PI * INR j / INR n)).
  { intros j Hj. destruct (V j Hj) as [F ->]. split; auto. apply fnode_near; auto. lia. }
  split; auto. split; auto. split.
  - destruct (W 0%nat ltac:(lia)) as [_ E]. cbn [INR] in E. replace (2 * PI * 0 / INR n) with 0 in E by (field; lra).
    rewrite Rminus_0_r, Rmult_0_r in E. apply Rabs_eq_0. pose proof (Rabs_pos (f64_val (nodes64 n).[0%nat])). lra.
  - intros H50 i j Hij Hj.
    assert (Step : forall k, (S k < length (nodes64 n))%nat -> f64_val (nodes64 n).[k] < f64_val (nodes64 n).[S k]).
    { intros k Hk. destruct (W k ltac:(lia)) as [_ E1]. destruct (W (S k) Hk) as [_ E2].
      assert (N2 : INR n <= 1125899906842624). { rewrite INR_IZR_INZ. change 1125899906842624 with (IZR (2 ^ 50)). apply IZR_le. exact H50. }
      assert (K : INR (S k) <= INR n) by (apply le_INR; lia). rewrite S_INR in *. pose proof (pos_INR k).
      set (g := 2 * PI / INR n). assert (G : 0 < g) by (unfold g; apply Rdiv_lt_0_compat; lra).
      replace (2 * PI * INR k / INR n) with (g * INR k) in E1 by (unfold g; field; lra).
      replace (2 * PI * (INR k + 1) / INR n) with (g * (INR k + 1)) in E2 by (unfold g; field; lra).
      apply Rabs_le_inv in E1, E2. change (bpow radix2 (-53)) with (/ 9007199254740992) in *.
      assert (X : 3 * / 9007199254740992 * (INR k + 1 + INR k) < 1) by lra.
      assert (3 * / 9007199254740992 * (g * (INR k + 1)) + 3 * / 9007199254740992 * (g * INR k) < g).
      { replace (3 * / 9007199254740992 * (g * (INR k + 1)) + 3 * / 9007199254740992 * (g * INR k)) with (g * (3 * / 9007199254740992 * (INR k + 1 + INR k))) by ring.
        rewrite <- (Rmult_1_r g) at 2. apply Rmult_lt_compat_l; auto. }
      lra. }
    induction j; [lia|]. destruct (Nat.eq_dec i j) as [->|]. apply Step; auto. eapply Rlt_trans. apply IHj; lia. apply Step; auto.
Qed.

Theorem C65_fourier_coords_f64 : forall (Tr : Trig f64) n, tpi = pi64 -> (Z.of_nat n <= 2 ^ 51)%Z ->
  (forall f, r2c_new n = Ok f -> accurate_circle n (r2c_coords (A := f64) f)) /\
  (forall f, c2c_new n = Ok f -> accurate_circle n (c2c_coords (A := f64) f)).
Proof.
  intros Tr n Ep H51. split; intros f Hf.
  - apply r2c_new_inv in Hf as [Hn ->]. unfold r2c_coords, fourier_nodes, r2c_len_phys. cbn [r_n]. rewrite Ep. apply circle_l; auto.
  - apply c2c_new_inv in Hf as [Hn ->]. unfold c2c_coords, fourier_nodes, c2c_len_phys. cbn [cc_n]. rewrite Ep. apply circle_l; auto.
Qed.
Print Assumptions C65_fourier_coords_f64.

(** ** The hypotheses can be met: a correctly rounded sine *)
#[local] Instance P53h : Prec_gt_0 53 := eq_refl.
#[local] Instance L53h : Prec_lt_emax 53 1024 := eq_refl.
Definition best_trig : Trig f64 :=
  {| tsin := fun x => of_R 53 1024 _ _ (sin (f64_val x)); tcos := fun x => of_R 53 1024 _ _ (cos (f64_val x)); tpi := pi64 |}.
Example C65_case_sine : tpi (Trig := best_trig) = pi64 /\ sine_accurate best_trig (bpow radix2 (-53)) /\ sine_odd best_trig.
Proof.
  split. reflexivity.
  assert (B : forall x, Rabs (sin x) <= bpow radix2 0) by (intros x; change (bpow radix2 0) with 1; apply Rabs_le; pose proof (SIN_bound x); lra).
  assert (G : forall x : f64, f64_fin (tsin (Trig := best_trig) x) /\ f64_val (tsin (Trig := best_trig) x) = rnd64 (sin (f64_val x))).
  { intros x. destruct (of_R_spec 53 1024 _ _ (sin (f64_val x))) as [F V]. destruct (rnd_le (sin (f64_val x)) 0 ltac:(lia) (B _)) as [_ I].
    split. apply F; auto. apply V, F; auto. }
  split.
  - intros x Fx _. destruct (G x) as [F V]. split; auto. rewrite V. set (y := sin (f64_val x)). pose proof (B (f64_val x)) as By. fold y in By. change (bpow radix2 0) with 1 in By.
    pose proof u64_small. destruct (Rle_or_lt (bpow radix2 (-1000)) (Rabs y)) as [L|L].
    + eapply Rle_trans. apply rnd64_rel; auto. pose proof (Rabs_pos y). nra.
    + destruct (rnd_le y (-1000) ltac:(lia) ltac:(lra)) as [R _].
      assert (bpow radix2 (-1000) <= / 2 * bpow radix2 (-53)).
      { apply Rle_trans with (bpow radix2 (-54)). apply bpow_le; lia. replace (bpow radix2 (-53)) with (bpow radix2 1 * bpow radix2 (-54)) by (rewrite <- bpow_plus; reflexivity). change (bpow radix2 1) with 2. lra. }
      unfold Rminus. eapply Rle_trans. apply Rabs_triang. rewrite Rabs_Ropp. lra.
  - intros x y Fx Fy E. destruct (G x) as [_ ->], (G y) as [_ ->]. rewrite E, sin_neg. apply rnd_opp.
Qed.
(** ... so that, say, 1000 points are within 5 * 2^-53 and strictly increasing *)
Example C65_case_1000 : exists c, cheb_new 1000 = Ok c /\ (Z.of_nat 1000 <= 2 ^ 24)%Z.
Proof. exists (mk_cheb 1000 1000). split; [reflexivity|discriminate]. Qed.
(** 7 Fourier points, and 61 points of which there are 62 (C43) *)
Example C65_case_fourier : r2c_new 7 = Ok (mk_r2c 7 4) /\ r2c_new 61 = Ok (mk_r2c 61 31) /\ length (nodes64 7) = 7%nat /\ length (nodes64 61) = 62%nat.
Proof. repeat split; vm_compute; reflexivity. Qed.
