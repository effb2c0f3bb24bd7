(** C66: matrices and grids at A = f32.

    The library computes its matrices and the Fourier nodes in f64 and converts
    at the end, so that f32 users lose one f32 rounding only; the Chebyshev
    nodes take the sine in f32. *)
From Coq Require Import List Arith Lia Bool ZArith Reals Lra.
From Flocq Require Import Core BinarySingleNaN Ulp.
From Verif Require Import Base Num AnyArith StencilProofs RndNeumann Cheb ChebDct ChebMat ChebPinv ChebFacts Compo Stencils CompoProofs Fourier FourierF64 FourierProofs Rounding LibIdeal MatRel MatF64 MatCheb MatPinv MatSten GridF64 F32 PropCheb PropCompo PropF64 PropMat PropGrid.
Import ListNotations.
Local Open Scope R_scope.
#[local] Instance P24p : Prec_gt_0 24 := eq_refl.
#[local] Instance L24p : Prec_lt_emax 24 128 := eq_refl.

(** every entry of the r x c matrix M is finite and within e, relatively, of the entry of D *)
Definition entries_within32 (e : R) (r c : nat) (M : list (list f32)) (D : list (list R)) : Prop :=
  mat_dims M r c /\ mat_dims D r c /\
  forall i j, (i < r)%nat -> (j < c)%nat ->
    f32_fin M.[i].[j] /\ Rabs (f32_val M.[i].[j] - D.[i].[j]) <= e * Rabs D.[i].[j].

(** diffmat (and laplacian, which is diffmat(2)): every size, order and build mode; the f32 matrix
    is within one f32 rounding (and 2^-50) of the exact one, small entries too *)
Theorem C66_diffmat_f32 : forall bm n c d, cheb_new n = Ok c ->
  match cheb_diffmat32 bm c d, cheb_diffmat (A := R) bm c d with
  | Ok M, Ok D => entries_within32 (bpow radix2 (-24) + bpow radix2 (-50)) n n M D
  | Panic, Panic => True
  | _, _ => False
  end.
Proof.
  intros bm n c d Hc. pose proof (C64_diffmat_f64 bm n c d Hc) as H. unfold cheb_diffmat32.
  assert (Ec : c_n c = n).
  { unfold cheb_new in Hc. destruct (2 <=? n)%nat; cbn in Hc; [injection Hc as <-; reflexivity|discriminate]. }
  assert (G : match cheb_diffmat (A := f64) bm c d, cheb_diffmat (A := R) bm c d with
    Ok M, Ok D => mat_dims M n n /\ mat_dims D n n /\ forall i j, (i < n)%nat -> (j < n)%nat -> ent M.[i].[j] D.[i].[j] | _, _ => True end).
  { unfold cheb_diffmat. rewrite Ec. destruct (0 <? d)%nat; cbn [assertb bind]; [|exact I].
    pose proof (rrel_entries _ _ _ _ _ (dmat_f64 bm n d)) as G. destruct (dmat (A := f64) bm n d), (dmat (A := R) bm n d); auto. }
  destruct (cheb_diffmat (A := f64) bm c d) as [M| |], (cheb_diffmat (A := R) bm c d) as [D| |]; cbn [bind]; auto.
  destruct G as (G1 & G2 & G3). destruct (map_map_at to_f32 M n n G1) as [X1 X2].
  split; auto. split; auto. intros i j Hi Hj. rewrite X2 by auto. apply to_f32_ent; auto.
Qed.
Print Assumptions C66_diffmat_f32.

(** diffmat_pinv, for the sizes of C08 *)
Theorem C66_diffmat_pinv_f32 : forall bm n c d, cheb_new n = Ok c -> (Z.of_nat n <= psafe d)%Z ->
  match cheb_diffmat_pinv32 bm c d, cheb_diffmat_pinv (A := R) bm c d with
  | Ok (P, E), Ok (P', E') => entries_within32 (bpow radix2 (-24) + bpow radix2 (-50)) n n P P' /\ entries_within32 0 (n - d) n E E'
  | Panic, Panic => True
  | _, _ => False
  end.
Proof.
  intros bm n c d Hc Hn. pose proof (C64_diffmat_pinv_f64 bm n c d Hc Hn) as H. unfold cheb_diffmat_pinv32.
  assert (Ec : c_n c = n).
  { unfold cheb_new in Hc. destruct (2 <=? n)%nat; cbn in Hc; [injection Hc as <-; reflexivity|discriminate]. }
  assert (G : match cheb_diffmat_pinv (A := f64) bm c d, cheb_diffmat_pinv (A := R) bm c d with
    Ok (M, _), Ok (D, E') => (mat_dims M n n /\ mat_dims D n n /\ forall i j, (i < n)%nat -> (j < n)%nat -> ent M.[i].[j] D.[i].[j]) /\
      forall i j, (i < n - d)%nat -> (j < n)%nat -> E'.[i].[j] = 0 \/ E'.[i].[j] = 1 | _, _ => True end).
  { unfold cheb_diffmat_pinv. rewrite Ec. destruct (0 <? d)%nat; cbn [assertb bind]; [|exact I].
    pose proof (rrel_entries _ _ _ _ _ (pinv_f64 bm n d Hn)) as G. destruct (pinv (A := f64) bm n d), (pinv (A := R) bm n d); cbn [bind]; auto; try contradiction; try (destruct (pinv_eye _ _); exact I).
    unfold pinv_eye. destruct (Nat.leb_spec d n) as [Hd|Hd]; cbn [assertb bind]; auto. split; auto.
    intros i j Hi Hj. unfold at_ at 2 4. rewrite nth_skip. change (nth (d + i) (eye n) dflt) with ((eye (A := R) n).[d + i]).
    unfold eye. rewrite at_map_seq by lia. rewrite at_map_seq by lia. destruct (_ =? _)%nat; [right|left]; reflexivity. }
  destruct (cheb_diffmat_pinv (A := f64) bm c d) as [[M E]| |], (cheb_diffmat_pinv (A := R) bm c d) as [[D E']| |]; cbn [bind fst snd]; auto.
  destruct H as [_ (H1 & H2 & H3)]. destruct G as [(G1 & G2 & G3) G4]. destruct (map_map_at to_f32 M n n G1) as [X1 X2]. destruct (map_map_at to_f32 E _ _ H1) as [Y1 Y2].
  split; (split; auto; split; auto; intros i j Hi Hj).
  - rewrite X2 by auto. apply to_f32_ent; auto.
  - rewrite Y2 by auto. destruct (H3 i j Hi Hj) as [F V]. rewrite Rmult_0_l in V.
    assert (V' : f64_val E.[i].[j] = E'.[i].[j]) by (pose proof (Rabs_pos (f64_val E.[i].[j] - E'.[i].[j])); apply Rminus_diag_uniq, Rabs_eq_0; lra).
    assert (B : Rabs (f64_val E.[i].[j]) <= bpow radix2 127).
    { rewrite V'. apply Rle_trans with 1. destruct (G4 i j Hi Hj) as [-> | ->]; rewrite ?Rabs_R0, ?Rabs_R1; lra. change 1 with (bpow radix2 0). apply bpow_le; lia. }
    destruct (to_f32_spec _ F B) as [F' V2]. split; auto. rewrite V2, V'.
    assert (R : rnd32 E'.[i].[j] = E'.[i].[j]).
    { destruct (G4 i j Hi Hj) as [-> | ->]. apply rnd32_0. apply (format_rnd 24 128). reflexivity. apply (generic_format_bpow radix2 _ 0). unfold FLT_exp. lia. }
    rewrite R, Rminus_diag_eq, Rabs_R0 by auto. lra.
Qed.
Print Assumptions C66_diffmat_pinv_f32.

(** the stencil matrices whose entries are computed in f64 *)
Theorem C66_stencil_f32 : forall k n, k <> KNeumann -> (Z.of_nat n <= 2 ^ 17)%Z ->
  match compo_stencil32 k n, compo_new (A := R) k n with
  | Ok M, Ok p' => wp (compo_stencil p') (fun D => entries_within32 (bpow radix2 (-24) + bpow radix2 (-50)) n (compo_len_spec p') M D)
  | Panic, Panic => True
  | _, _ => False
  end.
Proof.
  intros k n _ Hn. pose proof (C64_stencil_f64 k n Hn) as H. pose proof (compo_stencil_rel k n Hn) as G. unfold compo_stencil32.
  destruct (compo_new (A := f64) k n) as [p| |], (compo_new (A := R) k n) as [p'| |]; cbn [bind]; auto; cbn [rrel] in G; try contradiction.
  destruct G as (m & Hm & G). apply rrel_entries in G.
  destruct (compo_stencil p) as [M| |]; cbn [wp bind] in *; try contradiction.
  destruct (compo_stencil p') as [D| |]; cbn [wp] in *; try contradiction.
  cbv zeta in H. destruct H as (_ & H1 & H2 & _). destruct G as (G1 & G2 & G3).
  destruct (map_map_at to_f32 M _ _ H1) as [X1 X2]. split; auto. split; auto. intros i j Hi Hj. rewrite X2 by auto. apply to_f32_ent.
  assert (Mm : (j < m)%nat).
  { destruct n as [|n]; [lia|]. destruct H2 as [_ H2], G2 as [_ G2]. rewrite <- (G2 i Hi), (H2 i Hi). exact Hj. }
  destruct (G3 i j Hi Mm) as (F & V & Mo). split; auto. split; auto. rewrite V.
  destruct Mo as [Z|[Mo _]]. rewrite Z, rnd64_0, Rminus_0_r, Rabs_R0. lra.
  eapply Rle_trans. apply rnd64_rel. eapply Rle_trans. 2: exact Mo. apply bpow_le; lia. pose proof u64_small. pose proof (Rabs_pos D.[i].[j]). nra.
Qed.
Print Assumptions C66_stencil_f32.

(** the Neumann base computes its stencil in A; up to 4096 points the squares are exact in f32 *)
Lemma st2_array_gen (Q : f32 -> R -> Prop) s s' : Q n0 0 -> Forall2 Q (d2_diag s) (d2_diag s') -> Forall2 Q (d2_low2 s) (d2_low2 s') ->
  rrel (mr Q (length (d2_diag s') + 2) (length (d2_diag s'))) (st2_to_array s) (st2_to_array s').
Proof.
  intros H0 Hd Hl. unfold st2_to_array. rewrite (Forall2_length Hd), (Forall2_length Hl).
  apply rrel_for_each. apply mr_zeros, H0. intros i M D Hi HM.
  eapply rrel_bind. apply rrel_rd, Hd. intros. eapply rrel_bind. apply rrel_rd, Hl. intros.
  eapply rrel_bind. apply mr_mwr; eassumption. intros. apply mr_mwr; assumption.
Qed.
Lemma neumann_0 : f32_val (neumann_low2 0) = 0.
Proof.
  assert (H : B2SF (neumann_low2 0 : f32) = SpecFloat.S754_zero true) by (vm_compute; reflexivity).
  unfold f32_val. rewrite <- SF2R_B2SF, H. reflexivity.
Qed.
Theorem C66_neumann_stencil_f32 : forall n, (n <= 4096)%nat ->
  match compo_new (A := f32) KNeumann n, compo_new (A := R) KNeumann n with
  | Ok p, Ok p' => wp (compo_stencil p) (fun M => wp (compo_stencil p') (fun D =>
      entries_within32 (bpow radix2 (-24) + bpow radix2 (-50)) n (n - 2) M D))
  | Panic, Panic => True
  | _, _ => False
  end.
Proof.
  intros n Hn. destruct (le_lt_dec 4 n) as [H4|H4].
  - rewrite !neu_new by auto. unfold compo_stencil. cbn [p_st stencil_to_array].
    set (e := bpow radix2 (-24) + bpow radix2 (-50)).
    assert (E0 : 0 <= e) by (unfold e; pose proof (bpow_ge_0 radix2 (-24)); pose proof (bpow_ge_0 radix2 (-50)); lra).
    set (Q := fun (a : f32) (x : R) => f32_fin a /\ Rabs (f32_val a - x) <= e * Rabs x).
    pose proof f32_float_arith as FA. destruct (fa_1 _ _ _ _ _ _ _ _ FA) as [F1 V1]. destruct (fa_0 _ _ _ _ _ _ _ _ FA) as [F0 V0].
    assert (Q0 : Q n0 0). { split; auto. rewrite V0, Rminus_0_r, Rabs_R0. lra. }
    assert (Q1 : Q n1 1). { split; auto. rewrite V1, Rminus_diag_eq, Rabs_R0 by auto. rewrite Rabs_R1. lra. }
    assert (QL : forall j, (j < n - 2)%nat -> Q (neumann_low2 j) (neumann_low2 j)).
    { intros j Hj. assert (Hz : (Z.of_nat n * Z.of_nat n <= 2 ^ 24)%Z) by (clear - Hn; change (2 ^ 24)%Z with (4096 * 4096)%Z; nia). destruct (neu_low_fin FA n j Hz Hj) as (F & E & _). split; auto.
      assert (X : neumann_low2 j = - nq j :> R). { unfold neumann_low2, nofN, nq. cbn [nmul ndiv nopp n1 num_R nofZ]. rewrite <- !INR_IZR_INZ, !mult_INR, plus_INR. pose proof (pos_INR j). replace (INR 2) with 2 by (cbn; ring). field. lra. }
      pose proof (nq_range j) as R. rewrite X. rewrite Rabs_Ropp, (Rabs_pos_eq (nq j)) by lra. unfold Rminus. rewrite Ropp_involutive.
      destruct j as [|j].
      - rewrite neumann_0. unfold nq. cbn [INR]. rewrite Rplus_0_l. replace (0 * 0 / ((0 + 2) * (0 + 2))) with 0 by field. rewrite Rabs_R0. lra.
      - eapply Rle_trans. exact E. unfold e. rewrite Rmult_plus_distr_r. apply Rplus_le_compat_l.
        assert (/ 10 <= nq (S j)).
        { unfold nq. assert (1 <= INR (S j)) by (change 1 with (INR 1); apply le_INR; lia). apply Rmult_le_reg_r with ((INR (S j) + 2) * (INR (S j) + 2)). nra.
          replace (INR (S j) * INR (S j) / ((INR (S j) + 2) * (INR (S j) + 2)) * ((INR (S j) + 2) * (INR (S j) + 2))) with (INR (S j) * INR (S j)) by (field; lra). nra. }
        apply Rle_trans with (bpow radix2 (-50) * / 16). replace (/ 16) with (bpow radix2 (-4)) by reflexivity. rewrite <- bpow_plus. apply bpow_le. lia.
        apply Rmult_le_compat_l. apply bpow_ge_0. lra. }
    assert (L1 : Forall2 Q (d2_diag (neu_st2 (n - 2))) (d2_diag (neu_st2 (n - 2)))) by (apply repeat_rel; exact Q1).
    assert (L2 : Forall2 Q (d2_low2 (neu_st2 (n - 2))) (d2_low2 (neu_st2 (n - 2)))).
    { cbn [d2_low2 neu_st2]. unfold neu_low. apply map_rel_in. intros j Hj. apply in_seq in Hj. apply QL. lia. }
    pose proof (rrel_entries _ _ _ _ _ (st2_array_gen Q _ _ Q0 L1 L2)) as H.
    assert (W : wp (st2_to_array (neu_st2 (A := R) (n - 2))) (fun _ => True)).
    { eapply wp_mono. apply (st2_to_array_ok _ (n - 2)). cbn [d2_diag neu_st2]. apply repeat_length. cbn [d2_low2 neu_st2]. unfold neu_low. rewrite map_length, seq_length. reflexivity. auto. }
    cbn [d2_diag neu_st2] in H. rewrite repeat_length in H. replace (n - 2 + 2)%nat with n in H by lia.
    destruct (st2_to_array (neu_st2 (A := R) (n - 2))) as [D| |]; cbn [wp] in W; try contradiction.
    destruct (st2_to_array (neu_st2 (A := f32) (n - 2))) as [M| |]; cbn [wp]; try contradiction.
    destruct H as (H1 & H2 & H3). split; auto.
  - rewrite !compo_new_panics by (cbn [smin]; lia). exact I.
Qed.
Print Assumptions C66_neumann_stencil_f32.

(** ** Grids *)
(** on [-2, 2] the f32 sine is finite and within dl of sin; opposite arguments give opposite values *)
Definition sine_accurate32 (s : f32 -> f32) (dl : R) : Prop :=
  forall x, f32_fin x -> Rabs (f32_val x) <= 2 -> f32_fin (s x) /\ Rabs (f32_val (s x) - sin (f32_val x)) <= dl.
Definition sine_odd32 (s : f32 -> f32) : Prop :=
  forall x y, f32_fin x -> f32_fin y -> f32_val y = - f32_val x -> f32_val (s y) = - f32_val (s x).

Lemma minus_one32 (a : f32) : f32_fin a -> f32_fin (nmul (nopp n1) a) /\ f32_val (nmul (nopp n1) a) = - f32_val a.
Proof.
  intros F. pose proof f32_float_arith as FA. destruct (fa_1 _ _ _ _ _ _ _ _ FA) as [F1 V1]. destruct (fa_opp _ _ _ _ _ _ _ _ FA n1) as [Fo Vo].
  destruct (fa_opp _ _ _ _ _ _ _ _ FA a) as [Fa Va].
  assert (R : rnd32 (f32_val (nopp n1) * f32_val a) = - f32_val a).
  { rewrite Vo, V1. replace (- (1) * f32_val a) with (f32_val (nopp a)) by (rewrite Va; ring). rewrite <- Va. apply (fa_float _ _ _ _ _ _ _ _ FA). apply Fa; auto. }
  assert (Fm : f32_fin (nmul (nopp n1) a)).
  { apply (fa_mulF _ _ _ _ _ _ _ _ FA); auto. rewrite R. unfold ieee_inr. rewrite Rabs_Ropp. apply (abs_B2R_lt_emax 24 128 a). }
  split; auto. destruct (fa_mul _ _ _ _ _ _ _ _ FA _ _ Fm) as (_ & _ & V). rewrite V. exact R.
Qed.

Lemma rnd32_abs x k : (-100 <= k <= 100)%Z -> Rabs x <= bpow radix2 k -> Rabs (rnd32 x - x) <= bpow radix2 (k - 25).
Proof.
  intros Hk Hx. destruct (Req_dec x 0) as [->|Nx]. rewrite rnd32_0, Rminus_0_r, Rabs_R0. apply bpow_ge_0.
  destruct (Rle_lt_or_eq_dec _ _ Hx) as [L|E].
  - unfold ieee_rnd. eapply Rle_trans. apply error_le_half_ulp; auto with typeclass_instances.
    rewrite ulp_neq_0 by auto. unfold cexp, FLT_exp. apply (mag_le_bpow radix2 x k Nx) in L.
    replace (bpow radix2 (k - 25)) with (/ 2 * bpow radix2 (k - 24)).
    apply Rmult_le_compat_l. lra. apply bpow_le. lia.
    replace (k - 25)%Z with (-1 + (k - 24))%Z by lia. rewrite bpow_plus. change (bpow radix2 (-1)) with (/ 2). reflexivity.
  - assert (R : rnd32 x = x).
    { apply (format_rnd 24 128). reflexivity. rewrite <- E in *. apply generic_format_abs_inv. rewrite E. apply generic_format_bpow. unfold FLT_exp. lia. }
    rewrite R, Rminus_diag_eq, Rabs_R0 by auto. apply bpow_ge_0.
Qed.

Lemma nodes_f32 s n dl : sine_accurate32 s dl -> (2 <= n)%nat -> (Z.of_nat n <= 2 ^ 52)%Z ->
  wp (cheb_nodes32 s n) (fun x => length x = n /\ forall k, (k < n)%nat ->
    exists a : f32, f32_fin a /\ Rabs (f32_val a) <= 2 /\ f32_val a = rnd32 (arg64 (Z.of_nat (n - 1)) (Z.of_nat (n - 1) - 2 * Z.of_nat k)) /\
      f32_fin x.[k] /\ f32_val x.[k] = - f32_val (s a) /\
      Rabs (f32_val x.[k] - node n k) <= dl + (bpow radix2 (-24) + bpow radix2 (-51))).
Proof.
  intros Hs Hn H52. unfold cheb_nodes32, usub. destruct (Nat.leb_spec 1 n); [|lia]. cbn [bind wp].
  split. rewrite map_length, seq_length. reflexivity. intros k Hk.
  rewrite at_map_seq by auto. cbv beta zeta. unfold nofN. cbn [Nat.add]. set (m := Z.of_nat (n - 1)).
  destruct (arg_f64 m (Z.of_nat k) ltac:(lia) ltac:(lia)) as [Fa Va].
  set (a := ndiv (nmul pi64 (nsub (nofZ m) (nmul (nofZ 2%Z) (nofZ (Z.of_nat k))))) (nmul (nofZ 2%Z) (nofZ m)) : f64) in *.
  change (ndiv (nmul pi64 (nsub (nofZ m) (nmul (nofZ 2%Z) (nofZ (Z.of_nat k))))) (nmul (nofZ 2%Z) (nofZ m))) with a.
  destruct (arg64_near m (m - 2 * Z.of_nat k) ltac:(lia) ltac:(lia)) as [E1 E2].
  destruct (to_f32_spec a Fa) as [F3 V3]. { rewrite Va. eapply Rle_trans. exact E2. change 2 with (bpow radix2 1). apply bpow_le; lia. }
  rewrite Va in V3. set (z := arg64 m (m - 2 * Z.of_nat k)) in *.
  destruct (rnd32_le z 1 ltac:(lia) E2) as [B3 _]. change (bpow radix2 1) with 2 in B3.
  exists (to_f32 a). split; auto. split. rewrite V3; auto. split; auto.
  destruct (Hs _ F3 ltac:(rewrite V3; exact B3)) as [Ft Et]. destruct (minus_one32 _ Ft) as [Fx Vx].
  split; auto. split; auto. rewrite Vx. rewrite node_arg by auto. fold m. rewrite V3 in Et.
  pose proof (rnd32_abs z 1 ltac:(lia) E2) as R3. change (1 - 25)%Z with (-24)%Z in R3.
  pose proof (sin_lip (rnd32 z) (argR m (m - 2 * Z.of_nat k))) as L.
  assert (D : Rabs (rnd32 z - argR m (m - 2 * Z.of_nat k)) <= bpow radix2 (-24) + bpow radix2 (-51)).
  { replace (rnd32 z - argR m (m - 2 * Z.of_nat k)) with ((rnd32 z - z) + (z - argR m (m - 2 * Z.of_nat k))) by ring.
    eapply Rle_trans. apply Rabs_triang. change u64 with (/ 9007199254740992) in E1. change (bpow radix2 (-51)) with (/ 2251799813685248). lra. }
  replace (- f32_val (s (to_f32 a)) - - sin (argR m (m - 2 * Z.of_nat k))) with
    (- ((f32_val (s (to_f32 a)) - sin (rnd32 z)) + (sin (rnd32 z) - sin (argR m (m - 2 * Z.of_nat k))))) by ring.
  rewrite Rabs_Ropp. eapply Rle_trans. apply Rabs_triang. lra.
Qed.

(** The Chebyshev grid in f32: within dl + 2^-24 (+ 2^-51) of -cos(pi k/(n-1)); strictly increasing
    when that is small against 1/(n-1)^2; symmetric. *)
Theorem C66_chebyshev_coords_f32 : forall s n dl, sine_accurate32 s dl -> (2 <= n)%nat -> (Z.of_nat n <= 2 ^ 52)%Z ->
  let e := dl + (bpow radix2 (-24) + bpow radix2 (-51)) in
  wp (cheb_nodes32 s n) (fun x => length x = n /\
    (forall k, (k < n)%nat -> f32_fin x.[k] /\ Rabs (f32_val x.[k] - - cos (PI * INR k / INR (n - 1))) <= e) /\
    (2 * e * (INR (n - 1) * INR (n - 1)) < 1 ->
      forall i j, (i < j)%nat -> (j < n)%nat -> f32_val x.[i] < f32_val x.[j]) /\
    (sine_odd32 s -> forall k, (k < n)%nat -> f32_val x.[n - 1 - k] = - f32_val x.[k])).
Proof.
  intros s n dl Hs Hn H52 e. eapply wp_mono. apply (nodes_f32 s n dl); auto. cbv beta. fold e. intros x [L H]. split; auto. split; [|split].
  - intros k Hk. destruct (H k Hk) as (a & _ & _ & _ & F & _ & E). split; auto.
  - intros Hd i j Hij Hj. assert (Step : forall k, (S k < n)%nat -> f32_val x.[k] < f32_val x.[S k]).
    { intros k Hk. destruct (H k ltac:(lia)) as (_ & _ & _ & _ & _ & _ & E1). destruct (H (S k) Hk) as (_ & _ & _ & _ & _ & _ & E2).
      pose proof (node_gap n k Hn Hk) as G. set (M := INR (n - 1) * INR (n - 1)) in *.
      assert (0 < M). { assert (1 <= INR (n - 1)) by (change 1 with (INR 1); apply le_INR; lia). unfold M. nra. }
      assert (2 * e < / M). { apply Rmult_lt_reg_r with M; auto. rewrite Rinv_l by lra. exact Hd. }
      apply Rabs_le_inv in E1, E2. lra. }
    induction j; [lia|]. destruct (Nat.eq_dec i j) as [->|]. apply Step; auto. eapply Rlt_trans. apply IHj; lia. apply Step; auto.
  - intros Ho k Hk. destruct (H k Hk) as (a & Fa & _ & Va & _ & V & _). destruct (H (n - 1 - k)%nat ltac:(lia)) as (b & Fb & _ & Vb & _ & V' & _).
    rewrite V, V'. f_equal. apply Ho; auto. rewrite Va, Vb, <- rnd32_opp. f_equal. rewrite <- arg64_opp. f_equal. lia.
Qed.
Print Assumptions C66_chebyshev_coords_f32.

(** the best sine f32 can hold *)
Definition sine_rounded32 (s : f32 -> f32) : Prop :=
  forall x, f32_fin x -> Rabs (f32_val x) <= 2 -> f32_fin (s x) /\ f32_val (s x) = rnd32 (sin (f32_val x)).

Lemma sine_rounded_accurate s : sine_rounded32 s -> sine_accurate32 s (bpow radix2 (-25)).
Proof.
  intros H x F B. destruct (H x F B) as [Fs V]. split; auto. rewrite V. apply (rnd32_abs _ 0). lia.
  change (bpow radix2 0) with 1. apply Rabs_le. pose proof (SIN_bound (f32_val x)). lra.
Qed.

Theorem C66_distinct_points_f32 : forall s n, sine_rounded32 s -> (2 <= n <= 2300)%nat ->
  wp (cheb_nodes32 s n) (fun x => forall i j, (i < j)%nat -> (j < n)%nat -> f32_val x.[i] < f32_val x.[j]).
Proof.
  intros s n Hs Hn. eapply wp_mono. apply (C66_chebyshev_coords_f32 s n (bpow radix2 (-25))). apply sine_rounded_accurate; auto. lia. lia.
  cbv beta zeta. intros x (_ & _ & H & _). apply H.
  assert (0 <= INR (n - 1) <= 2299). { split. apply pos_INR. rewrite INR_IZR_INZ. apply IZR_le. lia. }
  change (bpow radix2 (-25)) with (/ 33554432). change (bpow radix2 (-24)) with (/ 16777216). change (bpow radix2 (-51)) with (/ 2251799813685248).
  assert (INR (n - 1) * INR (n - 1) <= 2299 * 2299) by nra. lra.
Qed.
Print Assumptions C66_distinct_points_f32.

(** ... and it is not distinct for ever: from 2^14 + 1 points on, even with the best sine, the
    first two points are the same f32, -1 *)
Theorem C66_points_collide_f32 : forall s n, sine_rounded32 s -> (2 ^ 14 + 1 <= Z.of_nat n <= 2 ^ 52)%Z ->
  wp (cheb_nodes32 s n) (fun x => f32_val x.[0%nat] = - 1 /\ f32_val x.[1%nat] = - 1).
Proof.
  intros s n Hs Hn. pose proof pi_bounds as PB. eapply wp_mono. apply (nodes_f32 s n (bpow radix2 (-25))). apply sine_rounded_accurate; auto. lia. lia.
  cbv beta. intros x [L H].
  assert (G : forall k, (k <= 1)%nat -> f32_val x.[k] = - 1).
  { intros k Hk. destruct (H k ltac:(lia)) as (a & Fa & Ba & Va & _ & V & _). destruct (Hs a Fa Ba) as [_ Vs]. rewrite V, Vs. replace (- 1) with (Ropp 1) by lra. apply f_equal.
    set (m := Z.of_nat (n - 1)) in *. assert (Hm : (2 ^ 14 <= m <= 2 ^ 52)%Z) by (unfold m; lia).
    destruct (arg64_near m (m - 2 * Z.of_nat k) ltac:(lia) ltac:(lia)) as [E1 E2].
    pose proof (rnd32_abs _ 1 ltac:(lia) E2) as R3. change (1 - 25)%Z with (-24)%Z in R3. rewrite <- Va in R3.
    set (z := arg64 m (m - 2 * Z.of_nat k)) in *. set (y := f32_val a) in *.
    assert (AR : argR m (m - 2 * Z.of_nat k) = PI / 2 - PI * INR k / IZR m).
    { unfold argR. rewrite minus_IZR, !mult_IZR, <- INR_IZR_INZ. assert (IZR m <> 0) by (apply not_0_IZR; lia). field. auto. }
    rewrite AR in E1. assert (M1 : 16384 <= IZR m) by (apply IZR_le; lia).
    assert (K : 0 <= PI * INR k / IZR m <= 315 / 100 / 16384).
    { assert (0 <= INR k <= 1) by (split; [apply pos_INR|change 1 with (INR 1); apply le_INR; auto]).
      assert (0 < / IZR m <= / 16384) by (split; [apply Rinv_0_lt_compat; lra|apply Rinv_le; lra]).
      split. apply Rmult_le_pos. apply Rmult_le_pos; lra. lra. unfold Rdiv. apply Rmult_le_compat; try lra. apply Rmult_le_pos; lra. nra. }
    set (d := y - PI / 2).
    assert (D : Rabs d <= 195 / 1000000).
    { unfold d. apply Rabs_le_inv in R3, E1. change (bpow radix2 (-24)) with (/ 16777216) in R3. change u64 with (/ 9007199254740992) in E1. apply Rabs_le. split; lra. }
    (* sin y = cos d *)
    assert (S : sin y = cos d). { replace y with (PI / 2 + d) by (unfold d; ring). rewrite sin_plus, sin_PI2, cos_PI2. ring. }
    assert (C : 1 - d * d / 2 <= cos d).
    { destruct (cos_bound d 0) as [Lc _]. apply Rabs_le_inv in D; lra. apply Rabs_le_inv in D; lra.
      unfold cos_approx, cos_term in Lc. cbn [sum_f_R0 Nat.mul Nat.add fact INR pow] in Lc. 
      replace (1 - d * d / 2) with (1 * (1 / 1) + -1 * 1 * (d * (d * 1) / (1 + 1))) by field. exact Lc. }
    assert (DD : d * d <= (195 / 1000000) * (195 / 1000000)). { rewrite <- (Rabs_pos_eq (d * d)) by nra. rewrite Rabs_mult. apply Rmult_le_compat; auto using Rabs_pos. }
    assert (Lo : 1 - / 4 * bpow radix2 (-23) < sin y) by (rewrite S; change (bpow radix2 (-23)) with (/ 8388608); lra).
    pose proof (SIN_bound y) as [_ Hi].
    assert (F1 : generic_format radix2 (FLT_exp (3 - 128 - 24) 24) 1) by (apply (generic_format_bpow radix2 _ 0); unfold FLT_exp; lia).
    apply Rle_antisym.
    - eapply Rle_trans. apply (rnd32_mono _ 1 Hi). rewrite (proj2 (format_rnd 24 128 eq_refl 1) F1). apply Rle_refl.
    - (* everything nearer to 1 than to its predecessor rounds to 1 *)
      assert (P : pred radix2 (FLT_exp (3 - 128 - 24) 24) 1 = 1 - / 2 * bpow radix2 (-23)).
      { change 1 with (bpow radix2 0) at 1. rewrite pred_bpow by (unfold FLT_exp; lia). change (bpow radix2 0) with 1.
        replace (FLT_exp (3 - 128 - 24) 24 0) with (-1 + -23)%Z by (unfold FLT_exp; reflexivity). rewrite bpow_plus. change (bpow radix2 (-1)) with (/ 2). reflexivity. }
      unfold ieee_rnd. apply round_N_ge_midp; auto with typeclass_instances. rewrite P. lra. }
  split; apply G; lia.
Qed.
Print Assumptions C66_points_collide_f32.

(** The Fourier grid in f32: as many points as in f64 (C43), each within one f32 rounding;
    strictly increasing up to 2^22 points *)
Theorem C66_fourier_coords_f32 : forall n, (1 <= n)%nat -> (Z.of_nat n <= 2 ^ 51)%Z ->
  let x := fourier_nodes32 n in
  let e := bpow radix2 (-24) + bpow radix2 (-50) in
  length x = length (nodes64 n) /\
  (forall j, (j < length x)%nat -> f32_fin x.[j] /\ Rabs (f32_val x.[j] - 2 * PI * INR j / INR n) <= e * (2 * PI * INR j / INR n)) /\
  f32_val x.[0%nat] = 0 /\
  ((Z.of_nat n <= 2 ^ 22)%Z -> forall i j, (i < j)%nat -> (j < length x)%nat -> f32_val x.[i] < f32_val x.[j]).
Proof.
  intros n Hn H51 x e. destruct (circle_l n Hn H51) as (L & A & Z0 & _). pose proof pi_bounds as PB.
  assert (N1 : 1 <= INR n) by (change 1 with (INR 1); apply le_INR; auto).
  assert (N2 : INR n <= 2251799813685248). { rewrite INR_IZR_INZ. change 2251799813685248 with (IZR (2 ^ 51)). apply IZR_le. exact H51. }
  assert (Lx : length x = length (nodes64 n)) by (unfold x, fourier_nodes32; apply map_length).
  assert (X : forall j, (j < length x)%nat -> x.[j] = to_f32 (nodes64 n).[j]).
  { intros j Hj. unfold x, fourier_nodes32, at_. rewrite (nth_indep _ _ (to_f32 dflt)) by exact Hj. apply map_nth. }
  assert (W : forall j, (j < length x)%nat -> f32_fin x.[j] /\ Rabs (f32_val x.[j] - 2 * PI * INR j / INR n) <= e * (2 * PI * INR j / INR n)).
  { intros j Hj. rewrite X by auto. destruct (A j ltac:(lia)) as [F E]. set (t := 2 * PI * INR j / INR n) in *.
    assert (I0 : 0 < / INR n) by (apply Rinv_0_lt_compat; lra).
    assert (I1 : / 2251799813685248 <= / INR n <= 1). { split. apply Rinv_le; lra. rewrite <- Rinv_1. apply Rinv_le; lra. }
    assert (T0 : 0 <= t) by (unfold t; apply Rmult_le_pos; [apply Rmult_le_pos; [lra|apply pos_INR]|lra]).
    assert (Hj' : (j <= n)%nat) by lia. apply le_INR in Hj'.
    assert (T1 : t <= 8). { unfold t. apply Rmult_le_reg_r with (INR n). lra. replace (2 * PI * INR j / INR n * INR n) with (2 * PI * INR j) by (field; lra). pose proof (pos_INR j). nra. }
    replace e with (u32 + bpow radix2 (-50)) by reflexivity. rewrite <- (Rabs_pos_eq t) at 2 by auto. apply to_f32_ent.
    split; auto. rewrite (Rabs_pos_eq t) by auto. split; auto. destruct j as [|j].
    - left. unfold t. cbn [INR]. field. lra.
    - right. rewrite Rabs_pos_eq by auto. split.
      + apply Rle_trans with (bpow radix2 (-60)). apply bpow_le; lia. change (bpow radix2 (-60)) with (/ 1152921504606846976).
        unfold t. assert (1 <= INR (S j)) by (change 1 with (INR 1); apply le_INR; lia). unfold Rdiv. assert (6 * 1 <= 2 * PI * INR (S j)) by nra.
        apply Rle_trans with (6 * 1 * / INR n). lra. apply Rmult_le_compat_r; lra.
      + apply Rle_trans with (bpow radix2 3). exact T1. apply bpow_le; lia. }
  split; auto. split; auto. split.
  - destruct (W 0%nat ltac:(lia)) as [_ E]. cbn [INR] in E. replace (2 * PI * 0 / INR n) with 0 in E by (field; lra).
    rewrite Rminus_0_r, Rmult_0_r in E. apply Rabs_eq_0. pose proof (Rabs_pos (f32_val x.[0%nat])). lra.
  - intros H22 i j Hij Hj.
    assert (Step : forall k, (S k < length x)%nat -> f32_val x.[k] < f32_val x.[S k]).
    { intros k Hk. destruct (W k ltac:(lia)) as [_ E1]. destruct (W (S k) Hk) as [_ E2].
      assert (N3 : INR n <= 4194304). { rewrite INR_IZR_INZ. change 4194304 with (IZR (2 ^ 22)). apply IZR_le. exact H22. }
      assert (K : INR (S k) <= INR n) by (apply le_INR; lia). rewrite S_INR in *. pose proof (pos_INR k).
      set (g := 2 * PI / INR n). assert (G : 0 < g) by (unfold g; apply Rdiv_lt_0_compat; lra).
      replace (2 * PI * INR k / INR n) with (g * INR k) in E1 by (unfold g; field; lra).
      replace (2 * PI * (INR k + 1) / INR n) with (g * (INR k + 1)) in E2 by (unfold g; field; lra).
      assert (E0 : 0 <= e <= / 16000000). { unfold e. change (bpow radix2 (-24)) with (/ 16777216). change (bpow radix2 (-50)) with (/ 1125899906842624). lra. }
      clearbody e. apply Rabs_le_inv in E1, E2.
      assert (Q : e * (INR k + 1 + INR k) < 1) by nra.
      assert (e * (g * (INR k + 1)) + e * (g * INR k) < g).
      { replace (e * (g * (INR k + 1)) + e * (g * INR k)) with (g * (e * (INR k + 1 + INR k))) by ring.
        rewrite <- (Rmult_1_r g) at 2. apply Rmult_lt_compat_l; auto. }
      lra. }
    induction j; [lia|]. destruct (Nat.eq_dec i j) as [->|]. apply Step; auto. eapply Rlt_trans. apply IHj; lia. apply Step; auto.
Qed.
Print Assumptions C66_fourier_coords_f32.

(** ** The hypotheses can be met; rounding happens *)
Example C66_case_sine : exists s, sine_rounded32 s /\ sine_odd32 s.
Proof.
  exists (fun x => of_R 24 128 _ _ (sin (f32_val x))).
  assert (G : forall x : f32, f32_fin (of_R 24 128 _ _ (sin (f32_val x))) /\ f32_val (of_R 24 128 _ _ (sin (f32_val x))) = rnd32 (sin (f32_val x))).
  { intros x. destruct (of_R_spec 24 128 _ _ (sin (f32_val x))) as [F V]. destruct (rnd32_le (sin (f32_val x)) 0 ltac:(lia)) as [_ I].
    change (bpow radix2 0) with 1. apply Rabs_le. pose proof (SIN_bound (f32_val x)). lra. split. apply F; auto. apply V, F; auto. }
  split. intros x _ _. apply G. intros x y _ _ E. destruct (G x) as [_ ->], (G y) as [_ ->]. rewrite E, sin_neg. apply rnd32_opp.
Qed.
Example C66_case_pinv : exists c, cheb_new 6 = Ok c /\ (Z.of_nat 6 <= psafe 3)%Z /\
  wp (cheb_diffmat_pinv32 Debug c 3) (fun PE => B2SF (fst PE).[3].[0] = B2SF (ndiv (nofZ 1%Z) (nofZ 24%Z) : f32)).
Proof. exists (mk_cheb 6 6). split; [reflexivity|]. split; [discriminate|]. vm_compute. reflexivity. Qed.
Example C66_case_stencil : wp (compo_stencil32 KDirichletNeumann 6) (fun M => length M = 6%nat /\ B2SF M.[1].[0] = B2SF (ndiv (nofZ 4%Z) (nofZ 5%Z) : f32)).
Proof. vm_compute. split; reflexivity. Qed.
