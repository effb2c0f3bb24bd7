(** C54: rounding errors.  In floating-point arithmetic (f32, f64, or any
    arithmetic whose operations round correctly; [float_arith]) the results of
    the solvers, of the Dirichlet base and of the Chebyshev derivative differ
    from the exact results by bounds that are proved for every size and every
    input: nothing is assumed about the input but that the result is finite. *)
From Coq Require Import List Arith ZArith Reals Bool Lra Lia.
From Flocq Require Import Raux.
From Verif Require Import Base Num Linalg Stencils Cheb Compo CompoProofs AnyArith ArithSteps FourierF64 Rounding RndTdma RndDirichlet.
Import ListNotations.
Local Open Scope R_scope.

(** The tridiagonal solver: a finite solution solves, row by row, the system
    given to it up to a residual of a few rounding errors of the row's own terms
    (diagonally dominant systems, the only ones the crate builds). *)
Theorem C54_tdma_backward_error :
  forall A (N : Num A) u eta rnd zmax inr fin val, float_arith N u eta rnd zmax inr fin val ->
  forall T (V : Vec A T) (VC : VecC N T V) md (low diag upp : list A) (rhs x : list T) n,
  (2 < n)%nat -> length diag = n -> length low = (n - 2)%nat -> length upp = (n - 2)%nat -> length rhs = n ->
  let lo j := if (j <? 2)%nat then 0 else val low.[j - 2] in
  let up j := if (j + 2 <? n)%nat then val upp.[j] else 0 in
  (forall j, (j < n - 2)%nat -> fin low.[j] /\ fin upp.[j]) ->
  (forall j, (j < n)%nat -> fin diag.[j] /\ inr (4 * val diag.[j]) /\
     Rabs (lo j) + Rabs (up j) <= Rabs (val diag.[j]) /\ Rabs (lo j) < Rabs (val diag.[j])) ->
  tdma md low diag upp rhs = Ok x -> (forall p j, (j < n)%nat -> fin (cp p x.[j])) ->
  forall p j, (j < n)%nat ->
  let X i := val (cp p x.[i]) in
  fin (cp p rhs.[j]) /\
  Rabs (lo j * X (j - 2)%nat + val diag.[j] * X j + up j * X (j + 2)%nat - val (cp p rhs.[j])) <=
    12 * u * (Rabs (lo j) * Rabs (X (j - 2)%nat) + Rabs (val diag.[j]) * Rabs (X j) + Rabs (up j) * Rabs (X (j + 2)%nat))
    + 8 * eta * (1 + Rabs (val diag.[j])) * (1 + Rabs (X j) + Rabs (X (j + 2)%nat)).
Proof.
  intros A N u eta rnd zmax inr fin val FA T V VC md low diag upp rhs x n Hn Ld Ll Lu Lr lo up H1 H2 E FX p j Hj X0.
  refine (proj2 (tdma_rows FA low diag upp n Hn _ _ _ _ md rhs x Ll Ld Lu Lr E FX) p j Hj).
  - intros. apply H1; auto.
  - intros. apply H1; auto.
  - intros i Hi. destruct (H2 i Hi) as (F & I & _). auto.
  - intros i Hi. destruct (H2 i Hi) as (_ & _ & D). exact D.
Qed.

(** The Dirichlet base *)
Section Dirichlet.
Context {A : Type} {N : Num A} {u eta : R} {rnd : R -> R} {zmax : Z} {inr : R -> Prop} {fin : A -> Prop} {val : A -> R}
  (FA : float_arith N u eta rnd zmax inr fin val) {T : Type} {V : Vec A T} {VC : VecC N T V}.
Notation Xv := (X (val := val)).

Lemma dir_inv n c : compo_new KDirichlet n = Ok c -> (4 <= n)%nat /\ c = mk_compo n (n - 2) (mk_cheb n n) (Dirichlet (dir_st2 (n - 2))).
Proof.
  intros H. destruct (le_lt_dec 4 n) as [L|L].
  - rewrite dir_new in H by auto. injection H as <-. auto.
  - exfalso. assert (n = 0 \/ n = 1 \/ n = 2 \/ n = 3)%nat as [->|[->|[->| ->]]] by lia; cbn in H; discriminate.
Qed.

(** Σ dir_coef s^k = 0 for s = ±1 *)
Lemma dir_coef_sum n (c : nat -> R) s : s * s = 1 -> (2 <= n)%nat -> rsum n (fun k => dir_coef n c k * s ^ k) = 0.
Proof.
  intros Hs Hn. unfold dir_coef. rewrite (rsum_ext n _ (fun k => (if k <? n - 2 then c k else 0) * s ^ k - (if k <? 2 then 0 else c (k - 2)%nat) * s ^ k)) by (intros; ring).
  rewrite rsum_sub.
  assert (E1 : rsum n (fun k => (if k <? n - 2 then c k else 0) * s ^ k) = rsum (n - 2) (fun k => c k * s ^ k)).
  { replace n with ((n - 2) + 2)%nat at 1 by lia. rewrite rsum_split. rewrite (rsum_0 2).
    - rewrite Rplus_0_r. apply rsum_ext. intros k Hk. destruct (Nat.ltb_spec k (n - 2)); auto; lia.
    - intros k Hk. destruct (Nat.ltb_spec (n - 2 + k) (n - 2)). lia. ring. }
  assert (E2 : rsum n (fun k => (if k <? 2 then 0 else c (k - 2)%nat) * s ^ k) = rsum (n - 2) (fun k => c k * s ^ k)).
  { replace n with (2 + (n - 2))%nat at 1 by lia. rewrite rsum_split. rewrite (rsum_0 2).
    - rewrite Rplus_0_l. apply rsum_ext. intros k Hk. destruct (Nat.ltb_spec (2 + k) 2); [lia|]. replace (2 + k - 2)%nat with k by lia.
      change (s ^ (2 + k)) with (s * (s * s ^ k)). rewrite <- (Rmult_assoc s s), Hs. ring.
    - intros k Hk. destruct (Nat.ltb_spec k 2). ring. lia. }
  rewrite E1, E2. ring.
Qed.
Lemma rsum_abs n f : Rabs (rsum n f) <= rsum n (fun k => Rabs (f k)).
Proof. induction n; cbn [rsum]. rewrite Rabs_R0; lra. eapply Rle_trans; [apply Rabs_triang|]. lra. Qed.
Lemma rsum_le n f g : (forall k, (k < n)%nat -> f k <= g k) -> rsum n f <= rsum n g.
Proof. intros H. induction n; cbn [rsum]. lra. specialize (IHn ltac:(intros; apply H; lia)). specialize (H n ltac:(lia)). lra. Qed.
Lemma dir_coef_abs n (c : nat -> R) : (2 <= n)%nat -> rsum n (fun k => Rabs (dir_coef n c k)) <= 2 * rsum (n - 2) (fun k => Rabs (c k)).
Proof.
  intros Hn. eapply Rle_trans.
  { apply (rsum_le n _ (fun k => (if k <? n - 2 then Rabs (c k) else 0) + (if k <? 2 then 0 else Rabs (c (k - 2)%nat)))).
    intros k Hk. unfold dir_coef, Rminus. eapply Rle_trans; [apply Rabs_triang|]. rewrite Rabs_Ropp.
    destruct (k <? n - 2), (k <? 2); rewrite ?Rabs_R0; lra. }
  rewrite rsum_add. apply Req_le. replace (2 * rsum (n - 2) (fun k => Rabs (c k))) with (rsum (n - 2) (fun k => Rabs (c k)) + rsum (n - 2) (fun k => Rabs (c k))) by ring. f_equal.
  - replace n with ((n - 2) + 2)%nat at 1 by lia. rewrite rsum_split. rewrite (rsum_0 2).
    + rewrite Rplus_0_r. apply rsum_ext. intros k Hk. destruct (Nat.ltb_spec k (n - 2)); auto; lia.
    + intros k Hk. destruct (Nat.ltb_spec (n - 2 + k) (n - 2)). lia. auto.
  - replace n with (2 + (n - 2))%nat at 1 by lia. rewrite rsum_split. rewrite (rsum_0 2).
    + rewrite Rplus_0_l. apply rsum_ext. intros k Hk. destruct (Nat.ltb_spec (2 + k) 2); [lia|]. replace (2 + k - 2)%nat with k by lia. auto.
    + intros k Hk. destruct (Nat.ltb_spec k 2). auto. lia.
Qed.

Lemma dir_boundary_gen n c (v o a : list T) p s : compo_new KDirichlet n = Ok c ->
  length v = (n - 2)%nat -> length o = n -> compo_to_ortho c v o = Ok a -> (forall k, (k < n)%nat -> fin (cp p a.[k])) -> s * s = 1 -> Rabs s = 1 ->
  Rabs (rsum n (fun k => Xv p a k * s ^ k)) <= 2 * u * rsum (n - 2) (fun k => Rabs (Xv p v k)).
Proof.
  intros Hc Lv Lo E F Hs Ha. destruct (dir_inv n c Hc) as [Hn ->].
  assert (B : forall k, (k < n)%nat -> Rabs (Xv p a k - dir_coef n (Xv p v) k) <= u * Rabs (dir_coef n (Xv p v) k)).
  { intros k Hk. apply (dir_to_ortho_err FA n v o a p Hn Lv Lo E k Hk). auto. }
  replace (rsum n (fun k => Xv p a k * s ^ k)) with (rsum n (fun k => (Xv p a k - dir_coef n (Xv p v) k) * s ^ k)).
  2: { rewrite (rsum_ext n _ (fun k => Xv p a k * s ^ k - dir_coef n (Xv p v) k * s ^ k)) by (intros; ring). rewrite rsum_sub, dir_coef_sum by (auto; lia). ring. }
  eapply Rle_trans; [apply rsum_abs|].
  assert (Hp : forall k, Rabs (s ^ k) = 1). { intros k. rewrite <- RPow_abs, Ha. apply pow1. }
  eapply Rle_trans. { apply (rsum_le n _ (fun k => u * Rabs (dir_coef n (Xv p v) k))). intros k Hk. rewrite Rabs_mult, Hp, Rmult_1_r. apply B; auto. }
  rewrite rsum_scal_l. pose proof (dir_coef_abs n (Xv p v) ltac:(lia)) as D. pose proof (rn_u _ _ _ (fa_rnd _ _ _ _ _ _ _ _ FA)) as [U _].
  replace (2 * u * rsum (n - 2) (fun k => Rabs (Xv p v k))) with (u * (2 * rsum (n - 2) (fun k => Rabs (Xv p v k)))) by ring.
  apply Rmult_le_compat_l; auto.
Qed.
End Dirichlet.

(** The coefficients to_ortho returns are the exact ones up to one rounding each. *)
Theorem C54_dirichlet_to_ortho :
  forall A (N : Num A) u eta rnd zmax inr fin val, float_arith N u eta rnd zmax inr fin val ->
  forall T (V : Vec A T) (VC : VecC N T V) n c (v o a : list T), compo_new KDirichlet n = Ok c ->
  length v = (n - 2)%nat -> length o = n -> compo_to_ortho c v o = Ok a ->
  forall p k, (k < n)%nat -> fin (cp p a.[k]) ->
  let exact := (if (k <? n - 2)%nat then val (cp p v.[k]) else 0) - (if (k <? 2)%nat then 0 else val (cp p v.[k - 2])) in
  Rabs (val (cp p a.[k]) - exact) <= u * Rabs exact.
Proof.
  intros A N u eta rnd zmax inr fin val FA T V VC n c v o a Hc Lv Lo E p k Hk F. destruct (dir_inv n c Hc) as [Hn ->].
  apply (dir_to_ortho_err FA n v o a p Hn Lv Lo E k Hk F).
Qed.

(** The polynomial to_ortho returns satisfies the boundary conditions up to
    2 u times the sum of the coefficients, at x = 1 and x = -1. *)
Theorem C54_dirichlet_boundary :
  forall A (N : Num A) u eta rnd zmax inr fin val, float_arith N u eta rnd zmax inr fin val ->
  forall T (V : Vec A T) (VC : VecC N T V) n c (v o a : list T), compo_new KDirichlet n = Ok c ->
  length v = (n - 2)%nat -> length o = n -> compo_to_ortho c v o = Ok a ->
  forall p, (forall k, (k < n)%nat -> fin (cp p a.[k])) ->
  let bound := 2 * u * rsum (n - 2) (fun k => Rabs (val (cp p v.[k]))) in
  Rabs (rsum n (fun k => val (cp p a.[k]))) <= bound /\ Rabs (rsum n (fun k => val (cp p a.[k]) * (-1) ^ k)) <= bound.
Proof.
  intros A N u eta rnd zmax inr fin val FA T V VC n c v o a Hc Lv Lo E p F bound. split.
  - rewrite (rsum_ext n _ (fun k => val (cp p a.[k]) * 1 ^ k)) by (intros; rewrite pow1; ring).
    apply (dir_boundary_gen FA n c v o a p 1); auto. ring. apply Rabs_R1.
  - apply (dir_boundary_gen FA n c v o a p (-1)); auto. ring. rewrite Rabs_left; lra.
Qed.

Lemma Rabs_le0 x : Rabs x <= 0 -> x = 0.
Proof. intros H. destruct (Req_dec x 0); auto. pose proof (Rabs_pos_lt x). lra. Qed.
Notation XR := (X (A := R) (N := num_R) (T := R) (V := vec_self) (VC := vecC_self num_R) (val := fun r : R => r) tt).
(** from_ortho against the same program run in exact arithmetic on the values of
    the same input. *)
Theorem C54_dirichlet_from_ortho :
  forall A (N : Num A) u eta rnd zmax inr fin val, float_arith N u eta rnd zmax inr fin val ->
  forall T (V : Vec A T) (VC : VecC N T V) n c cx (a o x : list T), (5 <= n)%nat ->
  compo_new KDirichlet n = Ok c -> compo_new (N := num_R) KDirichlet n = Ok cx ->
  length a = n -> length o = (n - 2)%nat ->
  compo_from_ortho c a o = Ok x -> (forall p j, (j < n - 2)%nat -> fin (cp p x.[j])) ->
  forall p (o' y : list R), length o' = (n - 2)%nat -> compo_from_ortho cx (map (fun z => val (cp p z)) a) o' = Ok y ->
  forall Am Xm, (forall k, (k < n)%nat -> Rabs (val (cp p a.[k])) <= Am) -> (forall k, (k < n - 2)%nat -> Rabs (val (cp p x.[k])) <= Xm) ->
  (forall k, (k < n)%nat -> fin (cp p a.[k])) /\
  forall k, (k < n - 2)%nat -> Rabs (val (cp p x.[k]) - y.[k]) <= (INR n + 1) ^ 2 * (u * (Am + 2 * Xm) + eta * (1 + 2 * Xm)).
Proof.
  intros A N u eta rnd zmax inr fin val FA T V VC n c cx a o x Hn Hc Hcx La Lo E FX p o' y Lo' Ey Am Xm HA HX.
  destruct (dir_inv n c Hc) as [Hn4 ->]. destruct (dir_inv (N := num_R) n cx Hcx) as [_ ->].
  destruct (dir_from_rows FA n a o x Hn La Lo E FX) as [Lx HR]. destruct (HR p) as [Fa Hr]. specialize (Hr Xm HX). split; auto.
  assert (Lm : length (map (fun z => val (cp p z)) a) = n) by (rewrite map_length; auto).
  destruct (dir_from_rows (exact_float_arith 1024 ltac:(lia)) n (map (fun z => val (cp p z)) a) o' y Hn Lm Lo' Ey (fun _ _ _ => I)) as [Ly HY].
  destruct (HY tt) as [_ HY']. clear HY HR.
  destruct (bounded_max (n - 2) (XR y)) as (Ym & _ & HYm & _). specialize (HY' Ym HYm).
  pose proof (rn_u _ _ _ (fa_rnd _ _ _ _ _ _ _ _ FA)) as [U _]. pose proof (rn_eta _ _ _ (fa_rnd _ _ _ _ _ _ _ _ FA)) as H0.
  assert (Am0 : 0 <= Am). { specialize (HA 0%nat ltac:(lia)). pose proof (Rabs_pos (val (cp p a.[0]))). lra. }
  assert (Xm0 : 0 <= Xm). { specialize (HX 0%nat ltac:(lia)). pose proof (Rabs_pos (val (cp p x.[0]))). lra. }
  set (rho := 2 * u * Am + 48 * u * Xm + 24 * eta * (1 + 2 * Xm)).
  assert (R0 : 0 <= rho).
  { unfold rho. pose proof (Rmult_le_pos u Am U Am0). pose proof (Rmult_le_pos u Xm U Xm0). pose proof (Rmult_le_pos eta (1 + 2 * Xm) H0 ltac:(lra)). lra. }
  assert (Am' : forall j, (j < n)%nat -> XR (map (fun z => val (cp p z)) a) j = X (val := val) p a j).
  { intros j Hj. unfold X. cbn [cp vecC_self]. rewrite (at_map (fun z => val (cp p z)) a j) by lia. reflexivity. }
  intros k Hk. set (z := fun j => X (val := val) p x j - XR y j).
  assert (HZ : Rabs (z k) <= rho * (INR (n - 2) + 3) * (INR (n - 2) + 3) / 32).
  { apply (max_principle_abs (n - 2) z rho R0); auto. intros j Hj.
    destruct (Hr j Hj) as (b & B1 & B2). destruct (HY' j Hj) as (b' & B3 & B4). rewrite !Am' in B3 by lia.
    rewrite Rmult_0_l in B3. replace (48 * 0 * Ym + 24 * 0 * (1 + 2 * Ym)) with 0 in B4 by ring.
    assert (B5 : b' = X (val := val) p a j - X (val := val) p a (j + 2)). { apply Rminus_diag_uniq. apply Rabs_le0. exact B3. }
    assert (B6 : 2 * XR y j - zprev (XR y) j - znext (n - 2) (XR y) j = b').
    { apply Rminus_diag_uniq. apply Rabs_le0. exact B4. }
    assert (B7 : Rabs (X (val := val) p a j - X (val := val) p a (j + 2)) <= 2 * Am).
    { unfold Rminus. eapply Rle_trans; [apply Rabs_triang|]. rewrite Rabs_Ropp. pose proof (HA j ltac:(lia)). pose proof (HA (j + 2)%nat ltac:(lia)). unfold X. lra. }
    replace (2 * z j - zprev z j - znext (n - 2) z j) with
      ((2 * X (val := val) p x j - zprev (X (val := val) p x) j - znext (n - 2) (X (val := val) p x) j - b) + (b - b')).
    2: { rewrite <- B6. unfold z, zprev, znext. destruct (j <? 2), (j + 2 <? n - 2); ring. }
    eapply Rle_trans; [apply Rabs_triang|]. rewrite <- B5 in B1, B7. unfold rho.
    assert (u * Rabs b' <= u * (2 * Am)) by (apply Rmult_le_compat_l; auto). lra. }
  change (val (cp p x.[k]) - y.[k]) with (z k). eapply Rle_trans; [exact HZ|].
  rewrite minus_INR by lia. replace (INR 2) with 2 by (cbn; ring). replace (INR n - 2 + 3) with (INR n + 1) by ring.
  replace (rho * (INR n + 1) * (INR n + 1) / 32) with ((INR n + 1) ^ 2 * (rho / 32)) by (cbn; field).
  apply Rmult_le_compat_l. apply pow_le. pose proof (pos_INR n). lra.
  unfold rho. pose proof (Rmult_le_pos u Am U Am0). pose proof (Rmult_le_pos u Xm U Xm0). pose proof (Rmult_le_pos eta (1 + 2 * Xm) H0 ltac:(lra)). lra.
Qed.

(** from_ortho undoes to_ortho up to rounding: in f64 the relative error is at
    most (n+1)^2 * 2^-51, whatever the coefficients. *)
Theorem C54_dirichlet_round_trip :
  forall A (N : Num A) u eta rnd zmax inr fin val, float_arith N u eta rnd zmax inr fin val ->
  forall T (V : Vec A T) (VC : VecC N T V) n b (c o o' a x : list T), (5 <= n)%nat -> 3 * (INR n + 1) ^ 2 * (u + eta) <= 1 ->
  compo_new KDirichlet n = Ok b -> length c = (n - 2)%nat -> length o = n -> length o' = (n - 2)%nat ->
  compo_to_ortho b c o = Ok a -> compo_from_ortho b a o' = Ok x ->
  (forall p j, (j < n - 2)%nat -> fin (cp p x.[j])) ->
  forall p Cm, (forall k, (k < n - 2)%nat -> Rabs (val (cp p c.[k])) <= Cm) ->
  forall k, (k < n - 2)%nat -> fin (cp p c.[k]) /\
    Rabs (val (cp p x.[k]) - val (cp p c.[k])) <= (INR n + 1) ^ 2 * (4 * u * Cm + 2 * eta * (1 + 2 * Cm)).
Proof.
  intros A N u eta rnd zmax inr fin val FA T V VC n b c o o' a x Hn Hsm Hb Lc Lo Lo' Ea Ex FX p Cm HC.
  destruct (dir_inv n b Hb) as [Hn4 ->].
  assert (La : length a = n). { pose proof (dir_to_ortho n c o Hn4 Lc Lo) as W. rewrite Ea in W. apply W. }
  destruct (dir_from_rows FA n a o' x Hn La Lo' Ex FX) as [Lx HR]. destruct (HR p) as [Fa Hr]. clear HR.
  pose proof (fun k Hk => dir_to_ortho_err FA n c o a p Hn4 Lc Lo Ea k Hk (Fa k Hk)) as HT.
  intros k Hk. split. apply (HT k); lia.
  pose proof (rn_u _ _ _ (fa_rnd _ _ _ _ _ _ _ _ FA)) as [U U1]. pose proof (rn_eta _ _ _ (fa_rnd _ _ _ _ _ _ _ _ FA)) as H0.
  assert (Cm0 : 0 <= Cm). { specialize (HC 0%nat ltac:(lia)). pose proof (Rabs_pos (val (cp p c.[0]))). lra. }
  set (Xx := X (val := val) p x) in *. set (Xc := X (val := val) p c) in *. set (Xa := X (val := val) p a) in *.
  set (z := fun j => Xx j - Xc j).
  destruct (bounded_max (n - 2) z) as (Zm & Z0 & HZ & ZA).
  assert (HX : forall j, (j < n - 2)%nat -> Rabs (Xx j) <= Cm + Zm).
  { intros j Hj. replace (Xx j) with (Xc j + z j) by (unfold z; ring). eapply Rle_trans; [apply Rabs_triang|].
    specialize (HC j Hj). specialize (HZ j Hj). unfold Xc at 1, X. lra. }
  specialize (Hr (Cm + Zm) HX).
  set (rho := 8.1 * u * Cm + 48 * u * (Cm + Zm) + 24 * eta * (1 + 2 * (Cm + Zm))).
  pose proof (Rmult_le_pos u Cm U Cm0) as uC. pose proof (Rmult_le_pos u Zm U Z0) as uZ. pose proof (Rmult_le_pos eta Cm H0 Cm0) as eC. pose proof (Rmult_le_pos eta Zm H0 Z0) as eZ.
  assert (R0 : 0 <= rho) by (unfold rho; lra).
  assert (HD : forall j, Rabs (dir_coef n Xc j) <= 2 * Cm).
  { intros j. unfold dir_coef, Rminus. eapply Rle_trans; [apply Rabs_triang|]. rewrite Rabs_Ropp.
    assert (G : forall i, Rabs (Xc i) <= Cm). { intros i. destruct (lt_dec i (n - 2)). apply HC; auto. unfold Xc. rewrite (X_over FA) by lia. rewrite Rabs_R0. auto. }
    pose proof (G j). pose proof (G (j - 2)%nat). destruct (j <? n - 2), (j <? 2); rewrite ?Rabs_R0; lra. }
  assert (HA : forall j, (j < n)%nat -> Rabs (Xa j - dir_coef n Xc j) <= 2 * u * Cm).
  { intros j Hj. destruct (HT j Hj) as [B _]. fold Xa Xc in B. specialize (HD j). pose proof (Rmult_le_compat_l u _ _ U HD). lra. }
  assert (HM : forall j, (j < n - 2)%nat -> Rabs (z j) <= rho * (INR (n - 2) + 3) * (INR (n - 2) + 3) / 32).
  { apply (max_principle_abs (n - 2) z rho R0). intros j Hj. destruct (Hr j Hj) as (bb & B1 & B2).
    pose proof (HA j ltac:(lia)) as A1. pose proof (HA (j + 2)%nat ltac:(lia)) as A2.
    assert (DD : dir_coef n Xc j - dir_coef n Xc (j + 2) = 2 * Xc j - zprev Xc j - znext (n - 2) Xc j).
    { unfold dir_coef, zprev, znext. destruct (Nat.ltb_spec j (n - 2)); [|lia]. destruct (Nat.ltb_spec (j + 2) 2); [lia|].
      replace (j + 2 - 2)%nat with j by lia. destruct (j <? 2), (j + 2 <? n - 2); ring. }
    assert (A3 : Rabs ((Xa j - Xa (j + 2)%nat) - (dir_coef n Xc j - dir_coef n Xc (j + 2))) <= 4 * u * Cm).
    { replace (Xa j - Xa (j + 2)%nat - (dir_coef n Xc j - dir_coef n Xc (j + 2))) with ((Xa j - dir_coef n Xc j) + - (Xa (j + 2)%nat - dir_coef n Xc (j + 2))) by ring.
      eapply Rle_trans; [apply Rabs_triang|]. rewrite Rabs_Ropp. lra. }
    set (e := (Xa j - Xa (j + 2)%nat) - (dir_coef n Xc j - dir_coef n Xc (j + 2))) in *.
    assert (A4 : Rabs (Xa j - Xa (j + 2)%nat) <= 4 * Cm + 4 * u * Cm).
    { replace (Xa j - Xa (j + 2)%nat) with ((dir_coef n Xc j + - dir_coef n Xc (j + 2)) + e) by (unfold e; ring).
      eapply Rle_trans; [apply Rabs_triang|]. pose proof (Rabs_triang (dir_coef n Xc j) (- dir_coef n Xc (j + 2))) as TT. rewrite Rabs_Ropp in TT.
      pose proof (HD j). pose proof (HD (j + 2)%nat). lra. }
    assert (A5 : u * Rabs (Xa j - Xa (j + 2)%nat) <= 4.1 * u * Cm).
    { pose proof (Rmult_le_compat_l u _ _ U A4). assert (u * (u * Cm) <= / 64 * (u * Cm)) by (apply Rmult_le_compat_r; auto). lra. }
    replace (2 * z j - zprev z j - znext (n - 2) z j) with
      ((2 * Xx j - zprev Xx j - znext (n - 2) Xx j - bb) + ((bb - (Xa j - Xa (j + 2)%nat)) + e)).
    2: { unfold e. rewrite DD. unfold z, zprev, znext. destruct (j <? 2), (j + 2 <? n - 2); ring. }
    eapply Rle_trans; [apply Rabs_triang|]. pose proof (Rabs_triang (bb - (Xa j - Xa (j + 2)%nat)) e). unfold rho. fold Xx Xa in B1, B2. lra. }
  set (K := (INR n + 1) ^ 2) in *.
  assert (EK : forall r, r * (INR (n - 2) + 3) * (INR (n - 2) + 3) / 32 = K * r / 32).
  { intros r. rewrite minus_INR by lia. replace (INR 2) with 2 by (cbn; ring). unfold K. cbn. field. }
  assert (K0 : 0 <= K). { apply pow_le. pose proof (pos_INR n). lra. }
  assert (ZM : Zm <= K * (4 * u * Cm + 2 * eta * (1 + 2 * Cm))).
  { assert (Q : 0 <= K * (4 * u * Cm + 2 * eta * (1 + 2 * Cm))) by (apply Rmult_le_pos; auto; lra).
    destruct ZA as [->|(j & Hj & EZ)]; auto. specialize (HM j Hj). rewrite EK, <- EZ in HM. unfold rho in HM.
    pose proof (Rmult_le_pos K _ K0 uC) as KuC. pose proof (Rmult_le_pos K _ K0 H0) as Ke. pose proof (Rmult_le_pos K _ K0 eC) as KeC.
    assert (S : K * (u + eta) * Zm <= / 3 * Zm) by (apply Rmult_le_compat_r; lra). lra. }
  specialize (HZ k Hk). unfold z, Xx, Xc, X in HZ. lra.
Qed.
