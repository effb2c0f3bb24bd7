(** C64, C66: stencil_inv of the Dirichlet and Neumann bases, in exact
    arithmetic, f64 and f32. *)
From Coq Require Import List Arith Lia Bool ZArith Reals Lra.
From Flocq Require Import Core BinarySingleNaN.
From Verif Require Import Base Num Stencils StencilProofs StencilProofs2 Compo CompoProofs AnyArith FourierF64 Rounding RndTdma RndDirichlet RndNeumann StencilInv.
Import ListNotations.
Local Open Scope R_scope.

(** The left inverses of the two stencils: 1 on and below the diagonal for
    Dirichlet, (j/i)^2 for Neumann, only where i and j have the same parity. *)
Definition dirichlet_inverse (i j : nat) : R := if (j <=? i)%nat && Nat.even (i - j) then 1 else 0.
Definition neumann_inverse (i j : nat) : R :=
  if (i =? j)%nat then 1 else if (j <=? i)%nat && Nat.even (i - j) then (INR j / INR i) ^ 2 else 0.

Lemma done_at {A} {N : Num A} (d b : list A) P r j : done d b P r ->
  P.[r].[j] = if (j <=? r)%nat && Nat.even (r - j) then pe d b r ((r - j) / 2) else n0.
Proof.
  intros (D1 & D2 & D3). destruct (Nat.leb_spec j r) as [L|L]; cbn [andb]; [|apply D3; auto].
  destruct (Nat.even (r - j)) eqn:E.
  - apply Nat.even_spec in E as [t Ht]. replace ((r - j) / 2)%nat with t by (rewrite Ht, Nat.mul_comm, Nat.div_mul; lia).
    rewrite <- D1 by lia. f_equal. lia.
  - assert (O : Nat.odd (r - j) = true) by (unfold Nat.odd; rewrite E; reflexivity). apply Nat.odd_spec in O as [t Ht].
    replace j with (r - 1 - 2 * t)%nat at 1 by lia. apply D2. lia.
Qed.

(** In exact arithmetic stencil_inv returns exactly these. *)
Theorem C13_dirichlet_inverse : forall n c, compo_new (A := R) KDirichlet n = Ok c ->
  wp (compo_stencil_inv c) (fun P => mat_dims P (n - 2) n /\ forall i j, (i < n - 2)%nat -> (j < n)%nat -> P.[i].[j] = dirichlet_inverse i j).
Proof.
  intros n c Hc. destruct (le_lt_dec 4 n) as [H4|H4]; [|rewrite compo_new_panics in Hc by (cbn [smin]; lia); discriminate].
  rewrite dir_new in Hc by auto. injection Hc as <-. unfold compo_stencil_inv. cbn [p_st stencil_pinv].
  eapply wp_mono. apply (st2_pinv_entries (dir_st2 (n - 2)) (n - 2)); cbn [dir_st2 d2_diag d2_low2]; apply repeat_length.
  cbv beta. intros P [HD HR]. replace (n - 2 + 2)%nat with n in HD by lia. split; auto. intros i j Hi Hj.
  rewrite (done_at _ _ _ _ _ (HR i Hi)). unfold dirichlet_inverse. destruct ((j <=? i)%nat && Nat.even (i - j)) eqn:E; [|reflexivity].
  apply andb_prop in E as [E1 E2]. apply Nat.leb_le in E1. cbn [dir_st2 d2_diag d2_low2].
  assert (2 * ((i - j) / 2) <= i)%nat by (pose proof (Nat.mul_div_le (i - j) 2 ltac:(lia)); lia).
  pose proof (exact_float_arith 1024 ltac:(lia)) as FA. apply (pe_dirichlet FA (n - 2) i ((i - j) / 2)); auto.
Qed.
Print Assumptions C13_dirichlet_inverse.

Lemma nx_neu i j : (j <= i)%nat -> Nat.even (i - j) = true -> nx i ((i - j) / 2) = neumann_inverse i j.
Proof.
  intros L E. unfold neumann_inverse. destruct (Nat.eqb_spec i j) as [<-|Ne].
  - rewrite Nat.sub_diag. reflexivity.
  - destruct (Nat.leb_spec j i); [|lia]. rewrite E. cbn [andb]. apply Nat.even_spec in E as [t Ht].
    replace ((i - j) / 2)%nat with t by (rewrite Ht, Nat.mul_comm, Nat.div_mul; lia). rewrite nx_eq by lia.
    replace (i - 2 * t)%nat with j by lia. cbn [pow]. ring.
Qed.

Theorem C13_neumann_inverse : forall n c, compo_new (A := R) KNeumann n = Ok c ->
  wp (compo_stencil_inv c) (fun P => mat_dims P (n - 2) n /\ forall i j, (i < n - 2)%nat -> (j < n)%nat -> P.[i].[j] = neumann_inverse i j).
Proof.
  intros n c Hc. apply neu_inv in Hc as [H4 ->]. unfold compo_stencil_inv. cbn [p_st stencil_pinv].
  eapply wp_mono. apply (st2_pinv_entries (neu_st2 (n - 2)) (n - 2)); cbn [neu_st2 d2_diag d2_low2]. apply repeat_length. unfold neu_low. rewrite map_length, seq_length. reflexivity.
  cbv beta. intros P [HD HR]. replace (n - 2 + 2)%nat with n in HD by lia. split; auto. intros i j Hi Hj.
  rewrite (done_at _ _ _ _ _ (HR i Hi)). destruct ((j <=? i)%nat && Nat.even (i - j)) eqn:E.
  - apply andb_prop in E as [E1 E2]. apply Nat.leb_le in E1. cbn [neu_st2 d2_diag d2_low2].
    assert (2 * ((i - j) / 2) <= i)%nat by (pose proof (Nat.mul_div_le (i - j) 2 ltac:(lia)); lia).
    pose proof (exact_float_arith (1024 + Z.of_nat n * Z.of_nat n) ltac:(nia)) as FA.
    destruct (pe_neumann FA n i ((i - j) / 2) 0) as [_ D]; auto. lia. lra. rewrite Rplus_0_r, pow1. lra.
    rewrite Rplus_0_r, pow1 in D. rewrite <- nx_neu by auto. apply Rminus_diag_uniq.
    pose proof (Rabs_pos (pe (repeat n1 (n - 2)) (neu_low (n - 2)) i ((i - j) / 2) - nx i ((i - j) / 2))) as G.
    destruct (Req_dec (pe (repeat n1 (n - 2)) (neu_low (n - 2)) i ((i - j) / 2) - nx i ((i - j) / 2)) 0) as [Z|Z]; auto.
    apply Rabs_pos_lt in Z. lra.
  - unfold neumann_inverse. destruct (Nat.eqb_spec i j) as [<-|Ne].
    + rewrite Nat.leb_refl, Nat.sub_diag in E. discriminate.
    + rewrite E. reflexivity.
Qed.
Print Assumptions C13_neumann_inverse.

Lemma pow_lin' v k : 0 <= v -> INR k * v <= / 101 -> (1 + v) ^ k <= 1 + 1.01 * INR k * v.
Proof.
  intros V. induction k; intros H. cbn. lra. rewrite S_INR in *. cbn [pow]. pose proof (pos_INR k).
  assert (I : (1 + v) ^ k <= 1 + 1.01 * INR k * v) by (apply IHk; nra).
  assert ((1 + v) * (1 + v) ^ k <= (1 + v) * (1 + 1.01 * INR k * v)) by (apply Rmult_le_compat_l; lra).
  assert (1.01 * INR k * v * v <= 0.01 * v) by (apply Rmult_le_compat_r; lra). lra.
Qed.

Section Both.
Context {A : Type} {N : Num A} {u eta : R} {rnd : R -> R} {zmax : Z} {inr : R -> Prop} {fin : A -> Prop} {val : A -> R}
  (FA : float_arith N u eta rnd zmax inr fin val).
Lemma dirichlet_gen n c : compo_new (A := A) KDirichlet n = Ok c ->
  wp (compo_stencil_inv c) (fun P => mat_dims P (n - 2) n /\ forall i j, (i < n - 2)%nat -> (j < n)%nat -> fin P.[i].[j] /\ val P.[i].[j] = dirichlet_inverse i j).
Proof.
  intros Hc. destruct (le_lt_dec 4 n) as [H4|H4]; [|rewrite compo_new_panics in Hc by (cbn [smin]; lia); discriminate].
  rewrite dir_new in Hc by auto. injection Hc as <-. unfold compo_stencil_inv. cbn [p_st stencil_pinv].
  eapply wp_mono. apply (st2_pinv_entries (dir_st2 (n - 2)) (n - 2)); cbn [dir_st2 d2_diag d2_low2]; apply repeat_length.
  cbv beta. intros P [HD HR]. replace (n - 2 + 2)%nat with n in HD by lia. split; auto. intros i j Hi Hj.
  rewrite (done_at _ _ _ _ _ (HR i Hi)). unfold dirichlet_inverse. destruct ((j <=? i)%nat && Nat.even (i - j)) eqn:E; [|apply (fa_0 _ _ _ _ _ _ _ _ FA)].
  apply andb_prop in E as [E1 E2]. apply Nat.leb_le in E1. cbn [dir_st2 d2_diag d2_low2].
  assert (2 * ((i - j) / 2) <= i)%nat by (pose proof (Nat.mul_div_le (i - j) 2 ltac:(lia)); lia).
  apply (pe_dirichlet FA (n - 2) i ((i - j) / 2)); auto.
Qed.
Lemma neumann_gen n c : (Z.of_nat n * Z.of_nat n <= zmax)%Z -> INR n * INR n * eta <= u / 1000 -> INR n * u <= / 1000 ->
  compo_new (A := A) KNeumann n = Ok c ->
  wp (compo_stencil_inv c) (fun P => mat_dims P (n - 2) n /\ forall i j, (i < n - 2)%nat -> (j < n)%nat ->
    fin P.[i].[j] /\ Rabs (val P.[i].[j] - neumann_inverse i j) <= 1.02 * INR (i - j) * u * neumann_inverse i j).
Proof.
  intros Hz He Hu Hc. pose proof (rn_u _ _ _ (fa_rnd _ _ _ _ _ _ _ _ FA)) as U. apply neu_inv in Hc as [H4 ->]. unfold compo_stencil_inv. cbn [p_st stencil_pinv].
  eapply wp_mono. apply (st2_pinv_entries (neu_st2 (n - 2)) (n - 2)); cbn [neu_st2 d2_diag d2_low2]. apply repeat_length. unfold neu_low. rewrite map_length, seq_length. reflexivity.
  cbv beta. intros P [HD HR]. replace (n - 2 + 2)%nat with n in HD by lia. split; auto. intros i j Hi Hj.
  rewrite (done_at _ _ _ _ _ (HR i Hi)). destruct ((j <=? i)%nat && Nat.even (i - j)) eqn:E.
  - apply andb_prop in E as [E1 E2]. apply Nat.leb_le in E1. cbn [neu_st2 d2_diag d2_low2].
    assert (T : (2 * ((i - j) / 2) = i - j)%nat). { apply Nat.even_spec in E2 as [t Ht]. rewrite Ht, Nat.mul_comm at 1. rewrite Nat.mul_comm, (Nat.mul_comm 2 t), Nat.div_mul; lia. }
    set (v := 1.001 * u). pose proof (pos_INR n) as Pn.
    assert (NV : INR n * v <= / 101) by (unfold v; lra).
    assert (V0 : 0 <= v) by (unfold v; lra).
    destruct (pe_neumann FA n i ((i - j) / 2) v) as [F D]; auto; try lia.
    { unfold v. lra. } { eapply Rle_trans. apply pow_lin'; auto. lra. }
    split; auto. rewrite T in D. rewrite nx_neu in D by auto. eapply Rle_trans. exact D.
    assert (0 <= neumann_inverse i j) by (rewrite <- nx_neu by auto; apply nx_range).
    apply Rmult_le_compat_r; auto. assert (K : INR (i - j) <= INR n) by (apply le_INR; lia). pose proof (pos_INR (i - j)).
    assert (INR (i - j) * v <= INR n * v) by (apply Rmult_le_compat_r; lra).
    pose proof (pow_lin' v (i - j) V0 ltac:(lra)). unfold v in *. assert (0 <= INR (i - j) * u) by (apply Rmult_le_pos; lra). lra.
  - assert (Z : neumann_inverse i j = 0).
    { unfold neumann_inverse. destruct (Nat.eqb_spec i j) as [<-|Ne]. rewrite Nat.leb_refl, Nat.sub_diag in E. discriminate. rewrite E. reflexivity. }
    rewrite Z, Rmult_0_r, Rminus_0_r. destruct (fa_0 _ _ _ _ _ _ _ _ FA) as [F V]. split; auto. rewrite V, Rabs_R0. lra.
Qed.
End Both.

(** f64: Dirichlet exactly, every size; Neumann up to 2^26 points, the relative
    error growing with the distance from the diagonal only *)
Theorem C64_stencil_inv_f64 : forall n,
  (forall c, compo_new (A := f64) KDirichlet n = Ok c -> wp (compo_stencil_inv c) (fun P => mat_dims P (n - 2) n /\
     forall i j, (i < n - 2)%nat -> (j < n)%nat -> f64_fin P.[i].[j] /\ f64_val P.[i].[j] = dirichlet_inverse i j)) /\
  (forall c, (Z.of_nat n <= 2 ^ 26)%Z -> compo_new (A := f64) KNeumann n = Ok c -> wp (compo_stencil_inv c) (fun P => mat_dims P (n - 2) n /\
     forall i j, (i < n - 2)%nat -> (j < n)%nat -> f64_fin P.[i].[j] /\
       Rabs (f64_val P.[i].[j] - neumann_inverse i j) <= 1.02 * INR (i - j) * bpow radix2 (-53) * neumann_inverse i j)).
Proof.
  intros n. split; intros c.
  - apply (dirichlet_gen f64_float_arith).
  - intros H26. assert (NN : 0 <= INR n <= IZR (2 ^ 26)) by (split; [apply pos_INR|rewrite INR_IZR_INZ; apply IZR_le; exact H26]). change (IZR (2 ^ 26)) with 67108864 in NN.
    apply (neumann_gen f64_float_arith). change (2 ^ 53)%Z with (2 * (2 ^ 26 * 2 ^ 26))%Z. clear - H26. nia.
    + apply Rle_trans with (bpow radix2 52 * bpow radix2 (-1075)).
      * apply Rmult_le_compat_r. apply bpow_ge_0. change (bpow radix2 52) with 4503599627370496. nra.
      * rewrite <- bpow_plus. apply Rle_trans with (bpow radix2 (-53) * bpow radix2 (-10)). rewrite <- bpow_plus. apply bpow_le; lia.
        unfold Rdiv. apply Rmult_le_compat_l. apply bpow_ge_0. change (bpow radix2 (-10)) with (/ 1024). lra.
    + change (bpow radix2 (-53)) with (/ 9007199254740992). lra.
Qed.
Print Assumptions C64_stencil_inv_f64.

(** f32 (the Neumann stencil is computed in f32, and so is the inverse) *)
Theorem C66_stencil_inv_f32 : forall n,
  (forall c, compo_new (A := f32) KDirichlet n = Ok c -> wp (compo_stencil_inv c) (fun P => mat_dims P (n - 2) n /\
     forall i j, (i < n - 2)%nat -> (j < n)%nat -> f32_fin P.[i].[j] /\ f32_val P.[i].[j] = dirichlet_inverse i j)) /\
  (forall c, (n <= 4096)%nat -> compo_new (A := f32) KNeumann n = Ok c -> wp (compo_stencil_inv c) (fun P => mat_dims P (n - 2) n /\
     forall i j, (i < n - 2)%nat -> (j < n)%nat -> f32_fin P.[i].[j] /\
       Rabs (f32_val P.[i].[j] - neumann_inverse i j) <= 1.02 * INR (i - j) * bpow radix2 (-24) * neumann_inverse i j)).
Proof.
  intros n. split; intros c.
  - apply (dirichlet_gen f32_float_arith).
  - intros H12. assert (NN : 0 <= INR n <= 4096) by (split; [apply pos_INR|rewrite INR_IZR_INZ; apply IZR_le; lia]).
    apply (neumann_gen f32_float_arith). change (2 ^ 24)%Z with (4096 * 4096)%Z. clear - H12. nia.
    + apply Rle_trans with (bpow radix2 24 * bpow radix2 (-150)).
      * apply Rmult_le_compat_r. apply bpow_ge_0. change (bpow radix2 24) with 16777216. nra.
      * rewrite <- bpow_plus. apply Rle_trans with (bpow radix2 (-24) * bpow radix2 (-10)). rewrite <- bpow_plus. apply bpow_le; lia.
        unfold Rdiv. apply Rmult_le_compat_l. apply bpow_ge_0. change (bpow radix2 (-10)) with (/ 1024). lra.
    + change (bpow radix2 (-24)) with (/ 16777216). lra.
Qed.
Print Assumptions C66_stencil_inv_f32.

(** 8 Neumann points: row 5, column 1 is (1/5)^2, rounded twice on the way *)
Example C64_case_stencil_inv : wp (compo_new (A := f64) KNeumann 8) (fun p => wp (compo_stencil_inv p) (fun P =>
  B2SF P.[5].[1] = B2SF (nmul (ndiv (nofZ 9%Z) (nofZ 25%Z)) (ndiv (nofZ 1%Z) (nofZ 9%Z)) : f64) /\ B2SF P.[5].[0] = B2SF (n0 : f64) /\ B2SF P.[4].[4] = B2SF (n1 : f64))) /\
  neumann_inverse 5 1 = / 25.
Proof. split. vm_compute. repeat split; reflexivity. unfold neumann_inverse. cbn. field. Qed.
