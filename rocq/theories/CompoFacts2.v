(** Composite Chebyshev bases: the property-level lemmas. *)
From Coq Require Import List Arith Lia Bool ZArith Reals Lra.
From Verif Require Import Base Num Linalg LinalgSpec LinalgModes Stencils StencilProofs StencilProofs2 Cheb Compo
  ChebPoly ChebGrad ChebMat ChebDct ChebFacts CompoProofs CompoFacts.
Import ListNotations.
Local Open Scope R_scope.

Lemma wp_and {A} (m : res A) P Q : wp m P -> wp m Q -> wp m (fun a => P a /\ Q a).
Proof. destruct m; simpl; auto. Qed.
Lemma wp_nest {A B} (m : res A) (k : res B) P (Q : A -> B -> Prop) :
  wp m P -> (forall a, P a -> wp k (Q a)) -> wp m (fun a => wp k (Q a)).
Proof. intros H HK. eapply wp_mono; eauto. Qed.

Lemma len_spec_eq k n c : compo_new (A := R) k n = Ok c -> compo_len_spec c = sdim k n.
Proof. intros H. apply compo_new_inv in H. tauto. Qed.

Section Vec.
Context {T : Type} {V : Vec R T} {L : VecR T}.

(** u = M v *)
Definition mat_mul (M : list (list R)) (n m : nat) (v u : list T) : Prop :=
  length u = n /\ forall i, (i < n)%nat -> u.[i] = vsum m (fun j => vmul v.[j] M.[i].[j]).

Lemma is_mat_matvec M n m S v u : is_mat M n m S -> (is_matvec n m S v u <-> mat_mul M n m v u).
Proof.
  intros [HD HE]. split; intros [Lu Eu]; split; auto; intros i Hi; rewrite Eu by auto; apply vsum_ext; intros; rewrite HE; auto.
Qed.

Lemma C09_l k n c (v o : list T) : compo_new k n = Ok c -> biharmonic k = false ->
  length v = compo_len_spec c -> length o = n ->
  wp (compo_stencil c) (fun S => mat_dims S n (compo_len_spec c) /\
    wp (compo_to_ortho c v o) (mat_mul S n (compo_len_spec c) v)).
Proof.
  intros H Hb. rewrite (len_spec_eq k n c H). intros Lv Lo.
  eapply wp_mono; [apply (to_array_ok k n c H)|]. intros S HS. split. apply HS.
  eapply wp_mono; [apply (to_ortho_ok k n c v o H Hb Lv Lo)|]. intros u. apply is_mat_matvec; auto.
Qed.

Lemma C10_l k n c (v u : list T) : compo_new k n = Ok c ->
  wp (compo_stencil c) (fun S => mat_mul S n (compo_len_spec c) v u -> forall p, bc k (peval u p)).
Proof.
  intros H. rewrite (len_spec_eq k n c H).
  eapply wp_mono; [apply (to_array_ok k n c H)|]. intros S HS HM p.
  apply (is_mat_matvec _ _ _ _ v u HS) in HM. eapply bc_matvec; [|exact HM].
  apply compo_new_inv in H. apply sdim_eq; tauto.
Qed.

Lemma C10_to_ortho k n c (v o : list T) : compo_new k n = Ok c -> biharmonic k = false ->
  length v = compo_len_spec c -> length o = n ->
  wp (compo_to_ortho c v o) (fun u => forall p, bc k (peval u p)).
Proof.
  intros H Hb. rewrite (len_spec_eq k n c H). intros Lv Lo.
  eapply wp_mono; [apply (to_ortho_ok k n c v o H Hb Lv Lo)|]. intros u HM p. eapply bc_matvec; [|exact HM].
  apply compo_new_inv in H. apply sdim_eq; tauto.
Qed.

(** S^T S w = S^T u *)
Definition normal_equations (S : list (list R)) (n m : nat) (u w : list T) : Prop :=
  length w = m /\
  forall j, (j < m)%nat ->
    vsum m (fun k => vmul w.[k] (rsum n (fun r => S.[r].[j] * S.[r].[k]))) =
    vsum n (fun r => vmul u.[r] S.[r].[j]).

(** squared residual |u - S w|^2, coordinate p *)
Definition residual (S : list (list R)) (n m : nat) (u w : list T) (p : vI) : R :=
  rsum n (fun r => (vproj p u.[r] - rsum m (fun j => vproj p w.[j] * S.[r].[j])) ^ 2).

Lemma normal_eqs_iff S n m E u w : is_mat S n m E -> (normal_equations S n m u w <-> normal_eq n m E u w).
Proof.
  intros [HD HE]. unfold normal_equations, normal_eq.
  split; intros [Lw H]; split; auto; intros j Hj; specialize (H j Hj).
  - rewrite (vsum_ext m _ (fun k => vmul w.[k] (rsum n (fun r => S.[r].[j] * S.[r].[k])))).
    2:{ intros. f_equal. apply rsum_ext. intros. rewrite !HE; auto. }
    rewrite H. apply vsum_ext. intros. rewrite HE; auto.
  - rewrite (vsum_ext m _ (fun k => vmul w.[k] (rsum n (fun r => E r j * E r k)))).
    2:{ intros. f_equal. apply rsum_ext. intros. rewrite !HE; auto. }
    rewrite H. apply vsum_ext. intros. rewrite HE; auto.
Qed.

Lemma least_squares S n m u w : normal_equations S n m u w ->
  forall p w', residual S n m u w p <= residual S n m u w' p.
Proof.
  intros [Lw H] p w'. unfold residual.
  set (U := fun r => vproj p u.[r]). set (W := fun j => vproj p w.[j]). set (W' := fun j => vproj p w'.[j]).
  set (s := fun (r : nat) => rsum m (fun j => W j * S.[r].[j])).
  set (s' := fun (r : nat) => rsum m (fun j => W' j * S.[r].[j])).
  assert (O : rsum n (fun r => (U r - s r) * (s r - s' r)) = 0).
  { transitivity (rsum m (fun j => (W j - W' j) * rsum n (fun r => (U r - s r) * S.[r].[j]))).
    - rewrite (rsum_ext n _ (fun r => rsum m (fun j => (W j - W' j) * ((U r - s r) * S.[r].[j])))).
      + rewrite rsum_swap. apply rsum_ext. intros. rewrite <- rsum_scal_l. reflexivity.
      + intros r Hr. unfold s at 2, s'. rewrite <- rsum_sub, <- rsum_scal_l. apply rsum_ext. intros. ring.
    - apply rsum_0. intros j Hj.
      assert (E : rsum n (fun r => U r * S.[r].[j]) = rsum n (fun r => s r * S.[r].[j])).
      { specialize (H j Hj). apply (f_equal (vproj p)) in H. rewrite !vproj_vsum in H.
        transitivity (rsum n (fun r => vproj p (vmul u.[r] S.[r].[j]))).
        { apply rsum_ext. intros. rewrite vproj_mul. reflexivity. }
        rewrite <- H.
        transitivity (rsum m (fun k => rsum n (fun r => W k * S.[r].[k] * S.[r].[j]))).
        { apply rsum_ext. intros. rewrite vproj_mul. rewrite <- rsum_scal_l. apply rsum_ext. intros. unfold W. ring. }
        rewrite rsum_swap. apply rsum_ext. intros. rewrite rsum_scal_r. reflexivity. }
      rewrite (rsum_ext n _ (fun r => U r * S.[r].[j] - s r * S.[r].[j])) by (intros; ring).
      rewrite rsum_sub, E. ring. }
  assert (X : rsum n (fun r => (U r - s' r) ^ 2) =
     rsum n (fun r => (U r - s r) ^ 2) + 2 * rsum n (fun r => (U r - s r) * (s r - s' r)) + rsum n (fun r => (s r - s' r) ^ 2)).
  { rewrite <- rsum_scal_l, <- !rsum_add. apply rsum_ext. intros. ring. }
  change (rsum n (fun r => (U r - s r) ^ 2) <= rsum n (fun r => (U r - s' r) ^ 2)).
  rewrite X, O. assert (0 <= rsum n (fun r => (s r - s' r) ^ 2)). { apply rsum_pos. intros. apply pow2_ge_0. } lra.
Qed.

Lemma normal_uniq k n (c : compo R) S (u w w' : list T) : compo_new k n = Ok c -> is_mat S n (sdim k n) (smat k) ->
  normal_equations S n (sdim k n) u w -> normal_equations S n (sdim k n) u w' -> w = w'.
Proof.
  intros H HS H1 H2. apply (normal_eqs_iff _ _ _ _ u w HS) in H1. apply (normal_eqs_iff _ _ _ _ u w' HS) in H2.
  apply compo_new_inv in H as (Hs & _). apply (normal_eq_unique k (sdim k n) u); rewrite <- sdim_eq; auto.
Qed.

Lemma C11_l k n c (u o : list T) : compo_new k n = Ok c -> (ssolve k <= n)%nat ->
  length u = n -> length o = compo_len_spec c ->
  wp (compo_stencil c) (fun S => mat_dims S n (compo_len_spec c) /\
    wp (compo_from_ortho c u o) (fun w =>
      normal_equations S n (compo_len_spec c) u w /\
      (forall w', normal_equations S n (compo_len_spec c) u w' -> w' = w) /\
      (forall p w', residual S n (compo_len_spec c) u w p <= residual S n (compo_len_spec c) u w' p))).
Proof.
  intros H Hn. rewrite (len_spec_eq k n c H). intros Lu Lo.
  eapply wp_mono; [apply (to_array_ok k n c H)|]. intros S HS. split. apply HS.
  eapply wp_mono; [apply (from_ortho_ok k n c u o H Hn Lu Lo)|]. intros w Hw.
  apply (normal_eqs_iff _ _ _ _ u w HS) in Hw. split; auto. split.
  - intros w' Hw'. apply (normal_uniq k n c S u w' w); auto.
  - apply least_squares; auto.
Qed.

Lemma from_ortho_of_stencil k n c (v u o : list T) : compo_new k n = Ok c -> (ssolve k <= n)%nat ->
  length v = sdim k n -> length o = sdim k n -> is_matvec n (sdim k n) (smat k) v u ->
  compo_from_ortho c u o = Ok v.
Proof.
  intros H Hn Lv Lo HM. pose proof HM as [Lu _].
  pose proof (from_ortho_ok k n c u o H Hn Lu Lo) as W. apply wp_Ok in W as (w & -> & Hw). f_equal.
  apply compo_new_inv in H as (Hs & _). apply (normal_eq_unique k (sdim k n) u); rewrite <- sdim_eq by auto; auto.
  apply normal_eq_of_matvec; auto.
Qed.

Lemma C12_l k n c (v o1 o2 : list T) : compo_new k n = Ok c -> biharmonic k = false -> (ssolve k <= n)%nat ->
  length v = compo_len_spec c -> length o1 = n -> length o2 = compo_len_spec c ->
  (let* u := compo_to_ortho c v o1 in compo_from_ortho c u o2) = Ok v.
Proof.
  intros H Hb Hn. rewrite (len_spec_eq k n c H). intros Lv L1 L2.
  pose proof (to_ortho_ok k n c v o1 H Hb Lv L1) as W. apply wp_Ok in W as (u & -> & Hu). cbn [bind].
  eapply from_ortho_of_stencil; eauto.
Qed.

Lemma C12_stencil k n c (v u o : list T) : compo_new k n = Ok c -> (ssolve k <= n)%nat ->
  length v = compo_len_spec c -> length o = compo_len_spec c ->
  wp (compo_stencil c) (fun S => mat_mul S n (compo_len_spec c) v u -> compo_from_ortho c u o = Ok v).
Proof.
  intros H Hn. rewrite (len_spec_eq k n c H). intros Lv Lo.
  eapply wp_mono; [apply (to_array_ok k n c H)|]. intros S HS HM. apply (is_mat_matvec _ _ _ _ v u HS) in HM.
  eapply from_ortho_of_stencil; eauto.
Qed.

Lemma C13_l k n c : compo_new (A := R) k n = Ok c ->
  wp (compo_stencil c) (fun S => wp (compo_stencil_inv c) (fun P =>
    mat_dims S n (compo_len_spec c) /\ mat_dims P (compo_len_spec c) n /\
    forall i j, (i < compo_len_spec c)%nat -> (j < compo_len_spec c)%nat ->
      rsum n (fun r => P.[i].[r] * S.[r].[j]) = if (i =? j)%nat then 1 else 0)).
Proof.
  intros H. rewrite (len_spec_eq k n c H).
  eapply wp_mono; [apply (to_array_ok k n c H)|]. intros S [HD HE].
  eapply wp_mono; [apply (stencil_inv_ok k n c H)|]. intros P [PD PE]. split; auto. split; auto.
  intros i j Hi Hj. rewrite <- PE by auto. apply rsum_ext. intros. rewrite HE; auto.
Qed.

(** C14: on the range both invert; off the range they differ. *)
Lemma C14_range k n c (v u o : list T) : compo_new k n = Ok c -> (ssolve k <= n)%nat ->
  length v = compo_len_spec c -> length o = compo_len_spec c ->
  wp (compo_stencil c) (fun S => wp (compo_stencil_inv c) (fun P =>
    mat_mul S n (compo_len_spec c) v u ->
      compo_from_ortho c u o = Ok v /\ mat_mul P (compo_len_spec c) n u v)).
Proof.
  intros H Hn. pose proof (len_spec_eq k n c H) as El. rewrite !El. intros Lv Lo.
  eapply wp_mono; [apply (to_array_ok k n c H)|]. intros S HS.
  eapply wp_mono; [apply (stencil_inv_ok k n c H)|]. intros P [PD PE] HM.
  apply (is_mat_matvec _ _ _ _ v u HS) in HM. split. eapply from_ortho_of_stencil; eauto.
  split; auto. intros i Hi. apply vext. intros p. rewrite vproj_vsum. symmetry.
  transitivity (rsum (sdim k n) (fun j => vproj p v.[j] * rsum n (fun r => P.[i].[r] * smat k r j))).
  - rewrite (rsum_ext n _ (fun r => rsum (sdim k n) (fun j => vproj p v.[j] * (P.[i].[r] * smat k r j)))).
    + rewrite rsum_swap. apply rsum_ext. intros. rewrite <- rsum_scal_l. reflexivity.
    + intros r Hr. rewrite vproj_mul, (matvec_coord n (sdim k n) (smat k) v u) by auto. rewrite <- rsum_scal_r. apply rsum_ext. intros; ring.
  - rewrite (rsum_ext (sdim k n) _ (fun j => if (j =? i)%nat then vproj p v.[j] else 0)).
    + rewrite (rsum_delta (sdim k n) i); auto; try rewrite Nat.eqb_refl; auto.
      intros j Hj Hne. destruct (Nat.eqb_spec j i); auto; lia.
    + intros j Hj. rewrite PE by auto. rewrite (Nat.eqb_sym j i). destruct (i =? j)%nat; ring.
Qed.
End Vec.

Lemma mat_mul_val M n m (v u : list R) : mat_mul M n m v u -> forall i, (i < n)%nat -> u.[i] = rsum m (fun j => v.[j] * M.[i].[j]).
Proof. intros [_ E] i Hi. etransitivity; [apply E; auto|]. rewrite vsum_rsum. reflexivity. Qed.

Lemma C14_off k n c o : compo_new k n = Ok c -> (ssolve k <= n)%nat -> length o = compo_len_spec c ->
  exists u : list R, length u = n /\
  wp (compo_stencil_inv c) (fun P => exists w, mat_mul P (compo_len_spec c) n u w /\
    wp (compo_from_ortho c u o) (fun w' => w' <> w)).
Proof.
  intros H Hn. pose proof (len_spec_eq k n c H) as El. rewrite El. intros Lo.
  pose proof (compo_new_inv k n c H) as (Hs & _). pose proof (sdim_eq k n Hs) as En.
  assert (Hm : (1 <= sdim k n - 1)%nat) by (destruct k; cbn in *; unfold sdim; cbn; lia).
  set (m := sdim k n) in *.
  set (u := map (fun i => if (i =? n-1)%nat then 1 else 0) (seq 0 n)).
  assert (Lu : length u = n) by (unfold u; rewrite map_length, seq_length; auto).
  exists u. split; auto.
  pose proof (stencil_inv_ok k n c H) as W. apply wp_Ok in W as (P & EP & PD & PE). rewrite EP. cbn [wp].
  exists (repeat 0 m). split.
  - split. apply repeat_length. intros i Hi. rewrite at_rep by auto. rewrite vsum_rsum. symmetry. apply rsum_0.
    intros j Hj. unfold u. rewrite at_map_seq by auto. cbn [Nat.add]. destruct (Nat.eqb_spec j (n-1)) as [->|]; cbn [vmul vec_self num_R nmul]; [|ring].
    rewrite (stencil_inv_zcols k n c P H EP); [ring|]. fold m. destruct k; cbn in *; lia.
  - pose proof (from_ortho_ok k n c u o H Hn Lu Lo) as W. apply wp_Ok in W as (w & -> & Lw & Hw). cbn [wp]. intros ->.
    specialize (Hw (m-1)%nat ltac:(fold m; lia)). fold m in Hw. rewrite !vsum_rsum in Hw.
    rewrite rsum_0 in Hw.
    2:{ intros j Hj. rewrite at_rep by auto. cbn [vmul vec_self num_R nmul]. ring. }
    rewrite (rsum_delta n (n-1)) in Hw.
    + unfold u in Hw. rewrite at_map_seq in Hw by lia. cbn [Nat.add] in Hw. rewrite Nat.eqb_refl in Hw.
      cbn [vmul vec_self num_R nmul] in Hw. unfold smat, scol in Hw.
      destruct (Nat.eqb_spec (n-1) (m-1)); [destruct k; cbn in *; lia|].
      destruct (Nat.eqb_spec (n-1) (m-1+sstep k)); [destruct k; cbn in *; lia|].
      destruct (Nat.eqb_spec (n-1) (m-1+2*sstep k)); [|destruct k; cbn in *; lia].
      apply (slowb_nz k (m-1)); auto. lra.
    + lia.
    + intros j Hj Hne. unfold u. rewrite at_map_seq by auto. cbn [Nat.add]. destruct (Nat.eqb_spec j (n-1)); [lia|].
      cbn [vmul vec_self num_R nmul]. ring.
Qed.
