(** C09-C14, C16-C18, C44 (and C05 for composite bases).  Statements only.

    Vocabulary: [compo_new k n = Ok c]: c is the base of kind k (Dirichlet,
    Neumann, DirichletNeumann, BiHarmonicA, BiHarmonicB) with n physical points;
    [compo_len_spec c] its number of coefficients.
    [biharmonic k]: k is one of the two biharmonic kinds.
    [smin k] = 4, 4, 4, 8, 8: smallest constructible n;
    [ssolve k] = 5, 5, 6, 10, 10: smallest n the band solver accepts.
    [mat_mul M r c v u]: u = M v, M having r rows and c columns;
    [bc k f]: f satisfies the boundary conditions of kind k at -1 and 1
    (CompoFacts.v); [normal_equations S n m u w]: S^T S w = S^T u;
    [residual S n m u w p] = |u - S w|^2 (coordinate p). *)
From Coq Require Import List Arith Lia Bool ZArith Reals Lra QArith.
From Verif Require Import Base Num Linalg Stencils Cheb Compo ChebPoly ChebGrad ChebFacts
  CompoProofs CompoFacts CompoFacts2 CompoFacts3.
Import ListNotations.
Local Open Scope R_scope.

(** ** Which sizes can be constructed *)
Theorem C44_constructible_sizes : forall k n,
  ((smin k <= n)%nat -> exists c, compo_new (A := R) k n = Ok c) /\
  ((n < smin k)%nat -> compo_new (A := R) k n = Panic).
Proof. intros; split. apply compo_new_ok. apply compo_new_small. Qed.
Print Assumptions C44_constructible_sizes.

(** ** C05 for composite bases: gradient = exact derivative of the function *)
Theorem C05_compo_gradient_is_derivative :
  forall (T : Type) (V : Vec R T) (L : VecR T) k n c (v o : list T) d,
  compo_new k n = Ok c -> biharmonic k = false ->
  length v = compo_len_spec c -> length o = n ->
  wp (compo_to_ortho c v o) (fun u => length u = n /\
   wp (compo_gradient c v o d) (fun b => length b = n /\ forall p, nth_deriv d (peval u p) (peval b p))).
Proof. exact @gradient_ok. Qed.
Print Assumptions C05_compo_gradient_is_derivative.

(** ** C09 *)
Theorem C09_to_ortho_is_stencil : forall (T : Type) (V : Vec R T) (L : VecR T) k n c (v o : list T),
  compo_new k n = Ok c -> biharmonic k = false ->
  length v = compo_len_spec c -> length o = n ->
  wp (compo_stencil c) (fun S => mat_dims S n (compo_len_spec c) /\
    wp (compo_to_ortho c v o) (mat_mul S n (compo_len_spec c) v)).
Proof. exact @C09_l. Qed.
Print Assumptions C09_to_ortho_is_stencil.

(** The claim is false for the two biharmonic kinds: to_ortho reads out of
    bounds on every correctly sized call. *)
Theorem C09_biharmonic_to_ortho_UB : forall (T : Type) (V : Vec R T) (L : VecR T) k n c (v o : list T),
  compo_new k n = Ok c -> biharmonic k = true ->
  length v = compo_len_spec c -> length o = n -> compo_to_ortho c v o = UB.
Proof. intros T V L k n c v o H Hb. rewrite (len_spec_eq k n c H). exact (to_ortho_UB k n c v o H Hb). Qed.
Print Assumptions C09_biharmonic_to_ortho_UB.

(** ** C10 *)
Theorem C10_stencil_boundary_conditions : forall (T : Type) (V : Vec R T) (L : VecR T) k n c (v u : list T),
  compo_new k n = Ok c ->
  wp (compo_stencil c) (fun S => mat_mul S n (compo_len_spec c) v u -> forall p, bc k (peval u p)).
Proof. exact @C10_l. Qed.
Print Assumptions C10_stencil_boundary_conditions.

Theorem C10_to_ortho_boundary_conditions : forall (T : Type) (V : Vec R T) (L : VecR T) k n c (v o : list T),
  compo_new k n = Ok c -> biharmonic k = false ->
  length v = compo_len_spec c -> length o = n ->
  wp (compo_to_ortho c v o) (fun u => forall p, bc k (peval u p)).
Proof. exact @C10_to_ortho. Qed.
Print Assumptions C10_to_ortho_boundary_conditions.

(** ** C11 *)
Theorem C11_from_ortho_least_squares : forall (T : Type) (V : Vec R T) (L : VecR T) k n c (u o : list T),
  compo_new k n = Ok c -> (ssolve k <= n)%nat ->
  length u = n -> length o = compo_len_spec c ->
  wp (compo_stencil c) (fun S => mat_dims S n (compo_len_spec c) /\
    wp (compo_from_ortho c u o) (fun w =>
      normal_equations S n (compo_len_spec c) u w /\
      (forall w', normal_equations S n (compo_len_spec c) u w' -> w' = w) /\
      (forall p w', residual S n (compo_len_spec c) u w p <= residual S n (compo_len_spec c) u w' p))).
Proof. exact @C11_l. Qed.
Print Assumptions C11_from_ortho_least_squares.

(** ** C12 *)
Theorem C12_from_ortho_of_to_ortho : forall (T : Type) (V : Vec R T) (L : VecR T) k n c (v o1 o2 : list T),
  compo_new k n = Ok c -> biharmonic k = false -> (ssolve k <= n)%nat ->
  length v = compo_len_spec c -> length o1 = n -> length o2 = compo_len_spec c ->
  (let* u := compo_to_ortho c v o1 in compo_from_ortho c u o2) = Ok v.
Proof. exact @C12_l. Qed.
Print Assumptions C12_from_ortho_of_to_ortho.

(** every kind, with the stencil matrix instead of to_ortho *)
Theorem C12_from_ortho_of_stencil : forall (T : Type) (V : Vec R T) (L : VecR T) k n c (v u o : list T),
  compo_new k n = Ok c -> (ssolve k <= n)%nat ->
  length v = compo_len_spec c -> length o = compo_len_spec c ->
  wp (compo_stencil c) (fun S => mat_mul S n (compo_len_spec c) v u -> compo_from_ortho c u o = Ok v).
Proof. exact @C12_stencil. Qed.
Print Assumptions C12_from_ortho_of_stencil.

Theorem C12_biharmonic_UB : forall (T : Type) (V : Vec R T) (L : VecR T) k n c (v o1 o2 : list T),
  compo_new k n = Ok c -> biharmonic k = true -> length v = compo_len_spec c -> length o1 = n ->
  (let* u := compo_to_ortho c v o1 in compo_from_ortho c u o2) = UB.
Proof.
  intros T V L k n c v o1 o2 H Hb Lv Lo. rewrite (C09_biharmonic_to_ortho_UB T V L k n c v o1 H Hb Lv Lo). reflexivity.
Qed.
Print Assumptions C12_biharmonic_UB.

(** ** C13 *)
Theorem C13_stencil_inv_left_inverse : forall k n c, compo_new (A := R) k n = Ok c ->
  wp (compo_stencil c) (fun S => wp (compo_stencil_inv c) (fun P =>
    mat_dims S n (compo_len_spec c) /\ mat_dims P (compo_len_spec c) n /\
    forall i j, (i < compo_len_spec c)%nat -> (j < compo_len_spec c)%nat ->
      rsum n (fun r => P.[i].[r] * S.[r].[j]) = if (i =? j)%nat then 1 else 0)).
Proof. exact C13_l. Qed.
Print Assumptions C13_stencil_inv_left_inverse.

(** ** C14 *)
Theorem C14_same_on_range : forall (T : Type) (V : Vec R T) (L : VecR T) k n c (v u o : list T),
  compo_new k n = Ok c -> (ssolve k <= n)%nat ->
  length v = compo_len_spec c -> length o = compo_len_spec c ->
  wp (compo_stencil c) (fun S => wp (compo_stencil_inv c) (fun P =>
    mat_mul S n (compo_len_spec c) v u ->
      compo_from_ortho c u o = Ok v /\ mat_mul P (compo_len_spec c) n u v)).
Proof. exact @C14_range. Qed.
Print Assumptions C14_same_on_range.

(** Off the range of the stencil the two differ, for every kind and size. *)
Theorem C14_differ_off_range : forall k n c (o : list R),
  compo_new k n = Ok c -> (ssolve k <= n)%nat -> length o = compo_len_spec c ->
  exists u : list R, length u = n /\
  wp (compo_stencil_inv c) (fun P => exists w, mat_mul P (compo_len_spec c) n u w /\
    wp (compo_from_ortho c u o) (fun w' => w' <> w)).
Proof. exact C14_off. Qed.
Print Assumptions C14_differ_off_range.

(** ** C16: unchecked accesses, on correctly sized slices *)
Lemma wp_noUB {A} (m : res A) P : wp m P -> m <> UB.
Proof. destruct m; simpl; try tauto; discriminate. Qed.

Theorem C16_from_ortho_no_UB : forall (T : Type) (V : Vec R T) (L : VecR T) k n c (u o : list T),
  compo_new k n = Ok c -> length u = n -> length o = compo_len_spec c -> compo_from_ortho c u o <> UB.
Proof.
  intros T V L k n c u o H. rewrite (len_spec_eq k n c H). intros Lu Lo.
  destruct (Nat.lt_ge_cases n (ssolve k)) as [Hn|Hn].
  - rewrite (from_ortho_small k n c u o H Hn Lu Lo). discriminate.
  - eapply wp_noUB, (from_ortho_ok k n c u o H Hn Lu Lo).
Qed.
Print Assumptions C16_from_ortho_no_UB.

Theorem C16_forward_no_UB : forall k n c (x o : list R),
  compo_new k n = Ok c -> length x = n -> length o = compo_len_spec c -> compo_forward c x o <> UB.
Proof.
  intros k n c x o H Lx Lo. destruct (new_ortho k n c H) as (Eo & El & H4 & Hc).
  unfold compo_forward. rewrite El.
  pose proof (proj2 (cheb_len n (p_ortho c) x (repeat 0 n) Hc Lx (repeat_length _ _))) as W.
  apply wp_Ok in W as (a & Ea & La). change (repeat (@n0 R num_R) n) with (repeat 0 n). rewrite Ea. cbn [bind].
  apply (C16_from_ortho_no_UB R vec_self vecR_R k n c a o H La Lo).
Qed.
Print Assumptions C16_forward_no_UB.

Theorem C16_to_ortho_gradient_no_UB : forall (T : Type) (V : Vec R T) (L : VecR T) k n c (v o : list T) d,
  compo_new k n = Ok c -> length v = compo_len_spec c -> length o = n -> biharmonic k = false ->
  compo_to_ortho c v o <> UB /\ compo_gradient c v o d <> UB.
Proof.
  intros T V L k n c v o d H Lv Lo Hb.
  pose proof (gradient_ok k n c v o d H Hb Lv Lo) as W. split. eapply wp_noUB; eauto.
  apply wp_Ok in W as (u & _ & _ & W). eapply wp_noUB; eauto.
Qed.
Print Assumptions C16_to_ortho_gradient_no_UB.

Theorem C16_backward_no_UB : forall k n c (v o : list R),
  compo_new k n = Ok c -> length v = compo_len_spec c -> length o = n -> biharmonic k = false ->
  compo_backward c v o <> UB.
Proof. intros k n c v o H Lv Lo Hb. eapply wp_noUB, (backward_runs k n c H); eauto. Qed.
Print Assumptions C16_backward_no_UB.

(** The exceptions: the biharmonic kinds always, and the orthogonal gradient at n = 2. *)
Theorem C16_biharmonic_out_of_bounds : forall k n c (v o : list R) d,
  compo_new k n = Ok c -> biharmonic k = true -> length v = compo_len_spec c -> length o = n ->
  compo_to_ortho c v o = UB /\ compo_gradient c v o d = UB /\ compo_backward c v o = UB.
Proof.
  intros k n c v o d H Hb Lv Lo. split; [|split].
  - apply (C09_biharmonic_to_ortho_UB R vec_self vecR_R k n c v o H Hb Lv Lo).
  - apply (gradient_UB k n c v o d H Hb Lv).
  - destruct (new_ortho k n c H) as (Eo & El & H4 & Hc). unfold compo_backward. rewrite El.
    change (repeat (@n0 R num_R) n) with (repeat 0 n).
    rewrite (C09_biharmonic_to_ortho_UB R vec_self vecR_R k n c v (repeat 0 n) H Hb Lv (repeat_length _ _)). reflexivity.
Qed.
Print Assumptions C16_biharmonic_out_of_bounds.

Theorem C16_cheb_gradient_out_of_bounds_iff : forall (T : Type) (V : Vec R T) (L : VecR T) n c (a o : list T) d,
  cheb_new n = Ok c -> length a = n -> length o = n ->
  (cheb_gradient c a o d = UB <-> n = 2%nat /\ (0 < d)%nat).
Proof.
  intros T V L n c a o d H La Lo. pose proof (cheb_new_inv n c H) as [Hn Ec].
  destruct (Nat.eq_dec n 2) as [E2|E2].
  - destruct d as [|d].
    + split; [|lia]. subst c. unfold cheb_gradient. cbn [c_m]. rewrite Lo, Nat.eqb_refl. discriminate.
    + split; [lia|]. intros _. subst n c. apply cheb_gradient_small; auto; try lia.
  - split; [|lia]. intros E. pose proof (C05_l n c a o d H ltac:(lia) La Lo) as W. rewrite E in W. destruct W.
Qed.
Print Assumptions C16_cheb_gradient_out_of_bounds_iff.

(** ** C17: the safe slice methods are unsound *)
Theorem C17_to_ortho_slice_long_output_UB : forall (T : Type) (V : Vec R T) k n c (v o : list T),
  compo_new k n = Ok c -> length v = compo_len_spec c -> (n < length o)%nat -> compo_to_ortho c v o = UB.
Proof. exact @to_ortho_long. Qed.
Print Assumptions C17_to_ortho_slice_long_output_UB.

Theorem C17_from_ortho_slice_short_input_UB : forall (T : Type) (V : Vec R T) k n c (u o : list T),
  compo_new k n = Ok c -> (length u < n)%nat -> length o = compo_len_spec c -> compo_from_ortho c u o = UB.
Proof. exact @from_ortho_short. Qed.
Print Assumptions C17_from_ortho_slice_short_input_UB.

(** The orthogonal base's slice methods are sound for slices of any lengths
    (gradient: from n = 3 on). *)
Lemma noUB_bind {A B} (m : res A) (k : A -> res B) : m <> UB -> (forall a, k a <> UB) -> bind m k <> UB.
Proof. destruct m; simpl; auto; discriminate. Qed.
Lemma noUB_assert b : assertb b <> UB. Proof. destruct b; discriminate. Qed.
Lemma noUB_usub a b : usub a b <> UB. Proof. unfold usub. destruct (b <=? a)%nat; discriminate. Qed.
Lemma noUB_rd {A} (l : list A) i : rd Checked l i <> UB.
Proof. unfold rd. destruct (nth_error l i); discriminate. Qed.
Lemma noUB_scale (x : list R) i e : scale_at x i e <> UB.
Proof.
  unfold scale_at, st. apply noUB_bind. { apply noUB_bind. apply noUB_rd. discriminate. }
  intros y. unfold wr. destruct (i <? length x)%nat; discriminate.
Qed.

Lemma noUB_dct n (x : list R) : process_dct1 n x <> UB.
Proof. unfold process_dct1. apply noUB_bind; [apply noUB_assert|discriminate]. Qed.

Theorem C17_orthogonal_slices_never_UB : forall n c (a o : list R) d, cheb_new n = Ok c ->
  cheb_forward c a o <> UB /\ cheb_backward c a o <> UB /\
  cheb_to_ortho c a o <> UB /\ cheb_from_ortho c a o <> UB /\
  ((3 <= n)%nat -> cheb_gradient c a o d <> UB).
Proof.
  intros n c a o d H. split; [|split; [|split; [|split]]].
  - unfold cheb_forward. repeat first [apply noUB_scale | apply noUB_dct | apply noUB_assert | apply noUB_usub | apply noUB_bind; intros].
  - unfold cheb_backward. repeat first [apply noUB_scale | apply noUB_dct | apply noUB_assert | apply noUB_usub | apply noUB_bind; intros].
  - discriminate.
  - discriminate.
  - intros Hn. destruct (Nat.eq_dec (length o) n) as [Lo|Lo].
    + assert (G : forall x : list R, length x = n -> cheb_gradient c x x d <> UB).
      { intros x Lx. eapply wp_noUB, (C05_l n c x x d H Hn Lx Lx). }
      assert (E : cheb_gradient c a o d = cheb_gradient c (zip_write o a) (zip_write o a) d).
      { unfold cheb_gradient. rewrite !zip_write_length, (zip_write_full (zip_write o a) (zip_write o a)) by auto. reflexivity. }
      rewrite E. apply G. rewrite zip_write_length. auto.
    + unfold cheb_gradient. apply cheb_new_inv in H as [_ ->]. cbn [c_m].
      destruct (Nat.eqb_spec (length o) n); [lia|]. discriminate.
Qed.
Print Assumptions C17_orthogonal_slices_never_UB.

(** ** C18 *)
Theorem C18_forward_of_backward : forall k n c, compo_new k n = Ok c -> forall (v o1 o2 : list R),
  biharmonic k = false -> (ssolve k <= n)%nat ->
  length v = compo_len_spec c -> length o1 = n -> length o2 = compo_len_spec c ->
  (let* x := compo_backward c v o1 in compo_forward c x o2) = Ok v.
Proof. exact C18_l. Qed.
Print Assumptions C18_forward_of_backward.

Theorem C18_projection : forall k n c, compo_new k n = Ok c -> forall (x o1 o2 : list R),
  biharmonic k = false -> (ssolve k <= n)%nat ->
  length x = n -> length o1 = compo_len_spec c -> length o2 = n ->
  wp (let* v := compo_forward c x o1 in compo_backward c v o2) (fun y =>
    length y = n /\
    (let* v := compo_forward c y o1 in compo_backward c v o2) = Ok y /\
    wp (compo_coords c) (fun xs => exists u : list R, length u = n /\ bc k (peval u tt) /\
       forall j, (j < n)%nat -> y.[j] = peval u tt xs.[j])).
Proof. exact C18_proj. Qed.
Print Assumptions C18_projection.

(** ** C44: constructible bases and the sizes at which they are usable *)
Theorem C44_usable : forall k n c, compo_new k n = Ok c -> biharmonic k = false -> (ssolve k <= n)%nat ->
  forall (v x o oo : list R) d, length v = compo_len_spec c -> length x = n ->
    length o = compo_len_spec c -> length oo = n ->
    wp (compo_to_ortho c v oo) (fun _ => True) /\ wp (compo_from_ortho c x o) (fun _ => True) /\
    wp (compo_forward c x o) (fun _ => True) /\ wp (compo_backward c v oo) (fun _ => True) /\
    wp (compo_gradient c v oo d) (fun _ => True).
Proof.
  intros k n c H Hb Hn v x o oo d Lv Lx Lo Loo.
  pose proof (gradient_ok k n c v oo d H Hb Lv Loo) as W.
  split; [|split; [|split; [|split]]].
  - eapply wp_mono; [exact W|auto].
  - rewrite (len_spec_eq k n c H) in Lo. eapply wp_mono; [apply (from_ortho_ok k n c x o H Hn Lx Lo)|auto].
  - eapply wp_mono; [apply (forward_runs k n c H x o Hn Lx Lo)|auto].
  - eapply wp_mono; [apply (backward_runs k n c H v oo Hb Lv Loo)|auto].
  - apply wp_Ok in W as (u & _ & _ & W). eapply wp_mono; [exact W|auto].
Qed.
Print Assumptions C44_usable.

Theorem C44_constructible_but_from_ortho_panics : forall (T : Type) (V : Vec R T) (L : VecR T) k n c (u o : list T),
  compo_new k n = Ok c -> (n < ssolve k)%nat ->
  length u = n -> length o = compo_len_spec c -> compo_from_ortho c u o = Panic.
Proof. intros T V L k n c u o H Hn Lu. rewrite (len_spec_eq k n c H). intros Lo. apply (from_ortho_small k n c u o H Hn Lu Lo). Qed.
Print Assumptions C44_constructible_but_from_ortho_panics.

(** ** Non-vacuity, and the repo's own test data, run on the model over Q *)
Example C44_gap_exists : (smin KDirichlet < ssolve KDirichlet)%nat /\ (smin KBiHarmonicA < ssolve KBiHarmonicA)%nat.
Proof. cbn; lia. Qed.
Example C09_hyps_met : exists c, compo_new (A := R) KNeumann 7 = Ok c /\ compo_len_spec c = 5%nat.
Proof.
  destruct (compo_new_ok KNeumann 7 ltac:(cbn; lia)) as [c H]. exists c. split; auto. apply (len_spec_eq KNeumann 7 c H).
Qed.
(** compo.rs [test_cheb_dirichlet_to_ortho], column 1 of the axis-0 case *)
Example C09_repo_test : (let* c := compo_new (A := Q) KDirichlet 5 in
  compo_to_ortho (V := vec_self) c [1;5;9]%Q [0;0;0;0;0]%Q) = Ok [1;5;8;-5;-9]%Q.
Proof. vm_compute. reflexivity. Qed.
Example C12_hyps_met : (let* c := compo_new (A := Q) KDirichletNeumann 6 in
  let* u := compo_to_ortho (V := vec_self) c [1;5;9;-2]%Q [0;0;0;0;0;0]%Q in
  let* w := compo_from_ortho (V := vec_self) c u [0;0;0;0]%Q in
  Ok (map Qred w)) = Ok [1;5;9;-2]%Q.
Proof. vm_compute. reflexivity. Qed.
Example C09_biharmonic_hyps_met : (let* c := compo_new (A := Q) KBiHarmonicA 14 in
  compo_to_ortho (V := vec_self) c (repeat 1%Q 10) (repeat 1%Q 14)) = UB.
Proof. vm_compute. reflexivity. Qed.
