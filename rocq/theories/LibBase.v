(** The bases the library can construct, and the dichotomy for their slice
    methods: on slices of the right lengths each method either always computes
    a linear function of its input, or always panics, or always is UB. *)
From Coq Require Import List Arith Lia Bool ZArith Reals Lra.
From Verif Require Import Base Num Linalg LinalgSpec Stencils StencilProofs StencilProofs2 Cheb Compo
  ChebPoly ChebGrad ChebMat ChebDct ChebFacts CompoProofs CompoFacts CompoFacts2 CompoFacts3
  Fourier FourierFacts FourierProofs FourierOps FourierSpec NdArray NdArrayFacts Bases BaseLin.
Import ListNotations.
Local Open Scope R_scope.

(** Everything the public constructors of lib.rs:170-347 return, seen through
    the base traits; T is the element type chosen for BaseFromOrtho<T> and
    BaseGradient<T> of the real bases (f64 or Complex<f64>). *)
Inductive lib_base : forall (P S T : Type), Vec R P -> Vec R S -> Vec R T -> base_ops P S T -> Prop :=
| lib_chebyshev T (V : Vec R T) (L : VecR T) n b : new_chebyshev n = Ok b ->
    lib_base R R T vec_self vec_self V (r2r_ops b)
| lib_composite T (V : Vec R T) (L : VecR T) k n b : new_composite k n = Ok b ->
    lib_base R R T vec_self vec_self V (r2r_ops b)
| lib_fourier_r2c n f : r2c_new n = Ok f ->
    lib_base R (cplx R) (cplx R) vec_self vec_cplx vec_cplx (r2c_ops f)
| lib_fourier_c2c n f : c2c_new n = Ok f ->
    lib_base (cplx R) (cplx R) (cplx R) vec_cplx vec_cplx vec_cplx (c2c_ops f).

Section Uniform.
Context {T1 T2 : Type} {V1 : Vec R T1} {V2 : Vec R T2}.
Definition uniform (f : list T1 -> list T2 -> res (list T2)) (l1 l2 : nat) : Prop :=
  linop f l1 l2 \/
  (forall x y, length x = l1 -> length y = l2 -> f x y = Panic) \/
  (forall x y, length x = l1 -> length y = l2 -> f x y = UB).
End Uniform.

Lemma lib_uniform P S T VP VS VT b : lib_base P S T VP VS VT b ->
  uniform (forward_slice b) (len_phys b) (len_spec b) /\
  uniform (backward_slice b) (len_spec b) (len_phys b) /\
  uniform (to_ortho_slice b) (len_spec b) (len_orth b) /\
  uniform (from_ortho_slice b) (len_orth b) (len_spec b) /\
  (forall d, uniform (fun x y => gradient_slice b x y d) (len_spec b) (len_orth b)).
Proof.
  intros H. destruct H as [T V L n b H | T V L k n b H | n f H | n f H].
  - unfold new_chebyshev in H. destruct (cheb_new n) as [c| |] eqn:Hc; try discriminate. inversion H; subst b. clear H.
    apply cheb_new_inv in Hc as [Hn ->]. cbn [r2r_ops len_phys len_spec len_orth forward_slice backward_slice to_ortho_slice
      from_ortho_slice gradient_slice cheb_len_phys cheb_len_spec cheb_len_orth c_n c_m].
    split; [|split; [|split; [|split]]].
    + left. apply linop_cheb_forward; auto.
    + left. apply linop_cheb_backward; auto.
    + left. apply linop_copy.
    + left. apply linop_copy.
    + intros d. destruct (Nat.eq_dec n 2) as [->|].
      * destruct d as [|d].
        -- left. eapply linop_ext; [|apply (linop_copy 2)]. intros x y Hx Hy. cbv beta. unfold cheb_gradient. cbn [c_m].
           rewrite Hy. reflexivity.
        -- right. right. intros x y Hx Hy. apply cheb_gradient_small; auto; lia.
      * left. apply linop_cheb_gradient. lia.
  - unfold new_composite in H. destruct (compo_new k n) as [c| |] eqn:Hc; try discriminate. inversion H; subst b. clear H.
    pose proof (len_spec_eq k n c Hc) as Es. destruct (new_ortho k n c Hc) as (Eo & El & H4 & Hc').
    assert (Ep : compo_len_phys c = n) by (apply compo_new_inv in Hc; tauto).
    cbn [r2r_ops len_phys len_spec len_orth forward_slice backward_slice to_ortho_slice from_ortho_slice gradient_slice].
    rewrite Es, El, Ep.
    assert (FO : uniform (compo_from_ortho (V := V) c) n (sdim k n)).
    { destruct (le_lt_dec (ssolve k) n). left; apply linop_compo_from_ortho; auto.
      right; left. intros x y Hx Hy. apply (from_ortho_small k n c); auto. }
    assert (FF : uniform (compo_forward (A := R) c) n (sdim k n)).
    { destruct (le_lt_dec (ssolve k) n). left; apply linop_compo_forward; auto.
      right; left. intros x y Hx Hy. unfold compo_forward. rewrite El.
      destruct (linop_cheb_forward n ltac:(lia)) as (g & Cg & _). rewrite Eo.
      destruct (Cg x (repeat 0 n) Hx (repeat_length _ _)) as [Ex Lx]. change (@n0 R num_R) with 0. rewrite Ex. cbn [bind].
      apply (from_ortho_small k n c); auto. }
    split; [|split; [|split; [|split]]]; auto; destruct (biharmonic k) eqn:Hb.
    + right; right. intros x y Hx Hy. unfold compo_backward. rewrite El, (to_ortho_UB k n c); auto. apply repeat_length.
    + left. apply linop_compo_backward; auto.
    + right; right. intros x y Hx Hy. apply (to_ortho_UB k n c); auto.
    + left. apply linop_compo_to_ortho; auto.
    + right; right. intros x y Hx Hy. apply (gradient_UB k n c); auto. congruence.
    + left. apply linop_compo_gradient; auto.
  - unfold r2c_new in H. destruct (Nat.leb_spec 1 n); [|discriminate]. cbn [assertb bind] in H. inversion H; subst f.
    cbn [r2c_ops len_phys len_spec len_orth forward_slice backward_slice to_ortho_slice from_ortho_slice gradient_slice].
    unfold r2c_len_phys, r2c_len_spec, r2c_len_orth. cbn [r_n r_m].
    split; [|split; [|split; [|split]]]; left.
    + apply linop_r2c_forward; auto.
    + apply linop_r2c_backward; auto.
    + apply linop_copy.
    + apply linop_copy.
    + apply linop_r2c_gradient.
  - unfold c2c_new in H. destruct (Nat.leb_spec 1 n); [|discriminate]. cbn [assertb bind] in H. inversion H; subst f.
    cbn [c2c_ops len_phys len_spec len_orth forward_slice backward_slice to_ortho_slice from_ortho_slice gradient_slice].
    unfold c2c_len_phys, c2c_len_spec, c2c_len_orth. cbn [cc_n cc_m].
    split; [|split; [|split; [|split]]]; left.
    + apply linop_c2c_forward; auto.
    + apply linop_c2c_backward; auto.
    + apply linop_copy.
    + apply linop_copy.
    + apply linop_c2c_gradient; auto.
Qed.
