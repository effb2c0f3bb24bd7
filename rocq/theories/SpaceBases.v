(** Which library bases are usable in a space, and their 1-D round trips in
    the vocabulary of the base traits. *)
From Coq Require Import List Arith Lia Bool ZArith Reals Lra Permutation.
From Verif Require Import Base Num Linalg Stencils Cheb Compo ChebFacts CompoProofs CompoFacts CompoFacts3 ChebPoly ChebGrad ChebMat ChebDct LinalgSpec StencilProofs StencilProofs2 CompoFacts2 Fourier FourierFacts FourierProofs FourierOps NdArray NdArrayFacts AxisFacts Bases BaseLin LibBase AxisProps
  PropCheb PropCompo PropFourier PropAxis.
Import ListNotations.
Local Open Scope nat_scope.

(** Bases whose forward, backward, to_ortho and from_ortho all succeed (C44,
    C16): any Chebyshev or Fourier base, and the non-biharmonic composite
    bases from the size on at which their solver exists. *)
Inductive usable : forall (P S T : Type), Vec R P -> Vec R S -> Vec R T -> base_ops P S T -> Prop :=
| us_chebyshev T (V : Vec R T) (L : VecR T) n b : new_chebyshev n = Ok b ->
    usable R R T vec_self vec_self V (r2r_ops b)
| us_composite T (V : Vec R T) (L : VecR T) k n b : new_composite k n = Ok b -> biharmonic k = false -> ssolve k <= n ->
    usable R R T vec_self vec_self V (r2r_ops b)
| us_fourier_r2c n f : r2c_new n = Ok f ->
    usable R (cplx R) (cplx R) vec_self vec_cplx vec_cplx (r2c_ops f)
| us_fourier_c2c n f : c2c_new n = Ok f ->
    usable (cplx R) (cplx R) (cplx R) vec_cplx vec_cplx vec_cplx (c2c_ops f).

Lemma usable_lib P S T VP VS VT b : usable P S T VP VS VT b -> lib_base P S T VP VS VT b.
Proof.
  intros []; [eapply lib_chebyshev|eapply lib_composite|eapply lib_fourier_r2c|eapply lib_fourier_c2c]; eauto.
Qed.

(** The 1-D round trips, for arbitrary buffers. *)
Definition spectral_roundtrip {P S T} (b : base_ops P S T) : Prop :=
  forall x y z, length x = len_spec b -> length y = len_phys b -> length z = len_spec b ->
    (let* w := backward_slice b x y in forward_slice b w z) = Ok x.
Definition physical_roundtrip {P S T} (b : base_ops P S T) : Prop :=
  forall x y z, length x = len_phys b -> length y = len_spec b -> length z = len_phys b ->
    (let* w := forward_slice b x y in backward_slice b w z) = Ok x.
Definition ortho_roundtrip {P S T} (b : base_ops P S T) : Prop :=
  forall x y z, length x = len_spec b -> length y = len_orth b -> length z = len_spec b ->
    (let* w := to_ortho_slice b x y in from_ortho_slice b w z) = Ok x.

Lemma wp_eq {A} (m : res A) x : wp m (fun y => y = x) -> m = Ok x.
Proof. intros H. apply wp_Ok in H as (y & -> & ->). auto. Qed.
Lemma new_chebyshev_inv {A} {N : Num A} n (b : base_r2r A) : new_chebyshev n = Ok b -> 2 <= n /\ b = BChebyshev (mk_cheb n n).
Proof.
  unfold new_chebyshev. destruct (cheb_new n) as [c| |] eqn:E; try discriminate. intros H; inversion H.
  apply cheb_new_inv in E as [Hn ->]. auto.
Qed.
Lemma new_composite_inv k n b : new_composite k n = Ok b -> exists c, compo_new (A := R) k n = Ok c /\ b = BChebyshevComposite c.
Proof.
  unfold new_composite. destruct (compo_new k n) as [c| |] eqn:E; try discriminate. intros H; inversion H. eauto.
Qed.

Lemma rt_chebyshev {T} {V : Vec R T} n b : new_chebyshev n = Ok b ->
  spectral_roundtrip (r2r_ops (T := T) b) /\ physical_roundtrip (r2r_ops (T := T) b).
Proof.
  intros H. apply new_chebyshev_inv in H as [Hn ->].
  assert (Hc : cheb_new n = Ok (mk_cheb n n)).
  { unfold cheb_new. destruct (Nat.leb_spec 2 n); [reflexivity|lia]. }
  split; intros x y z Hx Hy Hz; apply wp_eq.
  - apply (C01_cheb_forward_of_backward n (mk_cheb n n)); auto.
  - apply (C02_cheb_backward_of_forward n (mk_cheb n n)); auto.
Qed.
Lemma rt_composite {T} {V : Vec R T} k n b : new_composite k n = Ok b -> biharmonic k = false -> ssolve k <= n ->
  spectral_roundtrip (r2r_ops (T := T) b).
Proof.
  intros H Hb Hs. apply new_composite_inv in H as (c & Hc & ->). intros x y z Hx Hy Hz.
  apply (C18_forward_of_backward k n c Hc); auto. destruct (compo_new_inv k n c Hc) as (_ & E & _).
  rewrite Hy. exact E.
Qed.
Lemma rt_r2c n f : r2c_new n = Ok f -> physical_roundtrip (r2c_ops (A := R) f).
Proof.
  intros H x y z Hx Hy Hz. apply wp_eq. pose proof H as H'. apply r2c_new_inv in H' as [Hn ->].
  apply (C19_r2c_backward_of_forward n (mk_r2c n (n / 2 + 1))); auto.
Qed.
Lemma rt_c2c n f : c2c_new n = Ok f -> spectral_roundtrip (c2c_ops (A := R) f) /\ physical_roundtrip (c2c_ops (A := R) f).
Proof.
  intros H. pose proof H as H'. apply c2c_new_inv in H' as [Hn ->]. split; intros x y z Hx Hy Hz; apply wp_eq.
  - apply (C21_c2c_forward_of_backward n (mk_c2c n n)); auto.
  - apply (C21_c2c_backward_of_forward n (mk_c2c n n)); auto.
Qed.

Lemma linop_wp {T1 T2} {V1 : Vec R T1} {V2 : Vec R T2} (f : list T1 -> list T2 -> res (list T2)) l1 l2 x y : linop f l1 l2 ->
  length x = l1 -> length y = l2 -> exists z, f x y = Ok z /\ length z = l2.
Proof. intros (g & C & _) Hx Hy. destruct (C x y Hx Hy). eauto. Qed.

(** Everything at once. *)
Lemma usable_facts P S T VP VS VT b : usable P S T VP VS VT b ->
  linop (forward_slice b) (len_phys b) (len_spec b) /\
  linop (backward_slice b) (len_spec b) (len_phys b) /\
  linop (to_ortho_slice b) (len_spec b) (len_orth b) /\
  linop (from_ortho_slice b) (len_orth b) (len_spec b) /\
  ortho_roundtrip b /\ (spectral_roundtrip b \/ physical_roundtrip b).
Proof.
  intros H. destruct H as [T V L n b H | T V L k n b H Hb Hs | n f H | n f H].
  - pose proof (rt_chebyshev (V := V) n b H) as [RT _]. apply new_chebyshev_inv in H as [Hn ->].
    repeat split; try (left; exact RT).
    + apply linop_cheb_forward; auto.
    + apply linop_cheb_backward; auto.
    + apply linop_copy.
    + apply linop_copy.
    + intros x y z Hx Hy Hz. cbn [r2r_ops to_ortho_slice from_ortho_slice len_spec len_orth] in *. unfold cheb_to_ortho, cheb_from_ortho.
      cbn [bind]. unfold cheb_len_spec, cheb_len_orth in *. cbn [c_m] in *. rewrite (zip_write_full y x), (zip_write_full z x) by congruence. reflexivity.
  - pose proof (rt_composite (V := V) k n b H Hb Hs) as RT. apply new_composite_inv in H as (c & Hc & ->).
    pose proof (len_spec_eq k n c Hc) as Es. destruct (new_ortho k n c Hc) as (Eo & El & H4 & Hc').
    assert (Ep : compo_len_phys c = n) by (apply compo_new_inv in Hc; tauto).
    cbn [r2r_ops len_phys len_spec len_orth forward_slice backward_slice to_ortho_slice from_ortho_slice gradient_slice] in *.
    rewrite ?Es, ?El, ?Ep in *. split; [|split; [|split; [|split; [|split]]]].
    + apply linop_compo_forward; auto.
    + apply linop_compo_backward; auto.
    + apply linop_compo_to_ortho; auto.
    + apply linop_compo_from_ortho; auto.
    + intros x y z Hx Hy Hz. cbn [len_spec len_orth to_ortho_slice from_ortho_slice] in *. rewrite ?Es, ?El in *.
      apply (C12_from_ortho_of_to_ortho T V L k n c); auto; congruence.
    + left. exact RT.
  - pose proof (rt_r2c n f H) as RT. apply r2c_new_inv in H as [Hn ->]. repeat split; try (right; exact RT).
    + apply linop_r2c_forward; auto.
    + apply linop_r2c_backward; auto.
    + apply linop_copy.
    + apply linop_copy.
    + intros x y z Hx Hy Hz. cbn [r2c_ops to_ortho_slice from_ortho_slice len_spec len_orth] in *. unfold f_to_ortho, f_from_ortho.
      cbn [bind]. unfold r2c_len_spec, r2c_len_orth in *. cbn [r_m] in *. rewrite (zip_write_full y x), (zip_write_full z x) by congruence. reflexivity.
  - pose proof (rt_c2c n f H) as [RT _]. apply c2c_new_inv in H as [Hn ->]. repeat split; try (left; exact RT).
    + apply linop_c2c_forward; auto.
    + apply linop_c2c_backward; auto.
    + apply linop_copy.
    + apply linop_copy.
    + intros x y z Hx Hy Hz. cbn [c2c_ops to_ortho_slice from_ortho_slice len_spec len_orth] in *. unfold f_to_ortho, f_from_ortho.
      cbn [bind]. unfold c2c_len_spec, c2c_len_orth in *. cbn [cc_m] in *. rewrite (zip_write_full y x), (zip_write_full z x) by congruence. reflexivity.
Qed.

Definition total_gradient {P S T} (b : base_ops P S T) (d : nat) : Prop :=
  slice_total (len_spec b) (len_orth b) (fun x y => gradient_slice b x y d).
Lemma gradient_linop P S T VP VS VT b d : lib_base P S T VP VS VT b -> total_gradient b d ->
  (exists t : T, True) ->
  linop (fun x y => gradient_slice b x y d) (len_spec b) (len_orth b).
Proof.
  intros H Tt [t _]. destruct (lib_uniform _ _ _ _ _ _ b H) as (_ & _ & _ & _ & U). destruct (U d) as [U'|[U'|U']]; auto; exfalso;
   destruct (Tt (repeat t (len_spec b)) (repeat t (len_orth b))) as [z Hz]; try apply repeat_length;
   rewrite U' in Hz by apply repeat_length; discriminate.
Qed.
