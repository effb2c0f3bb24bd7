(** C52: backward of a space evaluates the represented function at the points of
    the product grid coords_axis(0) x coords_axis(1) (x coords_axis(2)). *)
From Coq Require Import List Arith Lia Bool ZArith Reals Lra Permutation Ring.
From Verif Require Import Base Num Linalg LinalgSpec Stencils StencilProofs StencilProofs2 Cheb Compo
  ChebPoly ChebGrad ChebMat ChebDct ChebFacts CompoProofs CompoFacts CompoFacts2 CompoFacts3
  Fourier FourierFacts FourierProofs FourierOps FourierSpec PropCheb PropCompo PropFourier NdArray NdArrayFacts AxisFacts Bases BaseLin LibBase AxisProps
  PropAxis SpaceFacts SpaceBases SpaceStages Space MatOp SpaceOrder PropSpace PropSpace4 Elements ElemFacts PropElements PropElements2.
Import ListNotations.
Local Open Scope R_scope.

(** ** Specification: the function with coefficients a, per kind of base.
    [made_fn bm k n .. b e ev]: the base made by [k] with size [n] has operators
    [b] and accessors [e], and [ev a x] is the value at x of the function that
    coefficients [a] stand for in it. *)
Inductive made_fn (bm : bmode) : ctor -> nat -> forall (P S T : Type), Vec R P -> Vec R S -> Vec R T -> base_ops P S T -> elems R -> (list S -> R -> P) -> Prop :=
(** sum_i a_i T_i(x) *)
| fn_chebyshev T (V : Vec R T) (L : VecR T) n b : new_chebyshev n = Ok b ->
    made_fn bm Chebyshev n R R T vec_self vec_self V (r2r_ops b) (r2r_elems bm b) (fun a x => rsum n (fun i => a.[i] * TT i x))
(** sum_i (sum_j M_ij a_j) T_i(x), M = stencil() *)
| fn_composite T (V : Vec R T) (L : VecR T) k n b M m : new_composite k n = Ok b -> e_stencil (r2r_elems bm b) = Ok M -> mat_dims M n m ->
    made_fn bm (ChebComposite k) n R R T vec_self vec_self V (r2r_ops b) (r2r_elems bm b)
      (fun a x => rsum n (fun i => rsum m (fun j => a.[j] * M.[i].[j]) * TT i x))
(** (1/n) sum_{k <= n/2} w_k Re(a_k e^{ikx}), w_0 = w_{n/2} = 1, other w_k = 2 *)
| fn_fourier_r2c n f : r2c_new n = Ok f ->
    made_fn bm FourierR2c n R (cplx R) (cplx R) vec_self vec_cplx vec_cplx (r2c_ops f) (r2c_elems f) (rinterp n)
(** (1/n) sum_k a_k e^{i freq_k x} *)
| fn_fourier_c2c n f : c2c_new n = Ok f ->
    made_fn bm FourierC2c n (cplx R) (cplx R) (cplx R) vec_cplx vec_cplx vec_cplx (c2c_ops f) (c2c_elems f)
      (fun a x => cmul (/ INR n, 0) (fseries (freq n) a x)).

Lemma made_fn_made bm k n P S T VP VS VT b e ev : made_fn bm k n P S T VP VS VT b e ev -> made bm k n P S T VP VS VT b e.
Proof. intros []; constructor; auto. Qed.

(** Every usable base has one. *)
Theorem C52_every_base_represents_functions : forall bm k n P S T VP VS VT b e, made bm k n P S T VP VS VT b e ->
  exists ev, made_fn bm k n P S T VP VS VT b e ev.
Proof.
  intros bm k n P S T VP VS VT b e H. pose proof (made_stencil_inv _ _ _ _ _ _ _ _ _ _ _ H) as (M & _ & EM & _ & D & _).
  destruct H as [T' V L n' b' H|T' V L k' n' b' H|n' f H|n' f H]; eexists; [constructor|eapply (fn_composite _ _ _ _ _ _ _ M (len_spec (r2r_ops (T := T') b')))|constructor|constructor]; eauto.
  pose proof H as H'. apply new_composite_inv in H' as (c & Hc & ->). destruct (new_ortho k' n' c Hc) as (_ & El & _).
  change (len_orth (r2r_ops (T := T') (BChebyshevComposite c))) with (compo_len_orth c) in D. rewrite El in D. exact D.
Qed.
Print Assumptions C52_every_base_represents_functions.

Lemma made_eval bm k n P S T VP VS VT b e ev : made_fn bm k n P S T VP VS VT b e ev -> ctor_usable k n ->
  exists xs, e_coords e = Ok xs /\ is_grid k n xs /\
  forall (dP : Dflt P) x y, length x = len_spec b -> length y = len_phys b ->
    exists z, backward_slice b x y = Ok z /\ length z = len_phys b /\ forall j, (j < len_phys b)%nat -> z.[j] = ev x xs.[j].
Proof.
  intros H C.
  pose proof (made_coords _ _ _ _ _ _ _ _ _ _ _ (made_fn_made _ _ _ _ _ _ _ _ _ _ _ _ H)) as Hn. pose proof (C49_base_accessors _ _ _ _ Hn) as (_ & _ & G).
  apply wp_Ok in G as (xs & Exs & Lx & Gx). exists xs. split; auto. split; [split; auto|]. clear Hn. intros dP.
  destruct H as [T' V L n' b' H|T' V L k' n' b' M m H HM HD|n' f H|n' f H]; intros x y Hx Hy.
  - apply new_chebyshev_inv in H as [Hn ->]. cbn [r2r_ops r2r_elems e_coords backward_slice len_phys len_spec cheb_len_phys cheb_len_spec c_n c_m] in *.
    pose proof (C03_cheb_backward_evaluates n' _ x y (new_cheb_ok n' Hn) Hx Hy) as W. rewrite Exs in W. cbn [wp] in W.
    apply wp_Ok in W as (z & Ez & Lz & Vz). exists z. split; auto. split; auto. intros j Hj. rewrite (at_indep dP dflt_num) by lia. apply Vz; auto.
  - apply new_composite_inv in H as (c & Hc & ->). destruct C as [Hb Hs]. destruct (new_ortho k' n' c Hc) as (Eo & El & H4 & Hc').
    assert (Ep : compo_len_phys c = n') by (apply compo_new_inv in Hc; tauto). pose proof (len_spec_eq k' n' c Hc) as Es.
    cbn [r2r_ops r2r_elems e_coords e_stencil backward_slice len_phys len_spec] in *. rewrite Ep, Es in *.
    assert (Hm : m = sdim k' n').
    { pose proof (to_array_ok k' n' c Hc) as W. apply wp_Ok in W as (M' & EM' & D' & _). assert (M' = M) by congruence; subst M'.
      destruct D' as [_ D'], HD as [_ HD]. specialize (D' 0%nat ltac:(lia)). specialize (HD 0%nat ltac:(lia)). congruence. }
    pose proof (C09_to_ortho_is_stencil R _ _ k' n' c x (repeat 0 n') Hc Hb) as W. rewrite Es in W. specialize (W Hx (repeat_length _ _)).
    rewrite HM in W. cbn [wp] in W. destruct W as (_ & W). apply wp_Ok in W as (u & Eu & Lu & Vu).
    unfold compo_backward. rewrite El. change (n0 (A := R)) with 0. rewrite Eu. cbn [bind].
    pose proof (C03_cheb_backward_evaluates n' _ u y Hc' Lu Hy) as W. unfold compo_coords in Exs. rewrite Ep in Exs.
    assert (Exs' : cheb_coords (p_ortho c) = Ok xs) by (rewrite Eo; exact Exs). rewrite Exs' in W. cbn [wp] in W.
    apply wp_Ok in W as (z & Ez & Lz & Vz). exists z. split; auto. split; auto. intros j Hj. rewrite (at_indep dP dflt_num) by lia. rewrite Vz by auto.
    apply rsum_ext. intros i Hi. f_equal. etransitivity; [apply Vu; auto|]. rewrite vsum_rsum, Hm. reflexivity.
  - pose proof H as H'. apply r2c_new_inv in H' as [Hn ->]. cbn [r2c_ops r2c_elems e_coords backward_slice len_phys len_spec r2c_len_phys r2c_len_spec r_n r_m] in *.
    pose proof (C47_r2c_backward_evaluates n' _ x y H Hx Hy) as W. apply wp_Ok in W as (z & Ez & Lz & Vz). exists z. split; auto. split; auto.
    intros j Hj. rewrite (at_indep dP dflt_num) by lia. rewrite Gx by auto. apply Vz; auto.
  - pose proof H as H'. apply c2c_new_inv in H' as [Hn ->]. cbn [c2c_ops c2c_elems e_coords backward_slice len_phys len_spec c2c_len_phys c2c_len_spec cc_n cc_m] in *.
    pose proof (C47_c2c_backward_evaluates n' _ x y H Hx Hy) as W. apply wp_Ok in W as (z & Ez & Lz & Vz). exists z. split; auto. split; auto.
    intros j Hj. rewrite (at_indep dP dflt_vec) by lia. rewrite Gx by auto. cbn [point]. rewrite <- Vz by auto.
    assert (INR n' <> 0) by (apply not_0_INR; lia). generalize (@at_ (cplx R) dflt_vec z j). intros [p q]. unfold cmul; cbn. f_equal; field; auto.
Qed.

(** ** The spaces *)
Theorem C52_space1_backward_evaluates : forall bm k0 n0 P S T VP VS VT b0 e0 f0, made_fn bm k0 n0 P S T VP VS VT b0 e0 f0 -> ctor_usable k0 n0 ->
  forall (dP : Dflt P) (dS : Dflt S) (dT : Dflt T) zo, zip_ok zo -> let sp := mk_space1 b0 in
  exists xs, s1_coords e0 = Ok [xs] /\ is_grid k0 n0 xs /\
    forall a, proper (s1_shape_spectral sp) a -> exists v, s1_backward zo sp a = Ok v /\ proper (s1_shape_physical sp) v /\
      forall i, (i < n0)%nat -> get v [i] = f0 (map (fun k => get a [k]) (seq 0 (len_spec b0))) xs.[i].
Proof.
  intros bm k0 n0 P S T VP VS VT b0 e0 f0 F0 C0 dP dS dT zo Hz sp.
  pose proof (made_fn_made _ _ _ _ _ _ _ _ _ _ _ _ F0) as H0. pose proof (made_usable _ _ _ _ _ _ _ _ _ _ _ H0 C0) as U0.
  pose proof (made_len _ _ _ _ _ _ _ _ _ _ _ H0) as N0.
  destruct (made_eval _ _ _ _ _ _ _ _ _ _ _ _ F0 C0) as (xs & Ex & Gx & Vx). exists xs. split.
  { unfold s1_coords, s1_coords_axis, s1_method, s1_axis. cbn [bind]. rewrite Ex. reflexivity. } split; auto. intros a Ha.
  destruct (C29_space1_applies_each_base_along_its_axis P S T VP VS VT b0 U0 dP dS dT zo Hz) as (_ & TB & _).
  destruct (TB a (azeros dflt (s1_shape_physical sp)) Ha (proper_zeros _ _)) as (v & _ & E & Pv & A0).
  exists v. split; [exact E|]. split; [exact Pv|]. intros i Hi.
  rewrite (axis_op_entry (backward_slice b0) (fun x j => f0 x xs.[j]) (len_spec b0) (len_phys b0) 0 a v (Vx dP)); auto.
  - cbn [firstn skipn nth]. f_equal. unfold line. cbn [length app]. rewrite (proj1 Ha). reflexivity.
  - rewrite (proj1 Ha); reflexivity.
  - rewrite (proj1 Pv). subst n0. vld.
Qed.
Print Assumptions C52_space1_backward_evaluates.

(** f(x_i, y_j), where f(x, y) has along x, for each l, coefficients a_{.,l}. *)
Theorem C52_space2_backward_evaluates : forall bm k0 n0 k1 n1 P I S T VP VI VS VT b0 e0 f0 b1 e1 f1,
  made_fn bm k0 n0 I S T VI VS VT b0 e0 f0 -> ctor_usable k0 n0 -> made_fn bm k1 n1 P I T VP VI VT b1 e1 f1 -> ctor_usable k1 n1 ->
  forall (dP : Dflt P) (dI : Dflt I) (dS : Dflt S) (dT : Dflt T) zo, zip_ok zo -> let sp := mk_space2 b0 b1 in
  exists xs ys, s2_coords e0 e1 = Ok [xs; ys] /\ is_grid k0 n0 xs /\ is_grid k1 n1 ys /\
    forall a, proper (s2_shape_spectral sp) a -> exists v, s2_backward zo sp a = Ok v /\ proper (s2_shape_physical sp) v /\
      forall i j, (i < n0)%nat -> (j < n1)%nat -> get v [i; j] =
        f1 (map (fun l => f0 (map (fun k => get a [k; l]) (seq 0 (len_spec b0))) xs.[i]) (seq 0 (len_spec b1))) ys.[j].
Proof.
  intros bm k0 n0 k1 n1 P I S T VP VI VS VT b0 e0 f0 b1 e1 f1 F0 C0 F1 C1 dP dI dS dT zo Hz sp.
  pose proof (made_fn_made _ _ _ _ _ _ _ _ _ _ _ _ F0) as H0. pose proof (made_usable _ _ _ _ _ _ _ _ _ _ _ H0 C0) as U0.
  pose proof (made_fn_made _ _ _ _ _ _ _ _ _ _ _ _ F1) as H1. pose proof (made_usable _ _ _ _ _ _ _ _ _ _ _ H1 C1) as U1.
  pose proof (made_len _ _ _ _ _ _ _ _ _ _ _ H0) as N0. pose proof (made_len _ _ _ _ _ _ _ _ _ _ _ H1) as N1.
  destruct (made_eval _ _ _ _ _ _ _ _ _ _ _ _ F0 C0) as (xs & Ex & Gx & Vx).
  destruct (made_eval _ _ _ _ _ _ _ _ _ _ _ _ F1 C1) as (ys & Ey & Gy & Vy). exists xs, ys. split.
  { unfold s2_coords, s2_coords_axis, s2_method, s2_axis. cbn [bind Nat.eqb]. rewrite Ex. cbn [bind]. rewrite Ey. reflexivity. } split; auto. split; auto. intros a Ha.
  destruct (C29_space2_applies_each_base_along_its_axis P I S T VP VI VS VT b0 b1 U0 U1 dP dI dS dT zo Hz) as (_ & TB & _).
  destruct (TB a (azeros dflt (s2_shape_physical sp)) Ha (proper_zeros _ _)) as (m & v & _ & E & Pv & A0 & A1).
  assert (Pm : proper [len_phys b0; len_spec b1] m) by (exact (proper_op _ _ _ _ _ _ _ A0 Ha eq_refl)).
  exists v. split; [exact E|]. split; [exact Pv|]. intros i j Hi Hj.
  rewrite (axis_op_entry (backward_slice b1) (fun x j => f1 x ys.[j]) (len_spec b1) (len_phys b1) 1 m v (Vy dP)); auto.
  - cbn [firstn skipn nth]. f_equal. unfold line. cbn [length app]. rewrite (proj1 Pm). cbn [axlen nth]. apply map_ext_in. intros l Hl. apply in_seq in Hl.
    rewrite (axis_op_entry (backward_slice b0) (fun x j => f0 x xs.[j]) (len_spec b0) (len_phys b0) 0 a m (Vx dI)); auto.
    + cbn [firstn skipn nth]. f_equal. unfold line. cbn [length app]. rewrite (proj1 Ha). reflexivity.
    + rewrite (proj1 Ha); reflexivity.
    + rewrite (proj1 Pm). vld; try lia.
  - rewrite (proj1 Pm); reflexivity.
  - rewrite (proj1 Pv). subst sp. unfold s2_shape_physical, s3_shape_physical. cbn [s2_base0 s2_base1 s3_base0 s3_base1 s3_base2]. vld; lia.
Qed.
Print Assumptions C52_space2_backward_evaluates.

Theorem C52_space3_backward_evaluates : forall bm k0 n0 k1 n1 k2 n2 P I J S T VP VI VJ VS VT b0 e0 f0 b1 e1 f1 b2 e2 f2,
  made_fn bm k0 n0 J S T VJ VS VT b0 e0 f0 -> ctor_usable k0 n0 -> made_fn bm k1 n1 I J T VI VJ VT b1 e1 f1 -> ctor_usable k1 n1 ->
  made_fn bm k2 n2 P I T VP VI VT b2 e2 f2 -> ctor_usable k2 n2 ->
  forall (dP : Dflt P) (dI : Dflt I) (dJ : Dflt J) (dS : Dflt S) (dT : Dflt T) zo, zip_ok zo -> let sp := mk_space3 b0 b1 b2 in
  exists xs ys zs, s3_coords e0 e1 e2 = Ok [xs; ys; zs] /\ is_grid k0 n0 xs /\ is_grid k1 n1 ys /\ is_grid k2 n2 zs /\
    forall a, proper (s3_shape_spectral sp) a -> exists v, s3_backward zo sp a = Ok v /\ proper (s3_shape_physical sp) v /\
      forall i j h, (i < n0)%nat -> (j < n1)%nat -> (h < n2)%nat -> get v [i; j; h] =
        f2 (map (fun q => f1 (map (fun l => f0 (map (fun k => get a [k; l; q]) (seq 0 (len_spec b0))) xs.[i]) (seq 0 (len_spec b1))) ys.[j])
             (seq 0 (len_spec b2))) zs.[h].
Proof.
  intros bm k0 n0 k1 n1 k2 n2 P I J S T VP VI VJ VS VT b0 e0 f0 b1 e1 f1 b2 e2 f2 F0 C0 F1 C1 F2 C2 dP dI dJ dS dT zo Hz sp.
  pose proof (made_fn_made _ _ _ _ _ _ _ _ _ _ _ _ F0) as H0. pose proof (made_usable _ _ _ _ _ _ _ _ _ _ _ H0 C0) as U0.
  pose proof (made_fn_made _ _ _ _ _ _ _ _ _ _ _ _ F1) as H1. pose proof (made_usable _ _ _ _ _ _ _ _ _ _ _ H1 C1) as U1.
  pose proof (made_fn_made _ _ _ _ _ _ _ _ _ _ _ _ F2) as H2. pose proof (made_usable _ _ _ _ _ _ _ _ _ _ _ H2 C2) as U2.
  pose proof (made_len _ _ _ _ _ _ _ _ _ _ _ H0) as N0. pose proof (made_len _ _ _ _ _ _ _ _ _ _ _ H1) as N1. pose proof (made_len _ _ _ _ _ _ _ _ _ _ _ H2) as N2.
  destruct (made_eval _ _ _ _ _ _ _ _ _ _ _ _ F0 C0) as (xs & Ex & Gx & Vx).
  destruct (made_eval _ _ _ _ _ _ _ _ _ _ _ _ F1 C1) as (ys & Ey & Gy & Vy).
  destruct (made_eval _ _ _ _ _ _ _ _ _ _ _ _ F2 C2) as (zs & Ez & Gz & Vz). exists xs, ys, zs. split.
  { unfold s3_coords, s3_coords_axis, s3_method, s3_axis, assertb. cbn [bind Nat.eqb Nat.leb]. rewrite Ex. cbn [bind]. rewrite Ey. cbn [bind]. rewrite Ez. reflexivity. }
  split; auto. split; auto. split; auto. intros a Ha.
  destruct (C30_space3_applies_each_base_along_its_axis P I J S T VP VI VJ VS VT b0 b1 b2 U0 U1 U2 dP dI dJ dS dT zo Hz) as (_ & TB & _).
  destruct (TB a (azeros dflt (s3_shape_physical sp)) Ha (proper_zeros _ _)) as (m & m' & v & _ & E & Pv & A0 & A1 & A2).
  assert (Pm : proper [len_phys b0; len_spec b1; len_spec b2] m) by (exact (proper_op _ _ _ _ _ _ _ A0 Ha eq_refl)).
  assert (Pm' : proper [len_phys b0; len_phys b1; len_spec b2] m') by (exact (proper_op _ _ _ _ _ _ _ A1 Pm eq_refl)).
  exists v. split; [exact E|]. split; [exact Pv|]. intros i j h Hi Hj Hh.
  rewrite (axis_op_entry (backward_slice b2) (fun x j => f2 x zs.[j]) (len_spec b2) (len_phys b2) 2 m' v (Vz dP)); auto.
  2:{ rewrite (proj1 Pm'); reflexivity. } 2:{ rewrite (proj1 Pv). subst sp. unfold s2_shape_physical, s3_shape_physical. cbn [s2_base0 s2_base1 s3_base0 s3_base1 s3_base2]. vld; lia. }
  cbn [firstn skipn nth]. f_equal. unfold line. cbn [length app]. rewrite (proj1 Pm'). cbn [axlen nth]. apply map_ext_in. intros q Hq. apply in_seq in Hq.
  rewrite (axis_op_entry (backward_slice b1) (fun x j => f1 x ys.[j]) (len_spec b1) (len_phys b1) 1 m m' (Vy dI)); auto.
  2:{ rewrite (proj1 Pm); reflexivity. } 2:{ rewrite (proj1 Pm'). vld; lia. }
  cbn [firstn skipn nth]. f_equal. unfold line. cbn [length app]. rewrite (proj1 Pm). cbn [axlen nth]. apply map_ext_in. intros l Hl. apply in_seq in Hl.
  rewrite (axis_op_entry (backward_slice b0) (fun x j => f0 x xs.[j]) (len_spec b0) (len_phys b0) 0 a m (Vx dJ)); auto.
  2:{ rewrite (proj1 Ha); reflexivity. } 2:{ rewrite (proj1 Pm). vld; lia. }
  cbn [firstn skipn nth]. f_equal. unfold line. cbn [length app]. rewrite (proj1 Ha). reflexivity.
Qed.
Print Assumptions C52_space3_backward_evaluates.
