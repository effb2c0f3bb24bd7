(** C49, C50: the accessors of the bases and of the spaces; the stencil matrices
    are the conversions between composite and orthogonal coefficients. *)
From Coq Require Import List Arith Lia Bool ZArith Reals Lra Permutation Ring.
From Verif Require Import Base Num Linalg LinalgSpec Stencils StencilProofs StencilProofs2 Cheb Compo
  ChebPoly ChebGrad ChebMat ChebDct ChebFacts CompoProofs CompoFacts CompoFacts2 CompoFacts3
  Fourier FourierFacts FourierProofs FourierOps FourierSpec PropCheb PropCompo PropFourier NdArray NdArrayFacts AxisFacts Bases BaseLin LibBase AxisProps
  PropAxis SpaceFacts SpaceBases SpaceStages Space MatOp SpaceOrder PropSpace Elements ElemFacts.
Import ListNotations.
Local Open Scope R_scope.

(** ** Specification: what the constructors promise *)
Definition kind_of (k : ctor) : base_kind :=
  match k with
  | Chebyshev => BkChebyshev
  | ChebComposite KDirichlet => BkChebDirichlet
  | ChebComposite KNeumann => BkChebNeumann
  | ChebComposite KDirichletNeumann => BkChebDirichletNeumann
  | ChebComposite KBiHarmonicA => BkChebBiHarmonicA
  | ChebComposite KBiHarmonicB => BkChebBiHarmonicB
  | FourierR2c => BkFourierR2c
  | FourierC2c => BkFourierC2c
  end.
Definition transform_of (k : ctor) : transform_kind :=
  match k with Chebyshev | ChebComposite _ => TkR2r | FourierR2c => TkR2c | FourierC2c => TkC2c end.
(** j-th point of the grid of size n *)
Definition point (k : ctor) (n j : nat) : R :=
  match k with Chebyshev | ChebComposite _ => - cos (PI * INR j / INR (n - 1)) | FourierR2c | FourierC2c => 2 * PI * INR j / INR n end.
Definition is_grid (k : ctor) (n : nat) (xs : list R) : Prop :=
  length xs = n /\ forall j, (j < n)%nat -> xs.[j] = point k n j.

(** ** C49: every constructor yields the kind it is named after, on its grid *)
Theorem C49_base_accessors : forall bm k n (e : elems R), elems_new bm k n = Ok e ->
  e_kind e = kind_of k /\ e_transform e = transform_of k /\ wp (e_coords e) (is_grid k n).
Proof.
  intros bm k n e H. destruct k as [|k| |]; cbn [elems_new] in H.
  - destruct (new_chebyshev n) as [b| |] eqn:E; try discriminate. injection H as <-.
    apply new_chebyshev_inv in E as [Hn ->]. repeat split. cbn [r2r_elems e_coords].
    eapply wp_mono; [apply (C04_cheb_coords n (mk_cheb n n))|].
    unfold cheb_new. destruct (Nat.leb_spec 2 n); [reflexivity|lia]. intros xs (L & G & _). split; auto.
  - destruct (new_composite k n) as [b| |] eqn:E; try discriminate. injection H as <-.
    apply new_composite_inv in E as (c & Hc & ->). cbn [r2r_elems e_coords e_kind e_transform]. split; [|split; [reflexivity|]].
    + unfold compo_new in Hc. destruct (stencil_new k n) as [st| |] eqn:Es; try discriminate. destruct (get_m k n); try discriminate.
      cbn [bind] in Hc. destruct (cheb_new n); try discriminate. injection Hc as <-. unfold compo_kind. cbn [p_st].
      unfold stencil_new in Es. destruct (get_m k n); cbn [bind] in Es; try discriminate.
      destruct k; cbn [kind_of] in *; repeat (match type of Es with bind ?m _ = _ => destruct m; cbn [bind] in Es; try discriminate end); injection Es as <-; reflexivity.
    + eapply wp_mono; [apply (C04_compo_coords k n c Hc)|]. intros xs (L & G & _). split; auto.
  - destruct (r2c_new n) as [f| |] eqn:E; try discriminate. injection H as <-. repeat split; apply (C43_exact_coords n); auto.
  - destruct (c2c_new n) as [f| |] eqn:E; try discriminate. injection H as <-. repeat split; apply (C43_exact_coords n); auto.
Qed.
Print Assumptions C49_base_accessors.

(** The methods of a space that take an axis number hand it to one base: Space1
    to its only base whatever the axis, Space2 to the second base for every axis
    other than 0, Space3 to the base of that axis; Space3 panics on other axes. *)
Definition same_answers {A} (e : elems A) (kind : res base_kind) (tk : res transform_kind) (coords : res (list A))
    (st sti lap : res (list (list A))) (pinv : res (list (list A) * list (list A))) : Prop :=
  kind = Ok (e_kind e) /\ tk = Ok (e_transform e) /\ coords = e_coords e /\ st = e_stencil e /\ sti = e_stencil_inv e /\
  lap = e_laplacian e /\ pinv = e_laplacian_pinv e.
Theorem C49_space_axis_selects_base : forall (e0 e1 e2 : elems R) ax,
  same_answers e0 (s1_base_kind e0 ax) (s1_transform_kind e0 ax) (s1_coords_axis e0 ax) (s1_stencil e0 ax) (s1_stencil_inv e0 ax)
    (s1_laplacian e0 ax) (s1_laplacian_pinv e0 ax) /\
  same_answers (nth ax [e0] e1) (s2_base_kind e0 e1 ax) (s2_transform_kind e0 e1 ax) (s2_coords_axis e0 e1 ax) (s2_stencil e0 e1 ax)
    (s2_stencil_inv e0 e1 ax) (s2_laplacian e0 e1 ax) (s2_laplacian_pinv e0 e1 ax) /\
  ((ax <= 2)%nat ->
   same_answers (nth ax [e0; e1; e2] e2) (s3_base_kind e0 e1 e2 ax) (s3_transform_kind e0 e1 e2 ax) (s3_coords_axis e0 e1 e2 ax)
    (s3_stencil e0 e1 e2 ax) (s3_stencil_inv e0 e1 e2 ax) (s3_laplacian e0 e1 e2 ax) (s3_laplacian_pinv e0 e1 e2 ax)) /\
  ((2 < ax)%nat ->
    s3_base_kind e0 e1 e2 ax = Panic /\ s3_transform_kind e0 e1 e2 ax = Panic /\ s3_coords_axis e0 e1 e2 ax = Panic /\
    s3_stencil e0 e1 e2 ax = Panic /\ s3_stencil_inv e0 e1 e2 ax = Panic /\ s3_laplacian e0 e1 e2 ax = Panic /\ s3_laplacian_pinv e0 e1 e2 ax = Panic).
Proof.
  intros e0 e1 e2 ax. split; [repeat split|]. split; [|split].
  - destruct ax as [|[|ax]]; repeat split.
  - intros H. destruct ax as [|[|[|ax]]]; [repeat split..|lia].
  - intros H. destruct ax as [|[|[|ax]]]; [lia..|]. repeat split.
Qed.
Print Assumptions C49_space_axis_selects_base.

(** [coords()] of a space is the list of the grids of its axes. *)
Theorem C49_space_coords : forall bm k0 n0 k1 n1 k2 n2 (e0 e1 e2 : elems R),
  elems_new bm k0 n0 = Ok e0 -> elems_new bm k1 n1 = Ok e1 -> elems_new bm k2 n2 = Ok e2 ->
  (exists xs, s1_coords e0 = Ok [xs] /\ is_grid k0 n0 xs) /\
  (exists xs ys, s2_coords e0 e1 = Ok [xs; ys] /\ is_grid k0 n0 xs /\ is_grid k1 n1 ys) /\
  (exists xs ys zs, s3_coords e0 e1 e2 = Ok [xs; ys; zs] /\ is_grid k0 n0 xs /\ is_grid k1 n1 ys /\ is_grid k2 n2 zs).
Proof.
  intros bm k0 n0 k1 n1 k2 n2 e0 e1 e2 H0 H1 H2.
  destruct (C49_base_accessors bm k0 n0 e0 H0) as (_ & _ & W0). apply wp_Ok in W0 as (xs & E0 & G0).
  destruct (C49_base_accessors bm k1 n1 e1 H1) as (_ & _ & W1). apply wp_Ok in W1 as (ys & E1 & G1).
  destruct (C49_base_accessors bm k2 n2 e2 H2) as (_ & _ & W2). apply wp_Ok in W2 as (zs & E2 & G2).
  split; [|split].
  - exists xs. split; auto. unfold s1_coords, s1_coords_axis, s1_method, s1_axis. cbn [bind]. rewrite E0. reflexivity.
  - exists xs, ys. split; auto. unfold s2_coords, s2_coords_axis, s2_method, s2_axis. cbn [bind Nat.eqb]. rewrite E0. cbn [bind]. rewrite E1. reflexivity.
  - exists xs, ys, zs. split; auto. unfold s3_coords, s3_coords_axis, s3_method, s3_axis, assertb. cbn [bind Nat.eqb Nat.leb]. rewrite E0. cbn [bind].
    rewrite E1. cbn [bind]. rewrite E2. reflexivity.
Qed.
Print Assumptions C49_space_coords.

(** ** C50: to_ortho of a space multiplies by the stencil of each axis *)
Ltac vld := repeat (constructor; auto).
Theorem C50_space1_to_ortho_is_stencil : forall bm k0 n0 P S T VP VS VT b0 e0, made bm k0 n0 P S T VP VS VT b0 e0 -> ctor_usable k0 n0 ->
  forall (dP : Dflt P) (dS : Dflt S) (dT : Dflt T) zo, zip_ok zo ->
  let sp := mk_space1 b0 in
  exists M0 Q0, s1_stencil e0 0 = Ok M0 /\ s1_stencil_inv e0 0 = Ok Q0 /\
    mat_dims M0 (len_orth b0) (len_spec b0) /\ mat_dims Q0 (len_spec b0) (len_orth b0) /\
    forall a, proper (s1_shape_spectral sp) a -> exists u, s1_to_ortho zo sp a = Ok u /\ proper (s1_shape_spectral_ortho sp) u /\
      (forall i, (i < len_orth b0)%nat -> get u [i] = vsum (len_spec b0) (fun k => vmul (get a [k]) M0.[i].[k])) /\
      (forall k, (k < len_spec b0)%nat -> get a [k] = vsum (len_orth b0) (fun i => vmul (get u [i]) Q0.[k].[i])).
Proof.
  intros bm k0 n0 P S T VP VS VT b0 e0 H0 C0 dP dS dT zo Hz sp.
  destruct (made_stencil _ _ _ _ _ _ _ _ _ _ _ H0 C0) as (M0 & E0 & D0 & R0).
  destruct (made_stencil_inv _ _ _ _ _ _ _ _ _ _ _ H0) as (M0' & Q0 & E0' & F0 & L0).
  assert (M0' = M0) by congruence; subst M0'.
  destruct (made_vecR _ _ _ _ _ _ _ _ _ _ _ H0) as [L _].
  pose proof (made_usable _ _ _ _ _ _ _ _ _ _ _ H0 C0) as U0.
  exists M0, Q0. split; [exact E0|]. split; [exact F0|]. split; auto. split; [apply L0|]. intros a Ha.
  destruct (C29_space1_applies_each_base_along_its_axis P S T VP VS VT b0 U0 dP dS dT zo Hz) as (_ & _ & TO & TQ).
  destruct (TO a (azeros dflt (s1_shape_spectral_ortho sp)) Ha (proper_zeros _ _)) as (u & _ & E & Pu & A0).
  exists u. split; [exact E|]. split; [exact Pu|].
  assert (K : forall i, (i < len_orth b0)%nat -> get u [i] = vsum (len_spec b0) (fun k => vmul (get a [k]) M0.[i].[k])).
  { intros i Hi. pose proof (axis_op_rmat _ _ _ _ 0 a u R0) as K. rewrite (K ltac:(rewrite (proj1 Ha); reflexivity) A0).
    reflexivity. rewrite (proj1 Pu). vld. }
  split; [exact K|]. intros k Hk. symmetry. apply (left_inverse_cancels _ _ _ _ (fun k => get a [k]) (fun i => get u [i]) L0); auto.
Qed.
Print Assumptions C50_space1_to_ortho_is_stencil.

Theorem C50_space2_to_ortho_is_stencil : forall bm k0 n0 k1 n1 P I S T VP VI VS VT b0 e0 b1 e1,
  made bm k0 n0 I S T VI VS VT b0 e0 -> ctor_usable k0 n0 -> made bm k1 n1 P I T VP VI VT b1 e1 -> ctor_usable k1 n1 ->
  forall (dP : Dflt P) (dI : Dflt I) (dS : Dflt S) (dT : Dflt T) zo, zip_ok zo ->
  let sp := mk_space2 b0 b1 in
  exists M0 M1 Q0 Q1, s2_stencil e0 e1 0 = Ok M0 /\ s2_stencil e0 e1 1 = Ok M1 /\ s2_stencil_inv e0 e1 0 = Ok Q0 /\ s2_stencil_inv e0 e1 1 = Ok Q1 /\
    mat_dims M0 (len_orth b0) (len_spec b0) /\ mat_dims M1 (len_orth b1) (len_spec b1) /\
    mat_dims Q0 (len_spec b0) (len_orth b0) /\ mat_dims Q1 (len_spec b1) (len_orth b1) /\
    forall a, proper (s2_shape_spectral sp) a -> exists u, s2_to_ortho zo sp a = Ok u /\ proper (s2_shape_spectral_ortho sp) u /\
      (forall i j, (i < len_orth b0)%nat -> (j < len_orth b1)%nat -> get u [i; j] =
         vsum (len_spec b1) (fun l => vmul (vsum (len_spec b0) (fun k => vmul (get a [k; l]) M0.[i].[k])) M1.[j].[l])) /\
      (forall k l, (k < len_spec b0)%nat -> (l < len_spec b1)%nat -> get a [k; l] =
         vsum (len_orth b0) (fun i => vmul (vsum (len_orth b1) (fun j => vmul (get u [i; j]) Q1.[l].[j])) Q0.[k].[i])).
Proof.
  intros bm k0 n0 k1 n1 P I S T VP VI VS VT b0 e0 b1 e1 H0 C0 H1 C1 dP dI dS dT zo Hz sp.
  destruct (made_stencil _ _ _ _ _ _ _ _ _ _ _ H0 C0) as (M0 & E0 & D0 & R0).
  destruct (made_stencil _ _ _ _ _ _ _ _ _ _ _ H1 C1) as (M1 & E1 & D1 & R1).
  destruct (made_stencil_inv _ _ _ _ _ _ _ _ _ _ _ H0) as (M0' & Q0 & E0' & F0 & L0).
  destruct (made_stencil_inv _ _ _ _ _ _ _ _ _ _ _ H1) as (M1' & Q1 & E1' & F1 & L1).
  assert (M0' = M0) by congruence; subst M0'. assert (M1' = M1) by congruence; subst M1'.
  destruct (made_vecR _ _ _ _ _ _ _ _ _ _ _ H0) as [L _].
  pose proof (made_usable _ _ _ _ _ _ _ _ _ _ _ H0 C0) as U0. pose proof (made_usable _ _ _ _ _ _ _ _ _ _ _ H1 C1) as U1.
  exists M0, M1, Q0, Q1. split; [exact E0|]. split; [exact E1|]. split; [exact F0|]. split; [exact F1|].
  split; [exact D0|]. split; [exact D1|]. split; [apply L0|]. split; [apply L1|]. intros a Ha.
  destruct (C29_space2_applies_each_base_along_its_axis P I S T VP VI VS VT b0 b1 U0 U1 dP dI dS dT zo Hz) as (_ & _ & TO & TQ).
  destruct (TO a (azeros dflt (s2_shape_spectral_ortho sp)) Ha (proper_zeros _ _)) as (m & u & _ & E & Pu & A0 & A1).
  exists u. split; [exact E|]. split; [exact Pu|].
  assert (Pm : proper [len_orth b0; len_spec b1] m) by (exact (proper_op _ _ _ _ _ _ _ A0 Ha eq_refl)).
  assert (Km : forall i l, (i < len_orth b0)%nat -> (l < len_spec b1)%nat ->
     get m [i; l] = vsum (len_spec b0) (fun k => vmul (get a [k; l]) M0.[i].[k])).
  { intros i l Hi Hl. pose proof (axis_op_rmat _ _ _ _ 0 a m R0) as K. rewrite (K ltac:(rewrite (proj1 Ha); reflexivity) A0).
    reflexivity. rewrite (proj1 Pm). vld. }
  assert (Ku : forall i j, (i < len_orth b0)%nat -> (j < len_orth b1)%nat ->
     get u [i; j] = vsum (len_spec b1) (fun l => vmul (get m [i; l]) M1.[j].[l])).
  { intros i j Hi Hj. pose proof (axis_op_rmat _ _ _ _ 1 m u R1) as K. rewrite (K ltac:(rewrite (proj1 Pm); reflexivity) A1).
    reflexivity. rewrite (proj1 Pu). vld. }
  split.
  - intros i j Hi Hj. rewrite Ku by auto. apply vsum_ext. intros l Hl. rewrite Km; auto.
  - intros k l Hk Hl. rewrite (vsum_ext _ _ (fun i => vmul (get m [i; l]) Q0.[k].[i])).
    + symmetry. apply (left_inverse_cancels _ _ _ _ (fun k => get a [k; l]) (fun i => get m [i; l]) L0); auto.
    + intros i Hi. f_equal. apply (left_inverse_cancels _ _ _ _ (fun l => get m [i; l]) (fun j => get u [i; j]) L1); auto.
Qed.
Print Assumptions C50_space2_to_ortho_is_stencil.

Theorem C50_space3_to_ortho_is_stencil : forall bm k0 n0 k1 n1 k2 n2 P I J S T VP VI VJ VS VT b0 e0 b1 e1 b2 e2,
  made bm k0 n0 J S T VJ VS VT b0 e0 -> ctor_usable k0 n0 -> made bm k1 n1 I J T VI VJ VT b1 e1 -> ctor_usable k1 n1 ->
  made bm k2 n2 P I T VP VI VT b2 e2 -> ctor_usable k2 n2 ->
  forall (dP : Dflt P) (dI : Dflt I) (dJ : Dflt J) (dS : Dflt S) (dT : Dflt T) zo, zip_ok zo ->
  let sp := mk_space3 b0 b1 b2 in
  exists M0 M1 M2 Q0 Q1 Q2, s3_stencil e0 e1 e2 0 = Ok M0 /\ s3_stencil e0 e1 e2 1 = Ok M1 /\ s3_stencil e0 e1 e2 2 = Ok M2 /\
    s3_stencil_inv e0 e1 e2 0 = Ok Q0 /\ s3_stencil_inv e0 e1 e2 1 = Ok Q1 /\ s3_stencil_inv e0 e1 e2 2 = Ok Q2 /\
    mat_dims M0 (len_orth b0) (len_spec b0) /\ mat_dims M1 (len_orth b1) (len_spec b1) /\ mat_dims M2 (len_orth b2) (len_spec b2) /\
    mat_dims Q0 (len_spec b0) (len_orth b0) /\ mat_dims Q1 (len_spec b1) (len_orth b1) /\ mat_dims Q2 (len_spec b2) (len_orth b2) /\
    forall a, proper (s3_shape_spectral sp) a -> exists u, s3_to_ortho zo sp a = Ok u /\ proper (s3_shape_spectral_ortho sp) u /\
      (forall i j h, (i < len_orth b0)%nat -> (j < len_orth b1)%nat -> (h < len_orth b2)%nat -> get u [i; j; h] =
         vsum (len_spec b2) (fun q => vmul (vsum (len_spec b1) (fun l => vmul (vsum (len_spec b0) (fun k =>
           vmul (get a [k; l; q]) M0.[i].[k])) M1.[j].[l])) M2.[h].[q])) /\
      (forall k l q, (k < len_spec b0)%nat -> (l < len_spec b1)%nat -> (q < len_spec b2)%nat -> get a [k; l; q] =
         vsum (len_orth b0) (fun i => vmul (vsum (len_orth b1) (fun j => vmul (vsum (len_orth b2) (fun h =>
           vmul (get u [i; j; h]) Q2.[q].[h])) Q1.[l].[j])) Q0.[k].[i])).
Proof.
  intros bm k0 n0 k1 n1 k2 n2 P I J S T VP VI VJ VS VT b0 e0 b1 e1 b2 e2 H0 C0 H1 C1 H2 C2 dP dI dJ dS dT zo Hz sp.
  destruct (made_stencil _ _ _ _ _ _ _ _ _ _ _ H0 C0) as (M0 & E0 & D0 & R0).
  destruct (made_stencil _ _ _ _ _ _ _ _ _ _ _ H1 C1) as (M1 & E1 & D1 & R1).
  destruct (made_stencil _ _ _ _ _ _ _ _ _ _ _ H2 C2) as (M2 & E2 & D2 & R2).
  pose proof (made_usable _ _ _ _ _ _ _ _ _ _ _ H0 C0) as U0. pose proof (made_usable _ _ _ _ _ _ _ _ _ _ _ H1 C1) as U1.
  pose proof (made_usable _ _ _ _ _ _ _ _ _ _ _ H2 C2) as U2.
  destruct (made_stencil_inv _ _ _ _ _ _ _ _ _ _ _ H0) as (M0' & Q0 & E0' & F0 & L0).
  destruct (made_stencil_inv _ _ _ _ _ _ _ _ _ _ _ H1) as (M1' & Q1 & E1' & F1 & L1).
  destruct (made_stencil_inv _ _ _ _ _ _ _ _ _ _ _ H2) as (M2' & Q2 & E2' & F2 & L2).
  assert (M0' = M0) by congruence; subst M0'. assert (M1' = M1) by congruence; subst M1'. assert (M2' = M2) by congruence; subst M2'.
  destruct (made_vecR _ _ _ _ _ _ _ _ _ _ _ H0) as [L _].
  exists M0, M1, M2, Q0, Q1, Q2. split; [exact E0|]. split; [exact E1|]. split; [exact E2|].
  split; [exact F0|]. split; [exact F1|]. split; [exact F2|].
  split; [exact D0|]. split; [exact D1|]. split; [exact D2|]. split; [apply L0|]. split; [apply L1|]. split; [apply L2|].
  intros a Ha.
  destruct (C30_space3_applies_each_base_along_its_axis P I J S T VP VI VJ VS VT b0 b1 b2 U0 U1 U2 dP dI dJ dS dT zo Hz) as (_ & _ & TO & TQ).
  destruct (TO a (azeros dflt (s3_shape_spectral_ortho sp)) Ha (proper_zeros _ _)) as (m & m' & u & _ & E & Pu & A0 & A1 & A2).
  exists u. split; [exact E|]. split; [exact Pu|].
  assert (Pm : proper [len_orth b0; len_spec b1; len_spec b2] m) by (exact (proper_op _ _ _ _ _ _ _ A0 Ha eq_refl)).
  assert (Pm' : proper [len_orth b0; len_orth b1; len_spec b2] m') by (exact (proper_op _ _ _ _ _ _ _ A1 Pm eq_refl)).
  assert (Km : forall i l q, (i < len_orth b0)%nat -> (l < len_spec b1)%nat -> (q < len_spec b2)%nat ->
     get m [i; l; q] = vsum (len_spec b0) (fun k => vmul (get a [k; l; q]) M0.[i].[k])).
  { intros i l q Hi Hl Hq. pose proof (axis_op_rmat _ _ _ _ 0 a m R0) as K. rewrite (K ltac:(rewrite (proj1 Ha); reflexivity) A0) by (rewrite (proj1 Pm); vld). reflexivity. }
  assert (Km' : forall i j q, (i < len_orth b0)%nat -> (j < len_orth b1)%nat -> (q < len_spec b2)%nat ->
     get m' [i; j; q] = vsum (len_spec b1) (fun l => vmul (get m [i; l; q]) M1.[j].[l])).
  { intros i j q Hi Hj Hq. pose proof (axis_op_rmat _ _ _ _ 1 m m' R1) as K. rewrite (K ltac:(rewrite (proj1 Pm); reflexivity) A1) by (rewrite (proj1 Pm'); vld). reflexivity. }
  assert (Ku : forall i j h, (i < len_orth b0)%nat -> (j < len_orth b1)%nat -> (h < len_orth b2)%nat ->
     get u [i; j; h] = vsum (len_spec b2) (fun q => vmul (get m' [i; j; q]) M2.[h].[q])).
  { intros i j h Hi Hj Hh. pose proof (axis_op_rmat _ _ _ _ 2 m' u R2) as K. rewrite (K ltac:(rewrite (proj1 Pm'); reflexivity) A2) by (rewrite (proj1 Pu); vld). reflexivity. }
  split.
  - intros i j h Hi Hj Hh. rewrite Ku by auto. apply vsum_ext. intros q Hq. f_equal. rewrite Km' by auto. apply vsum_ext. intros l Hl. f_equal. apply Km; auto.
  - intros k l q Hk Hl Hq. rewrite (vsum_ext _ _ (fun i => vmul (get m [i; l; q]) Q0.[k].[i])).
    + symmetry. apply (left_inverse_cancels _ _ _ _ (fun k => get a [k; l; q]) (fun i => get m [i; l; q]) L0); auto.
    + intros i Hi. f_equal. rewrite (vsum_ext _ _ (fun j => vmul (get m' [i; j; q]) Q1.[l].[j])).
      * apply (left_inverse_cancels _ _ _ _ (fun l => get m [i; l; q]) (fun j => get m' [i; j; q]) L1); auto.
      * intros j Hj. f_equal. apply (left_inverse_cancels _ _ _ _ (fun q => get m' [i; j; q]) (fun h => get u [i; j; h]) L2); auto.
Qed.
Print Assumptions C50_space3_to_ortho_is_stencil.
