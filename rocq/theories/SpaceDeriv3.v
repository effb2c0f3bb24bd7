(** Derivatives of functions of three variables given by products of basis
    functions. *)
From Coq Require Import List Arith Lia Bool ZArith Reals Lra Permutation Ring.
From Verif Require Import Base Num Linalg LinalgSpec Stencils StencilProofs StencilProofs2 Cheb Compo
  ChebPoly ChebGrad ChebMat ChebDct ChebFacts CompoProofs CompoFacts CompoFacts2 CompoFacts3
  Fourier FourierFacts FourierProofs FourierOps FourierSpec PropCheb PropCompo PropFourier NdArray NdArrayFacts AxisFacts Bases BaseLin LibBase AxisProps
  PropAxis SpaceFacts SpaceBases SpaceStages Space MatOp SpaceOrder PropSpace PropSpace2 SpaceDeriv PropSpace4.
Import ListNotations.
Local Open Scope R_scope.

Ltac vld3 := repeat (constructor; auto).

Section Three.
Context {T : Type} {V : Vec R T} {dT : Dflt T} (rO rI : T) (radd rmul rsub : T -> T -> T) (ropp : T -> T).
Hypothesis RT : ring_theory rO rI radd rmul rsub ropp eq.
Add Ring Tring3 : RT.
Variable N : nat -> (R -> T) -> (R -> T) -> Prop.
Hypotheses (N0 : forall d, N d (fun _ => rO) (fun _ => rO))
  (Nadd : forall d f f' g g', N d f g -> N d f' g' -> N d (fun x => radd (f x) (f' x)) (fun x => radd (g x) (g' x)))
  (Nmul : forall d c f g, N d f g -> N d (fun x => rmul c (f x)) (fun x => rmul c (g x)))
  (Next : forall d f f' g g', (forall x, f x = f' x) -> (forall x, g x = g' x) -> N d f g -> N d f' g').
Notation tsum := (tsum rO radd).
Notation Nsum := (Nsum rO radd N N0 Nadd).
Notation swapS := (tsum_swap rO rI radd rmul rsub ropp RT).
Notation mulS := (tsum_mul rO rI radd rmul rsub ropp RT).

(** sum_ijl u_ijl phi_i(x) psi_j(y) chi_l(z) *)
Definition field3 (n0 n1 n2 : nat) (u : arr T) (phi psi chi : nat -> R -> T) (x y z : R) : T :=
  tsum n0 (fun i => tsum n1 (fun j => tsum n2 (fun l => rmul (get u [i; j; l]) (rmul (phi i x) (rmul (psi j y) (chi l z)))))).

Lemma field3_ax0 n0 n1 n2 u phi psi chi x y z : field3 n0 n1 n2 u phi psi chi x y z =
  tsum n1 (fun j => tsum n2 (fun l => rmul (rmul (psi j y) (chi l z)) (tsum n0 (fun i => rmul (get u [i; j; l]) (phi i x))))).
Proof.
  unfold field3. rewrite swapS. apply tsum_ext. intros j Hj. rewrite swapS. apply tsum_ext. intros l Hl.
  rewrite <- mulS. apply tsum_ext. intros. ring.
Qed.
Lemma field3_ax1 n0 n1 n2 u phi psi chi x y z : field3 n0 n1 n2 u phi psi chi x y z =
  tsum n0 (fun i => tsum n2 (fun l => rmul (rmul (phi i x) (chi l z)) (tsum n1 (fun j => rmul (get u [i; j; l]) (psi j y))))).
Proof.
  unfold field3. apply tsum_ext. intros i Hi. rewrite swapS. apply tsum_ext. intros l Hl.
  rewrite <- mulS. apply tsum_ext. intros. ring.
Qed.
Lemma field3_ax2 n0 n1 n2 u phi psi chi x y z : field3 n0 n1 n2 u phi psi chi x y z =
  tsum n0 (fun i => tsum n1 (fun j => rmul (rmul (phi i x) (psi j y)) (tsum n2 (fun l => rmul (get u [i; j; l]) (chi l z))))).
Proof.
  unfold field3. apply tsum_ext. intros i Hi. apply tsum_ext. intros j Hj.
  rewrite <- mulS. apply tsum_ext. intros. ring.
Qed.

(** One line: pre ++ [k] ++ post *)
Lemma line_series {P S} (b : base_ops P S T) d phi w u q ax pre post :
  differentiates rO radd rmul N b phi d -> axlen (shp w) ax = len_spec b -> axlen (shp u) ax = len_orth b -> axlen (shp q) ax = len_orth b ->
  axis_op (to_ortho_slice b) (len_orth b) ax w u -> axis_op (fun x y => gradient_slice b x y d) (len_orth b) ax w q ->
  length pre = ax -> valid (rm_axis (shp w) ax) (pre ++ post) ->
  N d (fun x => tsum (len_orth b) (fun i => rmul (get u (pre ++ i :: post)) (phi i x)))
      (fun x => tsum (len_orth b) (fun i => rmul (get q (pre ++ i :: post)) (phi i x))).
Proof.
  intros D Ew Eu Eq (Su & _ & _ & Hu) (Sq & _ & _ & Hq) Lp Hv.
  destruct (D (line w pre post) (repeat rO (len_orth b)) (repeat rO (len_orth b))) as (u' & g' & E1 & E2 & K); try apply repeat_length.
  { rewrite line_length, Lp. auto. }
  rewrite Hu in E1; [|auto|auto|apply repeat_length]. rewrite Hq in E2; [|auto|auto|apply repeat_length].
  assert (u' = line u pre post) by congruence. assert (g' = line q pre post) by congruence. subst u' g'.
  eapply Next; [| |exact K]; intros x; apply tsum_ext; intros i Hi; rewrite line_at by (rewrite Lp; lia); reflexivity.
Qed.

Lemma partial3_0 {P S} (b : base_ops P S T) d phi psi chi n1 n2 w u q : differentiates rO radd rmul N b phi d -> shp w = [len_spec b; n1; n2] ->
  axis_op (to_ortho_slice b) (len_orth b) 0 w u -> axis_op (fun x y => gradient_slice b x y d) (len_orth b) 0 w q ->
  forall y z, N d (fun x => field3 (len_orth b) n1 n2 u phi psi chi x y z) (fun x => field3 (len_orth b) n1 n2 q phi psi chi x y z).
Proof.
  intros D Sw Au Aq y z. eapply Next; [intros x; symmetry; apply field3_ax0|intros x; symmetry; apply field3_ax0|].
  apply (Nsum d n1 (fun j x => _) (fun j x => _)). intros j Hj. apply (Nsum d n2 (fun l x => _) (fun l x => _)). intros l Hl. apply Nmul.
  apply (line_series b d phi w u q 0 [] [j; l]); auto.
  - rewrite Sw; reflexivity. - rewrite (proj1 Au), Sw; reflexivity. - rewrite (proj1 Aq), Sw; reflexivity.
  - rewrite Sw. vld3.
Qed.
Lemma partial3_1 {P S} (b : base_ops P S T) d phi psi chi n0 n2 w u q : differentiates rO radd rmul N b psi d -> shp w = [n0; len_spec b; n2] ->
  axis_op (to_ortho_slice b) (len_orth b) 1 w u -> axis_op (fun x y => gradient_slice b x y d) (len_orth b) 1 w q ->
  forall x z, N d (fun y => field3 n0 (len_orth b) n2 u phi psi chi x y z) (fun y => field3 n0 (len_orth b) n2 q phi psi chi x y z).
Proof.
  intros D Sw Au Aq x z. eapply Next; [intros y; symmetry; apply field3_ax1|intros y; symmetry; apply field3_ax1|].
  apply (Nsum d n0 (fun j x => _) (fun j x => _)). intros i Hi. apply (Nsum d n2 (fun l x => _) (fun l x => _)). intros l Hl. apply Nmul.
  apply (line_series b d psi w u q 1 [i] [l]); auto.
  - rewrite Sw; reflexivity. - rewrite (proj1 Au), Sw; reflexivity. - rewrite (proj1 Aq), Sw; reflexivity.
  - rewrite Sw. vld3.
Qed.
Lemma partial3_2 {P S} (b : base_ops P S T) d phi psi chi n0 n1 w u q : differentiates rO radd rmul N b chi d -> shp w = [n0; n1; len_spec b] ->
  axis_op (to_ortho_slice b) (len_orth b) 2 w u -> axis_op (fun x y => gradient_slice b x y d) (len_orth b) 2 w q ->
  forall x y, N d (fun z => field3 n0 n1 (len_orth b) u phi psi chi x y z) (fun z => field3 n0 n1 (len_orth b) q phi psi chi x y z).
Proof.
  intros D Sw Au Aq x y. eapply Next; [intros z; symmetry; apply field3_ax2|intros z; symmetry; apply field3_ax2|].
  apply (Nsum d n0 (fun j x => _) (fun j x => _)). intros i Hi. apply (Nsum d n1 (fun l x => _) (fun l x => _)). intros j Hj. apply Nmul.
  apply (line_series b d chi w u q 2 [i; j] []); auto.
  - rewrite Sw; reflexivity. - rewrite (proj1 Au), Sw; reflexivity. - rewrite (proj1 Aq), Sw; reflexivity.
  - rewrite Sw. vld3.
Qed.

(** d2-th z-derivative of the d1-th y-derivative of the d0-th x-derivative *)
Lemma mixed3 {P I J S} (b0 : base_ops J S T) (b1 : base_ops I J T) (b2 : base_ops P I T) d0 d1 d2 phi psi chi a m m' u p p' r :
  linop (to_ortho_slice b0) (len_spec b0) (len_orth b0) -> linop (to_ortho_slice b1) (len_spec b1) (len_orth b1) -> linop (to_ortho_slice b2) (len_spec b2) (len_orth b2) ->
  linop (fun x y => gradient_slice b0 x y d0) (len_spec b0) (len_orth b0) -> linop (fun x y => gradient_slice b1 x y d1) (len_spec b1) (len_orth b1) ->
  total_gradient b0 d0 -> total_gradient b1 d1 -> bases_commute b0 b1 -> bases_commute b0 b2 -> bases_commute b1 b2 ->
  differentiates rO radd rmul N b0 phi d0 -> differentiates rO radd rmul N b1 psi d1 -> differentiates rO radd rmul N b2 chi d2 ->
  proper [len_spec b0; len_spec b1; len_spec b2] a ->
  axis_op (to_ortho_slice b0) (len_orth b0) 0 a m -> axis_op (to_ortho_slice b1) (len_orth b1) 1 m m' -> axis_op (to_ortho_slice b2) (len_orth b2) 2 m' u ->
  axis_op (fun x y => gradient_slice b0 x y d0) (len_orth b0) 0 a p -> axis_op (fun x y => gradient_slice b1 x y d1) (len_orth b1) 1 p p' ->
  axis_op (fun x y => gradient_slice b2 x y d2) (len_orth b2) 2 p' r ->
  exists H K : R -> R -> R -> T,
    (forall y z, N d0 (fun x => field3 (len_orth b0) (len_orth b1) (len_orth b2) u phi psi chi x y z) (fun x => H x y z)) /\
    (forall x z, N d1 (fun y => H x y z) (fun y => K x y z)) /\
    (forall x y, N d2 (fun z => K x y z) (fun z => field3 (len_orth b0) (len_orth b1) (len_orth b2) r phi psi chi x y z)).
Proof.
  intros L0 L1 L2 G0 G1 TG0 TG1 BC01 BC02 BC12 D0 D1 D2 Pa A0 A1 A2 B0 B1 B2. pose proof Pa as (Sa & Ta & Wa).
  set (O0 := to_ortho_slice b0) in *. set (O1 := to_ortho_slice b1) in *. set (O2 := to_ortho_slice b2) in *.
  set (D0s := fun x y => gradient_slice b0 x y d0) in *. set (D1s := fun x y => gradient_slice b1 x y d1) in *.
  set (s0 := len_spec b0) in *. set (s1 := len_spec b1) in *. set (s2 := len_spec b2) in *.
  set (o0 := len_orth b0) in *. set (o1 := len_orth b1) in *. set (o2 := len_orth b2) in *.
  assert (K01 : commuting O0 s0 o0 O1 s1 o1) by (apply BC01; left; auto).
  assert (K02 : commuting O0 s0 o0 O2 s2 o2) by (apply BC02; left; auto).
  assert (K12 : commuting O1 s1 o1 O2 s2 o2) by (apply BC12; left; auto).
  assert (G01 : commuting D0s s0 o0 O1 s1 o1) by (apply BC01; [right; right; exists d0|left]; auto).
  assert (G02 : commuting D0s s0 o0 O2 s2 o2) by (apply BC02; [right; right; exists d0|left]; auto).
  assert (G12 : commuting D1s s1 o1 O2 s2 o2) by (apply BC12; [right; right; exists d1|left]; auto).
  assert (Pm : proper [o0; s1; s2] m) by exact (proper_op _ _ _ _ _ _ _ A0 Pa eq_refl).
  assert (Pp : proper [o0; s1; s2] p) by exact (proper_op _ _ _ _ _ _ _ B0 Pa eq_refl).
  assert (Pp' : proper [o0; o1; s2] p') by exact (proper_op _ _ _ _ _ _ _ B1 Pp eq_refl).
  pose proof Pp as (Sp & Tp & Wp). pose proof Pp' as (Sp' & Tp' & Wp').
  (* q2 = O2 D1 D0 a *)
  destruct (op_exists O2 s2 o2 p' 2 L2 Tp') as [q2 Aq2]; [rewrite Sp'; reflexivity|].
  (* q1 = O2 O1 D0 a *)
  destruct (op_exists O1 s1 o1 p 1 L1 Tp) as [c Ac]; [rewrite Sp; reflexivity|].
  assert (Pc : proper [o0; o1; s2] c) by exact (proper_op _ _ _ _ _ _ _ Ac Pp eq_refl). pose proof Pc as (Sc & Tc & Wc).
  destruct (op_exists O2 s2 o2 c 2 L2 Tc) as [q1 Aq1]; [rewrite Sc; reflexivity|].
  exists (fun x y z => field3 o0 o1 o2 q1 phi psi chi x y z), (fun x y z => field3 o0 o1 o2 q2 phi psi chi x y z). split; [|split].
  - (* w = O2 O1 a *)
    destruct (swap _ _ _ _ _ _ 0 1 a m m' K01 L0 L1 ltac:(lia) Ta) as (w & W1 & W2); try (rewrite Sa; reflexivity); auto.
    destruct (swap _ _ _ _ _ _ 0 1 a p c G01 G0 L1 ltac:(lia) Ta) as (w0 & W1' & W2'); try (rewrite Sa; reflexivity); auto.
    assert (w0 = w) by (refine (axis_op_det _ _ _ _ _ _ _ W1' W1); rewrite Sa; cbn; lia). subst w0.
    assert (Pw : proper [s0; o1; s2] w) by exact (proper_op _ _ _ _ _ _ _ W1 Pa eq_refl). pose proof Pw as (Sw & Tw & _).
    destruct (swap _ _ _ _ _ _ 0 2 w m' u K02 L0 L2 ltac:(lia) Tw) as (v & V1 & V2); try (rewrite Sw; reflexivity); auto.
    destruct (swap _ _ _ _ _ _ 0 2 w c q1 G02 G0 L2 ltac:(lia) Tw) as (v' & V1' & V2'); try (rewrite Sw; reflexivity); auto.
    assert (v' = v) by (refine (axis_op_det _ _ _ _ _ _ _ V1' V1); rewrite Sw; cbn; lia). subst v'.
    apply (partial3_0 b0 d0 phi psi chi o1 o2 v u q1); auto. rewrite (proj1 V1), Sw. reflexivity.
  - (* w = O2 p *)
    destruct (swap _ _ _ _ _ _ 1 2 p c q1 K12 L1 L2 ltac:(lia) Tp) as (v & V1 & V2); try (rewrite Sp; reflexivity); auto.
    destruct (swap _ _ _ _ _ _ 1 2 p p' q2 G12 G1 L2 ltac:(lia) Tp) as (v' & V1' & V2'); try (rewrite Sp; reflexivity); auto.
    assert (v' = v) by (refine (axis_op_det _ _ _ _ _ _ _ V1' V1); rewrite Sp; cbn; lia). subst v'.
    apply (partial3_1 b1 d1 phi psi chi o0 o2 v q1 q2); auto. rewrite (proj1 V1), Sp. reflexivity.
  - apply (partial3_2 b2 d2 phi psi chi o0 o1 p' q2 r); auto.
Qed.
End Three.
