(** Derivatives of functions of two variables given by products of basis
    functions; stretched coordinates. *)
From Coq Require Import List Arith Lia Bool ZArith Reals Lra Permutation Ring.
From Verif Require Import Base Num Linalg LinalgSpec Stencils StencilProofs StencilProofs2 Cheb Compo
  ChebPoly ChebGrad ChebMat ChebDct ChebFacts CompoProofs CompoFacts CompoFacts2 CompoFacts3
  Fourier FourierFacts FourierProofs FourierOps FourierSpec PropCheb PropCompo PropFourier NdArray NdArrayFacts AxisFacts Bases BaseLin LibBase AxisProps
  PropAxis SpaceFacts SpaceBases SpaceStages Space MatOp SpaceOrder PropSpace PropSpace2.
Import ListNotations.
Local Open Scope R_scope.

(** ** nth_deriv is linear and obeys the chain rule for x |-> x / s *)
Lemma nth_deriv_lin d : forall a b f f' g g', nth_deriv d f g -> nth_deriv d f' g' ->
  nth_deriv d (fun x => a * f x + b * f' x) (fun x => a * g x + b * g' x).
Proof.
  induction d; cbn; intros a b f f' g g' H H'.
  - intros. rewrite H, H'. auto.
  - destruct H as (h & H1 & H2), H' as (h' & H1' & H2'). exists (fun x => a * h x + b * h' x). split; [|apply IHd; auto].
    intros x. apply (derivable_pt_lim_plus (fun x => a * f x) (fun x => b * f' x)).
    + apply (derivable_pt_lim_scal f a x (h x)); auto.
    + apply (derivable_pt_lim_scal f' b x (h' x)); auto.
Qed.
Lemma nth_deriv_0 d : nth_deriv d (fun _ => 0) (fun _ => 0).
Proof. induction d; cbn; auto. exists (fun _ => 0). split; auto. intros. apply derivable_pt_lim_const. Qed.
Lemma nth_deriv_stretch d : forall s f g, s <> 0 -> nth_deriv d f g ->
  nth_deriv d (fun X => f (X / s)) (fun X => g (X / s) / s ^ d).
Proof.
  induction d; cbn [nth_deriv]; intros s f g Hs H.
  - intros. rewrite H. cbn. field.
  - destruct H as (h & H1 & H2). exists (fun X => / s * h (X / s) + 0 * 0). split.
    + intros x. replace (/ s * h (x / s) + 0 * 0) with (h (x / s) * / s) by ring.
      apply (derivable_pt_lim_comp (fun X => X / s) f).
      * unfold Rdiv. pose proof (deriv_lin (/ s) x) as K. intros e He. destruct (K e He) as [dl Hd]. exists dl. intros.
        specialize (Hd _ H H0). replace ((x + h0) * / s) with (/ s * (x + h0)) by ring. replace (x * / s) with (/ s * x) by ring. auto.
      * apply H1.
    + eapply nth_deriv_ext; [intros; reflexivity| |apply (nth_deriv_lin d (/ s) 0 _ (fun _ => 0) _ (fun _ => 0) (IHd s h g Hs H2) (nth_deriv_0 d))].
      intros x. cbn. field. split; auto. apply pow_nonzero; auto.
Qed.

(** ** A notion of d-th derivative for functions R -> T *)
Section Two.
Context {T : Type} {V : Vec R T} {dT : Dflt T} (rO rI : T) (radd rmul rsub : T -> T -> T) (ropp : T -> T).
Hypothesis RT : ring_theory rO rI radd rmul rsub ropp eq.
Add Ring Tring2 : RT.
Variable N : nat -> (R -> T) -> (R -> T) -> Prop.
Hypotheses (N0 : forall d, N d (fun _ => rO) (fun _ => rO))
  (Nadd : forall d f f' g g', N d f g -> N d f' g' -> N d (fun x => radd (f x) (f' x)) (fun x => radd (g x) (g' x)))
  (Nmul : forall d c f g, N d f g -> N d (fun x => rmul c (f x)) (fun x => rmul c (g x)))
  (Next : forall d f f' g g', (forall x, f x = f' x) -> (forall x, g x = g' x) -> N d f g -> N d f' g').
Notation tsum := (tsum rO radd).
Lemma Nsum d n (f g : nat -> R -> T) : (forall k, (k < n)%nat -> N d (f k) (g k)) -> N d (fun x => tsum n (fun k => f k x)) (fun x => tsum n (fun k => g k x)).
Proof. induction n; intros H; cbn. apply N0. apply Nadd; auto. Qed.

(** sum_j u_j phi_j(x) *)
Definition series (n : nat) (u : list T) (phi : nat -> R -> T) (x : R) : T := tsum n (fun j => rmul u.[j] (phi j x)).
(** sum_ij u_ij phi_i(x) psi_j(y) *)
Definition field (n0 n1 : nat) (u : arr T) (phi psi : nat -> R -> T) (x y : R) : T :=
  tsum n0 (fun i => tsum n1 (fun j => rmul (get u [i; j]) (rmul (phi i x) (psi j y)))).

(** In one dimension the gradient of [b] differentiates the function that
    to_ortho exhibits. *)
Definition differentiates {P S} (b : base_ops P S T) (phi : nat -> R -> T) (d : nat) : Prop :=
  forall x y y', length x = len_spec b -> length y = len_orth b -> length y' = len_orth b ->
  exists u g, to_ortho_slice b x y = Ok u /\ gradient_slice b x y' d = Ok g /\ N d (series (len_orth b) u phi) (series (len_orth b) g phi).

Lemma field_rows n0 n1 u phi psi x y : field n0 n1 u phi psi x y = tsum n1 (fun j => rmul (psi j y) (tsum n0 (fun i => rmul (get u [i; j]) (phi i x)))).
Proof.
  unfold field. rewrite (tsum_swap rO rI radd rmul rsub ropp RT). apply tsum_ext. intros j Hj.
  rewrite <- (tsum_mul rO rI radd rmul rsub ropp RT). apply tsum_ext. intros. ring.
Qed.
Lemma field_cols n0 n1 u phi psi x y : field n0 n1 u phi psi x y = tsum n0 (fun i => rmul (phi i x) (tsum n1 (fun j => rmul (get u [i; j]) (psi j y)))).
Proof.
  unfold field. apply tsum_ext. intros j Hj.
  rewrite <- (tsum_mul rO rI radd rmul rsub ropp RT). apply tsum_ext. intros. ring.
Qed.
Lemma line0 (a : arr T) n0 n1 j i : shp a = [n0; n1] -> (i < n0)%nat -> (line a [] [j]).[i] = get a [i; j].
Proof. intros S Hi. unfold line. rewrite at_map_seq; [cbn; f_equal; f_equal; lia|]. rewrite S. cbn. auto. Qed.
Lemma line1 (a : arr T) n0 n1 i j : shp a = [n0; n1] -> (j < n1)%nat -> (line a [i] []).[j] = get a [i; j].
Proof. intros S Hi. unfold line. rewrite at_map_seq; [cbn; f_equal; f_equal; lia|]. rewrite S. cbn. auto. Qed.

Lemma partial0 {P S} (b : base_ops P S T) d phi psi n1 w u q : differentiates b phi d -> shp w = [len_spec b; n1] ->
  axis_op (to_ortho_slice b) (len_orth b) 0 w u -> axis_op (fun x y => gradient_slice b x y d) (len_orth b) 0 w q ->
  forall y, N d (fun x => field (len_orth b) n1 u phi psi x y) (fun x => field (len_orth b) n1 q phi psi x y).
Proof.
  intros D Sw (Su & _ & _ & Hu) (Sq & _ & _ & Hq) y. rewrite Sw in *. cbn [upd] in *.
  eapply Next; [intros x; symmetry; apply field_rows|intros x; symmetry; apply field_rows|].
  apply (Nsum d n1 (fun j x => rmul (psi j y) (tsum (len_orth b) (fun i => rmul (get u [i; j]) (phi i x))))
                   (fun j x => rmul (psi j y) (tsum (len_orth b) (fun i => rmul (get q [i; j]) (phi i x))))).
  intros j Hj. apply Nmul.
  destruct (D (line w [] [j]) (repeat rO (len_orth b)) (repeat rO (len_orth b))) as (u' & g' & E1 & E2 & K); try apply repeat_length.
  { rewrite line_length. rewrite Sw. reflexivity. }
  rewrite Hu in E1; [|auto|constructor; [auto|constructor]|apply repeat_length]. rewrite Hq in E2; [|auto|constructor; [auto|constructor]|apply repeat_length].
  assert (u' = line u [] [j]) by congruence. assert (g' = line q [] [j]) by congruence. subst.
  eapply Next; [| |exact K]; intros x; apply tsum_ext; intros i Hi; rewrite (line0 _ (len_orth b) n1); auto.
Qed.
Lemma partial1 {P S} (b : base_ops P S T) d phi psi n0 w u q : differentiates b psi d -> shp w = [n0; len_spec b] ->
  axis_op (to_ortho_slice b) (len_orth b) 1 w u -> axis_op (fun x y => gradient_slice b x y d) (len_orth b) 1 w q ->
  forall x, N d (fun y => field n0 (len_orth b) u phi psi x y) (fun y => field n0 (len_orth b) q phi psi x y).
Proof.
  intros D Sw (Su & _ & _ & Hu) (Sq & _ & _ & Hq) y. rewrite Sw in *. cbn [upd] in *.
  eapply Next; [intros x; symmetry; apply field_cols|intros x; symmetry; apply field_cols|].
  apply (Nsum d n0 (fun i x => rmul (phi i y) (tsum (len_orth b) (fun j => rmul (get u [i; j]) (psi j x))))
                   (fun i x => rmul (phi i y) (tsum (len_orth b) (fun j => rmul (get q [i; j]) (psi j x))))).
  intros i Hi. apply Nmul.
  destruct (D (line w [i] []) (repeat rO (len_orth b)) (repeat rO (len_orth b))) as (u' & g' & E1 & E2 & K); try apply repeat_length.
  { rewrite line_length. rewrite Sw. reflexivity. }
  rewrite Hu in E1; [|auto|constructor; [auto|constructor]|apply repeat_length]. rewrite Hq in E2; [|auto|constructor; [auto|constructor]|apply repeat_length].
  assert (u' = line u [i] []) by congruence. assert (g' = line q [i] []) by congruence. subst.
  eapply Next; [| |exact K]; intros x; apply tsum_ext; intros j Hj; rewrite (line1 _ n0 (len_orth b)); auto.
Qed.

(** d1-th y-derivative of the d0-th x-derivative *)
Lemma mixed {P I S} (b0 : base_ops I S T) (b1 : base_ops P I T) d0 d1 phi psi a m u p r :
  linop (to_ortho_slice b0) (len_spec b0) (len_orth b0) -> linop (to_ortho_slice b1) (len_spec b1) (len_orth b1) ->
  linop (fun x y => gradient_slice b0 x y d0) (len_spec b0) (len_orth b0) ->
  total_gradient b0 d0 -> bases_commute b0 b1 -> differentiates b0 phi d0 -> differentiates b1 psi d1 ->
  proper [len_spec b0; len_spec b1] a ->
  axis_op (to_ortho_slice b0) (len_orth b0) 0 a m -> axis_op (to_ortho_slice b1) (len_orth b1) 1 m u ->
  axis_op (fun x y => gradient_slice b0 x y d0) (len_orth b0) 0 a p -> axis_op (fun x y => gradient_slice b1 x y d1) (len_orth b1) 1 p r ->
  exists H : R -> R -> T,
    (forall y, N d0 (fun x => field (len_orth b0) (len_orth b1) u phi psi x y) (fun x => H x y)) /\
    (forall x, N d1 (fun y => H x y) (fun y => field (len_orth b0) (len_orth b1) r phi psi x y)).
Proof.
  intros L0 L1 G0 TG BC D0 D1 Pa A0 A1 B0 B1. pose proof Pa as (Sa & Ta & Wa).
  assert (Pp : proper [len_orth b0; len_spec b1] p) by exact (proper_op _ _ _ _ _ _ _ B0 Pa eq_refl).
  pose proof Pp as (Sp & Tp & Wp).
  destruct (op_exists (to_ortho_slice b1) (len_spec b1) (len_orth b1) p 1 L1 Tp) as [q Aq]; [rewrite Sp; reflexivity|].
  exists (fun x y => field (len_orth b0) (len_orth b1) q phi psi x y). split.
  - assert (K1 : commuting (to_ortho_slice b0) (len_spec b0) (len_orth b0) (to_ortho_slice b1) (len_spec b1) (len_orth b1)) by (apply BC; left; auto).
    assert (K2 : commuting (fun x y => gradient_slice b0 x y d0) (len_spec b0) (len_orth b0) (to_ortho_slice b1) (len_spec b1) (len_orth b1)).
    { apply BC; [right; right; exists d0|left]; auto. }
    destruct (swap _ _ _ _ _ _ 0 1 a m u K1 L0 L1 ltac:(lia) Ta) as (w & W1 & W2); try (rewrite Sa; reflexivity); auto.
    destruct (swap _ _ _ _ _ _ 0 1 a p q K2 G0 L1 ltac:(lia) Ta) as (w' & W1' & W2'); try (rewrite Sa; reflexivity); auto.
    assert (w' = w) by (refine (axis_op_det _ _ _ _ _ _ _ W1' W1); rewrite Sa; cbn; lia). subst w'.
    apply (partial0 b0 d0 phi psi (len_orth b1) w u q); auto. destruct W1 as [-> _]. rewrite Sa. reflexivity.
  - apply (partial1 b1 d1 phi psi (len_orth b0) p q r); auto.
Qed.
End Two.

(** ** Real and complex instances *)
Lemma nth_deriv_mul d c f g : nth_deriv d f g -> nth_deriv d (fun x => c * f x) (fun x => c * g x).
Proof.
  intros H. eapply nth_deriv_ext; [| |exact (nth_deriv_lin d c 0 f (fun _ => 0) g (fun _ => 0) H (nth_deriv_0 d))]; intros; cbn; ring.
Qed.
Lemma nth_deriv_add d f f' g g' : nth_deriv d f g -> nth_deriv d f' g' -> nth_deriv d (fun x => f x + f' x) (fun x => g x + g' x).
Proof.
  intros H H'. eapply nth_deriv_ext; [| |exact (nth_deriv_lin d 1 1 f f' g g' H H')]; intros; cbn; ring.
Qed.
Lemma cderiv_0 d : cderiv d (fun _ => c0) (fun _ => c0).
Proof. split; cbn; apply nth_deriv_0. Qed.
Lemma cderiv_add d f f' g g' : cderiv d f g -> cderiv d f' g' -> cderiv d (fun x => cadd (f x) (f' x)) (fun x => cadd (g x) (g' x)).
Proof. intros [A B] [C D]. split; cbn; apply nth_deriv_add; auto. Qed.
Lemma cderiv_mul d c f g : cderiv d f g -> cderiv d (fun x => cmul c (f x)) (fun x => cmul c (g x)).
Proof.
  intros [A B]. split; cbn.
  - eapply nth_deriv_ext; [| |exact (nth_deriv_lin d (fst c) (- snd c) _ _ _ _ A B)]; intros; cbn; ring.
  - eapply nth_deriv_ext; [| |exact (nth_deriv_lin d (snd c) (fst c) _ _ _ _ A B)]; intros; cbn; ring.
Qed.
Lemma cderiv_ext d f f' g g' : (forall x, f x = f' x) -> (forall x, g x = g' x) -> cderiv d f g -> cderiv d f' g'.
Proof. intros Hf Hg [A B]. split; eapply nth_deriv_ext; [| |exact A| | |exact B]; intros; cbn; rewrite ?Hf, ?Hg; auto. Qed.
Lemma cderiv_stretch d s f g : s <> 0 -> cderiv d f g -> cderiv d (fun X => f (X / s)) (fun X => (fst (g (X / s)) / s ^ d, snd (g (X / s)) / s ^ d)).
Proof. intros Hs [A B]. split; cbn; [exact (nth_deriv_stretch d s _ _ Hs A)|exact (nth_deriv_stretch d s _ _ Hs B)]. Qed.

(** Chebyshev polynomials as complex-valued functions; e^{ikx} *)
Definition TTc (k : nat) (x : R) : CR := (TT k x, 0).
Definition expi (k : nat) (x : R) : CR := cis (INR k * x).

(** One lemma for both element types: derivatives of every coordinate. *)
Lemma r2r_peval_deriv T (V : Vec R T) (L : VecR T) b d : usable_r2r b -> total_gradient (r2r_ops (T := T) b) d ->
  forall x y y', length x = len_spec (r2r_ops (T := T) b) -> length y = len_orth (r2r_ops (T := T) b) -> length y' = len_orth (r2r_ops (T := T) b) ->
  exists u g, to_ortho_slice (r2r_ops (T := T) b) x y = Ok u /\ gradient_slice (r2r_ops (T := T) b) x y' d = Ok g /\
    length u = len_orth (r2r_ops (T := T) b) /\ length g = len_orth (r2r_ops (T := T) b) /\ forall p, nth_deriv d (peval u p) (peval g p).
Proof.
  intros [n b' H|k n b' H Hb Hs] Tt x y y' Hx Hy Hy'.
  - apply new_chebyshev_inv in H as [Hn ->].
    cbn [r2r_ops to_ortho_slice gradient_slice len_spec len_orth cheb_len_spec cheb_len_orth c_m] in *.
    exists x. destruct (Nat.eq_dec n 2) as [->|].
    + destruct d as [|d].
      * exists x. unfold cheb_to_ortho, cheb_gradient. cbn [c_m]. rewrite Hy'. cbn [bind].
        split. rewrite (zip_write_full y x); auto; congruence. split.
        { cbn. rewrite (zip_write_full y' x); auto; congruence. }
        split; auto. split; auto. intros p t; reflexivity.
      * exfalso. destruct (Tt (repeat v0 2) (repeat v0 2)) as [z Hz]; try apply repeat_length.
        cbn [r2r_ops gradient_slice] in Hz. rewrite cheb_gradient_small in Hz; try discriminate; auto; lia.
    + pose proof (C05_cheb_gradient_is_derivative T _ _ n (mk_cheb n n) x y' d) as K.
      specialize (K ltac:(unfold cheb_new; destruct (Nat.leb_spec 2 n); auto; lia) ltac:(lia) Hx Hy'). apply wp_Ok in K as (g & Eg & Lg & K).
      exists g. split. unfold cheb_to_ortho. rewrite (zip_write_full y x); auto; congruence. auto.
  - apply new_composite_inv in H as (c & Hc & ->).
    pose proof (len_spec_eq k n c Hc) as Es. destruct (new_ortho k n c Hc) as (Eo & El & H4 & Hc').
    cbn [r2r_ops to_ortho_slice gradient_slice len_spec len_orth] in *. rewrite El in *.
    pose proof (C05_compo_gradient_is_derivative T _ _ k n c x y d Hc Hb Hx Hy) as K. apply wp_Ok in K as (u & Eu & Lu & _).
    pose proof (C05_compo_gradient_is_derivative T _ _ k n c x y' d Hc Hb Hx Hy') as K. apply wp_Ok in K as (u' & Eu' & Lu' & K).
    apply wp_Ok in K as (g & Eg & Lg & K). exists u, g.
    assert (u' = u). { destruct (linop_compo_to_ortho (T := T) k n c) as (h & C & _); auto.
      destruct (C x y) as [E1 _]; try congruence. destruct (C x y') as [E2 _]; try congruence. }
    subst u'. auto.
Qed.
Lemma r2r_differentiates_R b d : usable_r2r b -> total_gradient (r2r_ops (T := R) b) d ->
  differentiates 0 Rplus Rmult nth_deriv (r2r_ops (T := R) b) TT d.
Proof.
  intros U Tt x y y' Hx Hy Hy'. destruct (r2r_peval_deriv R _ _ b d U Tt x y y' Hx Hy Hy') as (u & g & E1 & E2 & Lu & Lg & K).
  exists u, g. split; auto. split; auto.
  eapply nth_deriv_ext; [| |exact (K tt)]; intros t; unfold peval, series; (etransitivity; [|symmetry; apply tsum_rsum]); rewrite ?Lu, ?Lg; apply rsum_ext; intros; reflexivity.
Qed.
Lemma r2r_differentiates_C b d : usable_r2r b -> total_gradient (r2r_ops (T := CR) b) d ->
  differentiates (c0 (A := R)) cadd cmul cderiv (r2r_ops (T := CR) b) TTc d.
Proof.
  intros U Tt x y y' Hx Hy Hy'. destruct (r2r_peval_deriv CR _ _ b d U Tt x y y' Hx Hy Hy') as (u & g & E1 & E2 & Lu & Lg & K).
  exists u, g. split; auto. split; auto. 
  assert (X : forall (w : list CR) t, length w = len_orth (r2r_ops (T := CR) b) ->
    series (c0 (A := R)) cadd cmul (len_orth (r2r_ops (T := CR) b)) w TTc t = (peval w true t, peval w false t)).
  { intros w t Lw. unfold series. rewrite tsum_csum. unfold csum, peval. rewrite Lw. f_equal; apply rsum_ext; intros; unfold TTc; cbn; ring. }
  eapply cderiv_ext; [intros t; symmetry; apply X; auto|intros t; symmetry; apply X; auto|].
  split; cbn; [exact (K true)|exact (K false)].
Qed.
(** Fourier modes with arbitrary weights: w = 1 gives the complex series, the
    real part with w = 1/n, 2/n, ..., 2/n, (1/n) gives the real interpolant. *)
Definition expw (w : nat -> CR) (k : nat) (x : R) : CR := cmul (w k) (cis (INR k * x)).
Lemma r2c_differentiates n f d w : r2c_new n = Ok f -> differentiates (c0 (A := R)) cadd cmul cderiv (r2c_ops (A := R) f) (expw w) d.
Proof.
  intros H. apply r2c_new_inv in H as [Hn ->]. intros x y y' Hx Hy Hy'.
  cbn [r2c_ops to_ortho_slice gradient_slice len_spec len_orth r2c_len_spec r2c_len_orth r_m] in *.
  exists x. pose proof (r2c_gradient_val n x y' d Hx Hy') as W. apply wp_Ok in W as (g & Eg & Lg & Vg).
  exists g. split. unfold f_to_ortho. rewrite (zip_write_full y x); auto; congruence. split; auto.
  set (m := (n / 2 + 1)%nat) in *.
  set (wt := fun l : list CR => map (fun k => cmul l.[k] (w k)) (seq 0 m)).
  assert (Lw : forall l, length (wt l) = m) by (intros; unfold wt; rewrite map_length, seq_length; auto).
  assert (Aw : forall l k, (k < m)%nat -> (wt l).[k] = cmul l.[k] (w k)) by (intros; unfold wt; rewrite at_map_seq; auto).
  assert (K : cderiv d (fseries INR (wt x)) (fseries INR (wt g))).
  { apply fseries_deriv. rewrite !Lw; auto. intros k Hk. rewrite Lw in Hk. rewrite !Aw by auto.
    transitivity (cmul (cmul x.[k] (cpow (iR (INR k)) d)) (w k)); [f_equal; apply Vg; auto|ring]. }
  eapply cderiv_ext; [| |exact K]; intros t; unfold fseries, series; (etransitivity; [|symmetry; apply tsum_csum]); rewrite Lw; apply csum_ext;
    intros k Hk; rewrite Aw by auto; unfold expw; ring.
Qed.
