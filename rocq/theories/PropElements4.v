(** C52, continued: the values of backward as values of the two-variable
    functions of C32, and derivatives at the grid points. *)
From Coq Require Import List Arith Lia Bool ZArith Reals Lra Permutation Ring.
From Verif Require Import Base Num Linalg LinalgSpec Stencils StencilProofs StencilProofs2 Cheb Compo
  ChebPoly ChebGrad ChebMat ChebDct ChebFacts CompoProofs CompoFacts CompoFacts2 CompoFacts3
  Fourier FourierFacts FourierProofs FourierOps FourierSpec PropCheb PropCompo PropFourier NdArray NdArrayFacts AxisFacts Bases BaseLin LibBase AxisProps
  PropAxis SpaceFacts SpaceBases SpaceStages Space MatOp SpaceOrder PropSpace PropSpace2 SpaceDeriv PropSpace4 Elements ElemFacts PropElements PropElements2 PropElements3.
Import ListNotations.
Local Open Scope R_scope.

(** A usable real base is made by one of the constructors. *)
Lemma r2r_made bm b T (V : Vec R T) (L : VecR T) : usable_r2r b ->
  exists k n, made bm k n R R T vec_self vec_self V (r2r_ops b) (r2r_elems bm b) /\ ctor_usable k n /\ transform_of k = TkR2r.
Proof.
  intros [n b' H|k n b' H Hb Hs].
  - exists Chebyshev, n. split; [constructor; auto|]. split; auto. exact I.
  - exists (ChebComposite k), n. split; [constructor; auto|]. split; auto. split; auto.
Qed.

(** In one dimension: backward evaluates the Chebyshev series of to_ortho. *)
Lemma r2r_eval_ortho bm b : usable_r2r b ->
  exists xs, e_coords (r2r_elems bm b) = Ok xs /\
  forall x y z, length x = len_spec (r2r_ops (T := R) b) -> length y = len_orth (r2r_ops (T := R) b) -> length z = len_phys (r2r_ops (T := R) b) ->
    exists w v, to_ortho_slice (r2r_ops (T := R) b) x y = Ok w /\ backward_slice (r2r_ops (T := R) b) x z = Ok v /\
      length w = len_orth (r2r_ops (T := R) b) /\ length v = len_phys (r2r_ops (T := R) b) /\
      forall j, (j < len_phys (r2r_ops (T := R) b))%nat -> v.[j] = rsum (len_orth (r2r_ops (T := R) b)) (fun i => w.[i] * TT i xs.[j]).
Proof.
  intros U. destruct (r2r_made bm b R _ _ U) as (k & n & Hm & Hu & _).
  destruct (C52_every_base_represents_functions _ _ _ _ _ _ _ _ _ _ _ Hm) as [ev He].
  pose proof (made_eval _ _ _ _ _ _ _ _ _ _ _ _ He Hu) as (xs & Ex & _). exists xs. split; auto. clear He ev Hm Hu k n.
  destruct U as [n b' H|k n b' H Hb Hs]; intros x y z Hx Hy Hz.
  - apply new_chebyshev_inv in H as [Hn ->]. cbn [r2r_ops r2r_elems e_coords to_ortho_slice backward_slice len_phys len_spec len_orth cheb_len_phys cheb_len_spec cheb_len_orth c_n c_m] in *.
    pose proof (C03_cheb_backward_evaluates n _ x z (new_cheb_ok n Hn) Hx Hz) as W. rewrite Ex in W. cbn [wp] in W.
    apply wp_Ok in W as (v & Ev & Lv & Vv). exists x, v. unfold cheb_to_ortho. rewrite zip_write_full by congruence. auto.
  - apply new_composite_inv in H as (c & Hc & ->). destruct (new_ortho k n c Hc) as (Eo & El & H4 & Hc').
    assert (Ep : compo_len_phys c = n) by (apply compo_new_inv in Hc; tauto). pose proof (len_spec_eq k n c Hc) as Es.
    cbn [r2r_ops r2r_elems e_coords to_ortho_slice backward_slice len_phys len_spec len_orth] in *. rewrite Ep, Es, El in *.
    pose proof (to_ortho_ok k n c x y Hc Hb Hx Hy) as W1. apply wp_Ok in W1 as (w & Ew & Lw & Vw). rewrite Ew.
    pose proof (to_ortho_ok k n c x (repeat 0 n) Hc Hb Hx (repeat_length _ _)) as W1. apply wp_Ok in W1 as (w' & Ew' & Lw' & Vw').
    assert (w' = w) as ->. { apply list_ext; [congruence|]. intros i Hi. rewrite Vw, Vw' by lia. auto. }
    unfold compo_backward. rewrite El. change (n0 (A := R)) with 0. rewrite Ew'. cbn [bind].
    pose proof (C03_cheb_backward_evaluates n _ w z Hc' Lw Hz) as W. unfold compo_coords in Ex. rewrite Ep in Ex.
    assert (Ex' : cheb_coords (p_ortho c) = Ok xs) by (rewrite Eo; exact Ex). rewrite Ex' in W. cbn [wp] in W.
    apply wp_Ok in W as (v & Ev & Lv & Vv). exists w, v. auto.
Qed.

(** ** Real spaces: v_ij = f(x_i, y_j), f(x, y) = sum_kl u_kl T_k(x) T_l(y), u = to_ortho(a) *)
Theorem C52_space2_backward_is_the_chebyshev_series : forall bm b0 b1 zo, usable_r2r b0 -> usable_r2r b1 -> zip_ok zo ->
  let sp := mk_space2 (r2r_ops (T := R) b0) (r2r_ops (T := R) b1) in
  exists xs ys, s2_coords (r2r_elems bm b0) (r2r_elems bm b1) = Ok [xs; ys] /\
    forall a, proper (s2_shape_spectral sp) a -> exists u v, s2_to_ortho zo sp a = Ok u /\ s2_backward zo sp a = Ok v /\
      proper (s2_shape_spectral_ortho sp) u /\ proper (s2_shape_physical sp) v /\
      forall i j, valid (s2_shape_physical sp) [i; j] -> get v [i; j] = cheb_field u xs.[i] ys.[j].
Proof.
  intros bm b0 b1 zo U0 U1 Hz sp.
  destruct (r2r_eval_ortho bm b0 U0) as (xs & Ex & Vx). destruct (r2r_eval_ortho bm b1 U1) as (ys & Ey & Vy).
  destruct (r2r_made bm b1 R _ _ U1) as (k1 & n1 & H1 & C1 & _).
  destruct (made_stencil _ _ _ _ _ _ _ _ _ _ _ H1 C1) as (M1 & _ & _ & R1).
  pose proof (usable_r2r_base R _ _ b0 U0) as UB0. pose proof (usable_r2r_base R _ _ b1 U1) as UB1.
  exists xs, ys. split.
  { unfold s2_coords, s2_coords_axis, s2_method, s2_axis. cbn [bind Nat.eqb]. rewrite Ex. cbn [bind]. rewrite Ey. reflexivity. } intros a Ha.
  destruct (C29_space2_applies_each_base_along_its_axis _ _ _ _ _ _ _ _ _ _ UB0 UB1 dflt_num dflt_num dflt_num dflt_num zo Hz) as (_ & TB & TO & _).
  destruct (TB a (azeros dflt (s2_shape_physical sp)) Ha (proper_zeros _ _)) as (p & v & _ & Ev & Pv & Ap & Av).
  destruct (TO a (azeros dflt (s2_shape_spectral_ortho sp)) Ha (proper_zeros _ _)) as (m & u & _ & Eu & Pu & Am & Au).
  set (B0 := r2r_ops (T := R) b0) in *. set (B1 := r2r_ops (T := R) b1) in *.
  assert (Pm : proper [len_orth B0; len_spec B1] m) by (exact (proper_op _ _ _ _ _ _ _ Am Ha eq_refl)).
  assert (Pp : proper [len_phys B0; len_spec B1] p) by (exact (proper_op _ _ _ _ _ _ _ Ap Ha eq_refl)).
  exists u, v. split; [exact Eu|]. split; [exact Ev|]. split; auto. split; auto. intros i j Hij.
  assert (Hi : (i < len_phys B0)%nat) by (inversion Hij; auto).
  assert (Hj : (j < len_phys B1)%nat) by (inversion Hij as [|? ? ? ? ? Hij']; inversion Hij'; auto).
  assert (Kp : forall l, (l < len_spec B1)%nat -> get p [i; l] = rsum (len_orth B0) (fun k => get m [k; l] * TT k xs.[i])).
  { intros l Hl.
    rewrite (axis_op_entry2 (to_ortho_slice B0) (backward_slice B0) (fun w i => rsum (len_orth B0) (fun k => w.[k] * TT k xs.[i]))
      (len_spec B0) (len_orth B0) (len_phys B0) 0 a m p); auto.
    - apply rsum_ext. intros k Hk. f_equal. apply (line_upd m (len_orth B0) 0 [i; l] k); auto. rewrite (proj1 Pm); reflexivity. cbn; lia.
    - intros x y z Hx Hy Hz'. destruct (Vx x y z Hx Hy Hz') as (w & g & Ew & Eg & Lw & Lg & Vg). exists w, g. auto.
    - rewrite (proj1 Ha); reflexivity.
    - rewrite (proj1 Pp). vld. }
  assert (Ku : forall k q, (k < len_orth B0)%nat -> (q < len_orth B1)%nat -> get u [k; q] = rsum (len_spec B1) (fun l => get m [k; l] * M1.[q].[l])).
  { intros k q Hk Hq. pose proof (axis_op_rmat _ _ _ _ 1 m u R1) as K'. rewrite (K' ltac:(rewrite (proj1 Pm); reflexivity) Au) by (rewrite (proj1 Pu); vld).
    rewrite vsum_rsum. reflexivity. }
  assert (Kv : get v [i; j] = rsum (len_orth B1) (fun q => rsum (len_spec B1) (fun l => get p [i; l] * M1.[q].[l]) * TT q ys.[j])).
  { rewrite (axis_op_entry (backward_slice B1) (fun x j => rsum (len_orth B1) (fun q => rsum (len_spec B1) (fun l => x.[l] * M1.[q].[l]) * TT q ys.[j]))
      (len_spec B1) (len_phys B1) 1 p v); auto.
    - apply rsum_ext. intros q Hq. f_equal. apply rsum_ext. intros l Hl. f_equal. apply (line_upd p (len_spec B1) 1 [i; j] l); auto. rewrite (proj1 Pp); reflexivity.
    - intros x z Hx Hz'. destruct (Vy x (repeat 0 (len_orth B1)) z Hx (repeat_length _ _) Hz') as (w & g & Ew & Eg & Lw & Lg & Vg). exists g. split; auto. split; auto.
      intros h Hh. etransitivity; [apply Vg; auto|]. apply rsum_ext. intros q Hq. f_equal.
      destruct (R1 x (repeat 0 (len_orth B1)) Hx (repeat_length _ _)) as (w' & Ew' & Lw' & Vw'). assert (w' = w) by congruence; subst w'.
      etransitivity; [apply Vw'; auto|]. apply vsum_rsum.
    - rewrite (proj1 Pp); reflexivity.
    - rewrite (proj1 Pv). exact Hij. }
  rewrite Kv. unfold cheb_field. rewrite (proj1 Pu). cbn [axlen nth s2_shape_spectral_ortho sp s2_base0 s2_base1]. fold B0 B1.
  rewrite rsum_swap. apply rsum_ext. intros q Hq.
  rewrite (rsum_ext (len_spec B1) _ (fun l => rsum (len_orth B0) (fun k => get m [k; l] * TT k xs.[i] * M1.[q].[l]))).
  2:{ intros l Hl. rewrite Kp by auto. rewrite <- rsum_scal_r. auto. }
  rewrite rsum_swap, <- rsum_scal_r. apply rsum_ext. intros k Hk. rewrite Ku by auto. rewrite <- !rsum_scal_r. apply rsum_ext. intros l Hl. ring.
Qed.
Print Assumptions C52_space2_backward_is_the_chebyshev_series.
