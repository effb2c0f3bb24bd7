(** C62: FieldBase of examples/field.rs: the grid deltas are the weights of the
    trapezoidal rule; the methods compute what the serial methods of the space
    compute; the ingredients of the solvers exist on Fourier axes and panic on every
    Chebyshev axis. *)
From Coq Require Import List Arith Lia Bool ZArith Reals Lra.
From Flocq Require Import Core BinarySingleNaN.
From Verif Require Import Base Num Linalg Stencils Cheb ChebFacts Compo CompoProofs Fourier FourierF64 FourierFacts FourierProofs FourierOps FourierSpec PropCheb PropCompo PropFourier NdArray NdArrayFacts AxisFacts Bases BaseLin LibBase AxisProps
  PropAxis SpaceFacts SpaceBases SpaceStages Space PropSpace Elements ElemFacts PropElements PropElements2 ExtLib AnyArith ExtFacts AnyBase PropAny PropAny2 PropSpace6 Field FieldFacts.
Import ListNotations.
Local Open Scope nat_scope.

(** ** Grid deltas *)
Section Dx.
Context {A : Type} {N : Num A}.
Definition dx_left (x : list A) (i : nat) : A := if i =? 0 then x.[0] else ndiv (nadd x.[i] x.[i - 1]) (nadd n1 n1).
Definition dx_right (x : list A) (i : nat) : A := if i =? length x - 1 then x.[length x - 1] else ndiv (nadd x.[i + 1] x.[i]) (nadd n1 n1).
Lemma dx_axis_val (x : list A) : wp (dx_axis x) (fun dx => length dx = length x /\ forall i, i < length x -> dx.[i] = nsub (dx_right x i) (dx_left x i)).
Proof.
  unfold dx_axis. cbv zeta. apply (wp_for_each_range 0 (length x) _ (fun c dx => length dx = length x /\ forall i, i < c -> dx.[i] = nsub (dx_right x i) (dx_left x i))).
  - lia.
  - split. apply repeat_length. intros; lia.
  - intros i dx Hi [L H]. apply wp_bind. apply wp_mono with (P := fun a => a = dx_left x i).
    { unfold dx_left. destruct (Nat.eqb_spec i 0). apply wp_rd; [lia|auto]. apply wp_bind, wp_rd; [lia|]. apply wp_bind, wp_rd; [lia|]. reflexivity. }
    intros ? ->. unfold usub. destruct (Nat.leb_spec 1 (length x)); [|lia]. cbn [bind]. apply wp_bind. apply wp_mono with (P := fun a => a = dx_right x i).
    { unfold dx_right. destruct (Nat.eqb_spec i (length x - 1)). apply wp_rd; [lia|auto]. apply wp_bind, wp_rd; [lia|]. apply wp_bind, wp_rd; [lia|]. reflexivity. }
    intros ? ->. apply wp_wr; [lia|]. intros dx' L' E' O'. split; [lia|]. intros k Hk. destruct (Nat.eq_dec k i) as [->|]; auto. rewrite O' by auto. apply H. lia.
  - auto.
Qed.
Lemma get_dx_val (nd : nat) (xs : list (list A)) : length xs = nd -> exists dxs, get_dx nd xs = Ok dxs /\ length dxs = nd /\ forall a, a < nd -> dx_axis (nth a xs []) = Ok (nth a dxs []).
Proof.
  intros <-. unfold get_dx.
  assert (G : forall l acc, exists r, for_each l (fun x dxs => let* dx := dx_axis x in Ok (dxs ++ [dx])) acc = Ok (acc ++ r) /\ length r = length l /\ forall a, a < length l -> dx_axis (nth a l []) = Ok (nth a r [])).
  { induction l as [|x l IH]; intros acc. exists []. cbn. rewrite app_nil_r. repeat split. intros; lia.
    pose proof (dx_axis_val x) as W. apply wp_Ok in W as (dx & E & _). cbn [for_each]. rewrite E. cbn [bind]. destruct (IH (acc ++ [dx])) as (r & Er & Lr & Hr). exists (dx :: r). rewrite Er, <- app_assoc. split; auto. split. cbn; lia.
    intros [|a] Ha; cbn in *; auto. apply Hr. lia. }
  destruct (G xs []) as (r & -> & L & H). cbn [bind app]. rewrite L, Nat.eqb_refl. cbn [assertb bind]. exists r. auto.
Qed.
End Dx.

Local Open Scope R_scope.
(** `dx` integrates the piecewise linear interpolant of any values exactly: it holds
    the weights of the trapezoidal rule on the grid. *)
Theorem C62_dx_is_the_trapezoidal_rule : forall x : list R, exists dx, dx_axis x = Ok dx /\ length dx = length x /\
  forall f : nat -> R, rsum (length x) (fun i => f i * dx.[i]) = rsum (length x - 1) (fun i => (f i + f (i + 1)%nat) / 2 * (x.[i + 1] - x.[i])).
Proof.
  intros x. pose proof (dx_axis_val x) as W. apply wp_Ok in W as (dx & E & L & H). exists dx. split; auto. split; auto. intros f.
  destruct (length x) as [|n] eqn:Lx. reflexivity. replace (S n - 1)%nat with n by lia.
  assert (G : forall k, (k <= n)%nat -> rsum k (fun i => f i * dx.[i]) = rsum k (fun i => (f i + f (i + 1)%nat) / 2 * (x.[i + 1] - x.[i])) - (if (k =? 0)%nat then 0 else f k * (x.[k] - x.[k - 1]) / 2)).
  { induction k as [|k IH]; intros Hk. cbn; ring. cbn [rsum]. rewrite IH by lia. rewrite H by lia. unfold dx_right, dx_left. rewrite Lx. replace (S n - 1)%nat with n by lia. destruct (Nat.eqb_spec k n); [lia|].
    replace (S k =? 0)%nat with false by reflexivity. replace (S k - 1)%nat with k by lia. cbn [nsub nadd ndiv n1 num_R]. replace (k + 1)%nat with (S k) by lia. destruct (Nat.eqb_spec k 0) as [e|]; [rewrite e|]; field. }
  cbn [rsum]. rewrite G by lia. rewrite H by lia. unfold dx_right, dx_left. rewrite Lx. replace (S n - 1)%nat with n by lia. rewrite Nat.eqb_refl. cbn [nsub nadd ndiv n1 num_R]. destruct (Nat.eqb_spec n 0) as [->|]; [cbn; ring|]. field.
Qed.
Print Assumptions C62_dx_is_the_trapezoidal_rule.

Lemma dx_sum (x dx : list R) : dx_axis x = Ok dx -> (1 <= length x)%nat -> rsum (length x) (fun i => dx.[i]) = x.[length x - 1] - x.[0].
Proof.
  intros E Hn. destruct (C62_dx_is_the_trapezoidal_rule x) as (dx' & E' & _ & H). assert (dx' = dx) by congruence. subst. specialize (H (fun _ => 1)).
  rewrite (rsum_ext _ _ (fun i => dx.[i])) in H by (intros; ring). rewrite H. clear. induction (length x - 1)%nat as [|n IH]. cbn; ring. cbn [rsum]. rewrite IH. replace (n + 1)%nat with (S n) by lia. field.
Qed.
Lemma dx_positive (x dx : list R) : dx_axis x = Ok dx -> (2 <= length x)%nat -> (forall i, (i + 1 < length x)%nat -> x.[i] < x.[i + 1]) -> forall i, (i < length x)%nat -> 0 < dx.[i].
Proof.
  intros E Hn Hx i Hi. pose proof (dx_axis_val x) as W. apply wp_Ok in W as (dx' & E' & L & H). assert (dx' = dx) by congruence. subst. rewrite H by auto. unfold dx_right, dx_left. cbn [nsub nadd ndiv n1 num_R].
  destruct (Nat.eqb_spec i (length x - 1)) as [e1|]; destruct (Nat.eqb_spec i 0) as [e|]; try lia; [rewrite e1| |].
  - pose proof (Hx (length x - 1 - 1)%nat ltac:(lia)) as K. replace (length x - 1 - 1 + 1)%nat with (length x - 1)%nat in K by lia. lra.
  - subst. pose proof (Hx 0%nat ltac:(lia)) as K. cbn [Nat.add] in *. lra.
  - pose proof (Hx i ltac:(lia)) as K. pose proof (Hx (i - 1)%nat ltac:(lia)) as K'. replace (i - 1 + 1)%nat with i in K' by lia. lra.
Qed.

(** On the grids of the library: positive cells, which add up to 2 on a Chebyshev
    axis and to 2 pi (n-1)/n on a Fourier axis (the last cell of the period is missing). *)
Theorem C62_cells_of_a_field : forall bm k n (e : elems R), elems_new bm k n = Ok e -> (2 <= n)%nat ->
  exists x dx, e_coords e = Ok x /\ dx_axis x = Ok dx /\ length dx = n /\ (forall i, (i < n)%nat -> 0 < dx.[i]) /\
    rsum n (fun i => dx.[i]) = match k with Chebyshev | ChebComposite _ => 2 | FourierR2c | FourierC2c => 2 * PI * INR (n - 1) / INR n end.
Proof.
  intros bm k n e He Hn. destruct (C49_base_accessors bm k n e He) as (_ & _ & W). apply wp_Ok in W as (x & Ex & Lx & Gx).
  pose proof (dx_axis_val x) as W. apply wp_Ok in W as (dx & Ed & Ld & _). exists x, dx. split; auto. split; auto. split; [congruence|].
  assert (N0 : 0 < INR n) by (apply lt_0_INR; lia). assert (N1 : 0 < INR (n - 1)) by (apply lt_0_INR; lia).
  assert (Inc : forall i, (i + 1 < length x)%nat -> x.[i] < x.[i + 1]).
  { rewrite Lx. intros i Hi. rewrite !Gx by lia. unfold point. rewrite plus_INR. cbn [INR].
    assert (C : - cos (PI * INR i / INR (n - 1)) < - cos (PI * (INR i + 1) / INR (n - 1))).
    { apply Ropp_lt_contravar. pose proof PI_RGT_0. assert (Q : (INR i + 1) / INR (n - 1) <= 1). { apply Rmult_le_reg_r with (INR (n - 1)); auto. unfold Rdiv. rewrite Rmult_assoc, Rinv_l, Rmult_1_r, Rmult_1_l by lra. rewrite <- S_INR. apply le_INR. lia. }
      pose proof (pos_INR i). apply cos_decreasing_1.
      - apply Rmult_le_pos; [apply Rmult_le_pos; lra|]. left. apply Rinv_0_lt_compat; auto.
      - apply Rle_trans with (PI * ((INR i + 1) / INR (n - 1))). unfold Rdiv. rewrite <- Rmult_assoc. apply Rmult_le_compat_r. left; apply Rinv_0_lt_compat; auto. apply Rmult_le_compat_l; lra. rewrite <- (Rmult_1_r PI) at 2. apply Rmult_le_compat_l; lra.
      - apply Rmult_le_pos; [apply Rmult_le_pos; lra|]. left. apply Rinv_0_lt_compat; auto.
      - replace (PI * (INR i + 1) / INR (n - 1)) with (PI * ((INR i + 1) / INR (n - 1))) by (unfold Rdiv; ring). rewrite <- (Rmult_1_r PI) at 2. apply Rmult_le_compat_l; lra.
      - apply Rmult_lt_compat_r. apply Rinv_0_lt_compat; auto. apply Rmult_lt_compat_l; lra. }
    assert (F : 2 * PI * INR i / INR n < 2 * PI * (INR i + 1) / INR n). { pose proof PI_RGT_0. apply Rmult_lt_compat_r. apply Rinv_0_lt_compat; auto. apply Rmult_lt_compat_l; lra. }
    destruct k; auto. }
  split. { rewrite <- Lx. apply (dx_positive x dx); auto. lia. }
  rewrite <- Lx at 1. rewrite (dx_sum x dx Ed) by lia. rewrite Lx, !Gx by lia. unfold point. cbn [INR].
  assert (C : - cos (PI * INR (n - 1) / INR (n - 1)) - - cos (PI * 0 / INR (n - 1)) = 2).
  { replace (PI * INR (n - 1) / INR (n - 1)) with PI by (field; lra). replace (PI * 0 / INR (n - 1)) with 0 by (field; lra). rewrite cos_PI, cos_0. ring. }
  destruct k; auto; field; lra.
Qed.
Print Assumptions C62_cells_of_a_field.
Local Open Scope nat_scope.

(** ** The methods *)
(** In every schedule of the worker threads, the methods of the field return what
    the given serial methods return, and change nothing else. *)
Definition serial_field {A T1 T2 D Sc} (fs : field_space A T1 T2 D Sc) (phys spec ortho : list nat)
    (fwd : arr T1 -> res (arr T2)) (bwd : arr T2 -> res (arr T1)) (to_o from_o : arr T2 -> res (arr T2)) (grad : arr T2 -> D -> option Sc -> res (arr T2)) : Prop :=
  forall f : field A T1 T2, proper phys (fl_v f) -> proper spec (fl_vhat f) ->
  (exists h, fwd (fl_v f) = Ok h /\ proper spec h /\ forall r, field_forward fs f r <-> r = Ok (mk_field (fl_ndim f) (fl_v f) h (fl_x f) (fl_dx f))) /\
  (exists v, bwd (fl_vhat f) = Ok v /\ proper phys v /\ forall r, field_backward fs f r <-> r = Ok (mk_field (fl_ndim f) v (fl_vhat f) (fl_x f) (fl_dx f))) /\
  (exists w, to_o (fl_vhat f) = Ok w /\ proper ortho w /\ forall r, field_to_ortho fs f r <-> r = Ok w) /\
  (forall w, proper ortho w -> exists h, from_o w = Ok h /\ proper spec h /\ forall r, field_from_ortho fs f w r <-> r = Ok (mk_field (fl_ndim f) (fl_v f) h (fl_x f) (fl_dx f))) /\
  (forall d s r, field_gradient fs f d s r <-> r = grad (fl_vhat f) d s).

Lemma then_iff {X Y} (m : res X -> Prop) (k : X -> Y) a : (forall r, m r <-> r = Ok a) -> forall r, par_then m (fun x r => r = Ok (k x)) r <-> r = Ok (k a).
Proof. intros H r. unfold par_then. split. intros (ra & Hm & Hk). apply H in Hm as ->. exact Hk. intros ->. exists (Ok a). split. apply H; auto. reflexivity. Qed.

Theorem C62_field_methods_are_the_serial_ones :
  forall A (N : Num A) (Z0 : EqZ A) (E : ext A), ext_ok E -> is0 (n0 (A := A)) = true ->
  forall P I J S (dP : Dflt P) (dI : Dflt I) (dJ : Dflt J) (dS : Dflt S) (DV : DivInto A S) (e0 e1 e2 : elems A) zo, zip_ok zo ->
  (forall (b0 : base_ops P S S) im0, any_usable E P S S b0 -> base_implements im0 b0 -> let sp := mk_space1 b0 in
     serial_field (fs1 b0 im0 e0) (s1_shape_physical sp) (s1_shape_spectral sp) (s1_shape_spectral_ortho sp)
       (s1_forward zo sp) (s1_backward zo sp) (s1_to_ortho zo sp) (s1_from_ortho zo sp) (s1_gradient zo sp)) /\
  (forall (b0 : base_ops I S S) (b1 : base_ops P I S) im0 im1, any_usable E I S S b0 -> any_usable E P I S b1 -> base_implements im0 b0 -> base_implements im1 b1 -> let sp := mk_space2 b0 b1 in
     serial_field (fs2 b0 b1 im0 im1 e0 e1) (s2_shape_physical sp) (s2_shape_spectral sp) (s2_shape_spectral_ortho sp)
       (s2_forward zo sp) (s2_backward zo sp) (s2_to_ortho zo sp) (s2_from_ortho zo sp) (fun a d s => s2_gradient zo sp a (fst d) (snd d) s)) /\
  (forall (b0 : base_ops J S S) (b1 : base_ops I J S) (b2 : base_ops P I S) im0 im1 im2, any_usable E J S S b0 -> any_usable E I J S b1 -> any_usable E P I S b2 ->
     base_implements im0 b0 -> base_implements im1 b1 -> base_implements im2 b2 -> let sp := mk_space3 b0 b1 b2 in
     serial_field (fs3 b0 b1 b2 im0 im1 im2 e0 e1 e2) (s3_shape_physical sp) (s3_shape_spectral sp) (s3_shape_spectral_ortho sp)
       (s3_forward zo sp) (s3_backward zo sp) (s3_to_ortho zo sp) (s3_from_ortho zo sp) (fun a d s => s3_gradient zo sp a (fst (fst d)) (snd (fst d)) (snd d) s)).
Proof.
  intros A NN Z0 EX HE HZ P I J S dP dI dJ dS DV e0 e1 e2 zo Hz. split; [|split].
  - intros b0 im0 U0 I0 sp f Pv Ph.
    destruct (C53_space1_applies_each_base_along_its_axis A NN Z0 EX HE HZ P S S b0 U0 dP dS dS zo Hz) as (F & B & O & Q). fold sp in F, B, O, Q.
    destruct (C53_space1_par_equals_serial A NN Z0 EX HE HZ P S S b0 (any_usable_base EX _ _ _ _ U0) dP dS dS zo im0 Hz I0) as (F' & B' & _ & Q' & _ & _ & O' & _ & G'). fold sp in F', B', O', Q', G'.
    split; [|split; [|split; [|split]]].
    + destruct (F _ _ Pv Ph) as (h & E1 & E2 & Pr & _). exists h. split; auto. split; auto. refine (then_iff _ _ _ _). intros r. refine (iff_trans (F' _ _ r (proj2 (proj2 Ph))) _). rewrite E1. reflexivity.
    + destruct (B _ _ Ph Pv) as (h & E1 & E2 & Pr & _). exists h. split; auto. split; auto. refine (then_iff _ (fun v => mk_field _ v _ _ _) _ _). intros r. refine (iff_trans (B' _ _ r (proj2 (proj2 Pv))) _). rewrite E1. reflexivity.
    + destruct (O _ _ Ph (proper_zeros dflt _)) as (h & E1 & E2 & Pr & _). exists h. split; auto. split; auto. intros r. refine (iff_trans (O' _ r) _). rewrite E2. reflexivity.
    + intros w Pw. destruct (Q _ _ Pw Ph) as (h & E1 & E2 & Pr & _). exists h. split; auto. split; auto. refine (then_iff _ _ _ _). intros r. refine (iff_trans (Q' _ _ r (proj2 (proj2 Ph))) _). rewrite E1. reflexivity.
    + intros d s r. apply G'.
  - intros b0 b1 im0 im1 U0 U1 I0 I1 sp f Pv Ph.
    destruct (C53_space2_applies_each_base_along_its_axis A NN Z0 EX HE HZ P I S S b0 b1 U0 U1 dP dI dS dS zo Hz) as (F & B & O & Q). fold sp in F, B, O, Q.
    destruct (C53_space2_par_equals_serial A NN Z0 EX HE HZ P I S S b0 b1 (any_usable_base EX _ _ _ _ U0) (any_usable_base EX _ _ _ _ U1) dP dI dS dS zo im0 im1 Hz I0 I1) as (F' & B' & _ & Q' & _ & _ & O' & _ & G'). fold sp in F', B', O', Q', G'.
    split; [|split; [|split; [|split]]].
    + destruct (F _ _ Pv Ph) as (m & h & E1 & E2 & Pr & _). exists h. split; auto. split; auto. refine (then_iff _ _ _ _). intros r. refine (iff_trans (F' _ _ r (proj2 (proj2 Ph))) _). rewrite E1. reflexivity.
    + destruct (B _ _ Ph Pv) as (m & h & E1 & E2 & Pr & _). exists h. split; auto. split; auto. refine (then_iff _ (fun v => mk_field _ v _ _ _) _ _). intros r. refine (iff_trans (B' _ _ r (proj2 (proj2 Pv))) _). rewrite E1. reflexivity.
    + destruct (O _ _ Ph (proper_zeros dflt _)) as (m & h & E1 & E2 & Pr & _). exists h. split; auto. split; auto. intros r. refine (iff_trans (O' _ r) _). rewrite E2. reflexivity.
    + intros w Pw. destruct (Q _ _ Pw Ph) as (m & h & E1 & E2 & Pr & _). exists h. split; auto. split; auto. refine (then_iff _ _ _ _). intros r. refine (iff_trans (Q' _ _ r (proj2 (proj2 Ph))) _). rewrite E1. reflexivity.
    + intros d s r. apply G'.
  - intros b0 b1 b2 im0 im1 im2 U0 U1 U2 I0 I1 I2 sp f Pv Ph.
    destruct (C53_space3_applies_each_base_along_its_axis A NN Z0 EX HE HZ P I J S S b0 b1 b2 U0 U1 U2 dP dI dJ dS dS zo Hz) as (F & B & O & Q). fold sp in F, B, O, Q.
    destruct (C53_space3_par_equals_serial A NN Z0 EX HE HZ P I J S S b0 b1 b2 (any_usable_base EX _ _ _ _ U0) (any_usable_base EX _ _ _ _ U1) (any_usable_base EX _ _ _ _ U2) dP dI dJ dS dS zo im0 im1 im2 Hz I0 I1 I2) as (F' & B' & _ & Q' & _ & _ & O' & _ & G'). fold sp in F', B', O', Q', G'.
    split; [|split; [|split; [|split]]].
    + destruct (F _ _ Pv Ph) as (m & m' & h & E1 & E2 & Pr & _). exists h. split; auto. split; auto. refine (then_iff _ _ _ _). intros r. refine (iff_trans (F' _ _ r (proj2 (proj2 Ph))) _). rewrite E1. reflexivity.
    + destruct (B _ _ Ph Pv) as (m & m' & h & E1 & E2 & Pr & _). exists h. split; auto. split; auto. refine (then_iff _ (fun v => mk_field _ v _ _ _) _ _). intros r. refine (iff_trans (B' _ _ r (proj2 (proj2 Pv))) _). rewrite E1. reflexivity.
    + destruct (O _ _ Ph (proper_zeros dflt _)) as (m & m' & h & E1 & E2 & Pr & _). exists h. split; auto. split; auto. intros r. refine (iff_trans (O' _ r) _). rewrite E2. reflexivity.
    + intros w Pw. destruct (Q _ _ Pw Ph) as (m & m' & h & E1 & E2 & Pr & _). exists h. split; auto. split; auto. refine (then_iff _ _ _ _). intros r. refine (iff_trans (Q' _ _ r (proj2 (proj2 Ph))) _). rewrite E1. reflexivity.
    + intros d s r. apply G'.
Qed.
Print Assumptions C62_field_methods_are_the_serial_ones.
