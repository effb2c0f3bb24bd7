(** C53, slices and axes: what does not depend on the arithmetic. The theorems of
    the other files that speak of values are about real numbers; those below
    hold for any arithmetic [A] (any operations at all: f64 with its roundings,
    infinities and NaNs, see [C53_f64]) and any transform libraries [E] that
    fill buffers of the planned lengths. *)
From Coq Require Import List Arith Lia Bool ZArith Reals Permutation.
From Flocq Require Import BinarySingleNaN.
From Verif Require Import Base Num Linalg Stencils Cheb Compo CompoProofs Fourier FourierF64 NdArray NdArrayFacts AxisFacts Bases BaseLin LibBase
  AxisProps PropAxis SpaceBases ExtLib AnyArith ExtFacts AnyBase.
Import ListNotations.
Local Open Scope nat_scope.

(** [fnop f l1 l2] (AnyArith.v): on slices of lengths l1 and l2 the method [f]
    always returns, its result has length l2 and is a function of the input
    alone. The same in words of the API: *)
Theorem C53_fnop_meaning : forall T1 T2 (t : T2) (f : list T1 -> list T2 -> res (list T2)) l1 l2,
  fnop f l1 l2 <->
  (forall x y, length x = l1 -> length y = l2 -> exists z, f x y = Ok z /\ length z = l2) /\
  (forall x y y', length x = l1 -> length y = l2 -> length y' = l2 -> f x y = f x y').
Proof.
  intros T1 T2 t f l1 l2. split.
  - intros (g & H). split; intros.
    + destruct (H x y) as [-> L]; eauto.
    + transitivity (Ok (g x)); [|symmetry]; apply H; auto.
  - intros [H1 H2]. exists (fun x => match f x (repeat t l2) with Ok z => z | _ => [] end). intros x y Hx Hy.
    destruct (H1 x y Hx Hy) as (z & Ez & Lz). rewrite <- (H2 x y (repeat t l2)); auto. rewrite Ez. auto. apply repeat_length.
Qed.
Print Assumptions C53_fnop_meaning.

(** Which sizes the constructors accept. *)
Theorem C53_constructors : forall A (N : Num A),
  (forall n, match new_chebyshev n with Ok b => 2 <= n /\ b = BChebyshev (A := A) (mk_cheb n n) | Panic => n < 2 | UB => False end) /\
  (forall k n, match new_composite (A := A) k n with Ok b => smin k <= n | Panic => n < smin k | UB => False end) /\
  (forall n, match r2c_new n with Ok f => 1 <= n | Panic => n < 1 | UB => False end) /\
  (forall n, match c2c_new n with Ok f => 1 <= n | Panic => n < 1 | UB => False end).
Proof.
  intros A N. split; [|split; [|split]].
  - intros n. unfold new_chebyshev, cheb_new. destruct (Nat.leb_spec 2 n); cbn [assertb bind]; auto.
  - intros k n. unfold new_composite. destruct (le_lt_dec (smin k) n) as [H|H].
    + destruct (compo_new_len (A := A) k n H) as (s & -> & _). cbn [bind]. auto.
    + rewrite compo_new_panics by auto. cbn [bind]. auto.
  - intros n. unfold r2c_new. destruct (Nat.leb_spec 1 n); cbn [assertb bind]; auto.
  - intros n. unfold c2c_new. destruct (Nat.leb_spec 1 n); cbn [assertb bind]; auto.
Qed.
Print Assumptions C53_constructors.

(** The slice methods of every base, and for which sizes they are defined. *)
Theorem C53_chebyshev_slices : forall A (N : Num A) (E : ext A), ext_ok E ->
  forall T (V : Vec A T) n b, new_chebyshev n = Ok b -> let o := r2r_ops_x E (T := T) b in
  len_phys o = n /\ len_spec o = n /\ len_orth o = n /\
  fnop (forward_slice o) n n /\ fnop (backward_slice o) n n /\ fnop (to_ortho_slice o) n n /\ fnop (from_ortho_slice o) n n /\
  forall d, if (n =? 2) && (1 <=? d)
            then forall x y, length x = n -> length y = n -> gradient_slice o x y d = UB
            else fnop (fun x y => gradient_slice o x y d) n n.
Proof.
  intros A N E HE T V n b H o. subst o. apply new_chebyshev_inv in H as [Hn ->].
  split; [reflexivity|]. split; [reflexivity|]. split; [reflexivity|].
  split; [apply fnop_cheb_forward; auto|]. split; [apply fnop_cheb_backward; auto|]. split; [apply fnop_copy|]. split; [apply fnop_copy|].
  intros d. destruct (Nat.eqb_spec n 2) as [->|]; cbn [andb]; [destruct (Nat.leb_spec 1 d)|].
  - intros. apply gradient_UB2; auto.
  - apply gradient_fnop. lia.
  - apply gradient_fnop. lia.
Qed.
Print Assumptions C53_chebyshev_slices.

Theorem C53_composite_slices : forall A (N : Num A) (E : ext A), ext_ok E ->
  forall T (V : Vec A T) k n b, new_composite k n = Ok b -> let o := r2r_ops_x E (T := T) b in let m := sdim k n in
  len_phys o = n /\ len_spec o = m /\ len_orth o = n /\
  (if ssolve k <=? n
   then fnop (forward_slice o) n m /\ fnop (from_ortho_slice o) n m
   else (forall x y, length x = n -> length y = m -> forward_slice o x y = Panic) /\
        (forall x y, length x = n -> length y = m -> from_ortho_slice o x y = Panic)) /\
  (if biharmonic k
   then (forall x y, length x = m -> length y = n -> backward_slice o x y = UB) /\
        (forall x y, length x = m -> length y = n -> to_ortho_slice o x y = UB) /\
        (forall d x y, length x = m -> length y = n -> gradient_slice o x y d = UB)
   else fnop (backward_slice o) m n /\ fnop (to_ortho_slice o) m n /\ forall d, fnop (fun x y => gradient_slice o x y d) m n).
Proof.
  intros A N E HE T V k n b H o m. subst o m. apply new_composite_any in H as (Hn & s & -> & Hs).
  split; [reflexivity|]. split; [reflexivity|]. split; [reflexivity|].
  assert (H4 : 2 <= n) by (destruct k; cbn in Hn; lia). split.
  - destruct (Nat.leb_spec (ssolve k) n).
    + split. apply (fnop_compo_forward E HE k); auto. apply (solve_fnop k); auto.
    + split.
      * intros x y Hx Hy. cbn [r2r_ops_x forward_slice]. unfold compo_forward_x. destruct (fnop_cheb_forward E HE n H4) as (g & Hg).
        destruct (Hg x (repeat n0 n) Hx (repeat_length _ _)) as [Eg Lg]. change (compo_len_orth (mk_compo n (sdim k n) (mk_cheb n n) s)) with n. cbn [p_ortho].
        rewrite Eg. cbn [bind]. unfold compo_from_ortho. cbn [p_st]. apply (solve_panics k n); auto.
      * intros u v Hu Hv. apply (solve_panics k n s u v); auto.
  - destruct (biharmonic k) eqn:Hb.
    + split; [|split].
      * intros x y Hx Hy. cbn [r2r_ops_x backward_slice]. unfold compo_backward_x, compo_to_ortho. change (compo_len_orth (mk_compo n (sdim k n) (mk_cheb n n) s)) with n. cbn [p_st].
        rewrite (dot_UB k n s x (repeat n0 n)); auto. apply repeat_length.
      * intros x y Hx Hy. apply (dot_UB k n s x y); auto.
      * intros d x y Hx Hy. cbn [r2r_ops_x gradient_slice]. unfold compo_gradient, compo_to_ortho. change (compo_len_orth (mk_compo n (sdim k n) (mk_cheb n n) s)) with n. cbn [p_st].
        rewrite (dot_UB k n s x (repeat v0 n)); auto. apply repeat_length.
    + split; [|split]. apply (fnop_compo_backward E HE k); auto. apply (dot_fnop k); auto. intros d. apply compo_gradient_fnop; auto.
Qed.
Print Assumptions C53_composite_slices.

Theorem C53_fourier_slices : forall A (N : Num A) (Z0 : EqZ A) (E : ext A), ext_ok E -> is0 (n0 (A := A)) = true ->
  (forall n f, r2c_new n = Ok f -> let o := r2c_ops_x E f in let m := n / 2 + 1 in
    len_phys o = n /\ len_spec o = m /\ len_orth o = m /\
    fnop (forward_slice o) n m /\ fnop (backward_slice o) m n /\ fnop (to_ortho_slice o) m m /\ fnop (from_ortho_slice o) m m /\
    forall d, fnop (fun x y => gradient_slice o x y d) m m) /\
  (forall n f, c2c_new n = Ok f -> let o := c2c_ops_x E f in
    len_phys o = n /\ len_spec o = n /\ len_orth o = n /\
    fnop (forward_slice o) n n /\ fnop (backward_slice o) n n /\ fnop (to_ortho_slice o) n n /\ fnop (from_ortho_slice o) n n /\
    forall d, fnop (fun x y => gradient_slice o x y d) n n).
Proof.
  intros A N Z0 E HE HZ. split; intros n f H.
  - unfold r2c_new in H. destruct (Nat.leb_spec 1 n); [|discriminate]. injection H as <-. repeat (split; [reflexivity|]).
    split; [apply fnop_r2c_forward; auto|]. split; [apply fnop_r2c_backward; auto|]. split; [apply fnop_copy|]. split; [apply fnop_copy|]. apply fnop_r2c_gradient.
  - unfold c2c_new in H. destruct (Nat.leb_spec 1 n); [|discriminate]. injection H as <-. repeat (split; [reflexivity|]).
    split; [apply fnop_c2c_forward; auto|]. split; [apply fnop_c2c_backward; auto|]. split; [apply fnop_copy|]. split; [apply fnop_copy|]. intros d. apply fnop_c2c_gradient; auto.
Qed.
Print Assumptions C53_fourier_slices.

(** The programs of the other files are the instance in which the libraries
    compute the documented sums, whatever the arithmetic and its sin and cos. *)
Theorem C53_documented_libraries : forall A (N : Num A) (Tr : Trig A),
  ext_ok (documented (A := A)) /\
  (forall T (V : Vec A T) b, r2r_ops_x documented (T := T) b = r2r_ops b) /\
  (forall (Z0 : EqZ A) f, r2c_ops_x documented f = r2c_ops f) /\
  (forall f, c2c_ops_x (A := A) documented f = c2c_ops f).
Proof.
  intros A N Tr. split; [apply documented_ok|]. split; [intros; apply documented_r2r|]. split; [intros; apply documented_r2c|]. intros; apply documented_c2c.
Qed.
Print Assumptions C53_documented_libraries.

(** IEEE binary64: [x == 0.0] holds of both zeros. *)
#[export] Instance eqz_f64 : EqZ f64 := fun x => match x with B754_zero _ => true | _ => false end.
Theorem C53_f64 : is0 (n0 (A := f64)) = true /\ (forall x : f64, is0 x = true <-> exists s, x = B754_zero s) /\
  forall Tr : Trig f64, exists E : ext f64, ext_ok E /\
  forall n, 5 <= n -> exists b, new_composite KDirichlet n = Ok b /\ any_usable E f64 f64 (cplx f64) (r2r_ops_x E b) /\
    exists f, r2c_new n = Ok f /\ any_usable E f64 (cplx f64) (cplx f64) (r2c_ops_x E f).
Proof.
  split; [reflexivity|]. split.
  - intros x. unfold is0, eqz_f64. destruct x as [s| | |]; split; intros H; try discriminate; eauto; destruct H as [s' H]; discriminate.
  - intros Tr. exists documented. split. apply documented_ok. intros n Hn.
    pose proof (proj1 (proj2 (C53_constructors f64 num_f64)) KDirichlet n) as K. destruct (new_composite KDirichlet n) as [b| |] eqn:Eb; [|cbn in K; lia|tauto].
    exists b. split; auto. split. { apply (aus_composite documented _ _ KDirichlet n); auto. }
    pose proof (proj1 (proj2 (proj2 (C53_constructors f64 num_f64))) n) as K2. destruct (r2c_new n) as [f| |] eqn:Ef; [|lia|tauto].
    exists f. split; auto. eapply aus_r2c; eauto.
Qed.
Print Assumptions C53_f64.

(** ** The array methods along an axis *)
Theorem C53_inplace_methods_act_on_every_line :
  forall A (N : Num A) (Z0 : EqZ A) (E : ext A), ext_ok E -> is0 (n0 (A := A)) = true ->
  forall P S T b, any_base E P S T b ->
  forall (dP : Dflt P) (dS : Dflt S) (dT : Dflt T) zo, zip_ok zo ->
  (forall i o ax, wf o -> fits (len_phys b) (len_spec b) i o ax ->
     along_axis (forward_slice b) ax i o (forward_inplace zo b i o ax)) /\
  (forall i o ax, wf o -> fits (len_spec b) (len_phys b) i o ax ->
     along_axis (backward_slice b) ax i o (backward_inplace zo b i o ax)) /\
  (forall i o ax, wf o -> fits (len_spec b) (len_orth b) i o ax ->
     along_axis (to_ortho_slice b) ax i o (to_ortho_inplace zo b i o ax)) /\
  (forall i o ax, wf o -> fits (len_orth b) (len_spec b) i o ax ->
     along_axis (from_ortho_slice b) ax i o (from_ortho_inplace zo b i o ax)) /\
  (forall i o d ax, wf o -> fits (len_spec b) (len_orth b) i o ax ->
     along_axis (fun x y => gradient_slice b x y d) ax i o (gradient_inplace zo b i o d ax)).
Proof.
  intros A N Z0 EX HE HZ P S T b Hb dP dS dT zo Hz. pose (VP := deg dP : Vec R P). pose (VS := deg dS : Vec R S). pose (VT := deg dT : Vec R T). destruct (any_uniform EX HE HZ P S T b dP dS dT Hb) as (U1 & U2 & U3 & U4 & U5).
  repeat split; intros; try (apply apply_along; auto). unfold gradient_inplace. rewrite gradient_apply. apply apply_along; auto.
Qed.
Print Assumptions C53_inplace_methods_act_on_every_line.

Theorem C53_allocating_methods_act_on_every_line :
  forall A (N : Num A) (Z0 : EqZ A) (E : ext A), ext_ok E -> is0 (n0 (A := A)) = true ->
  forall P S T b, any_base E P S T b ->
  forall (dP : Dflt P) (dS : Dflt S) (dT : Dflt T) zo, zip_ok zo ->
  (forall i ax, std i = true -> nth_error (shp i) ax = Some (len_phys b) ->
     along_axis (forward_slice b) ax i (fresh dflt i (len_spec b) ax) (forward zo b i ax)) /\
  (forall i ax, std i = true -> nth_error (shp i) ax = Some (len_spec b) ->
     along_axis (backward_slice b) ax i (fresh dflt i (len_phys b) ax) (backward zo b i ax)) /\
  (forall i ax, std i = true -> nth_error (shp i) ax = Some (len_spec b) ->
     along_axis (to_ortho_slice b) ax i (fresh dflt i (len_orth b) ax) (to_ortho zo b i ax)) /\
  (forall i ax, std i = true -> nth_error (shp i) ax = Some (len_orth b) ->
     along_axis (from_ortho_slice b) ax i (fresh dflt i (len_spec b) ax) (from_ortho zo b i ax)) /\
  (forall i d ax, std i = true -> nth_error (shp i) ax = Some (len_spec b) ->
     along_axis (fun x y => gradient_slice b x y d) ax i (fresh dflt i (len_orth b) ax) (gradient zo b i d ax)).
Proof.
  intros A N Z0 EX HE HZ P S T b Hb dP dS dT zo Hz. pose (VP := deg dP : Vec R P). pose (VS := deg dS : Vec R S). pose (VT := deg dT : Vec R T).
  destruct (C53_inplace_methods_act_on_every_line A N Z0 EX HE HZ P S T b Hb dP dS dT zo Hz) as (U1 & U2 & U3 & U4 & U5).
  repeat split; intros; [unfold forward|unfold backward|unfold to_ortho|unfold from_ortho|unfold gradient];
    erewrite resized_ok by eauto; cbn [bind]; [apply U1|apply U2|apply U3|apply U4|apply U5];
    try apply wf_fresh; apply fits_fresh; auto.
Qed.
Print Assumptions C53_allocating_methods_act_on_every_line.

Theorem C53_inplace_par_equals_serial :
  forall A (N : Num A) (Z0 : EqZ A) (E : ext A), ext_ok E -> is0 (n0 (A := A)) = true ->
  forall P S T b, any_base E P S T b ->
  forall (dP : Dflt P) (dS : Dflt S) (dT : Dflt T) zo im, zip_ok zo -> base_implements im b ->
  (forall i o ax r, wf o -> (forward_inplace_par im b i o ax r <-> r = forward_inplace zo b i o ax)) /\
  (forall i o ax r, wf o -> (backward_inplace_par im b i o ax r <-> r = backward_inplace zo b i o ax)) /\
  (forall i o ax r, wf o -> (to_ortho_inplace_par im b i o ax r <-> r = to_ortho_inplace zo b i o ax)) /\
  (forall i o ax r, wf o -> (from_ortho_inplace_par im b i o ax r <-> r = from_ortho_inplace zo b i o ax)) /\
  (forall i o d ax r, wf o -> (gradient_inplace_par im b i o d ax r <-> r = gradient_inplace zo b i o d ax)).
Proof.
  intros A N Z0 EX HE HZ P S T b Hb dP dS dT zo im Hz (I1 & I2 & I3 & I4 & I5). pose (VP := deg dP : Vec R P). pose (VS := deg dS : Vec R S). pose (VT := deg dT : Vec R T).
  destruct (any_uniform EX HE HZ P S T b dP dS dT Hb) as (U1 & U2 & U3 & U4 & U5).
  split; [|split; [|split; [|split]]]; intros; try (apply par_serial; auto).
  unfold gradient_inplace_par, gradient_inplace. rewrite par_gradient_apply, gradient_apply. apply par_serial; auto.
Qed.
Print Assumptions C53_inplace_par_equals_serial.

Theorem C53_allocating_par_equals_serial :
  forall A (N : Num A) (Z0 : EqZ A) (E : ext A), ext_ok E -> is0 (n0 (A := A)) = true ->
  forall P S T b, any_base E P S T b ->
  forall (dP : Dflt P) (dS : Dflt S) (dT : Dflt T) zo im, zip_ok zo -> base_implements im b ->
  (forall i ax r, forward_par im b i ax r <-> r = forward zo b i ax) /\
  (forall i ax r, backward_par im b i ax r <-> r = backward zo b i ax) /\
  (forall i ax r, to_ortho_par im b i ax r <-> r = to_ortho zo b i ax) /\
  (forall i ax r, from_ortho_par im b i ax r <-> r = from_ortho zo b i ax) /\
  (forall i d ax r, gradient_par im b i d ax r <-> r = gradient zo b i d ax).
Proof.
  intros A N Z0 EX HE HZ P S T b Hb dP dS dT zo im Hz Hi. pose (VP := deg dP : Vec R P). pose (VS := deg dS : Vec R S). pose (VT := deg dT : Vec R T).
  destruct (C53_inplace_par_equals_serial A N Z0 EX HE HZ P S T b Hb dP dS dT zo im Hz Hi) as (U1 & U2 & U3 & U4 & U5).
  assert (W : forall T1 T2 (z : T2) (i : arr T1) l ax o, array_resized_axis z i l ax = Ok o -> wf o).
  { intros T1 T2 z i l ax o E. unfold array_resized_axis in E. destruct (wr Checked (shp i) ax l); try discriminate.
    inversion E. unfold wf, azeros; cbn. apply repeat_length. }
  split; [|split; [|split; [|split]]]; intros;
    [unfold forward_par, forward|unfold backward_par, backward|unfold to_ortho_par, to_ortho
    |unfold from_ortho_par, from_ortho|unfold gradient_par, gradient];
    apply then_par_eq; intros o E; apply W in E; auto.
Qed.
Print Assumptions C53_allocating_par_equals_serial.

Theorem C53_fitting_arguments_never_panic_for_size :
  forall A (N : Num A) (Z0 : EqZ A) (E : ext A), ext_ok E -> is0 (n0 (A := A)) = true ->
  forall P S T b, any_base E P S T b ->
  forall (dP : Dflt P) (dS : Dflt S) (dT : Dflt T) zo, zip_ok zo ->
  (slice_total (len_phys b) (len_spec b) (forward_slice b) ->
   forall i o ax, wf o -> fits (len_phys b) (len_spec b) i o ax -> exists r, forward_inplace zo b i o ax = Ok r) /\
  (slice_total (len_spec b) (len_phys b) (backward_slice b) ->
   forall i o ax, wf o -> fits (len_spec b) (len_phys b) i o ax -> exists r, backward_inplace zo b i o ax = Ok r) /\
  (slice_total (len_spec b) (len_orth b) (to_ortho_slice b) ->
   forall i o ax, wf o -> fits (len_spec b) (len_orth b) i o ax -> exists r, to_ortho_inplace zo b i o ax = Ok r) /\
  (slice_total (len_orth b) (len_spec b) (from_ortho_slice b) ->
   forall i o ax, wf o -> fits (len_orth b) (len_spec b) i o ax -> exists r, from_ortho_inplace zo b i o ax = Ok r) /\
  (forall d, slice_total (len_spec b) (len_orth b) (fun x y => gradient_slice b x y d) ->
   forall i o ax, wf o -> fits (len_spec b) (len_orth b) i o ax -> exists r, gradient_inplace zo b i o d ax = Ok r).
Proof.
  intros A N Z0 EX HE HZ P S T b Hb dP dS dT zo Hz. pose (VP := deg dP : Vec R P). pose (VS := deg dS : Vec R S). pose (VT := deg dT : Vec R T).
  destruct (C53_inplace_methods_act_on_every_line A N Z0 EX HE HZ P S T b Hb dP dS dT zo Hz) as (U1 & U2 & U3 & U4 & U5).
  split; [|split; [|split; [|split]]].
  - intros. eapply (along_total (forward_slice b)); eauto.
  - intros. eapply (along_total (backward_slice b)); eauto.
  - intros. eapply (along_total (to_ortho_slice b)); eauto.
  - intros. eapply (along_total (from_ortho_slice b)); eauto.
  - intros. eapply (along_total (fun x y => gradient_slice b x y d)); eauto.
Qed.
Print Assumptions C53_fitting_arguments_never_panic_for_size.

Theorem C53_result_independent_of_previous_output :
  forall A (N : Num A) (Z0 : EqZ A) (E : ext A), ext_ok E -> is0 (n0 (A := A)) = true ->
  forall P S T b, any_base E P S T b ->
  forall (dP : Dflt P) (dS : Dflt S) (dT : Dflt T) zo zo', zip_ok zo -> zip_ok zo' ->
  (forall i o o' ax, same_layout o o' -> forward_inplace zo b i o ax = forward_inplace zo' b i o' ax) /\
  (forall i o o' ax, same_layout o o' -> backward_inplace zo b i o ax = backward_inplace zo' b i o' ax) /\
  (forall i o o' ax, same_layout o o' -> to_ortho_inplace zo b i o ax = to_ortho_inplace zo' b i o' ax) /\
  (forall i o o' ax, same_layout o o' -> from_ortho_inplace zo b i o ax = from_ortho_inplace zo' b i o' ax) /\
  (forall i o o' d ax, same_layout o o' -> gradient_inplace zo b i o d ax = gradient_inplace zo' b i o' d ax).
Proof.
  intros A N Z0 EX HE HZ P S T b Hb dP dS dT zo zo' Hz Hz'. pose (VP := deg dP : Vec R P). pose (VS := deg dS : Vec R S). pose (VT := deg dT : Vec R T).
  destruct (any_uniform EX HE HZ P S T b dP dS dT Hb) as (U1 & U2 & U3 & U4 & U5).
  repeat split; intros i o o'; intros; destruct H as (W & W' & Es & Et); try (apply apply_indep; auto).
  unfold gradient_inplace. rewrite !gradient_apply. apply (apply_indep dflt dflt (fun x y => gradient_slice b x y d)); auto.
Qed.
Print Assumptions C53_result_independent_of_previous_output.

Theorem C53_inplace_equals_allocating :
  forall A (N : Num A) (Z0 : EqZ A) (E : ext A), ext_ok E -> is0 (n0 (A := A)) = true ->
  forall P S T b, any_base E P S T b ->
  forall (dP : Dflt P) (dS : Dflt S) (dT : Dflt T) zo, zip_ok zo ->
  (forall i o ax, ax < length (shp i) -> wf o -> std o = true -> shp o = upd (shp i) ax (len_spec b) ->
     forward_inplace zo b i o ax = forward zo b i ax) /\
  (forall i o ax, ax < length (shp i) -> wf o -> std o = true -> shp o = upd (shp i) ax (len_phys b) ->
     backward_inplace zo b i o ax = backward zo b i ax) /\
  (forall i o ax, ax < length (shp i) -> wf o -> std o = true -> shp o = upd (shp i) ax (len_orth b) ->
     to_ortho_inplace zo b i o ax = to_ortho zo b i ax) /\
  (forall i o ax, ax < length (shp i) -> wf o -> std o = true -> shp o = upd (shp i) ax (len_spec b) ->
     from_ortho_inplace zo b i o ax = from_ortho zo b i ax) /\
  (forall i o d ax, ax < length (shp i) -> wf o -> std o = true -> shp o = upd (shp i) ax (len_orth b) ->
     gradient_inplace zo b i o d ax = gradient zo b i d ax).
Proof.
  intros A N Z0 EX HE HZ P S T b Hb dP dS dT zo Hz. pose (VP := deg dP : Vec R P). pose (VS := deg dS : Vec R S). pose (VT := deg dT : Vec R T).
  destruct (C53_result_independent_of_previous_output A N Z0 EX HE HZ P S T b Hb dP dS dT zo zo Hz Hz) as (U1 & U2 & U3 & U4 & U5).
  repeat split; intros i o; intros; [unfold forward|unfold backward|unfold to_ortho|unfold from_ortho|unfold gradient];
   rewrite resized_in by auto; cbn [bind]; [apply U1|apply U2|apply U3|apply U4|apply U5];
   split; auto; split; try apply wf_fresh; split; auto.
Qed.
Print Assumptions C53_inplace_equals_allocating.

(** decompositions into memory accesses exist *)
Theorem C53_implementation_exists :
  forall A (N : Num A) (Z0 : EqZ A) (E : ext A), ext_ok E -> is0 (n0 (A := A)) = true ->
  forall P S T b, any_base E P S T b -> Dflt P -> Dflt S -> Dflt T -> exists im, base_implements im b.
Proof.
  intros A N Z0 E HE HZ P S T b Hb dP dS dT. destruct (any_uniform E HE HZ P S T b dP dS dT Hb) as (U1 & U2 & U3 & U4 & U5).
  exists (mk_impl (impl_of (len_spec b) (forward_slice b)) (impl_of (len_phys b) (backward_slice b))
     (impl_of (len_orth b) (to_ortho_slice b)) (impl_of (len_spec b) (from_ortho_slice b))
     (fun d => impl_of (len_orth b) (fun x y => gradient_slice b x y d))).
  unfold base_implements. cbn [im_forward im_backward im_to_ortho im_from_ortho im_gradient].
  repeat split; intros; eapply impl_of_ok; eauto.
Qed.
Print Assumptions C53_implementation_exists.
