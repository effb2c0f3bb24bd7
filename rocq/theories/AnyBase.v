(** The bases of the library over any arithmetic and any transform libraries:
    on slices of the right lengths each slice method always computes a function
    of its input, or always panics, or always is UB. *)
From Coq Require Import List Arith Lia Bool ZArith Reals.
From Verif Require Import Base Num Linalg LinalgProofs LinalgModes Stencils StencilProofs Cheb ChebGrad Compo CompoProofs Fourier Bases
  NdArray NdArrayFacts AxisFacts BaseLin LibBase AxisProps PropAxis SpaceBases ExtLib AnyArith ExtFacts.
Import ListNotations.
Local Open Scope nat_scope.

(** What the public constructors of lib.rs:170-347 return, over the arithmetic
    [A] and the transform libraries [E]; [T] is the element type chosen for
    BaseFromOrtho and BaseGradient of the real bases. *)
Inductive any_base {A} {N : Num A} {Z0 : EqZ A} (E : ext A) : forall P S T, base_ops P S T -> Prop :=
| any_chebyshev T (V : Vec A T) n b : new_chebyshev n = Ok b -> any_base E A A T (r2r_ops_x E b)
| any_composite T (V : Vec A T) k n b : new_composite k n = Ok b -> any_base E A A T (r2r_ops_x E b)
| any_r2c n f : r2c_new n = Ok f -> any_base E A (cplx A) (cplx A) (r2c_ops_x E f)
| any_c2c n f : c2c_new n = Ok f -> any_base E (cplx A) (cplx A) (cplx A) (c2c_ops_x E f).
(** Those whose transforms are all defined (C16, C44). *)
Inductive any_usable {A} {N : Num A} {Z0 : EqZ A} (E : ext A) : forall P S T, base_ops P S T -> Prop :=
| aus_chebyshev T (V : Vec A T) n b : new_chebyshev n = Ok b -> any_usable E A A T (r2r_ops_x E b)
| aus_composite T (V : Vec A T) k n b : new_composite k n = Ok b -> biharmonic k = false -> ssolve k <= n -> any_usable E A A T (r2r_ops_x E b)
| aus_r2c n f : r2c_new n = Ok f -> any_usable E A (cplx A) (cplx A) (r2c_ops_x E f)
| aus_c2c n f : c2c_new n = Ok f -> any_usable E (cplx A) (cplx A) (cplx A) (c2c_ops_x E f).
Lemma any_usable_base {A} {N : Num A} {Z0 : EqZ A} (E : ext A) P S T (b : base_ops P S T) : any_usable E P S T b -> any_base E P S T b.
Proof. intros []; [eapply any_chebyshev|eapply any_composite|eapply any_r2c|eapply any_c2c]; eauto. Qed.

(** total / always panicking / always UB *)
Definition settled {T1 T2} (f : list T1 -> list T2 -> res (list T2)) (l1 l2 : nat) : Prop :=
  fnop f l1 l2 \/
  (forall x y, length x = l1 -> length y = l2 -> f x y = Panic) \/
  (forall x y, length x = l1 -> length y = l2 -> f x y = UB).

(** The lemmas of AxisProps.v, SpaceFacts.v, SpaceStages.v and SpaceMpiFacts.v
    are stated for linear operations but ask nothing of the sum and the scalar
    product; with the projections below every function that respects lengths
    is linear, so they apply to any [fnop]. *)
Definition deg {T} (d : Dflt T) : Vec R T := Build_Vec R T dflt (fun x _ => x) (fun x _ => x) (fun x _ => x) (fun x _ => x).
Lemma ladd_deg {T} (d : Dflt T) (x y : list T) : length x = length y -> ladd (V := deg d) x y = x.
Proof. unfold ladd. revert y. induction x as [|a x IH]; intros [|b y] H; cbn in *; try discriminate; auto. f_equal. apply IH. congruence. Qed.
Lemma lscal_deg {T} (d : Dflt T) (x : list T) c : lscal (V := deg d) x c = x.
Proof. unfold lscal. cbn. apply map_id. Qed.
Lemma fnop_linop {T1 T2} (d1 : Dflt T1) (d2 : Dflt T2) (f : list T1 -> list T2 -> res (list T2)) l1 l2 : fnop f l1 l2 -> linop (V1 := deg d1) (V2 := deg d2) f l1 l2.
Proof.
  intros (g & H). exists g. split. exact H. split.
  - intros x y Hx Hy. rewrite !ladd_deg; auto. destruct (H x (repeat dflt l2) Hx (repeat_length _ _)). destruct (H y (repeat dflt l2) Hy (repeat_length _ _)). congruence. congruence.
  - intros x c Hx. rewrite !lscal_deg. auto.
Qed.
Lemma linop_fnop {T1 T2} (V1 : Vec R T1) (V2 : Vec R T2) (f : list T1 -> list T2 -> res (list T2)) l1 l2 : linop f l1 l2 -> fnop f l1 l2.
Proof. intros (g & H & _). exists g. exact H. Qed.
Lemma settled_uniform {T1 T2} (d1 : Dflt T1) (d2 : Dflt T2) (f : list T1 -> list T2 -> res (list T2)) l1 l2 : settled f l1 l2 -> uniform (V1 := deg d1) (V2 := deg d2) f l1 l2.
Proof. intros [H|H]; [left; apply fnop_linop; auto|right; auto]. Qed.

Lemma new_composite_any {A} {N : Num A} k n (b : base_r2r A) : new_composite k n = Ok b ->
  smin k <= n /\ exists s, b = BChebyshevComposite (mk_compo n (sdim k n) (mk_cheb n n) s) /\ st_lens k (sdim k n) s.
Proof.
  intros H. destruct (le_lt_dec (smin k) n) as [Hn|Hn].
  - split; auto. destruct (compo_new_len k n Hn) as (s & E & Hs). exists s. split; auto. unfold new_composite in H. rewrite E in H. cbn [bind] in H. injection H as <-. auto.
  - unfold new_composite in H. rewrite compo_new_panics in H by auto. discriminate.
Qed.

Section Facts.
Context {A : Type} {N : Num A} {Z0 : EqZ A} (E : ext A) (HE : ext_ok E) (HZ : is0 n0 = true).

(** compo.rs:156-170 *)
Lemma compo_gradient_fnop {T} {V : Vec A T} k n s d : biharmonic k = false -> smin k <= n -> st_lens k (sdim k n) s ->
  fnop (fun x y : list T => compo_gradient (A := A) (mk_compo n (sdim k n) (mk_cheb n n) s) x y d) (sdim k n) n.
Proof.
  intros Hb Hn H. apply (fnop_comp (stencil_dot s) (fun x y => cheb_gradient (A := A) (mk_cheb n n) x y d) _ n n).
  - apply (dot_fnop k); auto.
  - apply gradient_fnop. destruct k; cbn in Hn; lia.
  - apply repeat_length.
Qed.
Lemma any_settled P S T b : any_base E P S T b ->
  settled (forward_slice b) (len_phys b) (len_spec b) /\ settled (backward_slice b) (len_spec b) (len_phys b) /\
  settled (to_ortho_slice b) (len_spec b) (len_orth b) /\ settled (from_ortho_slice b) (len_orth b) (len_spec b) /\
  (forall d, settled (fun x y => gradient_slice b x y d) (len_spec b) (len_orth b)).
Proof.
  intros H. destruct H as [T V n b H | T V k n b H | n f H | n f H].
  - apply new_chebyshev_inv in H as [Hn ->]. cbn [r2r_ops_x len_phys len_spec len_orth forward_slice backward_slice to_ortho_slice
      from_ortho_slice gradient_slice cheb_len_phys cheb_len_spec cheb_len_orth c_n c_m].
    split; [|split; [|split; [|split]]].
    + left. apply fnop_cheb_forward; auto.
    + left. apply fnop_cheb_backward; auto.
    + left. apply fnop_copy.
    + left. apply fnop_copy.
    + intros d. destruct (Nat.eq_dec n 2) as [->|]; [destruct d as [|d]|].
      * left. apply gradient_fnop. auto.
      * right; right. intros. apply gradient_UB2; auto; lia.
      * left. apply gradient_fnop. lia.
  - apply new_composite_any in H as (Hn & s & -> & Hs). cbn [r2r_ops_x len_phys len_spec len_orth forward_slice backward_slice to_ortho_slice
      from_ortho_slice gradient_slice].
    unfold compo_len_phys, compo_len_spec, compo_len_orth, cheb_len_spec. cbn [p_n p_m p_ortho c_m].
    set (c := mk_compo n (sdim k n) (mk_cheb n n) s).
    assert (H4 : 2 <= n) by (destruct k; cbn in Hn; lia).
    assert (FF : forall (T' : Type) (V' : Vec A T'), ssolve k <= n \/ (forall u v : list T', length u = n -> length v = sdim k n -> compo_from_ortho (V := V') c u v = Panic)).
    { intros T' V'. destruct (le_lt_dec (ssolve k) n); [left; auto|right]. intros u v Hu Hv. apply (solve_panics k n s u v); auto. }
    split; [|split; [|split; [|split]]].
    + destruct (FF A vec_self) as [K|K]; [left; apply (fnop_compo_forward E HE k); auto|right; left].
      intros x y Hx Hy. unfold compo_forward_x. change (compo_len_orth c) with n. change (p_ortho c) with (mk_cheb n n).
      destruct (fnop_cheb_forward E HE n H4) as (g & Hg). destruct (Hg x (repeat n0 n) Hx (repeat_length _ _)) as [-> Lg]. cbn [bind]. apply K; auto.
    + destruct (biharmonic k) eqn:Hb; [right; right|left; apply (fnop_compo_backward E HE k); auto].
      intros x y Hx Hy. unfold compo_backward_x. change (compo_len_orth c) with n. unfold compo_to_ortho. cbn [c p_st].
      rewrite (dot_UB k n s x (repeat n0 n)); auto. apply repeat_length.
    + destruct (biharmonic k) eqn:Hb; [right; right|left; apply (dot_fnop k); auto].
      intros x y Hx Hy. apply (dot_UB k n s x y); auto.
    + destruct (FF T V) as [K|K]; [left; apply (solve_fnop k); auto|right; left]. auto.
    + intros d. destruct (biharmonic k) eqn:Hb; [right; right|left; apply compo_gradient_fnop; auto].
      intros x y Hx Hy. unfold compo_gradient. change (compo_len_orth c) with n. unfold compo_to_ortho. cbn [c p_st].
      rewrite (dot_UB k n s x (repeat v0 n)); auto. apply repeat_length.
  - unfold r2c_new in H. destruct (Nat.leb_spec 1 n); [|discriminate]. cbn [assertb bind] in H. inversion H; subst f.
    cbn [r2c_ops_x len_phys len_spec len_orth forward_slice backward_slice to_ortho_slice from_ortho_slice gradient_slice].
    unfold r2c_len_phys, r2c_len_spec, r2c_len_orth. cbn [r_n r_m].
    split; [|split; [|split; [|split]]]; left.
    + apply fnop_r2c_forward; auto.
    + apply fnop_r2c_backward; auto.
    + apply fnop_copy.
    + apply fnop_copy.
    + apply fnop_r2c_gradient.
  - unfold c2c_new in H. destruct (Nat.leb_spec 1 n); [|discriminate]. cbn [assertb bind] in H. inversion H; subst f.
    cbn [c2c_ops_x len_phys len_spec len_orth forward_slice backward_slice to_ortho_slice from_ortho_slice gradient_slice].
    unfold c2c_len_phys, c2c_len_spec, c2c_len_orth. cbn [cc_n cc_m].
    split; [|split; [|split; [|split]]]; left.
    + apply fnop_c2c_forward; auto.
    + apply fnop_c2c_backward; auto.
    + apply fnop_copy.
    + apply fnop_copy.
    + apply fnop_c2c_gradient; auto.
Qed.

Lemma any_fnops P S T b : any_usable E P S T b ->
  fnop (forward_slice b) (len_phys b) (len_spec b) /\ fnop (backward_slice b) (len_spec b) (len_phys b) /\
  fnop (to_ortho_slice b) (len_spec b) (len_orth b) /\ fnop (from_ortho_slice b) (len_orth b) (len_spec b).
Proof.
  intros H. destruct H as [T V n b H | T V k n b H Hb Hk | n f H | n f H].
  - apply new_chebyshev_inv in H as [Hn ->]. repeat split.
    apply fnop_cheb_forward; auto. apply fnop_cheb_backward; auto. apply fnop_copy. apply fnop_copy.
  - apply new_composite_any in H as (Hn & s & -> & Hs). repeat split.
    apply (fnop_compo_forward E HE k); auto. apply (fnop_compo_backward E HE k); auto. apply (dot_fnop k); auto. apply (solve_fnop k); auto.
  - unfold r2c_new in H. destruct (Nat.leb_spec 1 n); [|discriminate]. cbn [assertb bind] in H. inversion H; subst f. repeat split.
    apply fnop_r2c_forward; auto. apply fnop_r2c_backward; auto. apply fnop_copy. apply fnop_copy.
  - unfold c2c_new in H. destruct (Nat.leb_spec 1 n); [|discriminate]. cbn [assertb bind] in H. inversion H; subst f. repeat split.
    apply fnop_c2c_forward; auto. apply fnop_c2c_backward; auto. apply fnop_copy. apply fnop_copy.
Qed.
Lemma any_orth P S T b : any_base E P S T b -> len_orth b = len_phys b \/ len_orth b = len_spec b.
Proof.
  intros [].
  - apply new_chebyshev_inv in H as [_ ->]. left. reflexivity.
  - apply new_composite_any in H as (_ & s & -> & _). left. reflexivity.
  - unfold r2c_new in H. destruct (1 <=? n); [|discriminate]. inversion H. right. reflexivity.
  - unfold c2c_new in H. destruct (1 <=? n); [|discriminate]. inversion H. right. reflexivity.
Qed.
(** in the form the lemmas about axes, spaces and pencils want *)
Lemma any_facts P S T b (dP : Dflt P) (dS : Dflt S) (dT : Dflt T) : any_usable E P S T b ->
  linop (V1 := deg dP) (V2 := deg dS) (forward_slice b) (len_phys b) (len_spec b) /\
  linop (V1 := deg dS) (V2 := deg dP) (backward_slice b) (len_spec b) (len_phys b) /\
  linop (V1 := deg dT) (V2 := deg dT) (to_ortho_slice b) (len_spec b) (len_orth b) /\
  linop (V1 := deg dT) (V2 := deg dT) (from_ortho_slice b) (len_orth b) (len_spec b).
Proof. intros H. destruct (any_fnops P S T b H) as (H1 & H2 & H3 & H4). repeat split; apply fnop_linop; auto. Qed.
Lemma any_uniform P S T b (dP : Dflt P) (dS : Dflt S) (dT : Dflt T) : any_base E P S T b ->
  uniform (V1 := deg dP) (V2 := deg dS) (forward_slice b) (len_phys b) (len_spec b) /\
  uniform (V1 := deg dS) (V2 := deg dP) (backward_slice b) (len_spec b) (len_phys b) /\
  uniform (V1 := deg dT) (V2 := deg dT) (to_ortho_slice b) (len_spec b) (len_orth b) /\
  uniform (V1 := deg dT) (V2 := deg dT) (from_ortho_slice b) (len_orth b) (len_spec b) /\
  (forall d, uniform (V1 := deg dT) (V2 := deg dT) (fun x y => gradient_slice b x y d) (len_spec b) (len_orth b)).
Proof. intros H. destruct (any_settled P S T b H) as (H1 & H2 & H3 & H4 & H5). repeat split; intros; apply settled_uniform; auto. Qed.
Lemma any_grad_linop P S T b d (dT : Dflt T) : any_usable E P S T b -> total_gradient b d ->
  linop (V1 := deg dT) (V2 := deg dT) (fun x y => gradient_slice b x y d) (len_spec b) (len_orth b).
Proof.
  intros H Tt. destruct (any_settled P S T b (any_usable_base E P S T b H)) as (_ & _ & _ & _ & U). apply fnop_linop.
  destruct (U d) as [U'|[U'|U']]; auto; exfalso;
   destruct (Tt (repeat dflt (len_spec b)) (repeat dflt (len_orth b))) as [z Hz]; try apply repeat_length;
   rewrite U' in Hz by apply repeat_length; discriminate.
Qed.
End Facts.
