(** Every 1-D slice operation of every base, on slices of the right lengths, is
    a linear function of its input alone (total, old output irrelevant). *)
From Coq Require Import List Arith Lia Bool ZArith Reals Lra.
From Verif Require Import Base Num Linalg LinalgSpec Stencils StencilProofs StencilProofs2 Cheb Compo
  ChebPoly ChebGrad ChebMat ChebDct ChebFacts CompoProofs CompoFacts CompoFacts2 CompoFacts3
  Fourier FourierFacts FourierProofs FourierOps FourierSpec NdArray NdArrayFacts Bases.
Import ListNotations.
Local Open Scope R_scope.

(** ** Pointwise operations on slices *)
Section Lin.
Context {T : Type} {V : Vec R T}.
Definition ladd (x y : list T) : list T := map (fun p => vadd (fst p) (snd p)) (combine x y).
Definition lscal (x : list T) (c : R) : list T := map (fun a => vmul a c) x.
Lemma ladd_length x y : length x = length y -> length (ladd x y) = length x.
Proof. intros. unfold ladd. rewrite map_length, combine_length. lia. Qed.
Lemma lscal_length x c : length (lscal x c) = length x.
Proof. apply map_length. Qed.
Lemma at_ladd x y i : length x = length y -> (i < length x)%nat -> (ladd x y).[i] = vadd x.[i] y.[i].
Proof.
  intros E. unfold ladd, at_. revert y i E. induction x as [|a x IH]; intros [|b y] [|i] E H; cbn in *; try lia; auto.
  apply IH; lia.
Qed.
Lemma at_lscal x c i : (i < length x)%nat -> (lscal x c).[i] = vmul x.[i] c.
Proof.
  intros H. unfold lscal, at_. rewrite (nth_indep _ dflt (vmul dflt c)) by (rewrite map_length; auto).
  apply (map_nth (fun a => vmul a c)).
Qed.
End Lin.

Section Linop.
Context {T1 T2 : Type} {V1 : Vec R T1} {V2 : Vec R T2} {L1 : VecR T1} {L2 : VecR T2}.

(** [f] on slices of lengths l1, l2 always succeeds, with result [g x] of
    length l2 whatever the old output was. *)
Definition computes (f : list T1 -> list T2 -> res (list T2)) (l1 l2 : nat) (g : list T1 -> list T2) : Prop :=
  forall x y, length x = l1 -> length y = l2 -> f x y = Ok (g x) /\ length (g x) = l2.
Definition linear_on (l1 : nat) (g : list T1 -> list T2) : Prop :=
  (forall x x', length x = l1 -> length x' = l1 -> g (ladd x x') = ladd (g x) (g x')) /\
  (forall x c, length x = l1 -> g (lscal x c) = lscal (g x) c).
Definition linop f l1 l2 : Prop := exists g, computes f l1 l2 g /\ linear_on l1 g.

Lemma linop_formula f l1 l2 (F : list T1 -> nat -> T2) :
  (forall x y, length x = l1 -> length y = l2 -> wp (f x y) (fun z => length z = l2 /\ forall i, (i < l2)%nat -> z.[i] = F x i)) ->
  (forall x x' i, length x = l1 -> length x' = l1 -> (i < l2)%nat -> F (ladd x x') i = vadd (F x i) (F x' i)) ->
  (forall x c i, length x = l1 -> (i < l2)%nat -> F (lscal x c) i = vmul (F x i) c) -> linop f l1 l2.
Proof.
  intros HF HA HS. exists (fun x => map (F x) (seq 0 l2)).
  assert (LG : forall x, length (map (F x) (seq 0 l2)) = l2) by (intros; rewrite map_length, seq_length; auto).
  assert (AG : forall x i, (i < l2)%nat -> (map (F x) (seq 0 l2)).[i] = F x i) by (intros; apply at_map_seq; auto).
  split.
  - intros x y Hx Hy. split; auto. pose proof (HF x y Hx Hy) as W. apply wp_Ok in W as (z & -> & Lz & Ez). f_equal.
    apply list_ext. rewrite LG; auto. intros i Hi. rewrite AG, Ez by lia. auto.
  - split.
    + intros x x' Hx Hx'. apply list_ext. rewrite ladd_length, !LG; auto. rewrite !LG; auto.
      intros i Hi. rewrite LG in Hi. rewrite at_ladd by (rewrite !LG; auto). rewrite !AG by auto. auto.
    + intros x c Hx. apply list_ext. rewrite lscal_length, !LG; auto.
      intros i Hi. rewrite LG in Hi. rewrite at_lscal by (rewrite !LG; auto). rewrite !AG by auto. auto.
Qed.

Lemma linop_rel f l1 l2 (Q : list T1 -> list T2 -> Prop) :
  (forall x y, length x = l1 -> length y = l2 -> wp (f x y) (Q x)) ->
  (forall x z, length x = l1 -> Q x z -> length z = l2) ->
  (forall x z z', length x = l1 -> Q x z -> Q x z' -> z = z') ->
  (forall x z x' z', length x = l1 -> length x' = l1 -> Q x z -> Q x' z' -> Q (ladd x x') (ladd z z')) ->
  (forall x z c, length x = l1 -> Q x z -> Q (lscal x c) (lscal z c)) -> linop f l1 l2.
Proof.
  intros HQ QL QF QA QS.
  set (g := fun x => match f x (repeat v0 l2) with Ok z => z | _ => [] end).
  assert (G : forall x, length x = l1 -> Q x (g x)).
  { intros x Hx. unfold g. pose proof (HQ x (repeat v0 l2) Hx (repeat_length _ _)) as W. apply wp_Ok in W as (z & -> & Hz). auto. }
  exists g. split.
  - intros x y Hx Hy. pose proof (HQ x y Hx Hy) as W. apply wp_Ok in W as (z & -> & Hz). split.
    f_equal. eapply QF; eauto. eapply QL; eauto.
  - split.
    + intros x x' Hx Hx'. apply (QF (ladd x x')). rewrite ladd_length; congruence.
      apply G. rewrite ladd_length; congruence. apply QA; auto.
    + intros x c Hx. apply (QF (lscal x c)). rewrite lscal_length; auto.
      apply G. rewrite lscal_length; auto. apply QS; auto.
Qed.
End Linop.

Lemma linop_comp {T1 T2 T3} {V1 : Vec R T1} {V2 : Vec R T2} {V3 : Vec R T3} (f1 : list T1 -> list T2 -> res (list T2)) (f2 : list T2 -> list T3 -> res (list T3)) l1 l2 l3 m0 :
  linop f1 l1 l2 -> linop f2 l2 l3 -> length m0 = l2 ->
  linop (fun x y => let* m := f1 x m0 in f2 m y) l1 l3.
Proof.
  intros (g1 & C1 & A1 & S1) (g2 & C2 & A2 & S2) Lm. exists (fun x => g2 (g1 x)). split.
  - intros x y Hx Hy. destruct (C1 x m0 Hx Lm) as [-> L]. cbn [bind]. apply C2; auto.
  - split.
    + intros x x' Hx Hx'. rewrite A1 by auto. apply A2; apply (C1 _ m0); auto.
    + intros x c Hx. rewrite S1 by auto. apply S2; apply (C1 _ m0); auto.
Qed.

Lemma linop_ext {T1 T2} {V1 : Vec R T1} {V2 : Vec R T2} (f f' : list T1 -> list T2 -> res (list T2)) l1 l2 :
  (forall x y, length x = l1 -> length y = l2 -> f x y = f' x y) -> linop f l1 l2 -> linop f' l1 l2.
Proof. intros E (g & C & A). exists g. split; auto. intros x y Hx Hy. rewrite <- E by auto. apply C; auto. Qed.

(** ** Chebyshev *)
Section ChebT.
Context {T : Type} {V : Vec R T} {L : VecR T}.

Lemma linop_copy n : linop (fun x y : list T => Ok (zip_write y x)) n n.
Proof.
  exists (fun x => x). split. intros x y Hx Hy. rewrite zip_write_full by congruence. auto. split; auto.
Qed.

Lemma lproj_add p (x y : list T) k n : length x = n -> length y = n -> vproj p (ladd x y).[k] = vproj p x.[k] + vproj p y.[k].
Proof.
  intros Hx Hy. destruct (Nat.lt_ge_cases k n).
  - rewrite at_ladd by lia. apply vproj_add.
  - rewrite !at_over by (rewrite ?ladd_length; lia). change (@dflt T dflt_vec) with (v0 (A := R) (T := T)). rewrite vproj_0. ring.
Qed.
Lemma lproj_scal p (x : list T) c k : vproj p (lscal x c).[k] = vproj p x.[k] * c.
Proof.
  destruct (Nat.lt_ge_cases k (length x)).
  - rewrite at_lscal by lia. apply vproj_mul.
  - rewrite !at_over by (rewrite ?lscal_length; lia). change (@dflt T dflt_vec) with (v0 (A := R) (T := T)). rewrite vproj_0. ring.
Qed.

Lemma linop_matvec (f : list T -> list T -> res (list T)) n m M :
  (forall v u, length v = m -> length u = n -> wp (f v u) (is_matvec n m M v)) -> linop f m n.
Proof.
  intros H. apply (linop_formula f m n (fun v i => vsum m (fun j => vmul v.[j] (M i j)))).
  - intros x y Hx Hy. apply H; auto.
  - intros x x' i Hx Hx' Hi. vcoord. rewrite <- rsum_add. apply rsum_ext. intros k Hk.
    rewrite !vproj_mul, (lproj_add p x x' k m) by auto. ring.
  - intros x c i Hx Hi. vcoord. rewrite <- rsum_scal_r. apply rsum_ext. intros k Hk.
    rewrite !vproj_mul, lproj_scal. ring.
Qed.

Lemma linop_normal (f : list T -> list T -> res (list T)) k n : (sdim k n + 2 * sstep k)%nat = n ->
  (forall u v, length u = n -> length v = sdim k n -> wp (f u v) (normal_eq n (sdim k n) (smat k) u)) -> linop f n (sdim k n).
Proof.
  intros En H. apply (linop_rel f n (sdim k n) (normal_eq n (sdim k n) (smat k))); auto.
  - intros x z _ [Lz _]. auto.
  - intros x z z' _ Hz Hz'. pose proof (normal_eq_unique k (sdim k n) x z z') as U. rewrite En in U. auto.
  - intros x z x' z' Hx Hx' [Lz Ez] [Lz' Ez']. split. rewrite ladd_length; lia. intros j Hj.
    specialize (Ez j Hj). specialize (Ez' j Hj). apply vext. intros p.
    apply (f_equal (vproj p)) in Ez, Ez'. rewrite !vproj_vsum in *.
    transitivity (rsum (sdim k n) (fun k0 => vproj p (vmul z.[k0] (rsum n (fun r => smat k r j * smat k r k0)))) +
      rsum (sdim k n) (fun k0 => vproj p (vmul z'.[k0] (rsum n (fun r => smat k r j * smat k r k0))))).
    + rewrite <- rsum_add. apply rsum_ext. intros i Hi. rewrite !vproj_mul, (lproj_add p z z' i (sdim k n)) by auto. ring.
    + rewrite Ez, Ez'. rewrite <- rsum_add. apply rsum_ext. intros i Hi.
      rewrite !vproj_mul, (lproj_add p x x' i n) by auto. ring.
  - intros x z c Hx [Lz Ez]. split. rewrite lscal_length; lia. intros j Hj.
    specialize (Ez j Hj). apply vext. intros p. apply (f_equal (vproj p)) in Ez. rewrite !vproj_vsum in *.
    transitivity (rsum (sdim k n) (fun k0 => vproj p (vmul z.[k0] (rsum n (fun r => smat k r j * smat k r k0)))) * c).
    + rewrite <- rsum_scal_r. apply rsum_ext. intros i Hi. rewrite !vproj_mul, lproj_scal. ring.
    + rewrite Ez. rewrite <- rsum_scal_r. apply rsum_ext. intros i Hi. rewrite !vproj_mul, lproj_scal. ring.
Qed.

(** one differentiation *)
Lemma linop_grad_once m : (3 <= m)%nat -> linop (fun x (_ : list T) => grad_once m x) m m.
Proof.
  intros Hm. apply (linop_rel _ m m (fun x z => length z = m /\ forall p, grad_rec (coord p x) (coord p z))).
  - intros x y Hx Hy. apply grad_once_ok; auto.
  - tauto.
  - intros x z z' Hx [Lz Hz] [Lz' Hz']. apply list_ext. congruence. intros i Hi. apply vext. intros p.
    apply (grad_rec_unique m (coord p x) (coord p z) (coord p z')); auto; intros; apply coord_over; lia.
  - intros x z x' z' Hx Hx' [Lz Hz] [Lz' Hz']. split. rewrite ladd_length; lia. intros p.
    destruct (Hz p) as [A B], (Hz' p) as [A' B'].
    assert (X : forall k, coord p (ladd x x') k = coord p x k + coord p x' k) by (intros; apply (lproj_add p x x' k m); auto).
    assert (Z : forall k, coord p (ladd z z') k = coord p z k + coord p z' k) by (intros; apply (lproj_add p z z' k m); auto).
    split. rewrite X, !Z. lra. intros k Hk. rewrite X, !Z, B, B' by auto. ring.
  - intros x z c Hx [Lz Hz]. split. rewrite lscal_length; lia. intros p.
    destruct (Hz p) as [A B].
    assert (X : forall k, coord p (lscal x c) k = coord p x k * c) by (intros; apply lproj_scal).
    assert (Z : forall k, coord p (lscal z c) k = coord p z k * c) by (intros; apply lproj_scal).
    split. rewrite X, !Z. nra. intros k Hk. rewrite X, !Z, B by auto. ring.
Qed.

Lemma iter_r {X} (g : X -> X) e x : Nat.iter (S e) g x = Nat.iter e g (g x).
Proof. induction e as [|e IH]; [reflexivity|]. change (Nat.iter (S (S e)) g x) with (g (Nat.iter (S e) g x)). rewrite IH. reflexivity. Qed.
Lemma linop_iter (step : list T -> res (list T)) m d : linop (fun x (_ : list T) => step x) m m ->
  linop (fun x y => for_each (range 0 d) (fun _ out => step out) (zip_write y x)) m m.
Proof.
  intros (g & C & LA & LS).
  assert (K : forall d lo x, length x = m -> for_each (seq lo d) (fun _ out => step out) x = Ok (Nat.iter d g x) /\ length (Nat.iter d g x) = m).
  { intros e. induction e as [|e IH] using nat_ind; intros lo x Hx; cbn [seq for_each]. auto.
    destruct (C x (repeat v0 m) Hx (repeat_length _ _)) as [-> Lg]. cbn [bind].
    destruct (IH (S lo) (g x) Lg) as [E1 E2]. rewrite iter_r. auto. }
  exists (fun x => Nat.iter d g x). split; [|split].
  - intros x y Hx Hy. rewrite zip_write_full by congruence. unfold range. rewrite Nat.sub_0_r. apply K; auto.
  - intros x x' Hx Hx'. clear -K LA Hx Hx'. induction d as [|e IH]; [reflexivity|].
    change (g (Nat.iter e g (ladd x x')) = ladd (g (Nat.iter e g x)) (g (Nat.iter e g x'))). rewrite IH. apply LA; apply (K e 0%nat); auto.
  - intros x c Hx. clear -K LS Hx. induction d as [|e IH]; [reflexivity|].
    change (g (Nat.iter e g (lscal x c)) = lscal (g (Nat.iter e g x)) c). rewrite IH. apply LS; apply (K e 0%nat); auto.
Qed.
End ChebT.

Section ChebOps.
Context {T : Type} {V : Vec R T} {L : VecR T}.
Lemma linop_cheb_gradient n d : (3 <= n)%nat -> linop (fun x y : list T => cheb_gradient (mk_cheb n n) x y d) n n.
Proof.
  intros Hn. eapply linop_ext; [|apply (linop_iter (grad_once n) n d), linop_grad_once; auto].
  intros x y Hx Hy. cbv beta. unfold cheb_gradient. cbn [c_m]. rewrite Hy, Nat.eqb_refl. reflexivity.
Qed.
Lemma linop_compo_to_ortho k n c : compo_new k n = Ok c -> biharmonic k = false ->
  linop (fun x y : list T => compo_to_ortho c x y) (sdim k n) n.
Proof. intros H Hb. apply (linop_matvec _ _ _ (smat k)). intros. apply (to_ortho_ok k n c); auto. Qed.
Lemma linop_compo_from_ortho k n c : compo_new k n = Ok c -> (ssolve k <= n)%nat ->
  linop (fun x y : list T => compo_from_ortho c x y) n (sdim k n).
Proof.
  intros H Hs. apply (linop_normal _ k n). apply compo_new_inv in H. symmetry; apply sdim_eq; tauto.
  intros. apply (from_ortho_ok k n c); auto.
Qed.
Lemma linop_compo_gradient k n c d : compo_new k n = Ok c -> biharmonic k = false ->
  linop (fun x y : list T => compo_gradient c x y d) (sdim k n) n.
Proof.
  intros H Hb. destruct (new_ortho k n c H) as (Eo & El & H4 & Hc). unfold compo_gradient. rewrite El, Eo.
  apply (linop_comp (fun x y => compo_to_ortho c x y) (fun x y => cheb_gradient (mk_cheb n n) x y d) (sdim k n) n n).
  apply linop_compo_to_ortho; auto. apply linop_cheb_gradient; lia. apply repeat_length.
Qed.
End ChebOps.

(** ** Transforms of the Chebyshev bases *)
Lemma at_laddR (x x' : list R) k n : length x = n -> length x' = n -> (ladd x x').[k] = x.[k] + x'.[k].
Proof. intros. exact (lproj_add (T := R) (V := vec_self) tt x x' k n H H0). Qed.
Lemma at_lscalR (x : list R) c k : (lscal x c).[k] = x.[k] * c.
Proof. exact (lproj_scal (T := R) (V := vec_self) tt x c k). Qed.

Lemma linop_cheb_forward n : (2 <= n)%nat -> linop (cheb_forward (mk_cheb n n)) n n.
Proof.
  intros Hn. eapply linop_formula.
  - intros x y Hx Hy. apply cheb_forward_ok; auto.
  - intros x x' i Hx Hx' Hi. cbn [vadd vec_self nadd num_R]. rewrite <- Rmult_plus_distr_l, <- rsum_add. f_equal.
    apply rsum_ext. intros j Hj. rewrite (at_laddR x x' _ n) by auto. ring.
  - intros x c i Hx Hi. cbn [vmul vec_self nmul num_R]. rewrite (Rmult_assoc _ (rsum _ _) c), <- rsum_scal_r. f_equal.
    apply rsum_ext. intros j Hj. rewrite at_lscalR. ring.
Qed.
Lemma linop_cheb_backward n : (2 <= n)%nat -> linop (cheb_backward (mk_cheb n n)) n n.
Proof.
  intros Hn. eapply linop_formula.
  - intros x y Hx Hy. apply cheb_backward_ok; auto.
  - intros x x' i Hx Hx' Hi. cbn [vadd vec_self nadd num_R]. rewrite <- rsum_add.
    apply rsum_ext. intros j Hj. rewrite (at_laddR x x' _ n) by auto. ring.
  - intros x c i Hx Hi. cbn [vmul vec_self nmul num_R]. rewrite <- rsum_scal_r.
    apply rsum_ext. intros j Hj. rewrite at_lscalR. ring.
Qed.
Lemma linop_compo_forward k n c : compo_new k n = Ok c -> (ssolve k <= n)%nat ->
  linop (compo_forward (A := R) c) n (sdim k n).
Proof.
  intros H Hs. destruct (new_ortho k n c H) as (Eo & El & H4 & Hc). unfold compo_forward. rewrite El, Eo.
  apply (linop_comp (cheb_forward (mk_cheb n n)) (fun x y => compo_from_ortho (V := vec_self) c x y) n n (sdim k n)).
  apply linop_cheb_forward; lia. apply linop_compo_from_ortho; auto. apply repeat_length.
Qed.
Lemma linop_compo_backward k n c : compo_new k n = Ok c -> biharmonic k = false ->
  linop (compo_backward (A := R) c) (sdim k n) n.
Proof.
  intros H Hs. destruct (new_ortho k n c H) as (Eo & El & H4 & Hc). unfold compo_backward. rewrite El, Eo.
  apply (linop_comp (fun x y => compo_to_ortho (V := vec_self) c x y) (cheb_backward (mk_cheb n n)) (sdim k n) n n).
  apply linop_compo_to_ortho; auto. apply linop_cheb_backward; lia. apply repeat_length.
Qed.

(** ** Fourier *)
Notation CR := (cplx R).
Lemma at_laddC (x x' : list CR) k n : length x = n -> length x' = n -> (ladd x x').[k] = cadd x.[k] x'.[k].
Proof.
  intros. apply ceq.
  exact (lproj_add (T := CR) (V := vec_cplx) true x x' k n H H0). exact (lproj_add (T := CR) (V := vec_cplx) false x x' k n H H0).
Qed.
Lemma at_lscalC (x : list CR) c k : (lscal x c).[k] = cmul x.[k] (c, 0).
Proof.
  apply ceq.
  etransitivity. exact (lproj_scal (T := CR) (V := vec_cplx) true x c k). cbn. ring.
  etransitivity. exact (lproj_scal (T := CR) (V := vec_cplx) false x c k). cbn. ring.
Qed.
Lemma vaddC (z w : CR) : vadd z w = cadd z w.
Proof. reflexivity. Qed.
Lemma vmulC (z : CR) (c : R) : vmul z c = cmul z (c, 0).
Proof. apply ceq; cbn; ring. Qed.

Lemma linop_c2c_forward n : linop (c2c_forward (A := R) (mk_c2c n n)) n n.
Proof.
  apply (linop_formula _ _ _ (fun x i => csum n (fun j => cmul x.[j] (E n (sgn false (Z.of_nat j * Z.of_nat i)))))).
  - intros x y Hx Hy. rewrite c2c_forward_val by auto. cbn [wp]. split. unfold fft. rewrite map_length, seq_length; auto.
    intros i Hi. etransitivity; [apply fft_at; auto|]. reflexivity.
  - intros x x' i Hx Hx' Hi. rewrite vaddC. rewrite <- csum_add. apply csum_ext. intros j Hj.
    rewrite (at_laddC x x' j n) by auto. ring.
  - intros x c i Hx Hi. rewrite vmulC, <- csum_scal_r. apply csum_ext. intros j Hj. rewrite at_lscalC. ring.
Qed.
Lemma linop_c2c_backward n : linop (c2c_backward (A := R) (mk_c2c n n)) n n.
Proof.
  apply (linop_formula _ _ _ (fun x i => csum n (fun j => cmul (sc n x.[j]) (E n (sgn true (Z.of_nat j * Z.of_nat i)))))).
  - intros x y Hx Hy. rewrite c2c_backward_val by auto. cbn [wp]. split. unfold fft. rewrite map_length, seq_length; auto.
    intros i Hi. etransitivity; [apply fft_at; auto|]. apply csum_ext. intros j Hj. f_equal. apply at_map. unfold cplx in *; lia.
  - intros x x' i Hx Hx' Hi. rewrite vaddC. rewrite <- csum_add. apply csum_ext. intros j Hj.
    rewrite (at_laddC x x' j n) by auto. unfold sc. ring.
  - intros x c i Hx Hi. rewrite vmulC, <- csum_scal_r. apply csum_ext. intros j Hj. rewrite at_lscalC. unfold sc. ring.
Qed.
Lemma linop_diag f n (w : nat -> CR) :
  (forall x y, length x = n -> length y = n -> wp (f x y) (fun z => length z = n /\ forall k, (k < n)%nat -> z.[k] = cmul x.[k] (w k))) ->
  linop f n n.
Proof.
  intros H. apply (linop_formula _ _ _ (fun x k => cmul x.[k] (w k))); auto.
  - intros x x' i Hx Hx' Hi. rewrite (at_laddC x x' i n) by auto. rewrite vaddC. ring.
  - intros x c i Hx Hi. rewrite vmulC, at_lscalC. ring.
Qed.
Lemma linop_c2c_gradient n d : (1 <= n)%nat -> linop (fun x y => c2c_gradient (A := R) (mk_c2c n n) x y d) n n.
Proof. intros Hn. eapply linop_diag. intros x y Hx Hy. apply c2c_gradient_val; auto. Qed.
Lemma linop_r2c_gradient n d : linop (fun x y => r2c_gradient (A := R) (mk_r2c n (n / 2 + 1)) x y d) (n / 2 + 1) (n / 2 + 1).
Proof. eapply linop_diag. intros x y Hx Hy. apply r2c_gradient_val; auto. Qed.

Lemma linop_r2c_forward n : (1 <= n)%nat -> linop (r2c_forward (A := R) (mk_r2c n (n / 2 + 1))) n (n / 2 + 1).
Proof.
  intros Hn. assert (n / 2 < n)%nat by (apply Nat.div_lt; lia).
  apply (linop_formula _ _ _ (fun x i => csum n (fun j => cmul (x.[j], 0) (E n (sgn false (Z.of_nat j * Z.of_nat i)))))).
  - intros x y Hx Hy. rewrite r2c_forward_val by auto. cbn [wp]. split.
    rewrite firstn_length. unfold fft. rewrite map_length, seq_length. lia.
    intros i Hi. etransitivity; [apply at_firstn; auto|]. etransitivity; [apply fft_at; lia|].
    apply csum_ext. intros j Hj. f_equal. apply (at_map (fun a : R => (a, 0) : CR)). lia.
  - intros x x' i Hx Hx' Hi. rewrite vaddC. rewrite <- csum_add. apply csum_ext. intros j Hj.
    rewrite (at_laddR x x' j n) by auto. replace ((x.[j] + x'.[j], 0) : CR) with (cadd (x.[j], 0) (x'.[j], 0) : CR) by (apply ceq; cbn; ring). ring.
  - intros x c i Hx Hi. rewrite vmulC, <- csum_scal_r. apply csum_ext. intros j Hj. rewrite at_lscalR.
    replace ((x.[j] * c, 0) : CR) with (cmul (x.[j], 0) (c, 0) : CR) by (apply ceq; cbn; ring). ring.
Qed.

Lemma realed_add n k x y : realed n k (cadd x y) = cadd (realed n k x) (realed n k y).
Proof. unfold realed. destruct (selfc n k); apply ceq; cbn; ring. Qed.
Lemma realed_scal n k x c : realed n k (cmul x (c, 0)) = cmul (realed n k x) (c, 0).
Proof. unfold realed. destruct (selfc n k); apply ceq; cbn; ring. Qed.

Lemma linop_r2c_backward n : (1 <= n)%nat -> linop (r2c_backward (A := R) (mk_r2c n (n / 2 + 1))) (n / 2 + 1) n.
Proof.
  intros Hn. set (m := (n / 2 + 1)%nat).
  set (H := fun (x : list CR) j => if (j <=? n / 2)%nat then sc n (realed n j x.[j]) else conj (sc n (realed n (n - j) x.[n - j])) : CR).
  assert (HA : forall x x' j, length x = m -> length x' = m -> H (ladd x x') j = cadd (H x j) (H x' j)).
  { intros x x' j Hx Hx'. unfold H. rewrite !(at_laddC x x' _ m) by auto. rewrite !realed_add. unfold sc.
    destruct (j <=? n / 2)%nat. ring. apply ceq; cbn; ring. }
  assert (HS : forall x c j, H (lscal x c) j = cmul (H x j) (c, 0)).
  { intros x c j. unfold H. rewrite !at_lscalC, !realed_scal. unfold sc. destruct (j <=? n / 2)%nat. ring. apply ceq; cbn; ring. }
  apply (linop_formula _ _ _ (fun x i => fst (csum n (fun j => cmul (H x j) (E n (sgn true (Z.of_nat j * Z.of_nat i))))))).
  - intros x y Hx Hy. rewrite r2c_backward_val by auto. cbn [wp]. split.
    rewrite map_length. unfold fft. rewrite map_length, seq_length. lia.
    intros i Hi. etransitivity; [apply (at_map (@fst R R))|].
    { unfold fft. rewrite map_length, seq_length; auto. }
    f_equal. etransitivity; [apply fft_at; lia|].
    apply csum_ext. intros j Hj. f_equal. rewrite hermitian_at by auto. unfold H.
    destruct (Nat.leb_spec j (n / 2)). apply rin_at; auto. f_equal. apply rin_at.
    pose proof (Nat.div_mod n 2). pose proof (Nat.mod_upper_bound n 2). lia.
  - intros x x' i Hx Hx' Hi. cbn [vadd vec_self nadd num_R].
    rewrite (csum_ext n _ (fun j => cadd (cmul (H x j) (E n (sgn true (Z.of_nat j * Z.of_nat i)))) (cmul (H x' j) (E n (sgn true (Z.of_nat j * Z.of_nat i)))))).
    rewrite csum_add. reflexivity. intros j Hj. rewrite HA by auto. ring.
  - intros x c i Hx Hi. cbn [vmul vec_self nmul num_R].
    rewrite (csum_ext n _ (fun j => cmul (cmul (H x j) (E n (sgn true (Z.of_nat j * Z.of_nat i)))) (c, 0))).
    rewrite csum_scal_r. cbn. ring. intros j Hj. rewrite HS. ring.
Qed.
