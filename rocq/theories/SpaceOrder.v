(** The admissible tuples of bases (the macro instantiations of space1.rs,
    space2.rs, space3.rs) and the matrix form of their spectral operations. *)
From Coq Require Import List Arith Lia Bool ZArith Reals Lra Permutation Ring.
From Verif Require Import Base Num Linalg LinalgSpec Stencils StencilProofs StencilProofs2 Cheb Compo
  ChebPoly ChebGrad ChebMat ChebDct ChebFacts CompoProofs CompoFacts CompoFacts2 CompoFacts3
  Fourier FourierFacts FourierProofs FourierOps FourierSpec NdArray NdArrayFacts AxisFacts Bases BaseLin LibBase AxisProps
  PropAxis SpaceFacts SpaceBases SpaceStages MatOp.
Import ListNotations.
Local Open Scope nat_scope.

(** Usable values of [BaseR2r]. *)
Inductive usable_r2r : base_r2r R -> Prop :=
| ur_chebyshev n b : new_chebyshev n = Ok b -> usable_r2r b
| ur_composite k n b : new_composite k n = Ok b -> biharmonic k = false -> ssolve k <= n -> usable_r2r b.
Lemma usable_r2r_base T (V : Vec R T) (L : VecR T) b : usable_r2r b -> usable R R T vec_self vec_self V (r2r_ops b).
Proof. intros [n b' H|k n b' H Hb Hs]; [eapply us_chebyshev|eapply us_composite]; eauto. Qed.

(** space2.rs:449-452 *)
Inductive admissible2 : forall (P I S T : Type), Vec R P -> Vec R I -> Vec R S -> Vec R T -> base_ops I S T -> base_ops P I T -> Prop :=
| adm_r2r_r2r b0 b1 : usable_r2r b0 -> usable_r2r b1 ->
    admissible2 R R R R vec_self vec_self vec_self vec_self (r2r_ops b0) (r2r_ops b1)
| adm_r2c_r2r n f b1 : r2c_new n = Ok f -> usable_r2r b1 ->
    admissible2 R R (cplx R) (cplx R) vec_self vec_self vec_cplx vec_cplx (r2c_ops f) (r2r_ops b1)
| adm_c2c_r2c n f m g : c2c_new n = Ok f -> r2c_new m = Ok g ->
    admissible2 R (cplx R) (cplx R) (cplx R) vec_self vec_cplx vec_cplx vec_cplx (c2c_ops f) (r2c_ops g)
| adm_c2c_c2c n f m g : c2c_new n = Ok f -> c2c_new m = Ok g ->
    admissible2 (cplx R) (cplx R) (cplx R) (cplx R) vec_cplx vec_cplx vec_cplx vec_cplx (c2c_ops f) (c2c_ops g).
(** space3.rs:508-512 *)
Inductive admissible3 : forall (P I J S T : Type), Vec R P -> Vec R I -> Vec R J -> Vec R S -> Vec R T ->
    base_ops J S T -> base_ops I J T -> base_ops P I T -> Prop :=
| adm3_rrr b0 b1 b2 : usable_r2r b0 -> usable_r2r b1 -> usable_r2r b2 ->
    admissible3 R R R R R vec_self vec_self vec_self vec_self vec_self (r2r_ops b0) (r2r_ops b1) (r2r_ops b2)
| adm3_frr n f b1 b2 : r2c_new n = Ok f -> usable_r2r b1 -> usable_r2r b2 ->
    admissible3 R R R (cplx R) (cplx R) vec_self vec_self vec_self vec_cplx vec_cplx (r2c_ops f) (r2r_ops b1) (r2r_ops b2)
| adm3_cfr n f m g b2 : c2c_new n = Ok f -> r2c_new m = Ok g -> usable_r2r b2 ->
    admissible3 R R (cplx R) (cplx R) (cplx R) vec_self vec_self vec_cplx vec_cplx vec_cplx (c2c_ops f) (r2c_ops g) (r2r_ops b2)
| adm3_ccf n f m g p h : c2c_new n = Ok f -> c2c_new m = Ok g -> r2c_new p = Ok h ->
    admissible3 R (cplx R) (cplx R) (cplx R) (cplx R) vec_self vec_cplx vec_cplx vec_cplx vec_cplx (c2c_ops f) (c2c_ops g) (r2c_ops h)
| adm3_ccc n f m g p h : c2c_new n = Ok f -> c2c_new m = Ok g -> c2c_new p = Ok h ->
    admissible3 (cplx R) (cplx R) (cplx R) (cplx R) (cplx R) vec_cplx vec_cplx vec_cplx vec_cplx vec_cplx (c2c_ops f) (c2c_ops g) (c2c_ops h).

Ltac usb := first [apply usable_r2r_base; [exact _|assumption] | eapply us_fourier_r2c; eassumption | eapply us_fourier_c2c; eassumption].
Lemma admissible2_usable P I S T VP VI VS VT b0 b1 : admissible2 P I S T VP VI VS VT b0 b1 ->
  usable I S T VI VS VT b0 /\ usable P I T VP VI VT b1.
Proof. intros []; split; usb. Qed.
Lemma admissible3_usable P I J S T VP VI VJ VS VT b0 b1 b2 : admissible3 P I J S T VP VI VJ VS VT b0 b1 b2 ->
  usable J S T VJ VS VT b0 /\ usable I J T VI VJ VT b1 /\ usable P I T VP VI VT b2.
Proof. intros []; repeat split; usb. Qed.

Lemma rt_r2r {T} {V : Vec R T} b : usable_r2r b -> spectral_roundtrip (r2r_ops (T := T) b).
Proof. intros [n b' H|k n b' H Hb Hs]. apply (rt_chebyshev n b' H). apply (rt_composite k n b' H Hb Hs). Qed.

(** One axis' base has forward after backward = id, or the earlier ones have
    backward after forward = id. *)
Lemma admissible2_rt P I S T VP VI VS VT b0 b1 : admissible2 P I S T VP VI VS VT b0 b1 ->
  spectral_roundtrip b1 \/ physical_roundtrip b0.
Proof.
  intros [c0 c1 H0 H1|n f c1 H0 H1|n f m g H0 H1|n f m g H0 H1].
  - left. apply rt_r2r; auto.
  - left. apply rt_r2r; auto.
  - right. eapply rt_c2c; eauto.
  - right. eapply rt_c2c; eauto.
Qed.
Lemma admissible3_rt P I J S T VP VI VJ VS VT b0 b1 b2 : admissible3 P I J S T VP VI VJ VS VT b0 b1 b2 ->
  (spectral_roundtrip b1 /\ spectral_roundtrip b2) \/ (physical_roundtrip b0 /\ spectral_roundtrip b2) \/ (physical_roundtrip b0 /\ physical_roundtrip b1).
Proof.
  intros [c0 c1 c2 H0 H1 H2|n f c1 c2 H0 H1 H2|n f m g c2 H0 H1 H2|n f m g p h H0 H1 H2|n f m g p h H0 H1 H2].
  - left. split; apply rt_r2r; auto.
  - left. split; apply rt_r2r; auto.
  - right. left. split. eapply rt_c2c; eauto. apply rt_r2r; auto.
  - right. right. split; eapply rt_c2c; eauto.
  - right. right. split; eapply rt_c2c; eauto.
Qed.

(** ** Matrix form *)
Section OpsMat.
Context {P S T : Type} {dT : Dflt T} (rO : T) (radd rmul : T -> T -> T).
Definition ops_mat (b : base_ops P S T) : Prop :=
  matop rO radd rmul (to_ortho_slice b) (len_spec b) (len_orth b) /\
  matop rO radd rmul (from_ortho_slice b) (len_orth b) (len_spec b) /\
  (forall d, total_gradient b d -> matop rO radd rmul (fun x y => gradient_slice b x y d) (len_spec b) (len_orth b)).
End OpsMat.

Definition ops_rmat {P S T} {V : Vec R T} (b : base_ops P S T) : Prop :=
  rmatop (to_ortho_slice b) (len_spec b) (len_orth b) /\ rmatop (from_ortho_slice b) (len_orth b) (len_spec b) /\
  (forall d, total_gradient b d -> rmatop (fun x y => gradient_slice b x y d) (len_spec b) (len_orth b)).

Lemma r2r_rmat T (V : Vec R T) (L : VecR T) b : usable_r2r b -> ops_rmat (r2r_ops (T := T) b).
Proof.
  intros [n b' H|k n b' H Hb Hs].
  - apply new_chebyshev_inv in H as [Hn ->]. split; [|split].
    + apply rmatop_copy.
    + apply rmatop_copy.
    + intros d Tt. cbn [r2r_ops gradient_slice len_spec len_orth cheb_len_spec cheb_len_orth c_m].
      destruct (Nat.eq_dec n 2) as [->|]; [|apply rmatop_cheb_gradient; lia].
      destruct d as [|d].
      * eapply rmatop_ext; [|apply (rmatop_copy 2)]. intros x y Hx Hy. cbv beta. unfold cheb_gradient. cbn [c_m]. rewrite Hy. reflexivity.
      * exfalso. destruct (Tt (repeat v0 2) (repeat v0 2)) as [z Hz]; try apply repeat_length.
        cbn [r2r_ops gradient_slice] in Hz. rewrite cheb_gradient_small in Hz; try discriminate; auto; lia.
  - apply new_composite_inv in H as (c & Hc & ->).
    pose proof (len_spec_eq k n c Hc) as Es. destruct (new_ortho k n c Hc) as (Eo & El & H4 & Hc').
    unfold ops_rmat. cbn [r2r_ops len_spec len_orth to_ortho_slice from_ortho_slice gradient_slice]. rewrite Es, El. split; [|split].
    + apply rmatop_to_ortho; auto.
    + apply rmatop_from_ortho; auto.
    + intros d _. apply rmatop_compo_gradient; auto.
Qed.
Lemma r2r_mat_R b : usable_r2r b -> ops_mat 0%R Rplus Rmult (r2r_ops (T := R) b).
Proof.
  intros H. destruct (r2r_rmat R vec_self _ b H) as (A & B & C). split; [|split]; intros; apply rmatop_matop_R; auto.
Qed.
Lemma r2r_mat_C b : usable_r2r b -> ops_mat (c0 (A := R)) cadd cmul (r2r_ops (T := cplx R) b).
Proof.
  intros H. destruct (r2r_rmat (cplx R) vec_cplx _ b H) as (A & B & C). split; [|split]; intros; apply rmatop_matop_C; auto.
Qed.
Lemma r2c_mat n f : r2c_new n = Ok f -> ops_mat (c0 (A := R)) cadd cmul (r2c_ops (A := R) f).
Proof.
  intros H. apply r2c_new_inv in H as [Hn ->]. split; [|split]; intros.
  - apply rmatop_matop_C, rmatop_copy.
  - apply rmatop_matop_C, rmatop_copy.
  - apply matop_C_r2c_gradient.
Qed.
Lemma c2c_mat n f : c2c_new n = Ok f -> ops_mat (c0 (A := R)) cadd cmul (c2c_ops (A := R) f).
Proof.
  intros H. apply c2c_new_inv in H as [Hn ->]. split; [|split]; intros.
  - apply rmatop_matop_C, rmatop_copy.
  - apply rmatop_matop_C, rmatop_copy.
  - apply matop_C_c2c_gradient; auto.
Qed.

(** Operations along different axes that commute, as a property of slices. *)
Definition commuting {T} (f : list T -> list T -> res (list T)) l1 l2 (f' : list T -> list T -> res (list T)) l1' l2' : Prop :=
  forall (dT : Dflt T) ax ax' a b c b' c', ax <> ax' ->
  nth_error (shp a) ax = Some l1 -> nth_error (shp a) ax' = Some l1' ->
  axis_op f l2 ax a b -> axis_op f' l2' ax' b c -> axis_op f' l2' ax' a b' -> axis_op f l2 ax b' c' -> c = c'.
Lemma commuting_sym {T} (f f' : list T -> list T -> res (list T)) l1 l2 l1' l2' : commuting f l1 l2 f' l1' l2' -> commuting f' l1' l2' f l1 l2.
Proof. intros H dT ax ax' a b c b' c' N E E' A1 A2 A3 A4. symmetry. eapply (H dT ax' ax); eauto. Qed.

(** matop does not depend on the default element, as lists are only read in
    range *)
Lemma at_dflt {T} (d d' : Dflt T) (l : list T) i : i < length l -> @at_ T d l i = @at_ T d' l i.
Proof. intros. unfold at_. apply nth_indep; auto. Qed.
Lemma tsum_ext' {T} (rO : T) radd n f g : (forall k, k < n -> f k = g k) -> tsum rO radd n f = tsum rO radd n g.
Proof. intros H. induction n; cbn; auto. rewrite IHn, H; auto. Qed.
Lemma matop_dflt {T} (d d' : Dflt T) rO radd rmul f l1 l2 : @matop T d rO radd rmul f l1 l2 -> @matop T d' rO radd rmul f l1 l2.
Proof.
  intros [M H]. exists M. intros x y Hx Hy. destruct (H x y Hx Hy) as (z & E & L & Hz). exists z. split; auto. split; auto.
  intros k Hk. rewrite <- (at_dflt d d') by lia. rewrite Hz by auto. apply tsum_ext'. intros j Hj. rewrite (at_dflt d d') by lia. reflexivity.
Qed.
Lemma matop_commuting {T} (d : Dflt T) rO rI radd rmul rsub ropp (RT : ring_theory rO rI radd rmul rsub ropp eq)
  (f f' : list T -> list T -> res (list T)) l1 l2 l1' l2' :
  matop rO radd rmul f l1 l2 -> matop rO radd rmul f' l1' l2' -> commuting f l1 l2 f' l1' l2'.
Proof.
  intros H H' dT ax ax' a b c b' c' N E E' A1 A2 A3 A4.
  exact (ops_commute rO rI radd rmul rsub ropp RT f l1 l2 ax f' l1' l2' ax' a b c b' c'
    (matop_dflt d dT _ _ _ _ _ _ H) (matop_dflt d dT _ _ _ _ _ _ H') N E E' A1 A2 A3 A4).
Qed.

(** All spectral operations of two bases commute along distinct axes. *)
Definition bases_commute {P S P' S' T} (b : base_ops P S T) (b' : base_ops P' S' T) : Prop :=
  let ops (P S : Type) (b : base_ops P S T) (f : list T -> list T -> res (list T)) l1 l2 :=
    (f = to_ortho_slice b /\ l1 = len_spec b /\ l2 = len_orth b) \/ (f = from_ortho_slice b /\ l1 = len_orth b /\ l2 = len_spec b) \/
    (exists d, total_gradient b d /\ f = (fun x y => gradient_slice b x y d) /\ l1 = len_spec b /\ l2 = len_orth b) in
  forall f l1 l2 f' l1' l2', ops P S b f l1 l2 -> ops P' S' b' f' l1' l2' -> commuting f l1 l2 f' l1' l2'.
Lemma mat_commute {P S P' S' T} (d : Dflt T) (b : base_ops P S T) (b' : base_ops P' S' T) rO rI radd rmul rsub ropp :
  ring_theory rO rI radd rmul rsub ropp eq -> ops_mat rO radd rmul b -> ops_mat rO radd rmul b' -> bases_commute b b'.
Proof.
  intros RT (A1 & A2 & A3) (B1 & B2 & B3) f l1 l2 f' l1' l2' H H'. eapply (matop_commuting d); eauto.
  - destruct H as [(-> & -> & ->)|[(-> & -> & ->)|(e & He & -> & -> & ->)]]; auto.
  - destruct H' as [(-> & -> & ->)|[(-> & -> & ->)|(e & He & -> & -> & ->)]]; auto.
Qed.
Ltac mats := first [apply r2r_mat_R; assumption | apply r2r_mat_C; assumption | eapply r2c_mat; eassumption | eapply c2c_mat; eassumption].
Lemma admissible2_commute P I S T VP VI VS VT b0 b1 : admissible2 P I S T VP VI VS VT b0 b1 -> bases_commute b0 b1.
Proof.
  intros []; [eapply (mat_commute _ _ _ _ _ _ _ _ _ RTheory)|eapply (mat_commute _ _ _ _ _ _ _ _ _ C_ring)..]; mats.
Qed.
Lemma admissible3_commute P I J S T VP VI VJ VS VT b0 b1 b2 : admissible3 P I J S T VP VI VJ VS VT b0 b1 b2 ->
  bases_commute b0 b1 /\ bases_commute b0 b2 /\ bases_commute b1 b2.
Proof.
  intros []; repeat split;
  first [eapply (mat_commute _ _ _ _ _ _ _ _ _ RTheory); mats|eapply (mat_commute _ _ _ _ _ _ _ _ _ C_ring); mats].
Qed.
