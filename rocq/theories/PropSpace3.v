(** C29, C30 continued: the order in which the axes are visited does not
    matter, to_ortho/from_ortho round trips, parallel variants. *)
From Coq Require Import List Arith Lia Bool ZArith Reals Lra Permutation.
From Verif Require Import Base Num Linalg Stencils Cheb Compo Fourier FourierFacts FourierProofs CompoProofs NdArray NdArrayFacts AxisFacts Bases BaseLin LibBase
  AxisProps PropAxis SpaceFacts SpaceBases SpaceStages Space MatOp SpaceOrder PropSpace PropSpace2 Witness.
Import ListNotations.
Local Open Scope nat_scope.

(** Perform [step ax] for the axes of a list, one after the other. *)
Fixpoint in_order {X} (step : nat -> X -> res X) (axes : list nat) (a : X) : res X :=
  match axes with [] => Ok a | ax :: rest => let* b := step ax a in in_order step rest b end.

Section Chain.
Context {T : Type} {V : Vec R T} {dT : Dflt T}.
Variables (F : nat -> list T -> list T -> res (list T)) (L1 L2 : nat -> nat) (dom : nat -> Prop).
Hypotheses (HL : forall i, dom i -> linop (F i) (L1 i) (L2 i))
  (HC : forall i j, dom i -> dom j -> i <> j -> commuting (F i) (L1 i) (L2 i) (F j) (L1 j) (L2 j)).

Fixpoint chain (axes : list nat) (a c : arr T) : Prop :=
  match axes with [] => c = a | i :: r => exists b, axis_op (F i) (L2 i) i a b /\ chain r b c end.
Definition ready (axes : list nat) (a : arr T) : Prop :=
  std a = true /\ forall i, In i axes -> dom i /\ nth_error (shp a) i = Some (L1 i).
Lemma ready_step i axes a b : ready (i :: axes) a -> ~ In i axes -> axis_op (F i) (L2 i) i a b -> ready axes b.
Proof.
  intros [S H] N (Sb & Tb & _). split; auto. intros j Hj. destruct (H j) as [D E]. right; auto. split; auto.
  rewrite Sb, nth_error_upd_other; auto. intros ->. auto.
Qed.
Lemma chain_det axes : forall a c c', NoDup axes -> ready axes a -> chain axes a c -> chain axes a c' -> c = c'.
Proof.
  induction axes as [|i r IH]; intros a c c' N Rd H H'; cbn in *; try congruence.
  destruct H as (b & A & H), H' as (b' & A' & H'). inversion N; subst.
  destruct Rd as [S Rd']. destruct (Rd' i) as [D E]. left; auto.
  assert (b = b') by (refine (axis_op_det _ _ _ _ _ _ _ A A'); apply (nth_error_axlen _ _ _ E)). subst b'.
  apply (IH b); auto. eapply ready_step; eauto. split; auto.
Qed.
Lemma chain_perm axes axes' : Permutation axes axes' -> forall a c, NoDup axes -> ready axes a -> chain axes a c -> chain axes' a c.
Proof.
  induction 1 as [|i r r' P IH|i j r|x y z P1 IH1 P2 IH2]; intros a c N Rd H; auto.
  - cbn in *. destruct H as (b & A & H). exists b. split; auto. inversion N; subst. apply IH; auto. eapply ready_step; eauto.
  - cbn in *. destruct H as (b & A & b' & B & H). inversion N as [|? ? N1 N2]; subst. inversion N2 as [|? ? N3 N4]; subst.
    destruct Rd as [S Rd]. destruct (Rd j) as [Dj Ej]. left; auto. destruct (Rd i) as [Di Ei]. right; left; auto.
    assert (NE : j <> i) by (intros ->; apply N1; left; auto).
    destruct (swap (F j) (L1 j) (L2 j) (F i) (L1 i) (L2 i) j i a b b' (HC j i Dj Di NE) (HL j Dj) (HL i Di) NE S Ej Ei A B) as (m & Am & Bm).
    eauto.
  - apply IH2; auto. apply (Permutation_NoDup P1); auto. destruct Rd as [S Rd]. split; auto. intros k Hk. apply Rd. eapply Permutation_in; [symmetry|]; eauto.
Qed.
Lemma chain_runs zo axes : zip_ok zo -> forall a, NoDup axes -> ready axes a ->
  exists c, in_order (fun i x => axop (F i) (L1 i) (L2 i) zo x i) axes a = Ok c /\ chain axes a c.
Proof.
  intros Hz. induction axes as [|i r IH]; intros a N Rd; cbn; eauto. inversion N; subst. pose proof Rd as [S Rd']. destruct (Rd' i) as [D E]. left; auto.
  destruct (axop_runs (F i) (L1 i) (L2 i) zo a i (HL i D) Hz S E) as (b & Eb & Ab). rewrite Eb. cbn [bind].
  destruct (IH b) as (c & Ec & Hc); auto. eapply ready_step; eauto. eauto.
Qed.
Lemma in_order_perm zo axes axes' a : zip_ok zo -> NoDup axes -> ready axes a -> Permutation axes axes' ->
  in_order (fun i x => axop (F i) (L1 i) (L2 i) zo x i) axes' a = in_order (fun i x => axop (F i) (L1 i) (L2 i) zo x i) axes a.
Proof.
  intros Hz N Rd P. destruct (chain_runs zo axes Hz a N Rd) as (c & E & H).
  assert (N' : NoDup axes') by (apply (Permutation_NoDup P); auto).
  assert (Rd' : ready axes' a). { destruct Rd as [S Rd]. split; auto. intros k Hk. apply Rd. eapply Permutation_in; [symmetry|]; eauto. }
  destruct (chain_runs zo axes' Hz a N' Rd') as (c' & E' & H'). rewrite E, E'. f_equal.
  apply (chain_det axes' a); auto. apply (chain_perm axes axes'); auto.
Qed.
Lemma in_order_chain zo axes a c : zip_ok zo -> NoDup axes -> ready axes a -> chain axes a c ->
  in_order (fun i x => axop (F i) (L1 i) (L2 i) zo x i) axes a = Ok c.
Proof. intros Hz N Rd H. destruct (chain_runs zo axes Hz a N Rd) as (c' & E & H'). rewrite E. f_equal. apply (chain_det axes a); auto. Qed.
End Chain.

Lemma in_order_ext {X} (s s' : nat -> X -> res X) axes a : (forall i x, In i axes -> s i x = s' i x) -> in_order s axes a = in_order s' axes a.
Proof.
  revert a. induction axes as [|i r IH]; intros a H; cbn; auto. rewrite H by (left; auto). destruct (s' i a); cbn; auto. apply IH. intros; apply H; right; auto.
Qed.

Definition sel {X} (x0 x1 x2 : X) (i : nat) : X := match i with 0 => x0 | 1 => x1 | _ => x2 end.

(** ** Space2: both orders of the axes give the same array. *)
Definition step2_to_ortho {P I S T} {dT : Dflt T} zo (sp : space2 P I S T) (ax : nat) (a : arr T) : res (arr T) :=
  match ax with 0 => to_ortho zo (s2_base0 sp) a 0 | _ => to_ortho zo (s2_base1 sp) a 1 end.
Definition step2_from_ortho {P I S T} {dT : Dflt T} zo (sp : space2 P I S T) (ax : nat) (a : arr T) : res (arr T) :=
  match ax with 0 => from_ortho zo (s2_base0 sp) a 0 | _ => from_ortho zo (s2_base1 sp) a 1 end.

Lemma perm01 l : Permutation l [0; 1] -> forall i, In i l -> i = 0 \/ i = 1.
Proof. intros P i Hi. apply (Permutation_in _ P) in Hi. cbn in Hi. lia. Qed.
Lemma perm012 l : Permutation l [0; 1; 2] -> forall i, In i l -> i = 0 \/ i = 1 \/ i = 2.
Proof. intros P i Hi. apply (Permutation_in _ P) in Hi. cbn in Hi. lia. Qed.
Lemma nd01 : NoDup [0; 1]. Proof. repeat constructor; cbn; lia. Qed.
Lemma nd012 : NoDup [0; 1; 2]. Proof. repeat constructor; cbn; lia. Qed.

Theorem C29_space2_any_axis_order : forall P I S T VP VI VS VT b0 b1, admissible2 P I S T VP VI VS VT b0 b1 ->
  forall (dP : Dflt P) (dI : Dflt I) (dS : Dflt S) (dT : Dflt T) zo, zip_ok zo -> let sp := mk_space2 b0 b1 in
  forall order, Permutation order [0; 1] ->
  (forall a, proper (s2_shape_spectral sp) a -> in_order (step2_to_ortho zo sp) order a = s2_to_ortho zo sp a) /\
  (forall a, proper (s2_shape_spectral_ortho sp) a -> in_order (step2_from_ortho zo sp) order a = s2_from_ortho zo sp a).
Proof.
  intros P I S T VP VI VS VT b0 b1 Adm dP dI dS dT zo Hz sp order Po.
  destruct (admissible2_usable _ _ _ _ _ _ _ _ _ _ Adm) as [U0 U1]. pose proof (admissible2_commute _ _ _ _ _ _ _ _ _ _ Adm) as BC.
  destruct (usable_facts _ _ _ _ _ _ b0 U0) as (_ & _ & O0 & Q0 & _). destruct (usable_facts _ _ _ _ _ _ b1 U1) as (_ & _ & O1 & Q1 & _).
  destruct (C29_space2_applies_each_base_along_its_axis P I S T VP VI VS VT b0 b1 U0 U1 dP dI dS dT zo Hz) as (_ & _ & TO & TQ).
  split; intros a Ha.
  - destruct (TO a (azeros dflt (s2_shape_spectral_ortho sp)) Ha (proper_zeros _ _)) as (m & r & _ & E & _ & A0 & A1).
    unfold sp in *. rewrite E.
    set (F := fun i => match i with 0 => to_ortho_slice b0 | _ => to_ortho_slice b1 end).
    set (L1 := fun i => match i with 0 => len_spec b0 | _ => len_spec b1 end).
    set (L2 := fun i => match i with 0 => len_orth b0 | _ => len_orth b1 end).
    assert (HL : forall i, (i = 0 \/ i = 1) -> linop (F i) (L1 i) (L2 i)) by (intros i [->| ->]; auto).
    assert (HC : forall i j, (i = 0 \/ i = 1) -> (j = 0 \/ j = 1) -> i <> j -> commuting (F i) (L1 i) (L2 i) (F j) (L1 j) (L2 j)).
    { assert (K : commuting (F 0) (L1 0) (L2 0) (F 1) (L1 1) (L2 1)) by (apply BC; left; auto).
      intros i j [->| ->] [->| ->] N; try lia; auto. apply commuting_sym; auto. }
    assert (Rd : ready L1 (fun i => i = 0 \/ i = 1) [0;1] a).
    { destruct Ha as (Sa & Ta & _). split; auto. intros i Hi. cbn in Hi. split. lia. rewrite Sa. destruct Hi as [<-|[<-|[]]]; reflexivity. }
    etransitivity; [|exact (in_order_chain F L1 L2 _ HL zo [0;1] a r Hz nd01 Rd ltac:(cbn; eauto))].
    etransitivity; [|exact (in_order_perm F L1 L2 _ HL HC zo [0;1] order a Hz nd01 Rd ltac:(symmetry; auto))].
    apply in_order_ext. intros i x Hi. destruct (perm01 _ Po i Hi) as [->| ->]; reflexivity.
  - destruct (TQ a (azeros dflt (s2_shape_spectral sp)) Ha (proper_zeros _ _)) as (m & r & _ & E & _ & A0 & A1).
    unfold sp in *. rewrite E.
    set (F := fun i => match i with 0 => from_ortho_slice b0 | _ => from_ortho_slice b1 end).
    set (L1 := fun i => match i with 0 => len_orth b0 | _ => len_orth b1 end).
    set (L2 := fun i => match i with 0 => len_spec b0 | _ => len_spec b1 end).
    assert (HL : forall i, (i = 0 \/ i = 1) -> linop (F i) (L1 i) (L2 i)) by (intros i [->| ->]; auto).
    assert (HC : forall i j, (i = 0 \/ i = 1) -> (j = 0 \/ j = 1) -> i <> j -> commuting (F i) (L1 i) (L2 i) (F j) (L1 j) (L2 j)).
    { assert (K : commuting (F 0) (L1 0) (L2 0) (F 1) (L1 1) (L2 1)) by (apply BC; right; left; auto).
      intros i j [->| ->] [->| ->] N; try lia; auto. apply commuting_sym; auto. }
    assert (Rd : ready L1 (fun i => i = 0 \/ i = 1) [0;1] a).
    { destruct Ha as (Sa & Ta & _). split; auto. intros i Hi. cbn in Hi. split. lia. rewrite Sa. destruct Hi as [<-|[<-|[]]]; reflexivity. }
    etransitivity; [|exact (in_order_chain F L1 L2 _ HL zo [0;1] a r Hz nd01 Rd ltac:(cbn; eauto))].
    etransitivity; [|exact (in_order_perm F L1 L2 _ HL HC zo [0;1] order a Hz nd01 Rd ltac:(symmetry; auto))].
    apply in_order_ext. intros i x Hi. destruct (perm01 _ Po i Hi) as [->| ->]; reflexivity.
Qed.
Print Assumptions C29_space2_any_axis_order.

(** forward and backward: meaningful when both axes have the same element
    types. *)
Definition step2_forward {P} {dP : Dflt P} zo {T} (sp : space2 P P P T) (ax : nat) (a : arr P) : res (arr P) :=
  match ax with 0 => forward zo (s2_base0 sp) a 0 | _ => forward zo (s2_base1 sp) a 1 end.
Definition step2_backward {P} {dP : Dflt P} zo {T} (sp : space2 P P P T) (ax : nat) (a : arr P) : res (arr P) :=
  match ax with 0 => backward zo (s2_base0 sp) a 0 | _ => backward zo (s2_base1 sp) a 1 end.

Definition transforms_commute {P T T'} (b : base_ops P P T) (b' : base_ops P P T') : Prop :=
  commuting (forward_slice b) (len_phys b) (len_spec b) (forward_slice b') (len_phys b') (len_spec b') /\
  commuting (backward_slice b) (len_spec b) (len_phys b) (backward_slice b') (len_spec b') (len_phys b').

Lemma r2r_transforms_commute b b' : usable_r2r b -> usable_r2r b' -> transforms_commute (r2r_ops (T := R) b) (r2r_ops (T := R) b').
Proof.
  intros H H'. apply (usable_r2r_base R vec_self _) in H. apply (usable_r2r_base R vec_self _) in H'.
  destruct (usable_facts _ _ _ _ _ _ _ H) as (F & B & _). destruct (usable_facts _ _ _ _ _ _ _ H') as (F' & B' & _).
  split; eapply (matop_commuting _ _ _ _ _ _ _ RTheory); apply rmatop_matop_R, linop_rmatop; auto.
Qed.
Lemma c2c_transforms_commute n f m g : c2c_new n = Ok f -> c2c_new m = Ok g -> transforms_commute (c2c_ops (A := R) f) (c2c_ops (A := R) g).
Proof.
  intros H H'. apply c2c_new_inv in H as [Hn ->]. apply c2c_new_inv in H' as [Hm ->].
  split; eapply (matop_commuting _ _ _ _ _ _ _ C_ring); first [apply matop_C_c2c_forward | apply matop_C_c2c_backward].
Qed.

Lemma space2_any_order_gen P T VP VT (b0 b1 : base_ops P P T) : usable P P T VP VP VT b0 -> usable P P T VP VP VT b1 -> transforms_commute b0 b1 ->
  forall (dP : Dflt P) (dT : Dflt T) zo, zip_ok zo -> let sp := mk_space2 b0 b1 in
  forall order, Permutation order [0; 1] ->
  (forall a, proper (s2_shape_physical sp) a -> in_order (step2_forward zo sp) order a = s2_forward zo sp a) /\
  (forall a, proper (s2_shape_spectral sp) a -> in_order (step2_backward zo sp) order a = s2_backward zo sp a).
Proof.
  intros U0 U1 [CF CB] dP dT zo Hz sp order Po.
  destruct (usable_facts _ _ _ _ _ _ b0 U0) as (F0 & B0 & _). destruct (usable_facts _ _ _ _ _ _ b1 U1) as (F1 & B1 & _).
  destruct (C29_space2_applies_each_base_along_its_axis P P P T VP VP VP VT b0 b1 U0 U1 dP dP dP dT zo Hz) as (TO & TQ & _).
  split; intros a Ha.
  - destruct (TO a (azeros dflt (s2_shape_spectral sp)) Ha (proper_zeros _ _)) as (m & r & _ & E & _ & A0 & A1).
    unfold sp in *. rewrite E.
    set (F := fun i => match i with 0 => forward_slice b0 | _ => forward_slice b1 end).
    set (L1 := fun i => match i with 0 => len_phys b0 | _ => len_phys b1 end).
    set (L2 := fun i => match i with 0 => len_spec b0 | _ => len_spec b1 end).
    assert (HL : forall i, (i = 0 \/ i = 1) -> linop (F i) (L1 i) (L2 i)) by (intros i [->| ->]; auto).
    assert (HC : forall i j, (i = 0 \/ i = 1) -> (j = 0 \/ j = 1) -> i <> j -> commuting (F i) (L1 i) (L2 i) (F j) (L1 j) (L2 j)).
    { intros i j [->| ->] [->| ->] N; try lia; auto. apply commuting_sym; auto. }
    assert (Rd : ready L1 (fun i => i = 0 \/ i = 1) [1;0] a).
    { destruct Ha as (Sa & Ta & _). split; auto. intros i Hi. cbn in Hi. split. lia. rewrite Sa. destruct Hi as [<-|[<-|[]]]; reflexivity. }
    assert (N10 : NoDup [1;0]) by (repeat constructor; cbn; lia).
    etransitivity; [|exact (in_order_chain F L1 L2 _ HL zo [1;0] a r Hz N10 Rd ltac:(cbn; eauto))].
    etransitivity; [|exact (in_order_perm F L1 L2 _ HL HC zo [1;0] order a Hz N10 Rd ltac:(symmetry; rewrite Po; constructor))].
    apply in_order_ext. intros i x Hi. destruct (perm01 _ Po i Hi) as [->| ->]; reflexivity.
  - destruct (TQ a (azeros dflt (s2_shape_physical sp)) Ha (proper_zeros _ _)) as (m & r & _ & E & _ & A0 & A1).
    unfold sp in *. rewrite E.
    set (F := fun i => match i with 0 => backward_slice b0 | _ => backward_slice b1 end).
    set (L1 := fun i => match i with 0 => len_spec b0 | _ => len_spec b1 end).
    set (L2 := fun i => match i with 0 => len_phys b0 | _ => len_phys b1 end).
    assert (HL : forall i, (i = 0 \/ i = 1) -> linop (F i) (L1 i) (L2 i)) by (intros i [->| ->]; auto).
    assert (HC : forall i j, (i = 0 \/ i = 1) -> (j = 0 \/ j = 1) -> i <> j -> commuting (F i) (L1 i) (L2 i) (F j) (L1 j) (L2 j)).
    { intros i j [->| ->] [->| ->] N; try lia; auto. apply commuting_sym; auto. }
    assert (Rd : ready L1 (fun i => i = 0 \/ i = 1) [0;1] a).
    { destruct Ha as (Sa & Ta & _). split; auto. intros i Hi. cbn in Hi. split. lia. rewrite Sa. destruct Hi as [<-|[<-|[]]]; reflexivity. }
    etransitivity; [|exact (in_order_chain F L1 L2 _ HL zo [0;1] a r Hz nd01 Rd ltac:(cbn; eauto))].
    etransitivity; [|exact (in_order_perm F L1 L2 _ HL HC zo [0;1] order a Hz nd01 Rd ltac:(symmetry; auto))].
    apply in_order_ext. intros i x Hi. destruct (perm01 _ Po i Hi) as [->| ->]; reflexivity.
Qed.

Theorem C29_space2_transforms_any_axis_order : forall order, Permutation order [0; 1] -> forall zo, zip_ok zo ->
  (forall b0 b1, usable_r2r b0 -> usable_r2r b1 -> let sp := mk_space2 (r2r_ops (T := R) b0) (r2r_ops (T := R) b1) in
     (forall a, proper (s2_shape_physical sp) a -> in_order (step2_forward zo sp) order a = s2_forward zo sp a) /\
     (forall a, proper (s2_shape_spectral sp) a -> in_order (step2_backward zo sp) order a = s2_backward zo sp a)) /\
  (forall n f m g, c2c_new n = Ok f -> c2c_new m = Ok g -> let sp := mk_space2 (c2c_ops (A := R) f) (c2c_ops (A := R) g) in
     (forall a, proper (s2_shape_physical sp) a -> in_order (step2_forward zo sp) order a = s2_forward zo sp a) /\
     (forall a, proper (s2_shape_spectral sp) a -> in_order (step2_backward zo sp) order a = s2_backward zo sp a)).
Proof.
  intros order Po zo Hz. split.
  - intros b0 b1 H0 H1 sp. exact (space2_any_order_gen R R vec_self vec_self _ _ (usable_r2r_base R vec_self _ b0 H0) (usable_r2r_base R vec_self _ b1 H1)
      (r2r_transforms_commute _ _ H0 H1) _ _ zo Hz order Po).
  - intros n f m g H0 H1 sp. exact (space2_any_order_gen _ _ vec_cplx vec_cplx _ _ (us_fourier_c2c n f H0) (us_fourier_c2c m g H1)
      (c2c_transforms_commute _ _ _ _ H0 H1) _ _ zo Hz order Po).
Qed.
Print Assumptions C29_space2_transforms_any_axis_order.

(** ** Space3 *)
Definition step3_to_ortho {P I J S T} {dT : Dflt T} zo (sp : space3 P I J S T) (ax : nat) (a : arr T) : res (arr T) :=
  match ax with 0 => to_ortho zo (s3_base0 sp) a 0 | 1 => to_ortho zo (s3_base1 sp) a 1 | _ => to_ortho zo (s3_base2 sp) a 2 end.
Definition step3_from_ortho {P I J S T} {dT : Dflt T} zo (sp : space3 P I J S T) (ax : nat) (a : arr T) : res (arr T) :=
  match ax with 0 => from_ortho zo (s3_base0 sp) a 0 | 1 => from_ortho zo (s3_base1 sp) a 1 | _ => from_ortho zo (s3_base2 sp) a 2 end.

Theorem C30_space3_any_axis_order : forall P I J S T VP VI VJ VS VT b0 b1 b2, admissible3 P I J S T VP VI VJ VS VT b0 b1 b2 ->
  forall (dP : Dflt P) (dI : Dflt I) (dJ : Dflt J) (dS : Dflt S) (dT : Dflt T) zo, zip_ok zo -> let sp := mk_space3 b0 b1 b2 in
  forall order, Permutation order [0; 1; 2] ->
  (forall a, proper (s3_shape_spectral sp) a -> in_order (step3_to_ortho zo sp) order a = s3_to_ortho zo sp a) /\
  (forall a, proper (s3_shape_spectral_ortho sp) a -> in_order (step3_from_ortho zo sp) order a = s3_from_ortho zo sp a).
Proof.
  intros P I J S T VP VI VJ VS VT b0 b1 b2 Adm dP dI dJ dS dT zo Hz sp order Po.
  destruct (admissible3_usable _ _ _ _ _ _ _ _ _ _ _ _ _ Adm) as (U0 & U1 & U2). destruct (admissible3_commute _ _ _ _ _ _ _ _ _ _ _ _ _ Adm) as (C01 & C02 & C12).
  destruct (usable_facts _ _ _ _ _ _ b0 U0) as (_ & _ & O0 & Q0 & _). destruct (usable_facts _ _ _ _ _ _ b1 U1) as (_ & _ & O1 & Q1 & _).
  destruct (usable_facts _ _ _ _ _ _ b2 U2) as (_ & _ & O2 & Q2 & _).
  destruct (C30_space3_applies_each_base_along_its_axis P I J S T VP VI VJ VS VT b0 b1 b2 U0 U1 U2 dP dI dJ dS dT zo Hz) as (_ & _ & TO & TQ).
  split; intros a Ha.
  - destruct (TO a (azeros dflt (s3_shape_spectral_ortho sp)) Ha (proper_zeros _ _)) as (m & m' & r & _ & E & _ & A0 & A1 & A2).
    unfold sp in *. rewrite E.
    set (F := sel (to_ortho_slice b0) (to_ortho_slice b1) (to_ortho_slice b2)).
    set (L1 := sel (len_spec b0) (len_spec b1) (len_spec b2)).
    set (L2 := sel (len_orth b0) (len_orth b1) (len_orth b2)).
    assert (HL : forall i, (i = 0 \/ i = 1 \/ i = 2) -> linop (F i) (L1 i) (L2 i)) by (intros i [->|[->| ->]]; auto).
    assert (HC : forall i j, (i = 0 \/ i = 1 \/ i = 2) -> (j = 0 \/ j = 1 \/ j = 2) -> i <> j -> commuting (F i) (L1 i) (L2 i) (F j) (L1 j) (L2 j)).
    { assert (K01 : commuting (F 0) (L1 0) (L2 0) (F 1) (L1 1) (L2 1)) by (apply C01; left; auto).
      assert (K02 : commuting (F 0) (L1 0) (L2 0) (F 2) (L1 2) (L2 2)) by (apply C02; left; auto).
      assert (K12 : commuting (F 1) (L1 1) (L2 1) (F 2) (L1 2) (L2 2)) by (apply C12; left; auto).
      intros i j [->|[->| ->]] [->|[->| ->]] N; try lia; auto; apply commuting_sym; auto. }
    assert (Rd : ready L1 (fun i => i = 0 \/ i = 1 \/ i = 2) [0;1;2] a).
    { destruct Ha as (Sa & Ta & _). split; auto. intros i Hi. cbn in Hi. split. lia. rewrite Sa. destruct Hi as [<-|[<-|[<-|[]]]]; reflexivity. }
    etransitivity; [|exact (in_order_chain F L1 L2 _ HL zo [0;1;2] a r Hz nd012 Rd ltac:(cbn; eauto 10))].
    etransitivity; [|exact (in_order_perm F L1 L2 _ HL HC zo [0;1;2] order a Hz nd012 Rd ltac:(symmetry; auto))].
    apply in_order_ext. intros i x Hi. destruct (perm012 _ Po i Hi) as [->|[->| ->]]; reflexivity.
  - destruct (TQ a (azeros dflt (s3_shape_spectral sp)) Ha (proper_zeros _ _)) as (m & m' & r & _ & E & _ & A0 & A1 & A2).
    unfold sp in *. rewrite E.
    set (F := sel (from_ortho_slice b0) (from_ortho_slice b1) (from_ortho_slice b2)).
    set (L1 := sel (len_orth b0) (len_orth b1) (len_orth b2)).
    set (L2 := sel (len_spec b0) (len_spec b1) (len_spec b2)).
    assert (HL : forall i, (i = 0 \/ i = 1 \/ i = 2) -> linop (F i) (L1 i) (L2 i)) by (intros i [->|[->| ->]]; auto).
    assert (HC : forall i j, (i = 0 \/ i = 1 \/ i = 2) -> (j = 0 \/ j = 1 \/ j = 2) -> i <> j -> commuting (F i) (L1 i) (L2 i) (F j) (L1 j) (L2 j)).
    { assert (K01 : commuting (F 0) (L1 0) (L2 0) (F 1) (L1 1) (L2 1)) by (apply C01; right; left; auto).
      assert (K02 : commuting (F 0) (L1 0) (L2 0) (F 2) (L1 2) (L2 2)) by (apply C02; right; left; auto).
      assert (K12 : commuting (F 1) (L1 1) (L2 1) (F 2) (L1 2) (L2 2)) by (apply C12; right; left; auto).
      intros i j [->|[->| ->]] [->|[->| ->]] N; try lia; auto; apply commuting_sym; auto. }
    assert (Rd : ready L1 (fun i => i = 0 \/ i = 1 \/ i = 2) [0;1;2] a).
    { destruct Ha as (Sa & Ta & _). split; auto. intros i Hi. cbn in Hi. split. lia. rewrite Sa. destruct Hi as [<-|[<-|[<-|[]]]]; reflexivity. }
    etransitivity; [|exact (in_order_chain F L1 L2 _ HL zo [0;1;2] a r Hz nd012 Rd ltac:(cbn; eauto 10))].
    etransitivity; [|exact (in_order_perm F L1 L2 _ HL HC zo [0;1;2] order a Hz nd012 Rd ltac:(symmetry; auto))].
    apply in_order_ext. intros i x Hi. destruct (perm012 _ Po i Hi) as [->|[->| ->]]; reflexivity.
Qed.
Print Assumptions C30_space3_any_axis_order.

(** forward and backward along three axes, in any order *)
Definition step3_forward {P} {dP : Dflt P} zo {T} (sp : space3 P P P P T) (ax : nat) (a : arr P) : res (arr P) :=
  match ax with 0 => forward zo (s3_base0 sp) a 0 | 1 => forward zo (s3_base1 sp) a 1 | _ => forward zo (s3_base2 sp) a 2 end.
Definition step3_backward {P} {dP : Dflt P} zo {T} (sp : space3 P P P P T) (ax : nat) (a : arr P) : res (arr P) :=
  match ax with 0 => backward zo (s3_base0 sp) a 0 | 1 => backward zo (s3_base1 sp) a 1 | _ => backward zo (s3_base2 sp) a 2 end.

Lemma space3_any_order_gen P T VP VT (b0 b1 b2 : base_ops P P T) : usable P P T VP VP VT b0 -> usable P P T VP VP VT b1 -> usable P P T VP VP VT b2 ->
  transforms_commute b0 b1 -> transforms_commute b0 b2 -> transforms_commute b1 b2 ->
  forall (dP : Dflt P) (dT : Dflt T) zo, zip_ok zo -> let sp := mk_space3 b0 b1 b2 in
  forall order, Permutation order [0; 1; 2] ->
  (forall a, proper (s3_shape_physical sp) a -> in_order (step3_forward zo sp) order a = s3_forward zo sp a) /\
  (forall a, proper (s3_shape_spectral sp) a -> in_order (step3_backward zo sp) order a = s3_backward zo sp a).
Proof.
  intros U0 U1 U2 [CF01 CB01] [CF02 CB02] [CF12 CB12] dP dT zo Hz sp order Po.
  destruct (usable_facts _ _ _ _ _ _ b0 U0) as (F0 & B0 & _). destruct (usable_facts _ _ _ _ _ _ b1 U1) as (F1 & B1 & _). destruct (usable_facts _ _ _ _ _ _ b2 U2) as (F2 & B2 & _).
  destruct (C30_space3_applies_each_base_along_its_axis P P P P T VP VP VP VP VT b0 b1 b2 U0 U1 U2 dP dP dP dP dT zo Hz) as (TO & TQ & _).
  split; intros a Ha.
  - destruct (TO a (azeros dflt (s3_shape_spectral sp)) Ha (proper_zeros _ _)) as (m & m' & r & _ & E & _ & A0 & A1 & A2).
    unfold sp in *. rewrite E.
    set (F := sel (forward_slice b0) (forward_slice b1) (forward_slice b2)).
    set (L1 := sel (len_phys b0) (len_phys b1) (len_phys b2)).
    set (L2 := sel (len_spec b0) (len_spec b1) (len_spec b2)).
    assert (HL : forall i, (i = 0 \/ i = 1 \/ i = 2) -> linop (F i) (L1 i) (L2 i)) by (intros i [->|[->| ->]]; auto).
    assert (HC : forall i j, (i = 0 \/ i = 1 \/ i = 2) -> (j = 0 \/ j = 1 \/ j = 2) -> i <> j -> commuting (F i) (L1 i) (L2 i) (F j) (L1 j) (L2 j)).
    { intros i j [->|[->| ->]] [->|[->| ->]] N; try lia; auto; apply commuting_sym; auto. }
    assert (Rd : ready L1 (fun i => i = 0 \/ i = 1 \/ i = 2) [2;1;0] a).
    { destruct Ha as (Sa & Ta & _). split; auto. intros i Hi. cbn in Hi. split. lia. rewrite Sa. destruct Hi as [<-|[<-|[<-|[]]]]; reflexivity. }
    assert (N210 : NoDup [2;1;0]) by (repeat constructor; cbn; lia).
    etransitivity; [|exact (in_order_chain F L1 L2 _ HL zo [2;1;0] a r Hz N210 Rd ltac:(cbn; eauto 10))].
    etransitivity; [|exact (in_order_perm F L1 L2 _ HL HC zo [2;1;0] order a Hz N210 Rd ltac:(symmetry; rewrite Po; apply (Permutation_rev [0;1;2])))].
    apply in_order_ext. intros i x Hi. destruct (perm012 _ Po i Hi) as [->|[->| ->]]; reflexivity.
  - destruct (TQ a (azeros dflt (s3_shape_physical sp)) Ha (proper_zeros _ _)) as (m & m' & r & _ & E & _ & A0 & A1 & A2).
    unfold sp in *. rewrite E.
    set (F := sel (backward_slice b0) (backward_slice b1) (backward_slice b2)).
    set (L1 := sel (len_spec b0) (len_spec b1) (len_spec b2)).
    set (L2 := sel (len_phys b0) (len_phys b1) (len_phys b2)).
    assert (HL : forall i, (i = 0 \/ i = 1 \/ i = 2) -> linop (F i) (L1 i) (L2 i)) by (intros i [->|[->| ->]]; auto).
    assert (HC : forall i j, (i = 0 \/ i = 1 \/ i = 2) -> (j = 0 \/ j = 1 \/ j = 2) -> i <> j -> commuting (F i) (L1 i) (L2 i) (F j) (L1 j) (L2 j)).
    { intros i j [->|[->| ->]] [->|[->| ->]] N; try lia; auto; apply commuting_sym; auto. }
    assert (Rd : ready L1 (fun i => i = 0 \/ i = 1 \/ i = 2) [0;1;2] a).
    { destruct Ha as (Sa & Ta & _). split; auto. intros i Hi. cbn in Hi. split. lia. rewrite Sa. destruct Hi as [<-|[<-|[<-|[]]]]; reflexivity. }
    etransitivity; [|exact (in_order_chain F L1 L2 _ HL zo [0;1;2] a r Hz nd012 Rd ltac:(cbn; eauto 10))].
    etransitivity; [|exact (in_order_perm F L1 L2 _ HL HC zo [0;1;2] order a Hz nd012 Rd ltac:(symmetry; auto))].
    apply in_order_ext. intros i x Hi. destruct (perm012 _ Po i Hi) as [->|[->| ->]]; reflexivity.
Qed.


Theorem C30_space3_transforms_any_axis_order : forall order, Permutation order [0; 1; 2] -> forall zo, zip_ok zo ->
  (forall b0 b1 b2, usable_r2r b0 -> usable_r2r b1 -> usable_r2r b2 ->
     let sp := mk_space3 (r2r_ops (T := R) b0) (r2r_ops (T := R) b1) (r2r_ops (T := R) b2) in
     (forall a, proper (s3_shape_physical sp) a -> in_order (step3_forward zo sp) order a = s3_forward zo sp a) /\
     (forall a, proper (s3_shape_spectral sp) a -> in_order (step3_backward zo sp) order a = s3_backward zo sp a)) /\
  (forall n f m g p h, c2c_new n = Ok f -> c2c_new m = Ok g -> c2c_new p = Ok h ->
     let sp := mk_space3 (c2c_ops (A := R) f) (c2c_ops (A := R) g) (c2c_ops (A := R) h) in
     (forall a, proper (s3_shape_physical sp) a -> in_order (step3_forward zo sp) order a = s3_forward zo sp a) /\
     (forall a, proper (s3_shape_spectral sp) a -> in_order (step3_backward zo sp) order a = s3_backward zo sp a)).
Proof.
  intros order Po zo Hz. split.
  - intros b0 b1 b2 H0 H1 H2 sp. exact (space3_any_order_gen R R vec_self vec_self _ _ _ (usable_r2r_base R vec_self _ b0 H0) (usable_r2r_base R vec_self _ b1 H1)
      (usable_r2r_base R vec_self _ b2 H2) (r2r_transforms_commute _ _ H0 H1) (r2r_transforms_commute _ _ H0 H2) (r2r_transforms_commute _ _ H1 H2) _ _ zo Hz order Po).
  - intros n f m g p h H0 H1 H2 sp. exact (space3_any_order_gen _ _ vec_cplx vec_cplx _ _ _ (us_fourier_c2c n f H0) (us_fourier_c2c m g H1) (us_fourier_c2c p h H2)
      (c2c_transforms_commute _ _ _ _ H0 H1) (c2c_transforms_commute _ _ _ _ H0 H2) (c2c_transforms_commute _ _ _ _ H1 H2) _ _ zo Hz order Po).
Qed.
Print Assumptions C30_space3_transforms_any_axis_order.

(** ** from_ortho after to_ortho is the identity *)
Theorem C29_space1_ortho_roundtrip : forall P S T VP VS VT (b0 : base_ops P S T), usable P S T VP VS VT b0 ->
  forall (dP : Dflt P) (dS : Dflt S) (dT : Dflt T) zo, zip_ok zo -> let sp := mk_space1 b0 in
  forall x, proper (s1_shape_spectral sp) x -> (let* u := s1_to_ortho zo sp x in s1_from_ortho zo sp u) = Ok x.
Proof.
  intros P S T VP VS VT b0 U0 dP dS dT zo Hz sp x Hx.
  destruct (usable_facts _ _ _ _ _ _ b0 U0) as (_ & _ & O0 & Q0 & R0 & _).
  destruct (C29_space1_applies_each_base_along_its_axis P S T VP VS VT b0 U0 dP dS dT zo Hz) as (_ & _ & TO & TQ).
  destruct (TO x (azeros dflt (s1_shape_spectral_ortho sp)) Hx (proper_zeros _ _)) as (u & _ & E & Pu & A).
  destruct (TQ u (azeros dflt (s1_shape_spectral sp)) Pu (proper_zeros _ _)) as (r & _ & E2 & _ & B).
  unfold sp in *. rewrite E. cbn [bind]. rewrite E2. f_equal. destruct Hx as (Sx & Tx & Wx).
  refine (axis_op_inv _ _ _ _ _ _ _ _ R0 Wx Tx _ A B). rewrite Sx; reflexivity.
Qed.
Print Assumptions C29_space1_ortho_roundtrip.

Theorem C29_space2_ortho_roundtrip : forall P I S T VP VI VS VT b0 b1, admissible2 P I S T VP VI VS VT b0 b1 ->
  forall (dP : Dflt P) (dI : Dflt I) (dS : Dflt S) (dT : Dflt T) zo, zip_ok zo -> let sp := mk_space2 b0 b1 in
  forall x, proper (s2_shape_spectral sp) x -> (let* u := s2_to_ortho zo sp x in s2_from_ortho zo sp u) = Ok x.
Proof.
  intros P I S T VP VI VS VT b0 b1 Adm dP dI dS dT zo Hz sp x Hx.
  destruct (admissible2_usable _ _ _ _ _ _ _ _ _ _ Adm) as [U0 U1]. pose proof (admissible2_commute _ _ _ _ _ _ _ _ _ _ Adm) as BC.
  destruct (usable_facts _ _ _ _ _ _ b0 U0) as (_ & _ & O0 & Q0 & R0 & _). destruct (usable_facts _ _ _ _ _ _ b1 U1) as (_ & _ & O1 & Q1 & R1 & _).
  destruct (C29_space2_applies_each_base_along_its_axis P I S T VP VI VS VT b0 b1 U0 U1 dP dI dS dT zo Hz) as (_ & _ & TO & TQ).
  destruct (TO x (azeros dflt (s2_shape_spectral_ortho sp)) Hx (proper_zeros _ _)) as (m & u & _ & E & Pu & A0 & A1).
  destruct (TQ u (azeros dflt (s2_shape_spectral sp)) Pu (proper_zeros _ _)) as (p & r & _ & E2 & _ & B0 & B1).
  unfold sp in *. rewrite E. cbn [bind]. rewrite E2. f_equal.
  assert (Pm : proper [len_orth b0; len_spec b1] m) by exact (proper_op _ _ _ _ _ _ _ A0 Hx eq_refl).
  assert (K : commuting (to_ortho_slice b1) (len_spec b1) (len_orth b1) (from_ortho_slice b0) (len_orth b0) (len_spec b0)).
  { apply commuting_sym. apply BC; [right; left|left]; auto. }
  pose proof Pm as (Sm & Tm & Wm). pose proof Hx as (Sx & Tx & Wx).
  destruct (swap _ _ _ _ _ _ 1 0 m u p K O1 Q0 ltac:(lia) Tm) as (p' & C0 & C1); try (rewrite Sm; reflexivity); auto.
  assert (p' = x). { refine (axis_op_inv _ _ _ _ _ _ _ _ R0 Wx Tx _ A0 C0). rewrite Sx; reflexivity. } subst p'.
  refine (axis_op_inv _ _ _ _ _ _ _ _ R1 Wx Tx _ C1 B1). rewrite Sx; reflexivity.
Qed.
Print Assumptions C29_space2_ortho_roundtrip.

Theorem C30_space3_ortho_roundtrip : forall P I J S T VP VI VJ VS VT b0 b1 b2, admissible3 P I J S T VP VI VJ VS VT b0 b1 b2 ->
  forall (dP : Dflt P) (dI : Dflt I) (dJ : Dflt J) (dS : Dflt S) (dT : Dflt T) zo, zip_ok zo -> let sp := mk_space3 b0 b1 b2 in
  forall x, proper (s3_shape_spectral sp) x -> (let* u := s3_to_ortho zo sp x in s3_from_ortho zo sp u) = Ok x.
Proof.
  intros P I J S T VP VI VJ VS VT b0 b1 b2 Adm dP dI dJ dS dT zo Hz sp x Hx.
  destruct (admissible3_usable _ _ _ _ _ _ _ _ _ _ _ _ _ Adm) as (U0 & U1 & U2). destruct (admissible3_commute _ _ _ _ _ _ _ _ _ _ _ _ _ Adm) as (C01 & C02 & C12).
  destruct (usable_facts _ _ _ _ _ _ b0 U0) as (_ & _ & O0 & Q0 & R0 & _). destruct (usable_facts _ _ _ _ _ _ b1 U1) as (_ & _ & O1 & Q1 & R1 & _).
  destruct (usable_facts _ _ _ _ _ _ b2 U2) as (_ & _ & O2 & Q2 & R2 & _).
  destruct (C30_space3_applies_each_base_along_its_axis P I J S T VP VI VJ VS VT b0 b1 b2 U0 U1 U2 dP dI dJ dS dT zo Hz) as (_ & _ & TO & TQ).
  destruct (TO x (azeros dflt (s3_shape_spectral_ortho sp)) Hx (proper_zeros _ _)) as (m & m' & u & _ & E & Pu & A0 & A1 & A2).
  destruct (TQ u (azeros dflt (s3_shape_spectral sp)) Pu (proper_zeros _ _)) as (p & p' & r & _ & E2 & _ & B0 & B1 & B2).
  unfold sp in *. rewrite E. cbn [bind]. rewrite E2. f_equal. clear E E2.
  assert (Pm : proper [len_orth b0; len_spec b1; len_spec b2] m) by exact (proper_op _ _ _ _ _ _ _ A0 Hx eq_refl).
  assert (Pm' : proper [len_orth b0; len_orth b1; len_spec b2] m') by exact (proper_op _ _ _ _ _ _ _ A1 Pm eq_refl).
  assert (K20 : commuting (to_ortho_slice b2) (len_spec b2) (len_orth b2) (from_ortho_slice b0) (len_orth b0) (len_spec b0)).
  { apply commuting_sym. apply C02; [right; left|left]; auto. }
  assert (K10 : commuting (to_ortho_slice b1) (len_spec b1) (len_orth b1) (from_ortho_slice b0) (len_orth b0) (len_spec b0)).
  { apply commuting_sym. apply C01; [right; left|left]; auto. }
  assert (K21 : commuting (to_ortho_slice b2) (len_spec b2) (len_orth b2) (from_ortho_slice b1) (len_orth b1) (len_spec b1)).
  { apply commuting_sym. apply C12; [right; left|left]; auto. }
  pose proof Pm as (Sm & Tm & Wm). pose proof Pm' as (Sm' & Tm' & Wm'). pose proof Hx as (Sx & Tx & Wx).
  destruct (swap _ _ _ _ _ _ 2 0 m' u p K20 O2 Q0 ltac:(lia) Tm') as (v & D0 & D2); try (rewrite Sm'; reflexivity); auto.
  destruct (swap _ _ _ _ _ _ 1 0 m m' v K10 O1 Q0 ltac:(lia) Tm) as (w & F0 & F1); try (rewrite Sm; reflexivity); auto.
  assert (w = x). { refine (axis_op_inv _ _ _ _ _ _ _ _ R0 Wx Tx _ A0 F0). rewrite Sx; reflexivity. } subst w.
  assert (Pv : proper [len_spec b0; len_orth b1; len_spec b2] v) by exact (proper_op _ _ _ _ _ _ _ F1 Hx eq_refl).
  pose proof Pv as (Sv & Tv & Wv).
  destruct (swap _ _ _ _ _ _ 2 1 v p p' K21 O2 Q1 ltac:(lia) Tv) as (w & G1 & G2); try (rewrite Sv; reflexivity); auto.
  assert (w = x). { refine (axis_op_inv _ _ _ _ _ _ _ _ R1 Wx Tx _ F1 G1). rewrite Sx; reflexivity. } subst w.
  refine (axis_op_inv _ _ _ _ _ _ _ _ R2 Wx Tx _ G2 B2). rewrite Sx; reflexivity.
Qed.
Print Assumptions C30_space3_ortho_roundtrip.

(** ** Parallel variants: every schedule gives the serial result. *)
Theorem C29_space2_par_equals_serial : forall P I S T VP VI VS VT (b0 : base_ops I S T) (b1 : base_ops P I T),
  lib_base I S T VI VS VT b0 -> lib_base P I T VP VI VT b1 ->
  forall (dP : Dflt P) (dI : Dflt I) (dS : Dflt S) (dT : Dflt T) zo im0 im1, zip_ok zo -> base_implements im0 b0 -> base_implements im1 b1 ->
  let sp := mk_space2 b0 b1 in
  (forall i o r, wf o -> (s2_forward_inplace_par sp im0 im1 i o r <-> r = s2_forward_inplace zo sp i o)) /\
  (forall i o r, wf o -> (s2_backward_inplace_par sp im0 im1 i o r <-> r = s2_backward_inplace zo sp i o)) /\
  (forall i o r, wf o -> (s2_to_ortho_inplace_par sp im0 im1 i o r <-> r = s2_to_ortho_inplace zo sp i o)) /\
  (forall i o r, wf o -> (s2_from_ortho_inplace_par sp im0 im1 i o r <-> r = s2_from_ortho_inplace zo sp i o)) /\
  (forall i r, s2_forward_par sp im0 im1 i r <-> r = s2_forward zo sp i) /\
  (forall i r, s2_backward_par sp im0 im1 i r <-> r = s2_backward zo sp i) /\
  (forall i r, s2_to_ortho_par sp im0 im1 i r <-> r = s2_to_ortho zo sp i) /\
  (forall i r, s2_from_ortho_par sp im0 im1 i r <-> r = s2_from_ortho zo sp i) /\
  (forall A (N : Num A) (D : DivInto A T) i d0 d1 (s : option (A * A)) r,
     s2_gradient_par sp im0 im1 i d0 d1 s r <-> r = s2_gradient zo sp i d0 d1 s).
Proof.
  intros P I S T VP VI VS VT b0 b1 H0 H1 dP dI dS dT zo im0 im1 Hz I0 I1 sp.
  destruct (C26_inplace_par_equals_serial _ _ _ _ _ _ b0 H0 _ _ _ zo im0 Hz I0) as (X1 & X2 & X3 & X4 & X5).
  destruct (C26_inplace_par_equals_serial _ _ _ _ _ _ b1 H1 _ _ _ zo im1 Hz I1) as (Y1 & Y2 & Y3 & Y4 & Y5).
  destruct (C26_allocating_par_equals_serial _ _ _ _ _ _ b0 H0 _ _ _ zo im0 Hz I0) as (Z1 & Z2 & Z3 & Z4 & Z5).
  destruct (C26_allocating_par_equals_serial _ _ _ _ _ _ b1 H1 _ _ _ zo im1 Hz I1) as (W1 & W2 & W3 & W4 & W5).
  assert (K1 : forall i o r, wf o -> (s2_forward_inplace_par sp im0 im1 i o r <-> r = s2_forward_inplace zo sp i o)).
  { intros. apply par_then_eq; intros; [apply W1|apply X1; auto]. }
  assert (K2 : forall i o r, wf o -> (s2_backward_inplace_par sp im0 im1 i o r <-> r = s2_backward_inplace zo sp i o)).
  { intros. apply par_then_eq; intros; [apply Z2|apply Y2; auto]. }
  assert (K3 : forall i o r, wf o -> (s2_to_ortho_inplace_par sp im0 im1 i o r <-> r = s2_to_ortho_inplace zo sp i o)).
  { intros. apply par_then_eq; intros; [apply Z3|apply Y3; auto]. }
  assert (K4 : forall i o r, wf o -> (s2_from_ortho_inplace_par sp im0 im1 i o r <-> r = s2_from_ortho_inplace zo sp i o)).
  { intros. apply par_then_eq; intros; [apply Z4|apply Y4; auto]. }
  split; [|split; [|split; [|split; [|split; [|split; [|split; [|split]]]]]]]; auto;
  try (intros i r; first [apply K1|apply K2|apply K3|apply K4]; apply proper_zeros).
  intros A N D i d0 d1 s r. apply par_then_eq. intros; apply Z5. intros a _. apply par_then_eq. intros; apply W5. intros; reflexivity.
Qed.
Print Assumptions C29_space2_par_equals_serial.

Theorem C30_space3_par_equals_serial : forall P I J S T VP VI VJ VS VT (b0 : base_ops J S T) (b1 : base_ops I J T) (b2 : base_ops P I T),
  lib_base J S T VJ VS VT b0 -> lib_base I J T VI VJ VT b1 -> lib_base P I T VP VI VT b2 ->
  forall (dP : Dflt P) (dI : Dflt I) (dJ : Dflt J) (dS : Dflt S) (dT : Dflt T) zo im0 im1 im2, zip_ok zo ->
  base_implements im0 b0 -> base_implements im1 b1 -> base_implements im2 b2 ->
  let sp := mk_space3 b0 b1 b2 in
  (forall i o r, wf o -> (s3_forward_inplace_par sp im0 im1 im2 i o r <-> r = s3_forward_inplace zo sp i o)) /\
  (forall i o r, wf o -> (s3_backward_inplace_par sp im0 im1 im2 i o r <-> r = s3_backward_inplace zo sp i o)) /\
  (forall i o r, wf o -> (s3_to_ortho_inplace_par sp im0 im1 im2 i o r <-> r = s3_to_ortho_inplace zo sp i o)) /\
  (forall i o r, wf o -> (s3_from_ortho_inplace_par sp im0 im1 im2 i o r <-> r = s3_from_ortho_inplace zo sp i o)) /\
  (forall i r, s3_forward_par sp im0 im1 im2 i r <-> r = s3_forward zo sp i) /\
  (forall i r, s3_backward_par sp im0 im1 im2 i r <-> r = s3_backward zo sp i) /\
  (forall i r, s3_to_ortho_par sp im0 im1 im2 i r <-> r = s3_to_ortho zo sp i) /\
  (forall i r, s3_from_ortho_par sp im0 im1 im2 i r <-> r = s3_from_ortho zo sp i) /\
  (forall A (N : Num A) (D : DivInto A T) i d0 d1 d2 (s : option (A * A * A)) r,
     s3_gradient_par sp im0 im1 i d0 d1 d2 s r <-> r = s3_gradient zo sp i d0 d1 d2 s).
Proof.
  intros P I J S T VP VI VJ VS VT b0 b1 b2 H0 H1 H2 dP dI dJ dS dT zo im0 im1 im2 Hz I0 I1 I2 sp.
  destruct (C26_inplace_par_equals_serial _ _ _ _ _ _ b0 H0 _ _ _ zo im0 Hz I0) as (X1 & X2 & X3 & X4 & X5).
  destruct (C26_inplace_par_equals_serial _ _ _ _ _ _ b2 H2 _ _ _ zo im2 Hz I2) as (Y1 & Y2 & Y3 & Y4 & Y5).
  destruct (C26_allocating_par_equals_serial _ _ _ _ _ _ b0 H0 _ _ _ zo im0 Hz I0) as (Z1 & Z2 & Z3 & Z4 & Z5).
  destruct (C26_allocating_par_equals_serial _ _ _ _ _ _ b1 H1 _ _ _ zo im1 Hz I1) as (W1 & W2 & W3 & W4 & W5).
  destruct (C26_allocating_par_equals_serial _ _ _ _ _ _ b2 H2 _ _ _ zo im2 Hz I2) as (V1 & V2 & V3 & V4 & V5).
  assert (K1 : forall i o r, wf o -> (s3_forward_inplace_par sp im0 im1 im2 i o r <-> r = s3_forward_inplace zo sp i o)).
  { intros. apply par_then_eq; intros; [apply V1|]. apply par_then_eq; intros; [apply W1|apply X1; auto]. }
  assert (K2 : forall i o r, wf o -> (s3_backward_inplace_par sp im0 im1 im2 i o r <-> r = s3_backward_inplace zo sp i o)).
  { intros. apply par_then_eq; intros; [apply Z2|]. apply par_then_eq; intros; [apply W2|apply Y2; auto]. }
  assert (K3 : forall i o r, wf o -> (s3_to_ortho_inplace_par sp im0 im1 im2 i o r <-> r = s3_to_ortho_inplace zo sp i o)).
  { intros. apply par_then_eq; intros; [apply Z3|]. apply par_then_eq; intros; [apply W3|apply Y3; auto]. }
  assert (K4 : forall i o r, wf o -> (s3_from_ortho_inplace_par sp im0 im1 im2 i o r <-> r = s3_from_ortho_inplace zo sp i o)).
  { intros. apply par_then_eq; intros; [apply Z4|]. apply par_then_eq; intros; [apply W4|apply Y4; auto]. }
  split; [|split; [|split; [|split; [|split; [|split; [|split; [|split]]]]]]]; auto;
  try (intros i r; first [apply K1|apply K2|apply K3|apply K4]; apply proper_zeros).
  intros A N D i d0 d1 d2 s r. apply par_then_eq; intros; [apply Z5|]. apply par_then_eq; intros; [apply W5|].
  apply par_then_eq; intros; [apply W5|]. reflexivity.
Qed.
Print Assumptions C30_space3_par_equals_serial.

Example C29_par_hyps_met : exists f b im0 im1, r2c_new 6 = Ok f /\ new_composite KDirichlet 7 = Ok b /\
  let b0 := r2c_ops (A := R) f in let b1 := r2r_ops (T := cplx R) b in
  base_implements im0 b0 /\ base_implements im1 b1 /\ lib_base R (cplx R) (cplx R) vec_self vec_cplx vec_cplx b0 /\ lib_base R R (cplx R) vec_self vec_self vec_cplx b1 /\
  Permutation [1; 0] [0; 1] /\ Permutation [2; 0; 1] [0; 1; 2].
Proof.
  destruct witness_r2c as (f & Hf & Uf & _). destruct witness_dirichlet as (b & Hb & _ & Ub & _).
  apply usable_lib in Uf. apply usable_lib in Ub.
  destruct (C26_implementation_exists _ _ _ _ _ _ _ Uf) as [im0 I0]. destruct (C26_implementation_exists _ _ _ _ _ _ _ Ub) as [im1 I1].
  exists f, b, im0, im1. do 2 (split; [assumption|]). cbv zeta. do 4 (split; [assumption|]). split. apply perm_swap.
  change [0; 1; 2] with ([0; 1] ++ [2]). apply (Permutation_app_comm [2] [0; 1]).
Qed.
