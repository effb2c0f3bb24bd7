(** C62: a new field holds, axis by axis and in their order, the coordinates and
    the cell widths of the bases of its space, and zero arrays of its shapes. *)
From Coq Require Import List Arith Lia Bool ZArith Reals.
From Verif Require Import Base Num Linalg Stencils Cheb Compo CompoProofs Fourier NdArray NdArrayFacts AxisFacts Bases LibBase
  AxisProps PropAxis SpaceFacts SpaceBases SpaceStages Space PropSpace Elements ElemFacts PropElements PropElements2 Field FieldFacts PropField.
Import ListNotations.
Local Open Scope nat_scope.

(** ** Specification. The cell of point i reaches from the midpoint with its left
    neighbour to the midpoint with its right one; the first cell starts at the
    first point and the last one ends at the last point. *)
Definition left_end {A} {N : Num A} (x : list A) (i : nat) : A := match i with 0 => x.[0] | Datatypes.S j => ndiv (nadd x.[i] x.[j]) (nadd n1 n1) end.
Definition right_end {A} {N : Num A} (x : list A) (i : nat) : A := if Datatypes.S i =? length x then x.[i] else ndiv (nadd x.[Datatypes.S i] x.[i]) (nadd n1 n1).
Definition cells {A} {N : Num A} (x dx : list A) : Prop := length dx = length x /\ forall i, i < length x -> dx.[i] = nsub (right_end x i) (left_end x i).
(** a field of zeros on the grid [xs] *)
Definition fresh {A T1 T2} {N : Num A} {d1 : Dflt T1} {d2 : Dflt T2} (phys spec : list nat) (xs : list (list A)) (f : field A T1 T2) : Prop :=
  fl_ndim f = length phys /\ fl_v f = azeros dflt phys /\ fl_vhat f = azeros dflt spec /\ fl_x f = xs /\ Forall2 cells xs (fl_dx f).

Section New.
Context {A : Type} {N : Num A}.
Lemma dx_cells (x : list A) : exists dx, dx_axis x = Ok dx /\ cells x dx.
Proof.
  pose proof (dx_axis_val x) as W. apply wp_Ok in W as (dx & E & L & H). exists dx. split; auto. split; auto. intros i Hi. rewrite H by auto.
  unfold dx_left, dx_right, left_end, right_end. replace (i =? length x - 1) with (Datatypes.S i =? length x) by (destruct (Nat.eqb_spec i (length x - 1)), (Nat.eqb_spec (Datatypes.S i) (length x)); auto; lia).
  f_equal.
  - destruct (Nat.eqb_spec (Datatypes.S i) (length x)). f_equal; lia. rewrite Nat.add_1_r. reflexivity.
  - destruct i; cbn [Nat.eqb]; auto. replace (Datatypes.S i - 1) with i by lia. reflexivity.
Qed.
End New.

Theorem C62_a_new_field_follows_the_axes :
  forall A (N : Num A) P I J S (dP : Dflt P) (dI : Dflt I) (dJ : Dflt J) (dS : Dflt S) (DV : DivInto A S) (e0 e1 e2 : elems A) x0 x1 x2,
  e_coords e0 = Ok x0 -> e_coords e1 = Ok x1 -> e_coords e2 = Ok x2 ->
  (forall (b0 : base_ops P S S) im0, exists f, field_new (fs1 b0 im0 e0) = Ok f /\ fresh [len_phys b0] [len_spec b0] [x0] f) /\
  (forall (b0 : base_ops I S S) (b1 : base_ops P I S) im0 im1, exists f, field_new (fs2 b0 b1 im0 im1 e0 e1) = Ok f /\
     fresh [len_phys b0; len_phys b1] [len_spec b0; len_spec b1] [x0; x1] f) /\
  (forall (b0 : base_ops J S S) (b1 : base_ops I J S) (b2 : base_ops P I S) im0 im1 im2, exists f, field_new (fs3 b0 b1 b2 im0 im1 im2 e0 e1 e2) = Ok f /\
     fresh [len_phys b0; len_phys b1; len_phys b2] [len_spec b0; len_spec b1; len_spec b2] [x0; x1; x2] f).
Proof.
  intros A N P I J S dP dI dJ dS DV e0 e1 e2 x0 x1 x2 E0 E1 E2.
  destruct (dx_cells x0) as (d0 & D0 & K0). destruct (dx_cells x1) as (d1 & D1 & K1). destruct (dx_cells x2) as (d2 & D2 & K2).
  split; [|split]; intros.
  - eexists. split. unfold field_new, fs1. cbn [fs_coords fs_ndim fs_physical fs_spectral]. unfold s1_coords, s1_coords_axis, s1_method, s1_axis. cbn [bind]. rewrite E0. cbn [bind]. unfold get_dx. cbn [for_each]. rewrite D0. reflexivity.
    split; [reflexivity|]. split; [reflexivity|]. split; [reflexivity|]. split; [reflexivity|]. exact (Forall2_cons _ _ K0 (Forall2_nil _)).
  - eexists. split. unfold field_new, fs2. cbn [fs_coords fs_ndim fs_physical fs_spectral]. unfold s2_coords, s2_coords_axis, s2_method, s2_axis. cbn [bind Nat.eqb]. rewrite E0. cbn [bind]. rewrite E1. cbn [bind].
    unfold get_dx. cbn [for_each]. rewrite D0. cbn [bind]. rewrite D1. reflexivity.
    split; [reflexivity|]. split; [reflexivity|]. split; [reflexivity|]. split; [reflexivity|]. exact (Forall2_cons _ _ K0 (Forall2_cons _ _ K1 (Forall2_nil _))).
  - eexists. split. unfold field_new, fs3. cbn [fs_coords fs_ndim fs_physical fs_spectral]. unfold s3_coords, s3_coords_axis, s3_method, s3_axis, assertb. cbn [bind Nat.eqb Nat.leb]. rewrite E0. cbn [bind]. rewrite E1. cbn [bind]. rewrite E2. cbn [bind].
    unfold get_dx. cbn [for_each]. rewrite D0. cbn [bind]. rewrite D1. cbn [bind]. rewrite D2. reflexivity.
    split; [reflexivity|]. split; [reflexivity|]. split; [reflexivity|]. split; [reflexivity|]. exact (Forall2_cons _ _ K0 (Forall2_cons _ _ K1 (Forall2_cons _ _ K2 (Forall2_nil _)))).
Qed.
Print Assumptions C62_a_new_field_follows_the_axes.

(** The hypotheses are met by every constructible base: the field of a space of two
    Chebyshev bases and a Fourier base holds the three grids of C49. *)
Example C62_new_field_hyps_met :
  forall bm k0 k1 k2 n0 n1 n2 (e0 e1 e2 : elems R), elems_new bm k0 n0 = Ok e0 -> elems_new bm k1 n1 = Ok e1 -> elems_new bm k2 n2 = Ok e2 ->
  exists x0 x1 x2, e_coords e0 = Ok x0 /\ e_coords e1 = Ok x1 /\ e_coords e2 = Ok x2 /\ is_grid k0 n0 x0 /\ is_grid k1 n1 x1 /\ is_grid k2 n2 x2.
Proof.
  intros bm k0 k1 k2 n0 n1 n2 e0 e1 e2 H0 H1 H2.
  destruct (C49_base_accessors _ _ _ _ H0) as (_ & _ & W0). destruct (C49_base_accessors _ _ _ _ H1) as (_ & _ & W1). destruct (C49_base_accessors _ _ _ _ H2) as (_ & _ & W2).
  apply wp_Ok in W0 as (x0 & ? & ?). apply wp_Ok in W1 as (x1 & ? & ?). apply wp_Ok in W2 as (x2 & ? & ?). exists x0, x1, x2. auto 10.
Qed.
Example C62_new_field_bases : exists e0 e1 e2 : elems R, elems_new Debug Chebyshev 5 = Ok e0 /\ elems_new Debug (ChebComposite KDirichlet) 6 = Ok e1 /\ elems_new Debug FourierR2c 7 = Ok e2.
Proof. do 3 eexists. repeat split; reflexivity. Qed.
