(** Concrete bases that meet the hypotheses of the space theorems: a real
    Fourier base of size 6, a Chebyshev-Dirichlet base of size 7 and a complex
    Fourier base of size 5, as used in Space1/Space2/Space3 and Space2Mpi. *)
From Coq Require Import List Arith Lia Bool ZArith Reals.
From Verif Require Import Base Num Linalg Stencils Cheb Compo Fourier FourierProofs CompoProofs CompoFacts CompoFacts2 NdArray Bases LibBase SpaceBases.
Import ListNotations.
Local Open Scope nat_scope.

Lemma witness_r2c : exists f, r2c_new 6 = Ok f /\ usable R (cplx R) (cplx R) vec_self vec_cplx vec_cplx (r2c_ops f) /\
  len_phys (r2c_ops (A := R) f) = 6 /\ len_spec (r2c_ops (A := R) f) = 4 /\ len_orth (r2c_ops (A := R) f) = 4.
Proof.
  assert (H : exists f, r2c_new 6 = Ok f) by (eexists; reflexivity). destruct H as [f Hf]. exists f. split; auto. split. eapply us_fourier_r2c; eauto.
  apply r2c_new_inv in Hf as [_ ->]. repeat split.
Qed.
Lemma witness_c2c : exists f, c2c_new 5 = Ok f /\ usable (cplx R) (cplx R) (cplx R) vec_cplx vec_cplx vec_cplx (c2c_ops f) /\
  len_phys (c2c_ops (A := R) f) = 5 /\ len_spec (c2c_ops (A := R) f) = 5.
Proof.
  assert (H : exists f, c2c_new 5 = Ok f) by (eexists; reflexivity). destruct H as [f Hf]. exists f. split; auto. split. eapply us_fourier_c2c; eauto.
  apply c2c_new_inv in Hf as [_ ->]. repeat split.
Qed.
(** [T] is the element type of the axis operations: real in a real space,
    complex next to a Fourier base. *)
Lemma witness_dirichlet : exists b, new_composite (A := R) KDirichlet 7 = Ok b /\
  usable R R R vec_self vec_self vec_self (r2r_ops b) /\ usable R R (cplx R) vec_self vec_self vec_cplx (r2r_ops b) /\
  forall T (V : Vec R T), len_phys (r2r_ops (T := T) b) = 7 /\ len_spec (r2r_ops (T := T) b) = 5 /\ len_orth (r2r_ops (T := T) b) = 7.
Proof.
  destruct (compo_new_ok KDirichlet 7) as [c Hc]. cbn; lia.
  assert (H : new_composite KDirichlet 7 = Ok (BChebyshevComposite c)) by (unfold new_composite; rewrite Hc; reflexivity).
  exists (BChebyshevComposite c). split; auto.
  split. { apply (us_composite R vec_self vecR_R KDirichlet 7); auto. }
  split. { apply (us_composite (cplx R) vec_cplx vecR_C KDirichlet 7); auto. }
  intros T V. cbn [r2r_ops len_phys len_spec len_orth]. destruct (compo_new_inv KDirichlet 7 c Hc) as (_ & E & _ & E1 & _).
  split; [|split]. unfold compo_len_phys. rewrite E. reflexivity. apply (len_spec_eq KDirichlet 7 c Hc). unfold compo_len_orth. rewrite E1. reflexivity.
Qed.
Lemma witness_chebyshev : exists b, new_chebyshev (A := R) 9 = Ok b /\
  usable R R R vec_self vec_self vec_self (r2r_ops b) /\ usable R R (cplx R) vec_self vec_self vec_cplx (r2r_ops b) /\
  forall T (V : Vec R T), len_phys (r2r_ops (A := R) (T := T) b) = 9 /\ len_spec (r2r_ops (A := R) (T := T) b) = 9.
Proof.
  assert (H : exists b, new_chebyshev (A := R) 9 = Ok b) by (eexists; reflexivity). destruct H as [b Hb]. exists b. split; auto.
  split. { apply (us_chebyshev R vec_self vecR_R 9); auto. }
  split. { apply (us_chebyshev (cplx R) vec_cplx vecR_C 9); auto. }
  intros T V. apply new_chebyshev_inv in Hb as [_ ->]. repeat split.
Qed.
