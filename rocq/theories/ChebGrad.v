(** The Chebyshev derivative (Cheb.grad_once, cheb_gradient). *)
From Coq Require Import List Arith Lia Bool ZArith Reals Lra.
From Verif Require Import Base Num Linalg LinalgProofs StencilProofs StencilProofs2 Cheb ChebPoly.
Import ListNotations.
Local Open Scope R_scope.

Lemma zip_write_length {T} (o i : list T) : length (zip_write o i) = length o.
Proof. revert i; induction o; destruct i; simpl; auto. Qed.

Lemma zip_write_full {T} (o i : list T) : length i = length o -> zip_write o i = i.
Proof. revert i; induction o; destruct i; simpl; intros; try lia; auto. rewrite IHo; auto. Qed.

Lemma vproj_at_over {T} {V : Vec R T} {L : VecR T} p (a : list T) k :
  (length a <= k)%nat -> vproj p (@at_ T dflt_vec a k) = 0.
Proof. intros. rewrite at_over by auto. apply vproj_0. Qed.

Lemma IZR_INR k : IZR (Z.of_nat k) = INR k.
Proof. symmetry; apply INR_IZR_INZ. Qed.

Lemma UB_bind' {A B} (m : res A) (k : A -> res B) (P : A -> Prop) :
  wp m P -> (forall a, P a -> k a = UB) -> bind m k = UB.
Proof. destruct m; simpl; intros; try contradiction; auto. Qed.

Section Grad.
Context {T : Type} {V : Vec R T} {L : VecR T}.
Notation "l .[ i ]" := (@at_ T dflt_vec l i) (at level 2, i at level 200, left associativity).

Definition coord (p : vI) (a : list T) (k : nat) : R := vproj p a.[k].

Lemma grad_once_ok m (a : list T) :
  (3 <= m)%nat -> length a = m ->
  wp (grad_once m a) (fun b => length b = m /\ forall p, grad_rec (coord p a) (coord p b)).
Proof.
  intros Hm La. unfold grad_once. wpus.
  apply (wp_for_each_range 1 (m-1) _ (fun i o => length o = m /\ o.[0] = a.[1] /\
     (forall k, (1 <= k < i)%nat -> o.[k] = vmul a.[k+1] (2 * INR (k+1))) /\
     (forall k, (i <= k)%nat -> o.[k] = a.[k]))).
  - lia.
  - split; [lia|]. split; [auto|]. split. intros; lia. intros k Hk. apply HF; lia.
  - intros i o Hi (Lo & O0 & O1 & O2). wpus. split; [lia|]. split; [rewrite HF0 by lia; auto|]. split.
    + intros k Hk. destruct (Nat.eq_dec k i) as [->|].
      * rewrite HE0, O2 by lia. f_equal. numR. rewrite IZR_INR. lra.
      * rewrite HF0 by lia. apply O1; lia.
    + intros k Hk. rewrite HF0 by lia. apply O2; lia.
  - intros o (Lo & O0 & O1 & O2). wpus.
    (* c = coefficients before the reverse sweep *)
    assert (C0 : l0.[0] = a.[1]) by (rewrite HF0 by lia; auto).
    assert (C1 : forall k, (1 <= k)%nat -> l0.[k] = vmul a.[k+1] (2 * INR (k+1))).
    { intros k Hk. destruct (Nat.eq_dec k (m-1)) as [->|].
      - rewrite HE0. rewrite (at_over a) by lia. vcoord. unfold dflt, dflt_vec. rewrite vproj_0. ring.
      - destruct (lt_dec k m). rewrite HF0 by lia; apply O1; lia.
        rewrite !at_over by lia. vcoord. unfold dflt, dflt_vec. rewrite vproj_0. ring. }
    clear HE0 HF0.
    apply (wp_for_each_rev 1 (m-2) _ (fun i o => length o = m /\ o.[0] = a.[1] /\
       (forall k, (1 <= k < i)%nat -> o.[k] = l0.[k]) /\
       (forall k, (i <= k)%nat -> (1 <= k)%nat -> o.[k] = vadd l0.[k] o.[k+2]))).
    + lia.
    + split; [lia|]. split; auto. split; auto. intros k Hk1 Hk2.
      rewrite (at_over l0 (k+2)) by lia. vcoord. unfold dflt, dflt_vec. rewrite vproj_0. ring.
    + intros i o' Hi (Lo' & P0 & P1 & P2). wpus. split; [lia|]. split; [rewrite HF0 by lia; auto|]. split.
      * intros k Hk. rewrite HF0 by lia. apply P1; lia.
      * intros k Hk1 Hk2. rewrite (HF0 (k+2)%nat) by lia. destruct (Nat.eq_dec k i) as [->|].
        -- rewrite HE0, P1 by lia. auto.
        -- rewrite HF0 by lia. apply P2; lia.
    + intros o' (Lo' & P0 & P1 & P2). wpus. split; [lia|]. intros p. unfold coord. split.
      * rewrite HE0, HF0, P0 by lia. rewrite vproj_add, vproj_div. numR. lra.
      * intros k Hk. rewrite !HF0 by lia. rewrite P2, C1 by lia. rewrite vproj_add, vproj_mul. ring.
Qed.

Definition ceval (a : list T) (p : vI) : R -> R := pevalf (length a) (coord p a).

Lemma coord_over p (a : list T) k : (length a <= k)%nat -> coord p a k = 0.
Proof. apply vproj_at_over. Qed.

Lemma nth_deriv_snoc d f g h :
  nth_deriv d f g -> (forall x, derivable_pt_lim g x (h x)) -> nth_deriv (S d) f h.
Proof.
  revert f; induction d; intros f H1 H2.
  - exists h. split; [|simpl; auto]. intros x. eapply dlim_ext; [| |apply H2]; auto.
  - destruct H1 as (f' & Hf & H1). exists f'. split; auto.
Qed.

Lemma cheb_gradient_ok c (a out : list T) d :
  (3 <= c_m c)%nat -> length a = c_m c -> length out = c_m c ->
  wp (cheb_gradient c a out d) (fun b => length b = c_m c /\
     forall p, nth_deriv d (peval a p) (peval b p)).
Proof.
  intros Hm La Lo. unfold cheb_gradient. wpus. rewrite zip_write_full by lia.
  apply (wp_for_each_range 0 d _ (fun i b => length b = c_m c /\ forall p, nth_deriv i (peval a p) (peval b p))).
  - lia.
  - split; auto. simpl; auto.
  - intros i b Hi (Lb & Hb). eapply wp_mono. { apply grad_once_ok; auto. }
    cbv beta. intros b' (Lb' & G). split; auto. intros p. rewrite Nat.add_1_r.
    eapply nth_deriv_snoc; [apply Hb|]. intros x. unfold peval. rewrite Lb, Lb'.
    apply (grad_rec_deriv (c_m c) (coord p b) (coord p b')); auto.
    + intros; apply coord_over; lia.
    + intros; apply coord_over; lia.
  - auto.
Qed.

(** Two points: the unchecked read out[2] is out of range. *)
Lemma grad_once_small (m : nat) (a : list T) :
  (1 <= m <= 2)%nat -> length a = m -> grad_once m a = UB.
Proof.
  intros Hm La. unfold grad_once. destruct a as [|x [|y [|]]]; simpl in La; try lia; subst m; reflexivity.
Qed.

Lemma cheb_gradient_small c (a out : list T) d :
  c_m c = 2%nat -> length a = 2%nat -> length out = 2%nat -> (0 < d)%nat ->
  cheb_gradient c a out d = UB.
Proof.
  intros Hm La Lo Hd. unfold cheb_gradient. rewrite Hm, Lo. simpl. rewrite zip_write_full by lia.
  destruct d; [lia|]. unfold range. simpl. rewrite grad_once_small; auto.
Qed.
End Grad.
