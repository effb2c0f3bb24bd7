(** What the loops of [tdma] and of the Chebyshev derivative compute, in any
    arithmetic: every entry by the very operations the program performs, no law
    used (the starting point of the rounding-error theorems, C54). *)
From Coq Require Import List Arith Lia Bool ZArith.
From Verif Require Import Base Num Linalg LinalgProofs LinalgProofs2 Stencils StencilProofs StencilProofs2 Cheb ChebGrad AnyArith.
Import ListNotations.
Local Open Scope nat_scope.

Section Steps.
Context {A T : Type} {N : Num A} {V : Vec A T}.

Definition piv (l2 d0 w : list A) (j : nat) : A :=
  if j <? 2 then d0.[j] else nsub d0.[j] (nmul l2.[j - 2] w.[j - 2]).
Definition tdma_w (l2 d0 u2 w : list A) (j : nat) : Prop := w.[j] = ndiv u2.[j] (piv l2 d0 w j).
Definition tdma_g (l2 d0 w : list A) (rhs g : list T) (j : nat) : Prop :=
  g.[j] = vdiv (if j <? 2 then rhs.[j] else vsub rhs.[j] (vmul g.[j - 2] l2.[j - 2])) (piv l2 d0 w j).
Definition tdma_x (n : nat) (w : list A) (g x : list T) (j : nat) : Prop :=
  x.[j] = if j + 2 <? n then vsub g.[j] (vmul x.[j + 2] w.[j]) else g.[j].

Ltac lt2 := repeat match goal with |- context [?a <? ?b] => destruct (Nat.ltb_spec a b); try lia end.
Lemma tdma_steps md (l2 d0 u2 : list A) (rhs : list T) :
  let n := length rhs in
  2 < n -> length l2 = n - 2 -> length d0 = n -> length u2 = n - 2 ->
  wp (tdma md l2 d0 u2 rhs) (fun x => length x = n /\
    exists w g, length w = n - 2 /\ length g = n /\
      (forall j, j < n - 2 -> tdma_w l2 d0 u2 w j) /\
      (forall j, j < n -> tdma_g l2 d0 w rhs g j) /\
      (forall j, j < n -> tdma_x n w g x j)).
Proof.
  intros n Hn H2 H0 H2'. unfold tdma. fold n.
  pose proof (repeat_length (n0:A) (n-2)) as Rw.
  pose proof (repeat_length (v0:T) n) as Rg.
  set (w0 := repeat (n0:A) (n-2)) in *. set (g0 := repeat (v0:T) n) in *.
  cbv zeta. apply wp_bind. apply wp_assert. apply Nat.ltb_lt; lia.
  clearbody w0 g0.
  wps.
  apply (wp_mono _ (fun w => length w = (n-2)%nat /\ forall j, (j < Nat.min 2 (n-2))%nat -> tdma_w l2 d0 u2 w j)).
  { unfold tdma_w, piv. destruct (Nat.ltb_spec 1 (length u2)).
    - wps. split; [lia|]. intros j Hj. assert (j = 0 \/ j = 1)%nat as [->| ->] by lia; lt2; rdx; auto.
    - unfold wp. split; [lia|]. intros j Hj. assert (j = 0)%nat as -> by lia. lt2; rdx; auto. }
  intros w1 [Lw1 Ew1]. clear l HL HE HF Rw w0. cbv beta. wps.
  apply (wp_mono _ (fun w => length w = (n-2)%nat /\ forall j, (j < n-2)%nat -> tdma_w l2 d0 u2 w j)).
  { destruct (le_dec 2 (n-2)).
    - apply (wp_for_each_range 2 (n-2) _ (fun k w => length w = (n-2)%nat /\ forall j, (j < k)%nat -> tdma_w l2 d0 u2 w j)); auto.
      + split; auto. intros; apply Ew1; lia.
      + clear Ew1 Lw1 w1. intros i w Hi [Lw Ew]. wps. split; [lia|].
        intros j Hj. unfold tdma_w, piv in *. destruct (Nat.eq_dec j i) as [->|].
        * lt2. rdx. reflexivity.
        * frame. rewrite (Ew j) by lia. lt2; auto; frame; auto.
    - rewrite range_empty by lia. simpl. split; auto. intros; apply Ew1; lia. }
  clear w1 Lw1 Ew1. intros w [Lw Ew]. cbv beta. apply wp_bind.
  apply (wp_for_each_range 2 n _ (fun k g => length g = n /\ forall j, (j < k)%nat -> tdma_g l2 d0 w rhs g j)).
  { lia. }
  { split; [lia|]. intros j Hj. unfold tdma_g, piv. assert (j = 0 \/ j = 1)%nat as [->| ->] by lia; lt2; rdx; auto. }
  { clear l0 HL0 HE0 HF0 l HL HE HF. intros i g Hi [Lg Eg].
    wps. split; [lia|]. unfold tdma_g, piv in *.
    intros j Hj. destruct (Nat.eq_dec j i) as [->|].
    - lt2. rdx. reflexivity.
    - frame. rewrite (Eg j) by lia. lt2; auto; frame; auto. }
  clear l0 HL0 HE0 HF0 l HL HE HF Rg g0. intros g [Lg Eg]. wps.
  apply (wp_for_each_rev 1 (n-1) _ (fun k x => length x = n /\
     forall j, (k <= j + 1)%nat -> (j < n)%nat -> tdma_x n w g x j)).
  { lia. }
  { split; [lia|]. intros j Hj1 Hj. unfold tdma_x. assert (j = n-2 \/ j = n-1)%nat as [->| ->] by lia; lt2; rdx; auto. }
  { clear l0 HL0 HE0 HF0 l HL HE HF. intros i x Hi [Lx Ex]. wps. split; [lia|].
    unfold tdma_x in *. intros j Hj1 Hj. destruct (Nat.eq_dec j (i-1)) as [->|].
    - lt2. rdx. replace (i - 1 + 2)%nat with (i + 1)%nat by lia. auto.
    - frame. rewrite Ex by lia. lt2; auto; frame; auto. }
  intros x [Lx Ex]. split; auto. exists w, g. repeat split; auto.
  intros; apply Ex; lia.
Qed.

(** One Chebyshev differentiation. *)
Definition grad_term (a : list T) (k : nat) : T := vmul a.[k + 1] (nmul (nadd n1 n1) (nofN (k + 1))).
Definition grad_steps (m : nat) (a b : list T) : Prop :=
  length b = m /\ b.[m - 1] = v0 /\ b.[m - 2] = grad_term a (m - 2) /\
  (forall k, 1 <= k < m - 2 -> b.[k] = vadd (grad_term a k) b.[k + 2]) /\
  b.[0] = vadd a.[1] (vdiv b.[2] (nadd n1 n1)).
Lemma grad_once_steps m (a : list T) : 3 <= m -> length a = m -> wp (grad_once m a) (grad_steps m a).
Proof.
  intros Hm La. unfold grad_once. wpus.
  apply (wp_for_each_range 1 (m-1) _ (fun i o => length o = m /\ o.[0] = a.[1] /\
     (forall k, (1 <= k < i)%nat -> o.[k] = grad_term a k) /\
     (forall k, (i <= k)%nat -> o.[k] = a.[k]))).
  - lia.
  - split; [lia|]. split; [auto|]. split. intros; lia. intros k Hk. apply HF; lia.
  - intros i o Hi (Lo & O0 & O1 & O2). wpus. split; [lia|]. split; [rewrite HF0 by lia; auto|]. split.
    + intros k Hk. destruct (Nat.eq_dec k i) as [->|].
      * rewrite HE0, O2 by lia. reflexivity.
      * rewrite HF0 by lia. apply O1; lia.
    + intros k Hk. rewrite HF0 by lia. apply O2; lia.
  - intros o (Lo & O0 & O1 & O2). wpus.
    assert (C0 : l0.[0] = a.[1]) by (rewrite HF0 by lia; auto).
    assert (C1 : forall k, (1 <= k < m - 1)%nat -> l0.[k] = grad_term a k).
    { intros k Hk. rewrite HF0 by lia; apply O1; lia. }
    assert (C2 : l0.[m - 1] = v0) by auto.
    clear HF0 HE0.
    apply (wp_for_each_rev 1 (m-2) _ (fun i o => length o = m /\ o.[0] = a.[1] /\ o.[m - 1] = v0 /\ o.[m - 2] = grad_term a (m - 2) /\
       (forall k, (1 <= k < i)%nat -> o.[k] = l0.[k]) /\
       (forall k, (i <= k < m - 2)%nat -> o.[k] = vadd (grad_term a k) o.[k+2]))).
    + lia.
    + split; [lia|]. split; auto. split; auto. split. apply C1; lia. split; auto. intros; lia.
    + intros i o' Hi (Lo' & P0 & P1 & P2 & P3 & P4). wpus. split; [lia|]. split; [rewrite HF0 by lia; auto|].
      split; [rewrite HF0 by lia; auto|]. split; [rewrite HF0 by lia; auto|]. split.
      * intros k Hk. rewrite HF0 by lia. apply P3; lia.
      * intros k Hk. rewrite (HF0 (k+2)%nat) by lia. destruct (Nat.eq_dec k i) as [->|].
        -- rewrite HE0, P3, C1 by lia. auto.
        -- rewrite HF0 by lia. apply P4; lia.
    + intros o' (Lo' & P0 & P1 & P2 & P3 & P4). wpus. split; [lia|].
      split. rewrite HF0 by lia; auto. split. rewrite HF0 by lia; auto. split.
      intros k Hk. rewrite !HF0 by lia. apply P4; lia.
      rewrite HE0, (HF0 2), P0 by lia. auto.
Qed.
End Steps.
