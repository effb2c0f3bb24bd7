(** C15: the band solvers.  Statements only; proofs are elsewhere. *)
From Coq Require Import List Arith Lia Bool ZArith Reals Lra.
From Verif Require Import Base Num Linalg LinalgSpec LinalgModes.
Import ListNotations.
Local Open Scope R_scope.

(** Vocabulary (LinalgSpec.v): [band3]/[band5] give entry (i,j) of the banded
    matrix, [leading_nonsing n A] says every leading submatrix is non-singular
    (the textbook condition for elimination without pivoting),
    [solves n A x b] says A x = b.  [wp m Q]: m returns normally, with a result
    satisfying Q. *)

Theorem C15_tdma_solves : forall (T : Type) (V : Vec R T) (L : VecR T) md
    (l2 d0 u2 : list R) (rhs : list T),
  let n := length rhs in
  (2 < n)%nat -> length l2 = (n-2)%nat -> length d0 = n -> length u2 = (n-2)%nat ->
  leading_nonsing n (band3 2 l2 d0 u2) ->
  wp (tdma md l2 d0 u2 rhs) (fun x => solves n (band3 2 l2 d0 u2) x rhs).
Proof. exact @tdma_solves. Qed.
Print Assumptions C15_tdma_solves.

Theorem C15_pdma_solves : forall (T : Type) (V : Vec R T) (L : VecR T) md
    (l2 l1 d0 u1 u2 : list R) (rhs : list T),
  let n := length rhs in
  (3 < n)%nat -> length l2 = (n-2)%nat -> length l1 = (n-1)%nat -> length d0 = n ->
  length u1 = (n-1)%nat -> length u2 = (n-2)%nat ->
  leading_nonsing n (band5 1 l2 l1 d0 u1 u2) ->
  wp (pdma md l2 l1 d0 u1 u2 rhs) (fun x => solves n (band5 1 l2 l1 d0 u1 u2) x rhs).
Proof. exact @pdma_solves. Qed.
Print Assumptions C15_pdma_solves.

Theorem C15_pdma2_solves : forall (T : Type) (V : Vec R T) (L : VecR T) md
    (l4 l2 d0 u2 u4 : list R) (rhs : list T),
  let n := length rhs in
  (5 < n)%nat -> length l4 = (n-4)%nat -> length l2 = (n-2)%nat -> length d0 = n ->
  length u2 = (n-2)%nat -> length u4 = (n-4)%nat ->
  leading_nonsing n (band5 2 l4 l2 d0 u2 u4) ->
  wp (pdma2 md l4 l2 d0 u2 u4 rhs) (fun x => solves n (band5 2 l4 l2 d0 u2 u4) x rhs).
Proof. exact @pdma2_solves. Qed.
Print Assumptions C15_pdma2_solves.

(** The solution is unique. *)
Theorem C15_solution_unique : forall (T : Type) (V : Vec R T) (L : VecR T) n A (x y b : list T),
  nonsing n A -> solves n A x b -> solves n A y b -> x = y.
Proof. exact @solves_unique. Qed.
Print Assumptions C15_solution_unique.

(** Strict diagonal dominance is enough. *)
Theorem C15_diag_dominant_suffices : forall n A, diag_dominant n A -> leading_nonsing n A.
Proof. exact diag_dominant_leading. Qed.
Print Assumptions C15_diag_dominant_suffices.

(** Positive definiteness is enough. *)
Theorem C15_pos_def_suffices : forall n A, pos_def n A -> leading_nonsing n A.
Proof. exact pos_def_leading. Qed.
Print Assumptions C15_pos_def_suffices.

(** Checked and unchecked variants agree for every input whatsoever. *)
Theorem C15_modes_agree : forall (A T : Type) (N : Num A) (V : Vec A T)
    (l4 l2 l1 d0 u1 u2 u4 : list A) (rhs : list T),
  agree (tdma Checked l2 d0 u2 rhs) (tdma Unchecked l2 d0 u2 rhs) /\
  agree (pdma Checked l2 l1 d0 u1 u2 rhs) (pdma Unchecked l2 l1 d0 u1 u2 rhs) /\
  agree (pdma2 Checked l4 l2 d0 u2 u4 rhs) (pdma2 Unchecked l4 l2 d0 u2 u4 rhs).
Proof.
  exact (fun A T N V l4 l2 l1 d0 u1 u2 u4 rhs =>
    conj (tdma_modes l2 d0 u2 rhs) (conj (pdma_modes l2 l1 d0 u1 u2 rhs) (pdma2_modes l4 l2 d0 u2 u4 rhs))).
Qed.
Print Assumptions C15_modes_agree.

(** Below the asserted size the solvers panic, they never misbehave. *)
Theorem C15_small_sizes_panic : forall (A T : Type) (N : Num A) (V : Vec A T) md
    (l4 l2 l1 d0 u1 u2 u4 : list A) (rhs : list T),
  ((length rhs <= 2)%nat -> tdma md l2 d0 u2 rhs = Panic) /\
  ((length rhs <= 3)%nat -> pdma md l2 l1 d0 u1 u2 rhs = Panic) /\
  ((length rhs <= 5)%nat -> pdma2 md l4 l2 d0 u2 u4 rhs = Panic).
Proof. exact @small_sizes_panic. Qed.
Print Assumptions C15_small_sizes_panic.

(** Non-vacuity: a non-trivial diagonally dominant pentadiagonal system. *)
Example C15_hyps_met : diag_dominant 8
    (band5 2 [1;-1;1;1] [1;1;1;-1;1;1] [5;-5;6;7;-8;9;5;5] [1;2;1;1;1;1] [1;1;-1;1]).
Proof.
  intros i Hi. do 8 (destruct i as [|i]; [
    cbv [rsum band5 Nat.eqb Nat.add Nat.mul at_ nth dflt dflt_num n0 num_R];
    repeat match goal with |- context [Rabs ?x] =>
      first [ rewrite (Rabs_pos_eq x) by lra | rewrite (Rabs_left x) by lra ] end; lra |]).
  lia.
Qed.
