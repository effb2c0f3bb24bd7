(** C01-C08: the orthogonal Chebyshev base.  Statements only.

    Vocabulary: [wp m Q] says the call [m] returns normally with a result
    satisfying [Q] (no panic, no undefined behaviour).  [TT k x] is the Chebyshev
    polynomial T_k(x) (three-term recurrence), [peval a p x] the value at x of
    coordinate p of the series with coefficients a (p is trivial for real
    coefficients, re/im for complex ones), [nth_deriv d f g]: g is the d-th
    derivative of f at every real point (Coq's [derivable_pt_lim]).
    [l.[i]] is the i-th entry.  The last list argument of a call is the previous
    content of the output slice. *)
From Coq Require Import List Arith Lia Bool ZArith Reals Lra QArith.
From Verif Require Import Base Num Linalg Stencils Cheb Compo ChebPoly ChebGrad ChebMat ChebDct ChebPinv ChebFacts ChebPinv3 ChebPinv4.
Import ListNotations.
Local Open Scope R_scope.

(** ** C01, C02: round trips *)
Theorem C01_cheb_forward_of_backward : forall n c (a o1 o2 : list R),
  cheb_new n = Ok c -> length a = n -> length o1 = n -> length o2 = n ->
  wp (let* y := cheb_backward c a o1 in cheb_forward c y o2) (fun a' => a' = a).
Proof. exact C01_l. Qed.
Print Assumptions C01_cheb_forward_of_backward.

Theorem C02_cheb_backward_of_forward : forall n c (x o1 o2 : list R),
  cheb_new n = Ok c -> length x = n -> length o1 = n -> length o2 = n ->
  wp (let* a := cheb_forward c x o1 in cheb_backward c a o2) (fun x' => x' = x).
Proof. exact C02_l. Qed.
Print Assumptions C02_cheb_backward_of_forward.

(** ** C03: backward evaluates, forward interpolates (uniquely) *)
Theorem C03_cheb_backward_evaluates : forall n c (a o : list R),
  cheb_new n = Ok c -> length a = n -> length o = n ->
  wp (cheb_coords c) (fun xs => wp (cheb_backward c a o) (fun y => length y = n /\
    forall j, (j < n)%nat -> y.[j] = rsum n (fun k => a.[k] * TT k xs.[j]))).
Proof. exact backward_eval. Qed.
Print Assumptions C03_cheb_backward_evaluates.

Theorem C03_cheb_forward_interpolates : forall n c (x o : list R),
  cheb_new n = Ok c -> length x = n -> length o = n ->
  wp (cheb_coords c) (fun xs => wp (cheb_forward c x o) (fun a => length a = n /\
    (forall j, (j < n)%nat -> rsum n (fun k => a.[k] * TT k xs.[j]) = x.[j]) /\
    (forall b, length b = n -> (forall j, (j < n)%nat -> rsum n (fun k => b.[k] * TT k xs.[j]) = x.[j]) -> b = a))).
Proof. exact forward_interpolates. Qed.
Print Assumptions C03_cheb_forward_interpolates.

(** The recurrence really is the Chebyshev polynomial. *)
Theorem C03_T_is_cos : forall k t, TT k (cos t) = cos (INR k * t).
Proof. exact TT_cos. Qed.
Print Assumptions C03_T_is_cos.

(** ** C04: coordinates, of the orthogonal and of every composite base *)
Definition good_grid (n : nat) (xs : list R) : Prop :=
  length xs = n /\
  (forall j, (j < n)%nat -> xs.[j] = - cos (PI * INR j / INR (n - 1))) /\
  xs.[0] = -1 /\ xs.[n - 1] = 1 /\
  (forall i j, (i < j)%nat -> (j < n)%nat -> xs.[i] < xs.[j]) /\
  (forall j, (j < n)%nat -> xs.[n - 1 - j] = - xs.[j]).

Lemma good_grid_l n : (2 <= n)%nat -> wp (cheb_nodes (A := R) n) (good_grid n).
Proof.
  intros Hn. eapply wp_mono; [apply cheb_nodes_ok; auto|]. intros xs [L E].
  repeat split; auto; intros; rewrite ?E by lia.
  - apply node_first; auto.
  - apply node_last; auto.
  - apply node_incr; auto.
  - apply node_sym; auto.
Qed.

Theorem C04_cheb_coords : forall n c, cheb_new n = Ok c -> wp (cheb_coords (A := R) c) (good_grid n).
Proof. intros n c H. apply cheb_new_inv in H as [Hn ->]. apply good_grid_l; auto. Qed.
Print Assumptions C04_cheb_coords.

Theorem C04_compo_coords : forall k n (c : compo R), compo_new k n = Ok c -> wp (compo_coords c) (good_grid n).
Proof.
  intros k n c H. unfold compo_new in H.
  destruct (stencil_new k n); try discriminate. destruct (get_m k n); try discriminate.
  cbn [bind] in H. destruct (cheb_new n) eqn:E; try discriminate. apply cheb_new_inv in E as [Hn ->].
  injection H as <-. apply good_grid_l; auto.
Qed.
Print Assumptions C04_compo_coords.

(** ** C05: gradient is the exact derivative (n >= 3; for n = 2 see C16) *)
Theorem C05_cheb_gradient_is_derivative :
  forall (T : Type) (V : Vec R T) (L : VecR T) n c (a o : list T) d,
  cheb_new n = Ok c -> (3 <= n)%nat -> length a = n -> length o = n ->
  wp (cheb_gradient c a o d) (fun b => length b = n /\ forall p, nth_deriv d (peval a p) (peval b p)).
Proof. exact @C05_l. Qed.
Print Assumptions C05_cheb_gradient_is_derivative.

Theorem C05_cheb_gradient_composes :
  forall (T : Type) (V : Vec R T) (L : VecR T) n c (a o1 o2 : list T) d1 d2,
  cheb_new n = Ok c -> (3 <= n)%nat -> length a = n -> length o1 = n -> length o2 = n ->
  wp (let* b := cheb_gradient c a o1 d1 in cheb_gradient c b o2 d2) (fun b =>
    cheb_gradient c a o1 (d1 + d2) = Ok b).
Proof. exact @C05_compose. Qed.
Print Assumptions C05_cheb_gradient_composes.

(** ** C06: diffmat(d) @ a = gradient(a, d), on the range of C07 *)
Theorem C06_cheb_diffmat_is_gradient :
  forall (T : Type) (V : Vec R T) (L : VecR T) bm n c (a o : list T) d,
  cheb_new n = Ok c -> (3 <= n)%nat -> (1 <= d <= 4)%nat ->
  (Z.of_nat n <= dsafe bm d)%Z -> length a = n -> length o = n ->
  wp (cheb_diffmat (A := R) bm c d) (fun D => mat_dims D n n /\
    wp (cheb_gradient c a o d) (fun b => length b = n /\
       forall i, (i < n)%nat -> b.[i] = vsum n (fun j => vmul a.[j] D.[i].[j]))).
Proof. exact @C06_l. Qed.
Print Assumptions C06_cheb_diffmat_is_gradient.

(** [laplacian()] @ a is the second derivative. *)
Theorem C06_cheb_laplacian_is_second_derivative :
  forall (T : Type) (V : Vec R T) (L : VecR T) bm n c (a o : list T),
  cheb_new n = Ok c -> (3 <= n)%nat -> (Z.of_nat n <= 2642245)%Z -> length a = n -> length o = n ->
  wp (cheb_laplacian (A := R) bm c) (fun D => mat_dims D n n /\
    wp (cheb_gradient c a o 2) (fun b => length b = n /\
       forall i, (i < n)%nat -> b.[i] = vsum n (fun j => vmul a.[j] D.[i].[j]))).
Proof.
  intros T V L bm n c a o H Hn Hb La Lo. apply (C06_l bm n c a o 2); auto. destruct bm; cbn; lia.
Qed.
Print Assumptions C06_cheb_laplacian_is_second_derivative.

(** ... and off that range it is wrong: from n = 567 the release build's
    fourth-derivative matrix is not the derivative. *)
Theorem C06_cheb_diffmat4_release_wrong : forall n c d, cheb_new n = Ok c -> d = 4%nat ->
  (567 <= n)%nat -> (Z.of_nat n < u64max)%Z ->
  wp (cheb_diffmat (A := R) Release c d) (fun D =>
    exists a : list R, length a = n /\ wp (cheb_gradient c a a d) (fun b =>
       b.[0] <> vsum n (fun j => vmul a.[j] D.[0].[j]))).
Proof. exact C06_wrong. Qed.
Print Assumptions C06_cheb_diffmat4_release_wrong.

(** ** C07: where diffmat succeeds.  [dsafe bm d] is a literal table: *)
Theorem C07_safe_sizes : 
  dsafe Debug 1 = (2^63)%Z /\ dsafe Debug 2 = 2642245%Z /\ dsafe Debug 3 = 11%Z /\ dsafe Debug 4 = 566%Z /\
  dsafe Release 1 = (2^63)%Z /\ dsafe Release 2 = 2642245%Z /\ dsafe Release 3 = 7131%Z /\ dsafe Release 4 = 566%Z.
Proof. repeat split. Qed.

Theorem C07_diffmat_returns_on_safe_sizes : forall bm n c d, cheb_new n = Ok c ->
  (1 <= d <= 4)%nat -> (Z.of_nat n <= dsafe bm d)%Z ->
  wp (cheb_diffmat (A := R) bm c d) (fun M => mat_dims M n n /\ cheb_diffmat (A := R) Release c d = Ok M).
Proof. exact C07_ok. Qed.
Print Assumptions C07_diffmat_returns_on_safe_sizes.

Theorem C07_diffmat3_debug_panics : forall n c,
  cheb_new n = Ok c -> (12 <= n)%nat -> cheb_diffmat (A := R) Debug c 3 = Panic.
Proof. exact C07_debug3. Qed.
Print Assumptions C07_diffmat3_debug_panics.

Theorem C07_diffmat4_debug_panics : forall n c,
  cheb_new n = Ok c -> (567 <= n)%nat -> cheb_diffmat (A := R) Debug c 4 = Panic.
Proof. exact C07_debug4. Qed.
Print Assumptions C07_diffmat4_debug_panics.

Theorem C07_other_orders_panic : forall bm n c d,
  cheb_new n = Ok c -> (d = 0 \/ 4 < d)%nat -> cheb_diffmat (A := R) bm c d = Panic.
Proof. exact C07_range. Qed.
Print Assumptions C07_other_orders_panic.

(** ** C08: the pseudo-inverse *)
Theorem C08_cheb_diffmat_pinv : forall bm n c d, cheb_new n = Ok c ->
  (1 <= d <= 4)%nat -> (2 * d <= n)%nat -> (Z.of_nat n <= dsafe bm d)%Z ->
  wp (cheb_diffmat (A := R) bm c d) (fun D =>
  wp (cheb_diffmat_pinv (A := R) bm c d) (fun '(P, E) =>
    mat_dims P n n /\ mat_dims E (n - d) n /\
    (forall i j, (i < d)%nat -> (j < n)%nat -> P.[i].[j] = 0) /\
    (forall i j, (i < n - d)%nat -> (j < n)%nat ->
        rsum n (fun l => P.[d+i].[l] * D.[l].[j]) = E.[i].[j]) /\
    (forall i j, (i < n - d)%nat -> (j < n)%nat -> E.[i].[j] = if (d + i =? j)%nat then 1 else 0))).
Proof. exact C08_l. Qed.
Print Assumptions C08_cheb_diffmat_pinv.

(** Against gradient_slice, for all sizes for which the integer products of
    [_pinv] fit in 64 bits ([psafe], a literal table): P undoes the d-th
    derivative on all but the first d coefficients, and returns 0 there. *)
Theorem C08_safe_sizes :
  psafe 1 = (2^64 - 1)%Z /\ psafe 2 = 2147483649%Z /\ psafe 3 = 1321124%Z /\ psafe 4 = 32770%Z.
Proof. repeat split. Qed.

Theorem C08_pinv_undoes_gradient : forall (T : Type) (V : Vec R T) (L : VecR T) bm n c d (a o : list T),
  cheb_new n = Ok c -> (3 <= n)%nat -> (1 <= d <= 4)%nat -> (2 * d <= n)%nat ->
  (Z.of_nat n <= psafe d)%Z -> length a = n -> length o = n ->
  wp (cheb_diffmat_pinv (A := R) bm c d) (fun '(P, E) => mat_dims P n n /\
    wp (cheb_gradient c a o d) (fun b => length b = n /\
      (forall i, (i < d)%nat -> vsum n (fun l => vmul b.[l] P.[i].[l]) = v0) /\
      (forall i, (d <= i < n)%nat -> vsum n (fun l => vmul b.[l] P.[i].[l]) = a.[i]))).
Proof. intros T V L. exact C08_grad. Qed.
Print Assumptions C08_pinv_undoes_gradient.

(** One size more, and a debug build panics; a release build returns a matrix
    that does not undo the derivative of some coefficient vector. *)
Theorem C08_pinv_debug_panics_large : forall n c d, cheb_new n = Ok c ->
  (2 <= d <= 4)%nat -> (psafe d < Z.of_nat n)%Z -> cheb_diffmat_pinv (A := R) Debug c d = Panic.
Proof. exact C08_debug. Qed.
Print Assumptions C08_pinv_debug_panics_large.

Theorem C08_pinv_release_wrong_large : forall n c d, cheb_new n = Ok c ->
  (2 <= d <= 4)%nat -> (psafe d < Z.of_nat n < u64max)%Z ->
  wp (cheb_diffmat_pinv (A := R) Release c d) (fun '(P, E) => mat_dims P n n /\
    exists a : list R, length a = n /\ wp (cheb_gradient c a a d) (fun b =>
      exists i, (d <= i < n)%nat /\ rsum n (fun l => P.[i].[l] * b.[l]) <> a.[i])).
Proof. exact C08_wrong. Qed.
Print Assumptions C08_pinv_release_wrong_large.

(** Too small a size, or another order: panic, in both builds. *)
Theorem C08_cheb_diffmat_pinv_small_panics : forall bm n c d, cheb_new n = Ok c ->
  (1 <= d <= 4)%nat -> (n < 2 * d)%nat -> cheb_diffmat_pinv (A := R) bm c d = Panic.
Proof. exact C08_small. Qed.
Print Assumptions C08_cheb_diffmat_pinv_small_panics.

Theorem C08_other_orders_panic : forall bm n c d,
  cheb_new n = Ok c -> (d = 0 \/ 4 < d)%nat -> cheb_diffmat_pinv (A := R) bm c d = Panic.
Proof. exact C08_range. Qed.
Print Assumptions C08_other_orders_panic.

(** ** Non-vacuity and agreement with the repo's own test data *)
Example C05_hyps_met : exists c, cheb_new 4 = Ok c /\ c_m c = 4%nat.
Proof. eexists; split; reflexivity. Qed.
(** ortho.rs tests: second derivative of [1,2,3,4] *)
Example C05_repo_test : (let* c := cheb_new 4 in
  cheb_gradient (A := Q) (T := Q) (V := vec_self) c [1;2;3;4]%Q [9;9;9;9]%Q 2) = Ok [12;96;0;0]%Q.
Proof. vm_compute. reflexivity. Qed.
Example C07_hyps_met : (let* c := cheb_new 4 in cheb_diffmat (A := Q) Debug c 3) =
  Ok [[0;0;0;24];[0;0;0;0];[0;0;0;0];[0;0;0;0]]%Q.
Proof. vm_compute. reflexivity. Qed.
Example C08_hyps_met : (2 * 4 <= 8)%nat /\ (Z.of_nat 8 <= dsafe Debug 3)%Z.
Proof. split; vm_compute; [lia|discriminate]. Qed.
Example C08_hyps_met2 : (2 * 4 <= 1000)%nat /\ (dsafe Release 4 < Z.of_nat 1000 <= psafe 4)%Z /\ (psafe 4 < Z.of_N 40000 < u64max)%Z.
Proof. split; [|split; [|split; reflexivity]]. lia. split; [reflexivity|vm_compute; discriminate]. Qed.
Example C08_repo_pinv : (let* c := cheb_new 4 in let* r := cheb_diffmat_pinv (A := Q) Debug c 1 in Ok (fst r)) =
  Ok [[0;0;0;0];[1;0;(-1#2);0];[0;(1#4);0;0];[0;0;(1#6);0]]%Q.
Proof. vm_compute. reflexivity. Qed.
