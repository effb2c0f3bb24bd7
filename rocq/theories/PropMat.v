(** C64: the matrices a base hands out, in f64.

    diffmat, laplacian, diffmat_pinv and stencil compute integers in 64-bit
    arithmetic and then divide in f64.  The theorems compare what the f64 code
    returns with what the same code returns in exact arithmetic (C06-C09 say
    what that is): it stops in the same cases, and each entry is accurate
    relatively, small ones too. *)
From Coq Require Import List Arith Lia Bool ZArith Reals Lra.
From Flocq Require Import Core BinarySingleNaN.
From Verif Require Import Base Num Linalg LinalgProofs Stencils Cheb ChebMat ChebPinv ChebFacts Compo ChebPoly CompoProofs CompoFacts FourierF64 Rounding MatRel MatF64 MatCheb MatPinv MatSten PropCheb PropCompo.
Import ListNotations.
Local Open Scope R_scope.

Lemma nth_skip {A} (l : list A) k i x : nth i (skipn k l) x = nth (k + i) l x.
Proof. revert l. induction k; intros [|y l]; cbn; auto. destruct i; reflexivity. Qed.

(** every entry of the r x c matrix M is finite and within e, relatively, of
    the entry of D *)
Definition entries_within (e : R) (r c : nat) (M : list (list f64)) (D : list (list R)) : Prop :=
  mat_dims M r c /\ mat_dims D r c /\
  forall i j, (i < r)%nat -> (j < c)%nat ->
    f64_fin M.[i].[j] /\ Rabs (f64_val M.[i].[j] - D.[i].[j]) <= e * Rabs D.[i].[j].

(** diffmat, every size, every order, both builds (a release build may have
    wrapped integers: then both have). *)
Theorem C64_diffmat_f64 : forall bm n c d, cheb_new n = Ok c ->
  match cheb_diffmat (A := f64) bm c d, cheb_diffmat (A := R) bm c d with
  | Ok M, Ok D => entries_within (3 * bpow radix2 (-53)) n n M D
  | Panic, Panic => True
  | _, _ => False
  end.
Proof.
  intros bm n c d Hc. assert (Ec : c_n c = n).
  { unfold cheb_new in Hc. destruct (2 <=? n)%nat; cbn in Hc; [injection Hc as <-; reflexivity|discriminate]. }
  unfold cheb_diffmat. rewrite Ec. destruct (0 <? d)%nat; cbn [assertb bind]; [|exact I].
  pose proof (rrel_entries _ _ _ _ _ (dmat_f64 bm n d)) as H.
  assert (NU : dmat (A := R) bm n d <> UB).
  { unfold dmat. apply bind_noUB.
    - assert (F : forall off par dd den, (1 <= dd <= 4)%nat -> dmat_fill (A := R) n off par (dent bm dd) den <> UB).
      { intros off par dd den Hdd. unfold dmat_fill. apply for_each_noUB. intros. apply for_each_noUB. intros.
        destruct (_ =? _)%nat; [|discriminate]. apply bind_noUB. 2: intros; apply mwr_noUB.
        assert (B : forall (m : res Z) k, m <> UB -> (forall a : Z, k a <> UB) -> bind m k <> UB :> res Z) by (intros; apply bind_noUB; auto).
        assert (U : forall a b, a <> UB -> b <> UB -> umul bm a b <> UB) by (intros; unfold umul; apply B; auto; intros; apply B; auto; intros; apply uwrap_noUB).
        assert (U' : forall a b, a <> UB -> b <> UB -> uadd bm a b <> UB) by (intros; unfold uadd; apply B; auto; intros; apply B; auto; intros; apply uwrap_noUB).
        assert (U'' : forall a b, a <> UB -> b <> UB -> uminus bm a b <> UB) by (intros; unfold uminus; apply B; auto; intros; apply B; auto; intros; apply uwrap_noUB).
        assert (dd = 1 \/ dd = 2 \/ dd = 3 \/ dd = 4)%nat as [->|[->|[->| ->]]] by lia; cbn [dent].
        + unfold dent1. apply U; discriminate.
        + unfold dent2. apply U; [discriminate|]. apply U''; apply U; discriminate.
        + apply dent3_noUB.
        + apply dent4_noUB. }
      destruct d as [|[|[|[|[|d]]]]]; try discriminate; [apply (F 1 1 1)%nat|apply (F 2 0 2)%nat|apply (F 3 1 3)%nat|apply (F 4 0 4)%nat]; lia.
    - intros M. apply bind_noUB. unfold rd. destruct (nth_error M 0); discriminate. intros r. unfold wr. destruct (_ <? _)%nat; discriminate. }
  destruct (dmat (A := f64) bm n d) as [M| |], (dmat (A := R) bm n d) as [D| |]; auto.
  destruct H as (H1 & H2 & H3). split; auto. split; auto. intros i j Hi Hj. destruct (H3 i j Hi Hj) as (F & E & _). auto.
Qed.
Print Assumptions C64_diffmat_f64.

(** Up to these sizes there is no rounding at all: the f64 matrix holds the
    exact entries. *)
Theorem C64_exact_sizes : exact_size 1 = (2^52 + 1)%Z /\ exact_size 2 = 208064%Z /\ exact_size 3 = 1553%Z /\ exact_size 4 = 191%Z.
Proof. repeat split. Qed.
Theorem C64_diffmat_f64_exact : forall bm n c d, cheb_new n = Ok c -> (1 <= d <= 4)%nat ->
  (Z.of_nat n <= dsafe bm d)%Z -> (Z.of_nat n <= exact_size d)%Z ->
  wp (cheb_diffmat (A := f64) bm c d) (fun M => wp (cheb_diffmat (A := R) bm c d) (fun D =>
    mat_dims M n n /\ mat_dims D n n /\
    forall i j, (i < n)%nat -> (j < n)%nat -> f64_fin M.[i].[j] /\ f64_val M.[i].[j] = D.[i].[j])).
Proof.
  intros bm n c d Hc Hd Hs Hx. pose proof (C07_diffmat_returns_on_safe_sizes bm n c d Hc Hd Hs) as W.
  assert (Ec : c_n c = n).
  { unfold cheb_new in Hc. destruct (2 <=? n)%nat; cbn in Hc; [injection Hc as <-; reflexivity|discriminate]. }
  unfold cheb_diffmat in *. rewrite Ec in *. destruct (0 <? d)%nat; cbn [assertb bind] in *; [|contradiction].
  pose proof (rrel_entries _ _ _ _ _ (dmat_f64_exact bm n d Hd Hs Hx)) as H.
  destruct (dmat (A := f64) bm n d) as [M| |], (dmat (A := R) bm n d) as [D| |]; cbn [wp] in *; try contradiction; auto.
Qed.
Print Assumptions C64_diffmat_f64_exact.

(** ... and so the f64 matrix differentiates: applied in exact arithmetic to
    any coefficients it gives those of the derivative. *)
Theorem C64_f64_matrix_differentiates : forall bm n c d (a o : list R), cheb_new n = Ok c -> (3 <= n)%nat -> (1 <= d <= 4)%nat ->
  (Z.of_nat n <= dsafe bm d)%Z -> (Z.of_nat n <= exact_size d)%Z -> length a = n -> length o = n ->
  wp (cheb_diffmat (A := f64) bm c d) (fun M =>
    wp (cheb_gradient (A := R) (V := vec_self) c a o d) (fun b => length b = n /\
      forall i, (i < n)%nat -> b.[i] = rsum n (fun j => f64_val M.[i].[j] * a.[j]))).
Proof.
  intros bm n c d a o Hc Hn Hd Hs Hx La Lo.
  pose proof (C64_diffmat_f64_exact bm n c d Hc Hd Hs Hx) as H.
  pose proof (C06_cheb_diffmat_is_gradient R vec_self _ bm n c a o d Hc Hn Hd Hs La Lo) as G.
  destruct (cheb_diffmat (A := f64) bm c d) as [M| |]; cbn [wp] in *; try contradiction.
  destruct (cheb_diffmat (A := R) bm c d) as [D| |]; cbn [wp] in *; try contradiction.
  destruct H as (_ & _ & H), G as [_ G]. eapply wp_mono. exact G. cbv beta. intros b [Lb Hb]. split; auto.
  intros i Hi. rewrite Hb by auto. rewrite vsum_rsum. apply rsum_ext. intros j Hj.
  destruct (H i j Hi Hj) as [_ E]. rewrite E. apply Rmult_comm.
Qed.
Print Assumptions C64_f64_matrix_differentiates.

(** diffmat_pinv, for the sizes of C08: the returned pseudo-inverse is within 3 * 2^-53,
    entry by entry; the truncated identity is exact; a panic in one arithmetic
    (order 0 or above 4, too few points) is a panic in the other. *)
Theorem C64_diffmat_pinv_f64 : forall bm n c d, cheb_new n = Ok c -> (Z.of_nat n <= psafe d)%Z ->
  match cheb_diffmat_pinv (A := f64) bm c d, cheb_diffmat_pinv (A := R) bm c d with
  | Ok (P, E), Ok (P', E') => entries_within (3 * bpow radix2 (-53)) n n P P' /\ entries_within 0 (n - d) n E E'
  | Panic, Panic => True
  | _, _ => False
  end.
Proof.
  intros bm n c d Hc Hn.
  assert (NU : pinv (A := R) bm (c_n c) d <> UB).
  { destruct (le_lt_dec 1 d) as [D1|D1], (le_lt_dec d 4) as [D4|D4]; try (destruct d as [|[|[|[|[|d]]]]]; try lia; discriminate).
    assert (Ec : c_n c = n) by (unfold cheb_new in Hc; destruct (2 <=? n)%nat; cbn in Hc; [injection Hc as <-; reflexivity|discriminate]).
    destruct (le_lt_dec (2 * d) n) as [L|L].
    - pose proof (pinv_ok bm n d (conj D1 D4) L Hn) as W. rewrite Ec. destruct (pinv bm n d); try contradiction; discriminate.
    - pose proof (C08_cheb_diffmat_pinv_small_panics bm n c d Hc (conj D1 D4) L) as W. unfold cheb_diffmat_pinv in W.
      destruct (Nat.ltb_spec 0 d); [|lia]. cbn [assertb bind] in W. intros E. rewrite E in W. discriminate. }
  assert (Ec : c_n c = n).
  { unfold cheb_new in Hc. destruct (2 <=? n)%nat; cbn in Hc; [injection Hc as <-; reflexivity|discriminate]. }
  unfold cheb_diffmat_pinv. rewrite Ec in *. destruct (0 <? d)%nat; cbn [assertb bind]; [|exact I].
  pose proof (rrel_entries _ _ _ _ _ (pinv_f64 bm n d Hn)) as H.
  destruct (pinv (A := f64) bm n d) as [P| |], (pinv (A := R) bm n d) as [P'| |]; cbn [bind]; auto; try contradiction.
  unfold pinv_eye. destruct (Nat.leb_spec d n) as [Hd|Hd]; cbn [assertb bind]; [|exact I]. split.
  - destruct H as (H1 & H2 & H3). split; auto. split; auto. intros i j Hi Hj. destruct (H3 i j Hi Hj) as (F & E & _). auto.
  - assert (X : forall (A : Type) (N : Num A) i j, (i < n - d)%nat -> (j < n)%nat -> (skipn d (eye (A := A) n)).[i].[j] = if (d + i =? j)%nat then n1 else n0).
    { intros A N i j Hi Hj. unfold at_ at 2. rewrite nth_skip. change (nth (d + i) (eye n) dflt) with ((eye (A := A) n).[d + i]).
      unfold eye. rewrite at_map_seq by lia. rewrite at_map_seq by lia. reflexivity. }
    assert (Y : forall (A : Type) (N : Num A), mat_dims (skipn d (eye (A := A) n)) (n - d) n).
    { intros A N. split. rewrite skipn_length. unfold eye. rewrite map_length, seq_length. reflexivity.
      intros i Hi. unfold at_. rewrite nth_skip. change (nth (d + i) (eye n) dflt) with ((eye (A := A) n).[d + i]).
      unfold eye. rewrite at_map_seq by lia. rewrite map_length, seq_length. reflexivity. }
    split. apply Y. split. apply Y. intros i j Hi Hj. rewrite !X by auto.
    pose proof f64_float_arith as FA. destruct (fa_1 _ _ _ _ _ _ _ _ FA) as [F1 V1]. destruct (fa_0 _ _ _ _ _ _ _ _ FA) as [F0 V0].
    destruct (d + i =? j)%nat.
    + split; auto. rewrite V1. change (n1 : R) with 1. rewrite Rminus_diag_eq by auto. rewrite Rabs_R0. lra.
    + split; auto. rewrite V0. change (n0 : R) with 0. rewrite Rminus_diag_eq by auto. rewrite Rabs_R0. lra.
Qed.
Print Assumptions C64_diffmat_pinv_f64.

(** The stencil matrix of every composite base with at most 2^17 points: each
    entry is the exact one correctly rounded - the best f64 can hold. *)
Theorem C64_stencil_f64 : forall k n, (Z.of_nat n <= 2 ^ 17)%Z ->
  match compo_new (A := f64) k n, compo_new (A := R) k n with
  | Ok p, Ok p' =>
      wp (compo_stencil p) (fun M => wp (compo_stencil p') (fun D =>
        let m := compo_len_spec p' in
        compo_len_spec p = m /\ mat_dims M n m /\ mat_dims D n m /\
        forall i j, (i < n)%nat -> (j < m)%nat -> f64_fin M.[i].[j] /\ f64_val M.[i].[j] = ieee_rnd 53 1024 D.[i].[j]))
  | Panic, Panic => True
  | _, _ => False
  end.
Proof.
  intros k n Hn. pose proof (compo_stencil_rel k n Hn) as H.
  destruct (le_lt_dec (smin k) n) as [L|L].
  - destruct (proj1 (C44_constructible_sizes k n) L) as [p' E']. rewrite E' in *.
    destruct (compo_new (A := f64) k n) as [p| |] eqn:E; cbn [rrel] in H; try contradiction. destruct H as (m & Hm & H).
    pose proof (C10_stencil_boundary_conditions R vec_self _ k n p' [] [] E') as W.
    apply rrel_entries in H. destruct (compo_stencil p') as [D| |]; cbn [wp] in W; try contradiction.
    destruct (compo_stencil p) as [M| |]; cbn [wp]; try contradiction.
    assert (X : forall (A : Type) (N : Num A) (q : compo A), compo_new k n = Ok q -> compo_len_spec q = m).
    { intros A N q. unfold compo_new. destruct (stencil_new k n); cbn [bind]; try discriminate. rewrite Hm. cbn [bind].
      destruct (cheb_new n); cbn [bind]; try discriminate. intros Q. injection Q as <-. reflexivity. }
    cbv zeta. rewrite (X _ _ p E), (X _ _ p' E'). destruct H as (H1 & H2 & H3). split; auto. split; auto. split; auto. intros i j Hi Hj. destruct (H3 i j Hi Hj) as (? & ? & _); auto.
  - rewrite (proj2 (C44_constructible_sizes k n) L) in *. destruct (compo_new (A := f64) k n); cbn [rrel] in H; auto.
Qed.
Print Assumptions C64_stencil_f64.

(** ** Concrete cases: the hypotheses are met, rounding happens, and the bounds are close *)
(** 6 points, third derivative, debug build *)
Example C64_case_diffmat : exists c, cheb_new 6 = Ok c /\ (Z.of_nat 6 <= dsafe Debug 3)%Z /\ (Z.of_nat 6 <= exact_size 3)%Z /\
  wp (cheb_diffmat (A := f64) Debug c 3) (fun M => B2SF M.[0].[5] = B2SF (nofZ 360%Z : f64) /\ B2SF M.[2].[5] = B2SF (nofZ 480%Z : f64)).
Proof. exists (mk_cheb 6 6). split; [reflexivity|]. split; [discriminate|]. split; [discriminate|]. vm_compute. split; reflexivity. Qed.
(** the pseudo-inverse does round: 1/24 is not an f64 *)
Example C64_case_pinv : exists c, cheb_new 6 = Ok c /\ (Z.of_nat 6 <= psafe 3)%Z /\
  wp (cheb_diffmat_pinv (A := f64) Debug c 3) (fun PE => B2SF (fst PE).[3].[0] = B2SF (ndiv (nofZ 1%Z) (nofZ 24%Z) : f64)).
Proof. exists (mk_cheb 6 6). split; [reflexivity|]. split; [discriminate|]. vm_compute. reflexivity. Qed.
(** and so does the Neumann stencil: entry (3,1) is -1/9, rounded *)
Example C64_case_stencil : wp (compo_new (A := f64) KNeumann 6) (fun p => wp (compo_stencil p) (fun M => B2SF M.[3].[1] = B2SF (ndiv (nofZ (-1)%Z) (nofZ 9%Z) : f64))).
Proof. vm_compute. reflexivity. Qed.
