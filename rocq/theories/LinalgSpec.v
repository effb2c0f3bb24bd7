(** The linear-algebra meaning of the band solvers. *)
From Coq Require Import List Arith Lia Bool ZArith Reals Lra.
From Verif Require Import Base Num Linalg LinalgProofs LinalgProofs2.
Import ListNotations.
Local Open Scope R_scope.

(** *** Specification *)

(** Entry (i,j) of the banded matrix with diagonals l4 (offset -2s), l2 (-s),
    d0 (0), u2 (+s), u4 (+2s); a diagonal is indexed by the smaller of its two
    coordinates. *)
Definition band5 (s : nat) (l4 l2 d0 u2 u4 : list R) (i j : nat) : R :=
  if (j + 2*s =? i)%nat then l4.[j] else
  if (j + s =? i)%nat then l2.[j] else
  if (i =? j)%nat then d0.[i] else
  if (i + s =? j)%nat then u2.[i] else
  if (i + 2*s =? j)%nat then u4.[i] else 0.

(** Tridiagonal: offsets -s, 0, s. *)
Definition band3 (s : nat) (l2 d0 u2 : list R) (i j : nat) : R :=
  if (j + s =? i)%nat then l2.[j] else
  if (i =? j)%nat then d0.[i] else
  if (i + s =? j)%nat then u2.[i] else 0.

(** The k x k leading submatrix is non-singular (trivial kernel). *)
Definition nonsing (k : nat) (A : nat -> nat -> R) : Prop :=
  forall x : nat -> R,
    (forall i, (i < k)%nat -> rsum k (fun j => A i j * x j) = 0) ->
    forall j, (j < k)%nat -> x j = 0.

(** Textbook condition for elimination without pivoting. *)
Definition leading_nonsing (n : nat) (A : nat -> nat -> R) : Prop :=
  forall k, (k <= n)%nat -> nonsing k A.

(** Strict (row) diagonal dominance. *)
Definition diag_dominant (n : nat) (A : nat -> nat -> R) : Prop :=
  forall i, (i < n)%nat ->
    rsum n (fun j => if (j =? i)%nat then 0 else Rabs (A i j)) < Rabs (A i i).

(** Positive definiteness of the quadratic form. *)
Definition pos_def (n : nat) (A : nat -> nat -> R) : Prop :=
  forall x : nat -> R, (exists j, (j < n)%nat /\ x j <> 0) ->
    0 < rsum n (fun i => rsum n (fun j => x i * A i j * x j)).

(** x solves A x = b. *)
Definition solves {T} {V : Vec R T} (n : nat) (A : nat -> nat -> R) (x b : list T) : Prop :=
  length x = n /\
  forall i, (i < n)%nat -> vsum n (fun j => vmul x.[j] (A i j)) = b.[i].

(** *** Sums with few non-zero terms *)
Definition shz (f : nat -> R) (j k : nat) : R := if (j <? k)%nat then 0 else f (j - k)%nat.
Definition upz (n : nat) (f : nat -> R) (j k : nat) : R := if (j + k <? n)%nat then f (j + k)%nat else 0.

Lemma rsum_shift_l n (f : nat -> R) (j k : nat) :
  (j < n)%nat ->
  rsum n (fun c => if (c + k =? j)%nat then f c else 0) = shz f j k.
Proof.
  intros Hj. unfold shz. destruct (Nat.ltb_spec j k).
  - apply rsum_0. intros c Hc. destruct (Nat.eqb_spec (c + k) j); auto; lia.
  - rewrite (rsum_delta n (j-k)); try lia.
    + destruct (Nat.eqb_spec (j - k + k) j); auto; lia.
    + intros c Hc Hne. destruct (Nat.eqb_spec (c + k) j); auto; lia.
Qed.

Lemma rsum_shift_u n (f : nat -> R) (j k : nat) :
  rsum n (fun c => if (j + k =? c)%nat then f c else 0) = upz n f j k.
Proof.
  unfold upz. destruct (Nat.ltb_spec (j + k) n).
  - rewrite (rsum_delta n (j+k)); try lia.
    + destruct (Nat.eqb_spec (j + k) (j + k)); auto; lia.
    + intros c Hc Hne. destruct (Nat.eqb_spec (j + k) c); auto; lia.
  - apply rsum_0. intros c Hc. destruct (Nat.eqb_spec (j + k) c); auto; lia.
Qed.

Lemma band5_sum s l4 l2 d0 u2 u4 n (X : nat -> R) j :
  (0 < s)%nat -> (j < n)%nat ->
  rsum n (fun c => X c * band5 s l4 l2 d0 u2 u4 j c) =
  shz (fun c => X c * l4.[c]) j (2*s) + shz (fun c => X c * l2.[c]) j s + X j * d0.[j]
  + upz n X j s * u2.[j] + upz n X j (2*s) * u4.[j].
Proof.
  intros Hs Hj.
  rewrite <- (rsum_shift_l n (fun c => X c * l4.[c]) j (2*s)) by auto.
  rewrite <- (rsum_shift_l n (fun c => X c * l2.[c]) j s) by auto.
  rewrite <- !rsum_shift_u.
  replace (X j * d0.[j]) with (rsum n (fun c => if (j =? c)%nat then X c * d0.[j] else 0)).
  2:{ rewrite (rsum_delta n j); auto. rewrite Nat.eqb_refl; auto.
      intros. destruct (Nat.eqb_spec j k); auto; lia. }
  rewrite <- !rsum_scal_r, <- !rsum_add. apply rsum_ext. intros c Hc.
  unfold band5.
  destruct (Nat.eqb_spec (c + 2*s) j), (Nat.eqb_spec (c + s) j), (Nat.eqb_spec j c),
    (Nat.eqb_spec (j + s) c), (Nat.eqb_spec (j + 2*s) c); try lia; try ring.
Qed.

(** *** Pivots *)
Section Pivots.
Variables (s n : nat) (l4 l2 d0 u2 u4 : list R) (al be ga mu : nat -> R).
Hypothesis Hs : (0 < s)%nat.
Hypothesis Ega : forall j, (j < n)%nat ->
  ga j = shz (fun c => l2.[c]) j s - shz al j (2*s) * shz (fun c => l4.[c]) j (2*s).
Hypothesis Emu : forall j, (j < n)%nat ->
  mu j = d0.[j] - shz be j (2*s) * shz (fun c => l4.[c]) j (2*s) - shz al j s * ga j.
Hypothesis Eal : forall j, (j + s < n)%nat -> al j = (u2.[j] - shz be j s * ga j) / mu j.
Hypothesis Ebe : forall j, (j + 2*s < n)%nat -> be j = u4.[j] / mu j.

Let A := band5 s l4 l2 d0 u2 u4.

(** back substitution with zero right-hand side from x_k = 1 *)
Lemma null_vector k : exists x : nat -> R,
  x k = 1 /\ (forall j, (k < j)%nat -> x j = 0) /\
  (forall j, (j < k)%nat -> x j = - al j * x (j + s)%nat - be j * x (j + 2*s)%nat).
Proof.
  assert (H : forall d, (d <= k)%nat -> exists x : nat -> R,
    x k = 1 /\ (forall j, (k < j)%nat -> x j = 0) /\
    (forall j, (k - d <= j < k)%nat -> x j = - al j * x (j + s)%nat - be j * x (j + 2*s)%nat)).
  { induction d; intros Hd.
    - exists (fun j => if (j =? k)%nat then 1 else 0). repeat split.
      + rewrite Nat.eqb_refl; auto.
      + intros. destruct (Nat.eqb_spec j k); auto; lia.
      + intros; lia.
    - destruct IHd as (x & X1 & X2 & X3); [lia|].
      set (c := (k - S d)%nat).
      exists (fun j => if (j =? c)%nat then - al c * x (c + s)%nat - be c * x (c + 2*s)%nat else x j).
      repeat split.
      + destruct (Nat.eqb_spec k c); auto; unfold c in *; lia.
      + intros. destruct (Nat.eqb_spec j c); auto. unfold c in *; lia.
      + intros j Hj. destruct (Nat.eqb_spec (j+s) c); [unfold c in *; lia|].
        destruct (Nat.eqb_spec (j+2*s) c); [unfold c in *; lia|].
        destruct (Nat.eqb_spec j c); [subst j; auto|]. apply X3. unfold c in *; lia. }
  destruct (H k (le_n k)) as (x & X1 & X2 & X3). exists x. repeat split; auto.
  intros; apply X3; lia.
Qed.

Lemma null_rows k x :
  (k < n)%nat -> mu k = 0 -> (forall j, (j < k)%nat -> mu j <> 0) ->
  x k = 1 -> (forall j, (k < j)%nat -> x j = 0) ->
  (forall j, (j < k)%nat -> x j = - al j * x (j + s)%nat - be j * x (j + 2*s)%nat) ->
  forall j, (j < k + 1)%nat -> rsum (k + 1) (fun c => A j c * x c) = 0.
Proof.
  intros Hk Hmk Hmu X1 X2 X3 j Hj.
  rewrite (rsum_ext _ _ (fun c => x c * A j c)) by (intros; ring).
  unfold A. rewrite band5_sum by lia.
  assert (U : forall q, (0 < q)%nat -> upz (k+1) x j q = x (j + q)%nat).
  { intros q Hq. unfold upz. destruct (Nat.ltb_spec (j + q) (k + 1)); auto. rewrite X2; auto. lia. }
  rewrite !U by lia.
  pose proof (Ega j ltac:(lia)) as G. pose proof (Emu j ltac:(lia)) as M.
  (* x_j * mu_j = - x_{j+s} (u2 - be ga) - x_{j+2s} u4 *)
  assert (P : x j * mu j = - x (j+s)%nat * (u2.[j] - shz be j s * ga j) - x (j+2*s)%nat * u4.[j]).
  { destruct (Nat.eq_dec j k) as [->|].
    - rewrite Hmk, (X2 (k+s)%nat), (X2 (k+2*s)%nat) by lia. ring.
    - rewrite (X3 j) by lia. pose proof (Hmu j ltac:(lia)) as Hne.
      assert (P1 : al j * x (j+s)%nat * mu j = x (j+s)%nat * (u2.[j] - shz be j s * ga j)).
      { destruct (le_dec (j + s) k).
        - rewrite Eal by lia. field. auto.
        - rewrite X2 by lia. ring. }
      assert (P2 : be j * x (j+2*s)%nat * mu j = x (j+2*s)%nat * u4.[j]).
      { destruct (le_dec (j + 2*s) k).
        - rewrite Ebe by lia. field. auto.
        - rewrite X2 by lia. ring. }
      replace ((- al j * x (j + s)%nat - be j * x (j + 2 * s)%nat) * mu j)
        with (- (al j * x (j+s)%nat * mu j) - be j * x (j+2*s)%nat * mu j) by ring.
      rewrite P1, P2. ring. }
  unfold shz in *.
  destruct (Nat.ltb_spec j s), (Nat.ltb_spec j (2*s)); try lia.
  - assert (ga j = 0) by (rewrite G; ring).
    assert (D : d0.[j] = mu j) by (rewrite M; rewrite H1; ring).
    rewrite D, P, H1. ring.
  - assert (B1 : x (j-s)%nat = - al (j-s)%nat * x j - be (j-s)%nat * x (j+s)%nat).
    { rewrite (X3 (j-s)%nat) by lia. replace (j - s + s)%nat with j by lia.
      replace (j - s + 2*s)%nat with (j + s)%nat by lia. auto. }
    assert (EG : l2.[j-s] = ga j) by (rewrite G; ring).
    assert (D : d0.[j] = mu j + al (j-s)%nat * ga j) by (rewrite M; ring).
    rewrite EG, D, B1.
    transitivity (x j * mu j + x (j+s)%nat * (u2.[j] - be (j-s)%nat * ga j) + x (j+2*s)%nat * u4.[j]). ring.
    rewrite P. ring.
  - assert (B1 : x (j-s)%nat = - al (j-s)%nat * x j - be (j-s)%nat * x (j+s)%nat).
    { rewrite (X3 (j-s)%nat) by lia. replace (j - s + s)%nat with j by lia.
      replace (j - s + 2*s)%nat with (j + s)%nat by lia. auto. }
    assert (B2 : x (j-2*s)%nat = - al (j-2*s)%nat * x (j-s)%nat - be (j-2*s)%nat * x j).
    { rewrite (X3 (j-2*s)%nat) by lia. replace (j - 2*s + s)%nat with (j-s)%nat by lia.
      replace (j - 2*s + 2*s)%nat with j by lia. auto. }
    assert (EG : l2.[j-s] = ga j + al (j-2*s)%nat * l4.[j-2*s]) by (rewrite G; ring).
    assert (D : d0.[j] = mu j + be (j-2*s)%nat * l4.[j-2*s] + al (j-s)%nat * ga j) by (rewrite M; ring).
    rewrite EG, D, B2.
    transitivity (x j * mu j + (x (j-s)%nat + x j * al (j-s)%nat) * ga j + x (j+s)%nat * u2.[j] + x (j+2*s)%nat * u4.[j]). ring.
    rewrite P, B1. ring.
Qed.

Lemma pivots_nonzero :
  leading_nonsing n A -> forall j, (j < n)%nat -> mu j <> 0.
Proof.
  intros HN j. induction j as [j IH] using lt_wf_ind. intros Hj Hm.
  destruct (null_vector j) as (x & X1 & X2 & X3).
  assert (x j = 0).
  { apply (HN (j+1)%nat ltac:(lia) x); [|lia].
    intros i Hi. apply (null_rows j x); auto. intros; apply IH; lia. }
  lra.
Qed.
End Pivots.

Section Solves.
Context {T : Type} {V : Vec R T} {L : VecR T}.

Lemma zat_shz (l : list R) j k : zat l j k = shz (fun c => l.[c]) j k.
Proof. unfold zat, shz. destruct (j <? k)%nat; auto. Qed.

Lemma band_row_solves s n l4 l2 d0 u2 u4 (x b : list T) :
  (0 < s)%nat -> length u2 = (n - s)%nat -> length u4 = (n - 2*s)%nat -> length x = n ->
  (forall j, (j < n)%nat -> band_row s l4 l2 d0 u2 u4 x j = b.[j]) ->
  solves n (band5 s l4 l2 d0 u2 u4) x b.
Proof.
  intros Hs Hu2 Hu4 Hx HB. split; auto. intros i Hi. rewrite <- HB by auto.
  unfold band_row. vcoord. rewrite (rsum_ext _ _ (fun c => vproj p x.[c] * band5 s l4 l2 d0 u2 u4 i c))
    by (intros; apply vproj_mul).
  rewrite band5_sum by auto.
  assert (U : forall q, (0 < q)%nat -> upz n (fun c => vproj p x.[c]) i q = vproj p x.[i+q]).
  { intros q Hq. unfold upz. destruct (Nat.ltb_spec (i + q) n); auto.
    rewrite at_over by lia. symmetry. apply dfltT. }
  rewrite !U by lia.
  assert (Z : forall l q, shz (fun c => vproj p x.[c] * l.[c]) i q = vproj p (zat x i q) * zat l i q).
  { intros l q. unfold shz, zat. destruct (i <? q)%nat; auto. rewrite dflt_R. ring. }
  rewrite !Z. ring.
Qed.

Lemma elim_solves s n l4 l2 d0 u2 u4 (rhs : list T) al be ze ga mu x :
  (0 < s)%nat ->
  length u2 = (n - s)%nat -> length u4 = (n - 2*s)%nat ->
  pd_lens n s al be ze ga mu -> length x = n ->
  (forall j, (j < n)%nat -> elim_eq s l4 l2 d0 u2 u4 rhs al be ze ga mu j) ->
  (forall j, (j < n)%nat -> back_eq s al be ze x j) ->
  leading_nonsing n (band5 s l4 l2 d0 u2 u4) ->
  solves n (band5 s l4 l2 d0 u2 u4) x rhs.
Proof.
  intros Hs Hu2 Hu4 (La & Lb & Lz & Lg & Lm) Lx HE HB HN.
  apply band_row_solves; auto.
  apply (solve_row s n l4 l2 d0 u2 u4 rhs al be ze ga mu x); auto.
  apply (pivots_nonzero s n l4 l2 d0 u2 u4 (fun c => al.[c]) (fun c => be.[c])
           (fun c => ga.[c]) (fun c => mu.[c])); auto; intros j Hj.
  - rewrite <- !zat_shz. apply HE. lia.
  - rewrite <- !zat_shz. apply HE. lia.
  - rewrite <- !zat_shz. apply HE; lia.
  - apply HE; lia.
Qed.

Theorem pdma_solves md l2 l1 d0 u1 u2 (rhs : list T) :
  let n := length rhs in
  (3 < n)%nat ->
  length l2 = (n-2)%nat -> length l1 = (n-1)%nat -> length d0 = n ->
  length u1 = (n-1)%nat -> length u2 = (n-2)%nat ->
  leading_nonsing n (band5 1 l2 l1 d0 u1 u2) ->
  wp (pdma md l2 l1 d0 u1 u2 rhs) (fun x => solves n (band5 1 l2 l1 d0 u1 u2) x rhs).
Proof.
  intros n Hn H2 H1 H0 H1' H2' HN.
  eapply wp_mono. { apply pdma_run; auto. }
  intros x (Lx & al & be & ze & ga & mu & HL & HE & HB).
  apply (elim_solves 1 n _ _ _ _ _ rhs al be ze ga mu); auto.
Qed.

Theorem pdma2_solves md l4 l2 d0 u2 u4 (rhs : list T) :
  let n := length rhs in
  (5 < n)%nat ->
  length l4 = (n-4)%nat -> length l2 = (n-2)%nat -> length d0 = n ->
  length u2 = (n-2)%nat -> length u4 = (n-4)%nat ->
  leading_nonsing n (band5 2 l4 l2 d0 u2 u4) ->
  wp (pdma2 md l4 l2 d0 u2 u4 rhs) (fun x => solves n (band5 2 l4 l2 d0 u2 u4) x rhs).
Proof.
  intros n Hn H2 H1 H0 H1' H2' HN.
  eapply wp_mono. { apply pdma2_run; auto. }
  intros x (Lx & al & be & ze & ga & mu & HL & HE & HB).
  apply (elim_solves 2 n _ _ _ _ _ rhs al be ze ga mu); auto.
Qed.

Lemma band3_5 n l2 d0 u2 :
  forall i j, band5 2 (repeat 0 (n-4)) l2 d0 u2 (repeat 0 (n-4)) i j = band3 2 l2 d0 u2 i j.
Proof.
  intros. unfold band5, band3.
  assert (Z : forall k, (repeat 0 (n-4)).[k] = 0) by (intros; apply (at_repeat_dflt (A:=R))).
  rewrite !Z.
  destruct (Nat.eqb_spec (j + 2*2) i), (Nat.eqb_spec (j + 2) i), (Nat.eqb_spec i j),
    (Nat.eqb_spec (i + 2) j), (Nat.eqb_spec (i + 2*2) j); try lia; auto.
Qed.

Theorem tdma_solves md l2 d0 u2 (rhs : list T) :
  let n := length rhs in
  (2 < n)%nat ->
  length l2 = (n-2)%nat -> length d0 = n -> length u2 = (n-2)%nat ->
  leading_nonsing n (band3 2 l2 d0 u2) ->
  wp (tdma md l2 d0 u2 rhs) (fun x => solves n (band3 2 l2 d0 u2) x rhs).
Proof.
  intros n Hn H2 H0 H2' HN.
  eapply wp_mono. { apply tdma_run; auto. }
  fold n. intros x (Lx & w & g & Lw & Lg & Ew & Eg & Ex).
  assert (Z : forall k, (repeat 0 (n-4)).[k] = 0) by (intros; apply (at_repeat_dflt (A:=R))).
  assert (Zz : forall j k, zat (repeat 0 (n-4)) j k = 0).
  { intros; unfold zat. destruct (j <? k)%nat; auto. }
  assert (S5 : solves n (band5 2 (repeat 0 (n-4)) l2 d0 u2 (repeat 0 (n-4))) x rhs).
  { apply (elim_solves 2 n _ _ _ _ _ rhs w (repeat 0 (n-4)) g
      (map (fun j => zat l2 j 2) (seq 0 n))
      (map (fun j => d0.[j] - zat l2 j 2 * zat w j 2) (seq 0 n))); auto; try lia.
    - rewrite repeat_length. lia.
    - unfold pd_lens. rewrite repeat_length, !map_length, seq_length. lia.
    - intros j Hj. unfold elim_eq. rewrite !Zz. rewrite !at_map_seq by lia.
      rewrite repeat_length. simpl (0 + j)%nat.
      repeat split; intros.
      + ring.
      + ring.
      + rewrite Ew by lia. f_equal. ring.
      + rewrite Z. unfold Rdiv. ring.
      + rewrite vsub_mul0. apply Eg. auto.
    - intros j Hj. unfold back_eq. rewrite Z, vsub_mul0. apply Ex. auto.
    - intros k Hk y Hy. apply (HN k Hk y). intros i Hi. rewrite <- (Hy i Hi).
      apply rsum_ext. intros. rewrite band3_5. auto. }
  destruct S5 as [_ S5]. split; auto. intros i Hi. rewrite <- S5 by auto.
  apply vsum_ext. intros. rewrite band3_5. auto.
Qed.

(** Uniqueness *)
Lemma solves_unique n A (x y b : list T) :
  nonsing n A -> solves n A x b -> solves n A y b -> x = y.
Proof.
  intros HN [Lx Hx] [Ly Hy].
  apply (list_ext (A := T)); [congruence|]. intros i Hi. apply vext. intros p.
  enough (vproj p x.[i] - vproj p y.[i] = 0) by lra.
  apply (HN (fun j => vproj p x.[j] - vproj p y.[j])); [|lia].
  intros k Hk.
  pose proof (f_equal (vproj p) (Hx k Hk)) as E1. pose proof (f_equal (vproj p) (Hy k Hk)) as E2.
  rewrite vproj_vsum in E1, E2. 
  rewrite (rsum_ext _ _ (fun j => vproj p (vmul x.[j] (A k j)) - vproj p (vmul y.[j] (A k j)))).
  - rewrite rsum_sub, E1, E2. ring.
  - intros. rewrite !vproj_mul. ring.
Qed.
End Solves.

(** *** Sufficient conditions *)
Lemma pos_def_leading n A : pos_def n A -> leading_nonsing n A.
Proof.
  intros HP k Hk x Hx j Hj.
  destruct (Req_dec (x j) 0) as [|Hne]; auto. exfalso.
  set (y := fun c => if (c <? k)%nat then x c else 0).
  assert (0 < rsum n (fun i => rsum n (fun j => y i * A i j * y j))).
  { apply HP. exists j. split; [lia|]. unfold y. destruct (Nat.ltb_spec j k); auto; lia. }
  assert (E : rsum n (fun i => rsum n (fun j => y i * A i j * y j)) = 0).
  { apply rsum_0. intros i Hi.
    rewrite (rsum_ext _ _ (fun c => y i * (A i c * y c))) by (intros; ring).
    rewrite rsum_scal_l. unfold y at 1. destruct (Nat.ltb_spec i k); [|ring].
    replace n with (k + (n - k))%nat by lia. rewrite rsum_split.
    rewrite (rsum_ext k _ (fun c => A i c * x c)).
    - rewrite Hx by auto. rewrite rsum_0. ring.
      intros. unfold y. destruct (Nat.ltb_spec (k + k0) k); try lia. ring.
    - intros. unfold y. destruct (Nat.ltb_spec k0 k); try lia. auto. }
  lra.
Qed.

Lemma argmax n (f : nat -> R) : (0 < n)%nat -> exists m, (m < n)%nat /\ forall j, (j < n)%nat -> f j <= f m.
Proof.
  induction n; intros; [lia|].
  destruct (Nat.eq_dec n 0) as [->|].
  - exists 0%nat. split; [lia|]. intros. replace j with 0%nat by lia. lra.
  - destruct IHn as (m & Hm & HM); [lia|].
    destruct (Rle_dec (f m) (f n)).
    + exists n. split; [lia|]. intros. destruct (Nat.eq_dec j n); [subst; lra|].
      apply Rle_trans with (f m); auto. apply HM; lia.
    + exists m. split; [lia|]. intros. destruct (Nat.eq_dec j n); [subst; lra|]. apply HM; lia.
Qed.

Lemma rsum_le n f g : (forall k, (k < n)%nat -> f k <= g k) -> rsum n f <= rsum n g.
Proof.
  induction n; simpl; intros. lra. pose proof (H n ltac:(lia)).
  assert (rsum n f <= rsum n g) by (apply IHn; intros; apply H; lia). lra.
Qed.

Lemma rsum_abs n f : Rabs (rsum n f) <= rsum n (fun k => Rabs (f k)).
Proof.
  induction n; simpl. rewrite Rabs_R0; lra.
  eapply Rle_trans. apply Rabs_triang. lra.
Qed.

Lemma diag_dominant_leading n A : diag_dominant n A -> leading_nonsing n A.
Proof.
  intros HD k Hk x Hx j Hj.
  destruct (argmax k (fun c => Rabs (x c))) as (m & Hm & HM); [lia|].
  destruct (Req_dec (x m) 0) as [E0|Hne].
  { pose proof (HM j Hj) as H. rewrite E0, Rabs_R0 in H. pose proof (Rabs_pos (x j)).
    destruct (Req_dec (x j) 0); auto. pose proof (Rabs_pos_lt _ H1). lra. }
  exfalso.
  pose proof (Hx m Hm) as E.
  assert (E' : A m m * x m = - rsum k (fun c => if (c =? m)%nat then 0 else A m c * x c)).
  { replace (A m m * x m) with (rsum k (fun c => if (c =? m)%nat then A m m * x m else 0)).
    2:{ rewrite rsum_ind. destruct (Nat.ltb_spec m k); auto; lia. }
    rewrite <- rsum_opp.
    enough (rsum k (fun c => if (c =? m)%nat then A m m * x m else 0) -
            rsum k (fun c => - (if (c =? m)%nat then 0 else A m c * x c)) = 0) by lra.
    rewrite <- rsum_sub. etransitivity; [|exact E]. apply rsum_ext. intros.
    destruct (Nat.eqb_spec k0 m); subst; ring. }
  assert (B : Rabs (A m m) * Rabs (x m) <= rsum k (fun c => if (c =? m)%nat then 0 else Rabs (A m c)) * Rabs (x m)).
  { rewrite <- Rabs_mult, E', Rabs_Ropp. eapply Rle_trans. apply rsum_abs.
    rewrite <- rsum_scal_r. apply rsum_le. intros c Hc.
    destruct (Nat.eqb_spec c m). rewrite Rabs_R0; lra.
    rewrite Rabs_mult. apply Rmult_le_compat_l. apply Rabs_pos. apply HM; auto. }
  assert (C : rsum k (fun c => if (c =? m)%nat then 0 else Rabs (A m c)) <=
              rsum n (fun c => if (c =? m)%nat then 0 else Rabs (A m c))).
  { replace n with (k + (n-k))%nat by lia. rewrite rsum_split.
    enough (0 <= rsum (n-k) (fun c => if (k + c =? m)%nat then 0 else Rabs (A m (k+c)%nat))) by lra.
    apply rsum_pos. intros. destruct (_ =? _)%nat. lra. apply Rabs_pos. }
  pose proof (HD m ltac:(lia)) as D. pose proof (Rabs_pos_lt _ Hne) as P.
  assert (Rabs (A m m) <= rsum k (fun c => if (c =? m)%nat then 0 else Rabs (A m c))).
  { apply Rmult_le_reg_r with (Rabs (x m)); auto. }
  lra.
Qed.
