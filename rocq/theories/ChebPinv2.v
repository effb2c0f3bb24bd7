(** P_d D_d = the identity without its first d rows. *)
From Coq Require Import List Arith Lia Bool ZArith Reals Lra.
From Verif Require Import Base Num Linalg LinalgProofs StencilProofs StencilProofs2 Cheb ChebPoly ChebGrad ChebMat ChebPinv.
Import ListNotations.
Local Open Scope R_scope.

Lemma psum_row n d i (F : nat -> R) :
  (d <= i)%nat -> (i < n)%nat -> (forall t, (n <= i + 2*t)%nat -> F (i - d + 2*t)%nat = 0) ->
  rsum n (fun j => psum n d i j * F j) = rsum (S d) (fun t => pco d t i * F (i - d + 2*t)%nat).
Proof.
  intros Hd Hi HF. unfold psum. destruct (Nat.ltb_spec i d); [lia|].
  rewrite (rsum_ext _ _ (fun j => rsum (S d) (fun t =>
     (if (j =? i - d + 2*t)%nat then (if (i + 2*t <? n)%nat then pco d t i else 0) * F (i-d+2*t)%nat else 0)))).
  2:{ intros j Hj. rewrite <- rsum_scal_r. apply rsum_ext. intros t Ht.
      destruct (Nat.eqb_spec j (i-d+2*t)); [subst j|]; ring. }
  rewrite rsum_swap. apply rsum_ext. intros t Ht. rewrite rsum_ind.
  destruct (Nat.ltb_spec (i + 2*t) n).
  - destruct (Nat.ltb_spec (i-d+2*t) n); auto. lia.
  - rewrite HF by lia. destruct (Nat.ltb_spec (i-d+2*t) n); ring.
Qed.

Lemma pex_zeros d t r x : (1 <= d <= 4)%nat -> (1 <= r)%nat -> (r < t <= d)%nat ->
  pex d (x - INR d + 2 * INR t) (x + 2 * INR r) = 0.
Proof.
  intros Hd Hr Ht.
  assert (exists s, t = (r + s)%nat /\ (1 <= s <= d-1)%nat) as (s & -> & Hs) by (exists (t-r)%nat; lia).
  rewrite plus_INR. set (y := INR r). clearbody y.
  assert (d = 1 \/ d = 2 \/ d = 3 \/ d = 4)%nat as [->|[->|[->| ->]]] by lia; try lia;
  (assert (s = 1 \/ s = 2 \/ s = 3)%nat as [->|[->| ->]] by lia); try lia; cbn [pex INR]; field.
Qed.

Lemma dex_all d t r i : (1 <= d <= 4)%nat -> (1 <= r)%nat -> (t <= d)%nat -> (d <= i)%nat ->
  dex d (i - d + 2*t) (i + 2*r) =
  pex d (INR i - INR d + 2 * INR t) (INR i + 2 * INR r) * (if (i - d + 2*t =? 0)%nat then /2 else 1).
Proof.
  intros Hd Hr Ht Hi. rewrite dex_pex by auto.
  replace (INR (i - d + 2*t)) with (INR i - INR d + 2 * INR t) by (rewrite plus_INR, minus_INR, mult_INR by lia; simpl; ring).
  replace (INR (i + 2*r)) with (INR i + 2 * INR r) by (rewrite plus_INR, mult_INR; simpl; ring).
  destruct (le_dec t r).
  - rewrite (dsel_true _ _ _ (r - t)) by lia. auto.
  - rewrite dsel_false by (intros; lia). rewrite pex_zeros by lia. ring.
Qed.

Lemma pinv_identity d i q : (1 <= d <= 4)%nat -> (d <= i)%nat ->
  rsum (S d) (fun t => pco d t i * dex d (i - d + 2*t) q) = if (i =? q)%nat then 1 else 0.
Proof.
  intros Hd Hi.
  destruct (Nat.eqb_spec i q) as [->|Hq].
  - rewrite rsum_first, rsum_0.
    2:{ intros k Hk. rewrite dex_pex by auto. rewrite dsel_false by (intros; lia). ring. }
    rewrite dex_pex by auto. rewrite (dsel_true _ _ _ 0) by lia.
    replace (q - d + 2*0)%nat with (q-d)%nat by lia. rewrite minus_INR by lia.
    assert (HR : INR d <= INR q) by (apply le_INR; auto).
    assert (d = 1 \/ d = 2 \/ d = 3 \/ d = 4)%nat as [->|[->|[->| ->]]] by lia; cbn [pco pex];
    simpl INR in *;
    (match goal with |- context [(q =? ?n)%nat] => destruct (Nat.eqb_spec q n); [subst q; simpl; field|] end);
    (match goal with |- context [(?e =? 0)%nat] => destruct (Nat.eqb_spec e 0); [lia|] end);
    field; repeat split; lra.
  - destruct (dsel d (i-d) q) eqn:E.
    + apply dsel_spec in E. destruct E as [r E]. replace (i - d + d)%nat with i in E by lia. subst q.
      assert (Hr : (1 <= r)%nat) by lia.
      rewrite (rsum_ext _ _ (fun t => pco d t i * (pex d (INR i - INR d + 2 * INR t) (INR i + 2 * INR r) *
          (if (i - d + 2*t =? 0)%nat then /2 else 1)))).
      2:{ intros t Ht. rewrite dex_all by lia. auto. }
      set (y := INR r). clearbody y.
      assert (HR : INR d <= INR i) by (apply le_INR; auto).
      destruct (Nat.eq_dec i d) as [->|Hne].
      * assert (d = 1 \/ d = 2 \/ d = 3 \/ d = 4)%nat as [->|[->|[->| ->]]] by lia; cbn [rsum pco pex];
        simpl; field.
      * assert (forall t, (i - d + 2*t =? 0)%nat = false) as Z by (intros; apply Nat.eqb_neq; lia).
        rewrite (rsum_ext _ _ (fun t => pco d t i * pex d (INR i - INR d + 2 * INR t) (INR i + 2 * y)))
          by (intros; rewrite Z; ring).
        assert (d = 1 \/ d = 2 \/ d = 3 \/ d = 4)%nat as [->|[->|[->| ->]]] by lia; cbn [rsum pco pex];
        (match goal with |- context [(i =? ?n)%nat] => destruct (Nat.eqb_spec i n); [lia|] end);
        simpl INR in *; set (x := INR i) in *; clearbody x; field; repeat split; first [ lra | intro; nra ].
    + apply rsum_0. intros t Ht. rewrite dex_pex by auto.
      destruct (dsel d (i - d + 2*t) q) eqn:E2; [|ring]. exfalso.
      apply dsel_spec in E2. destruct E2 as [k E2]. rewrite (dsel_true d (i-d) q (t + k)) in E by lia. discriminate.
Qed.

Lemma pinv_dmat n d i q : (1 <= d <= 4)%nat -> (2 * d <= n)%nat -> (i < n)%nat -> (q < n)%nat ->
  rsum n (fun j => psum n d i j * dex d j q) = if ((d <=? i) && (i =? q))%nat then 1 else 0.
Proof.
  intros Hd Hn Hi Hq. destruct (Nat.leb_spec d i); simpl.
  - rewrite psum_row; auto. apply pinv_identity; auto.
    intros t Ht. rewrite dex_pex by auto. rewrite dsel_false; auto. intros; lia.
  - apply rsum_0. intros j Hj. unfold psum. destruct (Nat.ltb_spec i d); [ring|lia].
Qed.
