(** C36, continued: split_array into a given array. *)
From Coq Require Import List Arith Lia Bool ZArith Reals.
From Verif Require Import Base Num Cheb ChebMat NdArray NdArrayFacts AxisFacts Space MpiSem MpiSpec Decomp DistFacts TabFacts DecompFacts DistNew MergeFacts MpiRuns PropMpi PropMpi2.
Import ListNotations.
Local Open Scope nat_scope.

(** [out], of shape m0 x m1, becomes the l0 x l1 block of [g] that starts at
    (s0, s1); a block that is one element thick along an axis is repeated along
    that axis of [out]; every other mismatch of the shapes panics. *)
Definition splits_into {T} {dT : Dflt T} (d : dist) (g : arr T) (s0 s1 l0 l1 : nat) : Prop :=
  forall m0 m1 out, has_shape m0 m1 out ->
  ((m0 = l0 \/ l0 = 1) /\ (m1 = l1 \/ l1 = 1) ->
    exists x, split_array_inplace d g out = Ok x /\ has_shape m0 m1 x /\ std x = std out /\
      forall i j, i < m0 -> j < m1 ->
        get x [i; j] = get g [s0 + (if m0 =? l0 then i else 0); s1 + (if m1 =? l1 then j else 0)]) /\
  (~ ((m0 = l0 \/ l0 = 1) /\ (m1 = l1 \/ l1 = 1)) -> split_array_inplace d g out = Panic).

Lemma splits_into_ok {T} {dT : Dflt T} d (g x : arr T) s0 s1 l0 l1 : 1 <= l0 -> 1 <= l1 -> split_array d g = Ok x -> shp x = [l0; l1] -> wf x ->
  (forall i j, i < l0 -> j < l1 -> get x [i; j] = get g [s0 + i; s1 + j]) -> splits_into d g s0 s1 l0 l1.
Proof.
  intros P0 P1 E Sx Wx V m0 m1 out [So Wo]. unfold split_array_inplace. rewrite E. cbn [bind]. rewrite Sx, So. cbn [rd nth_error bind].
  split.
  - intros [H0 H1].
    replace ((l0 =? m0) || (l0 =? 1)) with true. 2:{ symmetry. apply orb_true_iff. rewrite !Nat.eqb_eq. lia. }
    replace ((l1 =? m1) || (l1 =? 1)) with true. 2:{ symmetry. apply orb_true_iff. rewrite !Nat.eqb_eq. lia. }
    cbn [andb assertb bind].
    set (f := fun i j => (dat x).[(if l0 =? m0 then i else 0) * l1 + (if l1 =? m1 then j else 0)]).
    exists (mk_arr [m0; m1] (std out) (tab m0 m1 f)). split; [reflexivity|]. split; [apply tab_shape|]. split; [reflexivity|].
    intros i j Hi Hj. rewrite get_tab by auto. unfold f.
    set (i' := if l0 =? m0 then i else 0). set (j' := if l1 =? m1 then j else 0).
    assert (Hi' : i' < l0) by (unfold i'; destruct (Nat.eqb_spec l0 m0); lia).
    assert (Hj' : j' < l1) by (unfold j'; destruct (Nat.eqb_spec l1 m1); lia).
    rewrite <- (get2 x l0 l1) by auto. rewrite V by auto. unfold i', j'.
    rewrite (Nat.eqb_sym l0 m0), (Nat.eqb_sym l1 m1). reflexivity.
  - intros H.
    replace (((l0 =? m0) || (l0 =? 1)) && ((l1 =? m1) || (l1 =? 1))) with false; [reflexivity|].
    symmetry. apply not_true_iff_false. rewrite andb_true_iff, !orb_true_iff, !Nat.eqb_eq. lia.
Qed.

Theorem C36_split_array_inplace : forall T (dT : Dflt T) bm n0 n1 p r (g : arr T), 1 <= p -> p <= n0 -> p <= n1 -> r < p ->
  (Z.of_nat n0 < 2 ^ 64 - 1)%Z -> (Z.of_nat n1 < 2 ^ 64 - 1)%Z -> has_shape n0 n1 g ->
  exists d, decomp_new bm p r [n0; n1] = Ok d /\
    splits_into (x_pencil d) g 0 (blk_lo n1 p r) n0 (blk_len n1 p r) /\
    splits_into (y_pencil d) g (blk_lo n0 p r) 0 (blk_len n0 p r) n1.
Proof.
  intros T dT bm n0 n1 p r g Hp H0 H1 Hr B0 B1 Hg.
  destruct (C36_split_array T dT bm n0 n1 p r g Hp H0 H1 Hr B0 B1 Hg) as (d & x & y & Ed & Ex & (Sx & Wx & Vx) & Ey & (Sy & Wy & Vy)).
  exists d. split; auto.
  pose proof (blk_len_pos n0 p Hp r H0) as P0. pose proof (blk_len_pos n1 p Hp r H1) as P1.
  split; eapply splits_into_ok; eauto; try lia.
Qed.
Print Assumptions C36_split_array_inplace.
(** rank 1 of 2 of a 3 x 2 array: its y-pencil has shape [2; 2] *)
Example C36_split_nonvacuous : (let* d := decomp_new Debug 2 1 [3; 2] in split_array_inplace (y_pencil d) (mk_arr [3; 2] true [1; 2; 3; 4; 5; 6]) (mk_arr [2; 2] true [0; 0; 0; 0]))
  = Ok (mk_arr [2; 2] true [3; 4; 5; 6]).
Proof. vm_compute. reflexivity. Qed.
