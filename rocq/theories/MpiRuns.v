(** Runs of the communication routines on the pencils of a global array. *)
From Coq Require Import List Arith Lia Bool ZArith.
From Verif Require Import Base Num Cheb ChebMat ChebGrad NdArray NdArrayFacts AxisFacts Space MpiSem MpiSpec Decomp DistFacts TabFacts DecompFacts MergeFacts.
Import ListNotations.
Local Open Scope nat_scope.

Section Bind.
Context {T : Type}.
Lemma brun_ext {X} n (ps ps' : nat -> mprog T X) xs : brun n ps xs -> (forall i, i < n -> ps i = ps' i) -> brun n ps' xs.
Proof.
  intros B E. inversion B; subst.
  - apply brun_ret. intros i Hi. rewrite <- E; auto.
  - eapply brun_call; eauto. intros i Hi. rewrite <- E; auto.
Qed.
Lemma brun_res {X} n (ps : nat -> mprog T X) xs xs' : brun n ps xs -> (forall i, i < n -> xs i = xs' i) -> brun n ps xs'.
Proof.
  intros B. revert xs'. induction B; intros xs' E.
  - apply brun_ret. intros i Hi. rewrite H by auto. f_equal; auto.
  - eapply brun_call; eauto.
Qed.
Lemma brun_bind {X Y} n (ms : nat -> mprog T X) (k : nat -> X -> mprog T Y) xs ys :
  brun n ms xs -> brun n (fun i => k i (xs i)) ys -> brun n (fun i => mbind (ms i) (k i)) ys.
Proof.
  intros B. induction B as [ps xs H|ps qs ks rs xs H1 H2 H3 IH]; intros B'.
  - eapply brun_ext; eauto. intros i Hi. rewrite H by auto. auto.
  - eapply brun_call with (qs := qs) (ks := fun i r => mbind (ks i r) (k i)) (rs := rs); auto.
    intros i Hi. rewrite H1 by auto. auto.
Qed.
Lemma brun_lift {X} n (ms : nat -> res X) xs : (forall i, i < n -> ms i = Ok (xs i)) -> brun n (fun i => mlift (T := T) (ms i)) xs.
Proof. intros H. apply brun_ret. intros i Hi. rewrite H by auto. auto. Qed.
End Bind.

Section Runs.
Context {T : Type} {dT : Dflt T}.
Variables (bm : bmode) (n0 n1 p : nat) (g : arr T).
Hypothesis Hp : 1 <= p.

Definition xpen (r : nat) (st : bool) : arr T :=
  mk_arr [n0; blk_len n1 p r] st (tab n0 (blk_len n1 p r) (fun i j => get g [i; blk_lo n1 p r + j])).
Definition ypen (r : nat) (st : bool) : arr T :=
  mk_arr [blk_len n0 p r; n1] st (tab (blk_len n0 p r) n1 (fun i j => get g [blk_lo n0 p r + i; j])).
Definition whole (st : bool) : arr T := mk_arr [n0; n1] st (tab n0 n1 (fun i j => get g [i; j])).

Lemma x_block_xpen r a : x_block n0 n1 p r g a <-> a = xpen r (std a).
Proof.
  split.
  - intros (H & W & E). unfold xpen. destruct a as [sh st l]. cbn [shp std] in *. subst sh. f_equal.
    pose proof (dat_tab (mk_arr [n0; blk_len n1 p r] st l) n0 (blk_len n1 p r) (conj eq_refl W)) as D. cbn [dat] in D. rewrite D.
    apply tab_ext. auto.
  - intros ->. cbn [std xpen]. split; auto. split. apply tab_shape. intros i j Hi Hj. unfold xpen. rewrite get_tab; auto.
Qed.
Lemma y_block_ypen r a : y_block n0 n1 p r g a <-> a = ypen r (std a).
Proof.
  split.
  - intros (H & W & E). unfold ypen. destruct a as [sh st l]. cbn [shp std] in *. subst sh. f_equal.
    pose proof (dat_tab (mk_arr [blk_len n0 p r; n1] st l) (blk_len n0 p r) n1 (conj eq_refl W)) as D. cbn [dat] in D. rewrite D.
    apply tab_ext. auto.
  - intros ->. cbn [std ypen]. split; auto. split. apply tab_shape. intros i j Hi Hj. unfold ypen. rewrite get_tab; auto.
Qed.
Lemma xpen_shape r st : has_shape n0 (blk_len n1 p r) (xpen r st). Proof. apply tab_shape. Qed.
Lemma ypen_shape r st : has_shape (blk_len n0 p r) n1 (ypen r st). Proof. apply tab_shape. Qed.

Lemma check_ok a b (x : arr T) : has_shape a b x -> check_shape x [a; b] = Ok tt.
Proof. intros [H _]. unfold check_shape. rewrite H. cbn. rewrite !Nat.eqb_refl. auto. Qed.

Lemma posted_all (qs : nat -> req T) q : q < p -> posted (map (fun j => Some (qs j)) (seq 0 p)) q = Some (qs q).
Proof.
  intros H. unfold posted. rewrite nth_error_map, (nth_error_nth' _ 0) by (rewrite seq_length; auto). rewrite seq_nth by auto. auto.
Qed.

Lemma tab_rows_sub n m (f : nat -> nat -> T) L r' : (forall q, L q = blk_lo n p q * m) -> r' < p ->
  block (tab n m f) (Z.of_nat (L r')) (Z.of_nat (L (S r') - L r')) = Some (tab (blk_len n p r') m (fun i => f (blk_lo n p r' + i))).
Proof.
  intros E H. rewrite !E. replace (blk_lo n p (S r') * m - blk_lo n p r' * m) with (blk_len n p r' * m).
  apply tab_rows. apply blk_end_le; auto. rewrite blk_lo_S by auto. lia.
Qed.

Section Transpose.
Hypothesis H0 : p <= n0.
Hypothesis H1 : p <= n1.
Hypothesis Bx : forall r, r < p -> (Z.of_nat (n0 * blk_len n1 p r) < 2147483648)%Z.
Hypothesis By : forall r, r < p -> (Z.of_nat (blk_len n0 p r * n1) < 2147483648)%Z.
Variables (sx sy : nat -> bool) (rcv : nat -> arr T).

Let Lx r := fun q => blk_lo n0 p q * blk_len n1 p r.
Let Ly r := fun q => blk_lo n1 p q * blk_len n0 p r.

Lemma transpose_xy_run : (forall r, r < p -> has_shape (blk_len n0 p r) n1 (rcv r)) ->
  brun p (fun r => transpose_x_to_y bm (dcp n0 n1 p r) (xpen r (sx r)) (rcv r)) (fun r => ypen r (std (rcv r))).
Proof.
  intros Hr.
  set (send := fun r => tab n0 (blk_len n1 p r) (fun i j => get g [i; blk_lo n1 p r + j])).
  apply brun_call with (qs := fun r => QAllToAllV (send r) (counts_of (Lx r) p) (displs_of (Lx r) p)
      (repeat dflt (blk_len n0 p r * n1)) (counts_of (Ly r) p) (displs_of (Ly r) p))
    (ks := fun r recv => mlift (merge_xy (dcp n0 n1 p r) (rcv r) recv))
    (rs := fun r => concat (map (fun q => tab (blk_len n0 p r) (blk_len n1 p q) (fun i j => get g [blk_lo n0 p r + i; blk_lo n1 p q + j])) (seq 0 p))).
  - intros r Hlt. unfold transpose_x_to_y. cbn [dcp x_pencil y_pencil]. unfold xdist at 1, ydist at 1. cbn [d_sz].
    rewrite check_ok by apply xpen_shape. cbn [mlift mbind]. rewrite check_ok by auto. cbn [mlift mbind].
    rewrite counts_xy, counts_yx by auto. cbn [mlift mbind].
    unfold dlength. cbn [xdist ydist d_sz]. rewrite !size2. rewrite (iter_rm_tab _ n0 (blk_len n1 p r)) by apply xpen_shape.
    rewrite fill_full by (rewrite tab_length; auto).
    rewrite (tab_ext n0 _ _ (fun i j => get g [i; blk_lo n1 p r + j])) by (intros; unfold xpen; rewrite get_tab; auto).
    rewrite partition_ok; cycle 1. intros; apply lo_mul_mono; auto. rewrite tab_length, blk_lo_p; auto. rewrite blk_lo_p; auto.
    cbn [mlift mbind]. rewrite partition_ok; cycle 1. intros; apply lo_mul_mono; auto. rewrite repeat_length, blk_lo_p by auto; lia. rewrite blk_lo_p by auto; rewrite Nat.mul_comm; auto.
    cbn [mlift mbind call]. reflexivity.
  - intros r Hlt. unfold reply. rewrite posted_all by auto. rewrite map_length, seq_length.
    apply collect_ok.
    + intros q. apply lo_mul_mono; auto.
    + unfold Ly. rewrite blk_lo_0; auto.
    + rewrite repeat_length. unfold Ly. rewrite blk_lo_p by auto. lia.
    + intros q Hq. rewrite posted_all by auto. rewrite counts_at, displs_at by auto. cbn [obind]. split.
      * unfold send. rewrite tab_rows_sub; auto.
      * rewrite tab_length. unfold Ly. rewrite blk_lo_S by auto. lia.
  - apply brun_ret. intros r Hlt. rewrite (merge_xy_ok n0 n1 p r Hp Hlt (rcv r) (fun i j => get g [blk_lo n0 p r + i; j])); auto.
Qed.

Lemma transpose_yx_run : (forall r, r < p -> has_shape n0 (blk_len n1 p r) (rcv r)) ->
  brun p (fun r => transpose_y_to_x bm (dcp n0 n1 p r) (ypen r (sy r)) (rcv r)) (fun r => xpen r (std (rcv r))).
Proof.
  intros Hr.
  set (send := fun r => tab n1 (blk_len n0 p r) (fun j i => get g [blk_lo n0 p r + i; j])).
  apply brun_call with (qs := fun r => QAllToAllV (send r) (counts_of (Ly r) p) (displs_of (Ly r) p)
      (repeat dflt (n0 * blk_len n1 p r)) (counts_of (Lx r) p) (displs_of (Lx r) p))
    (ks := fun r recv => mlift (merge_yx (dcp n0 n1 p r) (rcv r) recv))
    (rs := fun r => concat (map (fun q => tab (blk_len n1 p r) (blk_len n0 p q) (fun j i => get g [blk_lo n0 p q + i; blk_lo n1 p r + j])) (seq 0 p))).
  - intros r Hlt. unfold transpose_y_to_x. cbn [dcp x_pencil y_pencil]. unfold xdist at 1, ydist at 1. cbn [d_sz].
    rewrite check_ok by apply ypen_shape. cbn [mlift mbind]. rewrite check_ok by auto. cbn [mlift mbind].
    rewrite counts_xy, counts_yx by auto. cbn [mlift mbind].
    unfold dlength. cbn [xdist ydist d_sz]. rewrite !size2. rewrite (iter_sw_tab _ (blk_len n0 p r) n1) by apply ypen_shape.
    rewrite fill_full by (rewrite tab_length; lia).
    rewrite (tab_ext n1 _ _ (fun j i => get g [blk_lo n0 p r + i; j])) by (intros; unfold ypen; rewrite get_tab; auto).
    rewrite partition_ok; cycle 1. intros; apply lo_mul_mono; auto. rewrite tab_length, blk_lo_p; auto. rewrite blk_lo_p, Nat.mul_comm by auto; auto.
    cbn [mlift mbind]. rewrite partition_ok; cycle 1. intros; apply lo_mul_mono; auto. rewrite repeat_length, blk_lo_p by auto; lia. rewrite blk_lo_p by auto; auto.
    cbn [mlift mbind call]. reflexivity.
  - intros r Hlt. unfold reply. rewrite posted_all by auto. rewrite map_length, seq_length.
    apply collect_ok.
    + intros q. apply lo_mul_mono; auto.
    + unfold Lx. rewrite blk_lo_0; auto.
    + rewrite repeat_length. unfold Lx. rewrite blk_lo_p by auto. lia.
    + intros q Hq. rewrite posted_all by auto. rewrite counts_at, displs_at by auto. cbn [obind]. split.
      * unfold send. rewrite tab_rows_sub; auto.
      * rewrite tab_length. unfold Lx. rewrite blk_lo_S by auto. lia.
  - apply brun_ret. intros r Hlt. rewrite (merge_yx_ok n0 n1 p r Hp Hlt (rcv r) (fun i j => get g [i; blk_lo n1 p r + j])); auto.
Qed.
End Transpose.

Section Global.
Hypothesis Hg : has_shape n0 n1 g.
Hypothesis B : (Z.of_nat (n0 * n1) < 2147483648)%Z.
Let Lx := fun q => blk_lo n1 p q * n0.
Let Ly := fun q => blk_lo n0 p q * n1.
Variables (sx sy : nat -> bool).

Lemma send_x r st : r < p -> fill (dlength (xdist n0 n1 p r)) (iter_sw (xpen r st)) = tab (blk_len n1 p r) n0 (fun j i => get g [i; blk_lo n1 p r + j]).
Proof.
  intros H. unfold dlength. cbn [xdist d_sz]. rewrite size2, (iter_sw_tab _ n0 (blk_len n1 p r)) by apply xpen_shape.
  rewrite fill_full by (rewrite tab_length; lia). apply tab_ext. intros. unfold xpen. rewrite get_tab; auto.
Qed.
Lemma send_y r st : r < p -> fill (dlength (ydist n0 n1 p r)) (iter_rm (ypen r st)) = tab (blk_len n0 p r) n1 (fun i j => get g [blk_lo n0 p r + i; j]).
Proof.
  intros H. unfold dlength. cbn [ydist d_sz]. rewrite size2, (iter_rm_tab _ (blk_len n0 p r) n1) by apply ypen_shape.
  rewrite fill_full by (rewrite tab_length; lia). apply tab_ext. intros. unfold ypen. rewrite get_tab; auto.
Qed.
Lemma count_ok (l : list T) : (Z.of_nat (length l) < 2147483648)%Z -> count_of l = Ok (Z.of_nat (length l)).
Proof. intros H. unfold count_of. rewrite (proj2 (Z.ltb_lt _ _) H). auto. Qed.
Lemma len_x r : r < p -> (Z.of_nat (blk_len n1 p r * n0) < 2147483648)%Z.
Proof. intros H. pose proof (blk_len_le n1 p Hp r H). nia. Qed.
Lemma len_y r : r < p -> (Z.of_nat (blk_len n0 p r * n1) < 2147483648)%Z.
Proof. intros H. pose proof (blk_len_le n0 p Hp r H). nia. Qed.
Lemma part_x l : length l = n0 * n1 -> partition (T := T) l (counts_of Lx p) (displs_of Lx p) = Ok tt.
Proof.
  intros H. apply partition_ok. intros; apply lo_mul_mono; auto. unfold Lx. rewrite blk_lo_p; auto. lia. unfold Lx. rewrite blk_lo_p; auto. lia.
Qed.
Lemma part_y l : length l = n0 * n1 -> partition (T := T) l (counts_of Ly p) (displs_of Ly p) = Ok tt.
Proof.
  intros H. apply partition_ok. intros; apply lo_mul_mono; auto. unfold Ly. rewrite blk_lo_p; auto. unfold Ly. rewrite blk_lo_p; auto.
Qed.
Lemma coll_x src rcv : length rcv = n0 * n1 ->
  (forall q, q < p -> src q = Some (tab (blk_len n1 p q) n0 (fun j i => get g [i; blk_lo n1 p q + j]))) ->
  collect (T := T) src (counts_of Lx p) (displs_of Lx p) (seq 0 p) rcv = Some (tab n1 n0 (fun j i => get g [i; j])).
Proof.
  intros Hl Hs. rewrite (collect_ok src (fun q => tab (blk_len n1 p q) n0 (fun j i => get g [i; blk_lo n1 p q + j]))).
  - f_equal. apply (tab_blocks n1 p n0 (fun j i => get g [i; j]) Hp).
  - intros; apply lo_mul_mono; auto.
  - unfold Lx. rewrite blk_lo_0; auto.
  - unfold Lx. rewrite blk_lo_p by auto. lia.
  - intros q Hq. split; auto. rewrite tab_length. unfold Lx. rewrite blk_lo_S by auto. lia.
Qed.
Lemma coll_y src rcv : length rcv = n0 * n1 ->
  (forall q, q < p -> src q = Some (tab (blk_len n0 p q) n1 (fun i j => get g [blk_lo n0 p q + i; j]))) ->
  collect (T := T) src (counts_of Ly p) (displs_of Ly p) (seq 0 p) rcv = Some (tab n0 n1 (fun i j => get g [i; j])).
Proof.
  intros Hl Hs. rewrite (collect_ok src (fun q => tab (blk_len n0 p q) n1 (fun i j => get g [blk_lo n0 p q + i; j]))).
  - f_equal. apply (tab_blocks n0 p n1 (fun i j => get g [i; j]) Hp).
  - intros; apply lo_mul_mono; auto.
  - unfold Ly. rewrite blk_lo_0; auto.
  - unfold Ly. rewrite blk_lo_p by auto. lia.
  - intros q Hq. split; auto. rewrite tab_length. unfold Ly. rewrite blk_lo_S by auto. lia.
Qed.

(** The root calls [gather_x_inplace_root], everybody else [gather_x]. *)
Definition world_gather_x (a : nat -> arr T) (out : arr T) (r : nat) : mprog T (option (arr T)) :=
  if r =? 0 then let! x := gather_x_inplace_root bm (dcp n0 n1 p r) (a r) out in MRet (Some x)
  else let! _ := gather_x (dcp n0 n1 p r) (a r) in MRet None.
Definition world_gather_y (a : nat -> arr T) (out : arr T) (r : nat) : mprog T (option (arr T)) :=
  if r =? 0 then let! x := gather_y_inplace_root bm (dcp n0 n1 p r) (a r) out in MRet (Some x)
  else let! _ := gather_y (dcp n0 n1 p r) (a r) in MRet None.

Lemma gather_x_run out : has_shape n0 n1 out ->
  brun p (world_gather_x (fun r => xpen r (sx r)) out) (fun r => if r =? 0 then Some (whole (std out)) else None).
Proof.
  intros Ho. set (send := fun r => tab (blk_len n1 p r) n0 (fun j i => get g [i; blk_lo n1 p r + j])).
  apply brun_call with (qs := fun r => if r =? 0 then QGatherVRoot 0 (send r) (repeat dflt (n0 * n1)) (counts_of Lx p) (displs_of Lx p) else QGatherV 0 (send r))
    (ks := fun r recv => if r =? 0 then (let! x := (let^ _ := check_shape out [n0; n1] in MRet (store_sw out recv)) in MRet (Some x)) else MRet None)
    (rs := fun r => if r =? 0 then tab n1 n0 (fun j i => get g [i; j]) else []).
  - intros r Hlt. unfold world_gather_x. destruct (Nat.eqb_spec r 0) as [->|Nr].
    + unfold gather_x_inplace_root. cbn [dcp x_pencil dc_nrank n_global]. unfold xdist at 1. cbn [d_sz].
      rewrite check_ok by apply xpen_shape. cbn [mlift mbind]. rewrite send_x by auto. cbn [Nat.eqb].
      rewrite counts_x by auto. cbn [mlift mbind]. rewrite part_x by (rewrite repeat_length, size2; auto). cbn [mlift mbind].
      rewrite count_ok by (rewrite tab_length; apply len_x; auto). cbn [mlift mbind call]. rewrite size2. reflexivity.
    + unfold gather_x. cbn [dcp x_pencil dc_nrank n_global]. unfold xdist at 1. cbn [d_sz].
      rewrite check_ok by apply xpen_shape. cbn [mlift mbind]. rewrite send_x by auto. destruct (Nat.eqb_spec r 0); [lia|].
      rewrite count_ok by (rewrite tab_length; apply len_x; auto). reflexivity.
  - intros r Hlt. unfold reply. rewrite posted_all by auto. rewrite map_length, seq_length. destruct (Nat.eqb_spec r 0) as [->|Nr].
    + cbn [Nat.eqb]. apply coll_x. rewrite repeat_length; auto. intros q Hq. rewrite posted_all by auto.
      destruct (Nat.eqb_spec q 0) as [->|Nq]. reflexivity. destruct (Nat.eqb_spec q 0); [lia|]. reflexivity.
    + destruct (Nat.eqb_spec r 0); [lia|]. auto.
  - apply brun_ret. intros r Hlt. destruct (Nat.eqb_spec r 0); auto. rewrite check_ok by auto. cbn [mlift mbind].
    rewrite (store_sw_tab out n0 n1 (fun i j => get g [i; j])) by auto. reflexivity.
Qed.
Lemma gather_y_run out : has_shape n0 n1 out ->
  brun p (world_gather_y (fun r => ypen r (sy r)) out) (fun r => if r =? 0 then Some (whole (std out)) else None).
Proof.
  intros Ho. set (send := fun r => tab (blk_len n0 p r) n1 (fun i j => get g [blk_lo n0 p r + i; j])).
  apply brun_call with (qs := fun r => if r =? 0 then QGatherVRoot 0 (send r) (repeat dflt (n0 * n1)) (counts_of Ly p) (displs_of Ly p) else QGatherV 0 (send r))
    (ks := fun r recv => if r =? 0 then (let! x := (let^ _ := check_shape out [n0; n1] in MRet (store_rm out recv)) in MRet (Some x)) else MRet None)
    (rs := fun r => if r =? 0 then tab n0 n1 (fun i j => get g [i; j]) else []).
  - intros r Hlt. unfold world_gather_y. destruct (Nat.eqb_spec r 0) as [->|Nr].
    + unfold gather_y_inplace_root. cbn [dcp y_pencil dc_nrank n_global]. unfold ydist at 1. cbn [d_sz].
      rewrite check_ok by apply ypen_shape. cbn [mlift mbind]. rewrite send_y by auto. cbn [Nat.eqb].
      rewrite counts_y by auto. cbn [mlift mbind]. rewrite part_y by (rewrite repeat_length, size2; auto). cbn [mlift mbind].
      rewrite count_ok by (rewrite tab_length; apply len_y; auto). cbn [mlift mbind call]. rewrite size2. reflexivity.
    + unfold gather_y. cbn [dcp y_pencil dc_nrank n_global]. unfold ydist at 1. cbn [d_sz].
      rewrite check_ok by apply ypen_shape. cbn [mlift mbind]. rewrite send_y by auto. destruct (Nat.eqb_spec r 0); [lia|].
      rewrite count_ok by (rewrite tab_length; apply len_y; auto). reflexivity.
  - intros r Hlt. unfold reply. rewrite posted_all by auto. rewrite map_length, seq_length. destruct (Nat.eqb_spec r 0) as [->|Nr].
    + cbn [Nat.eqb]. apply coll_y. rewrite repeat_length; auto. intros q Hq. rewrite posted_all by auto.
      destruct (Nat.eqb_spec q 0) as [->|Nq]. reflexivity. destruct (Nat.eqb_spec q 0); [lia|]. reflexivity.
    + destruct (Nat.eqb_spec r 0); [lia|]. auto.
  - apply brun_ret. intros r Hlt. destruct (Nat.eqb_spec r 0); auto. rewrite check_ok by auto. cbn [mlift mbind].
    rewrite (store_rm_tab out n0 n1 (fun i j => get g [i; j])) by auto. reflexivity.
Qed.

Lemma all_gather_x_run (out : nat -> arr T) : (forall r, r < p -> has_shape n0 n1 (out r)) ->
  brun p (fun r => all_gather_x bm (dcp n0 n1 p r) (xpen r (sx r)) (out r)) (fun r => whole (std (out r))).
Proof.
  intros Ho. set (send := fun r => tab (blk_len n1 p r) n0 (fun j i => get g [i; blk_lo n1 p r + j])).
  apply brun_call with (qs := fun r => QAllGatherV (send r) (repeat dflt (n0 * n1)) (counts_of Lx p) (displs_of Lx p))
    (ks := fun r recv => MRet (store_sw (out r) recv)) (rs := fun r => tab n1 n0 (fun j i => get g [i; j])).
  - intros r Hlt. unfold all_gather_x. cbn [dcp x_pencil dc_nrank n_global]. unfold xdist at 1. cbn [d_sz].
    rewrite check_ok by apply xpen_shape. cbn [mlift mbind]. rewrite check_ok by auto. cbn [mlift mbind]. rewrite send_x by auto.
    rewrite counts_x by auto. cbn [mlift mbind]. rewrite part_x by (rewrite repeat_length, size2; auto). cbn [mlift mbind].
    rewrite count_ok by (rewrite tab_length; apply len_x; auto). cbn [mlift mbind call]. rewrite size2. reflexivity.
  - intros r Hlt. unfold reply. rewrite posted_all by auto. rewrite map_length, seq_length.
    apply coll_x. rewrite repeat_length; auto. intros q Hq. rewrite posted_all by auto. reflexivity.
  - apply brun_ret. intros r Hlt. rewrite (store_sw_tab (out r) n0 n1 (fun i j => get g [i; j])) by auto. reflexivity.
Qed.
Lemma all_gather_y_run (out : nat -> arr T) : (forall r, r < p -> has_shape n0 n1 (out r)) ->
  brun p (fun r => all_gather_y bm (dcp n0 n1 p r) (ypen r (sy r)) (out r)) (fun r => whole (std (out r))).
Proof.
  intros Ho. set (send := fun r => tab (blk_len n0 p r) n1 (fun i j => get g [blk_lo n0 p r + i; j])).
  apply brun_call with (qs := fun r => QAllGatherV (send r) (repeat dflt (n0 * n1)) (counts_of Ly p) (displs_of Ly p))
    (ks := fun r recv => MRet (store_rm (out r) recv)) (rs := fun r => tab n0 n1 (fun i j => get g [i; j])).
  - intros r Hlt. unfold all_gather_y. cbn [dcp y_pencil dc_nrank n_global]. unfold ydist at 1. cbn [d_sz].
    rewrite check_ok by apply ypen_shape. cbn [mlift mbind]. rewrite check_ok by auto. cbn [mlift mbind]. rewrite send_y by auto.
    rewrite counts_y by auto. cbn [mlift mbind]. rewrite part_y by (rewrite repeat_length, size2; auto). cbn [mlift mbind].
    rewrite count_ok by (rewrite tab_length; apply len_y; auto). cbn [mlift mbind call]. rewrite size2. reflexivity.
  - intros r Hlt. unfold reply. rewrite posted_all by auto. rewrite map_length, seq_length.
    apply coll_y. rewrite repeat_length; auto. intros q Hq. rewrite posted_all by auto. reflexivity.
  - apply brun_ret. intros r Hlt. rewrite (store_rm_tab (out r) n0 n1 (fun i j => get g [i; j])) by auto. reflexivity.
Qed.

(** The root calls [scatter_x_inplace_root] with the global array, everybody
    else [scatter_x_inplace]. *)
Definition world_scatter_x (src : arr T) (out : nat -> arr T) (r : nat) : mprog T (arr T) :=
  if r =? 0 then scatter_x_inplace_root bm (dcp n0 n1 p r) src (out r) else scatter_x_inplace (dcp n0 n1 p r) (out r).
Definition world_scatter_y (src : arr T) (out : nat -> arr T) (r : nat) : mprog T (arr T) :=
  if r =? 0 then scatter_y_inplace_root bm (dcp n0 n1 p r) src (out r) else scatter_y_inplace (dcp n0 n1 p r) (out r).

Lemma scatter_x_run (out : nat -> arr T) : (forall r, r < p -> has_shape n0 (blk_len n1 p r) (out r)) ->
  brun p (world_scatter_x g out) (fun r => xpen r (std (out r))).
Proof.
  intros Ho.
  apply brun_call with (qs := fun r => if r =? 0 then QScatterVRoot 0 (tab n1 n0 (fun j i => get g [i; j])) (counts_of Lx p) (displs_of Lx p) (repeat dflt (n0 * blk_len n1 p r)) else QScatterV 0 (repeat dflt (n0 * blk_len n1 p r)))
    (ks := fun r recv => MRet (store_sw (out r) recv)) (rs := fun r => tab (blk_len n1 p r) n0 (fun j i => get g [i; blk_lo n1 p r + j])).
  - intros r Hlt. pose proof (len_x r Hlt) as Lr. rewrite Nat.mul_comm in Lr. unfold world_scatter_x. destruct (Nat.eqb_spec r 0) as [->|Nr].
    + unfold scatter_x_inplace_root. cbn [dcp x_pencil dc_nrank n_global]. unfold xdist at 1. cbn [d_sz].
      rewrite check_ok by auto. cbn [mlift mbind]. rewrite check_ok by auto. cbn [mlift mbind Nat.eqb].
      rewrite counts_x by auto. cbn [mlift mbind]. rewrite size2, (iter_sw_tab g n0 n1) by auto. rewrite fill_full by (rewrite tab_length; lia).
      rewrite part_x by (rewrite tab_length; lia). cbn [mlift mbind]. unfold dlength. cbn [xdist d_sz]. rewrite size2.
      rewrite count_ok by (rewrite repeat_length; auto). cbn [mlift mbind call]. reflexivity.
    + unfold scatter_x_inplace. cbn [dcp x_pencil dc_nrank n_global]. unfold xdist at 1. cbn [d_sz].
      rewrite check_ok by auto. cbn [mlift mbind]. destruct (Nat.eqb_spec r 0); [lia|]. unfold dlength. cbn [xdist d_sz]. rewrite size2.
      rewrite count_ok by (rewrite repeat_length; auto). reflexivity.
  - intros r Hlt. unfold reply. rewrite posted_all by auto. destruct (Nat.eqb_spec r 0) as [->|Nr].
    + cbn [Nat.eqb]. rewrite counts_at, displs_at by auto. cbn [obind]. rewrite (tab_rows_sub n1 n0) by auto. cbn [obind].
      rewrite tab_length, repeat_length, (Nat.mul_comm n0), Nat.eqb_refl. auto.
    + destruct (Nat.eqb_spec r 0); [lia|]. rewrite posted_all by lia. cbn [Nat.eqb]. rewrite counts_at, displs_at by auto. cbn [obind].
      rewrite (tab_rows_sub n1 n0) by auto. cbn [obind]. rewrite tab_length, repeat_length, (Nat.mul_comm n0), Nat.eqb_refl. auto.
  - apply brun_ret. intros r Hlt. rewrite (store_sw_tab (out r) n0 (blk_len n1 p r) (fun i j => get g [i; blk_lo n1 p r + j])) by auto. reflexivity.
Qed.
Lemma scatter_y_run (out : nat -> arr T) : (forall r, r < p -> has_shape (blk_len n0 p r) n1 (out r)) ->
  brun p (world_scatter_y g out) (fun r => ypen r (std (out r))).
Proof.
  intros Ho.
  apply brun_call with (qs := fun r => if r =? 0 then QScatterVRoot 0 (tab n0 n1 (fun i j => get g [i; j])) (counts_of Ly p) (displs_of Ly p) (repeat dflt (blk_len n0 p r * n1)) else QScatterV 0 (repeat dflt (blk_len n0 p r * n1)))
    (ks := fun r recv => MRet (store_rm (out r) recv)) (rs := fun r => tab (blk_len n0 p r) n1 (fun i j => get g [blk_lo n0 p r + i; j])).
  - intros r Hlt. pose proof (len_y r Hlt) as Lr. unfold world_scatter_y. destruct (Nat.eqb_spec r 0) as [->|Nr].
    + unfold scatter_y_inplace_root. cbn [dcp y_pencil dc_nrank n_global]. unfold ydist at 1. cbn [d_sz].
      rewrite check_ok by auto. cbn [mlift mbind]. rewrite check_ok by auto. cbn [mlift mbind Nat.eqb].
      rewrite counts_y by auto. cbn [mlift mbind]. rewrite size2, (iter_rm_tab g n0 n1) by auto. rewrite fill_full by (rewrite tab_length; lia).
      rewrite part_y by (rewrite tab_length; lia). cbn [mlift mbind]. unfold dlength. cbn [ydist d_sz]. rewrite size2.
      rewrite count_ok by (rewrite repeat_length; auto). cbn [mlift mbind call]. reflexivity.
    + unfold scatter_y_inplace. cbn [dcp y_pencil dc_nrank n_global]. unfold ydist at 1. cbn [d_sz].
      rewrite check_ok by auto. cbn [mlift mbind]. destruct (Nat.eqb_spec r 0); [lia|]. unfold dlength. cbn [ydist d_sz]. rewrite size2.
      rewrite count_ok by (rewrite repeat_length; auto). reflexivity.
  - intros r Hlt. unfold reply. rewrite posted_all by auto. destruct (Nat.eqb_spec r 0) as [->|Nr].
    + cbn [Nat.eqb]. rewrite counts_at, displs_at by auto. cbn [obind]. rewrite (tab_rows_sub n0 n1) by auto. cbn [obind].
      rewrite tab_length, repeat_length, Nat.eqb_refl. auto.
    + destruct (Nat.eqb_spec r 0); [lia|]. rewrite posted_all by lia. cbn [Nat.eqb]. rewrite counts_at, displs_at by auto. cbn [obind].
      rewrite (tab_rows_sub n0 n1) by auto. cbn [obind]. rewrite tab_length, repeat_length, Nat.eqb_refl. auto.
  - apply brun_ret. intros r Hlt. rewrite (store_rm_tab (out r) (blk_len n0 p r) n1 (fun i j => get g [blk_lo n0 p r + i; j])) by auto. reflexivity.
Qed.
End Global.
End Runs.
