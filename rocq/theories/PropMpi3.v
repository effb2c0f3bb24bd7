(** C46: the 32-bit counts and displacements handed to MPI. *)
From Coq Require Import List Arith Lia Bool ZArith.
From Verif Require Import Base Num Cheb ChebMat ChebGrad NdArray NdArrayFacts AxisFacts Space MpiSem MpiSpec Decomp DistFacts TabFacts DecompFacts DistNew MergeFacts MpiRuns PropMpi PropMpi2.
Import ListNotations.
Local Open Scope nat_scope.

(** [cs], [ds]: the counts are exactly [f 0 .. f (p-1)], the displacements are
    their prefix sums, and together they describe a buffer of [n] elements. *)
Definition sum_upto (f : nat -> nat) (q : nat) : nat := fold_right Nat.add 0 (map f (seq 0 q)).
Definition describes (p : nat) (f : nat -> nat) (n : nat) (cs ds : list Z) : Prop :=
  cs = map (fun q => Z.of_nat (f q)) (seq 0 p) /\ ds = map (fun q => Z.of_nat (sum_upto f q)) (seq 0 p) /\ sum_upto f p = n.

Lemma sum_upto_S f q : sum_upto f (S q) = sum_upto f q + f q.
Proof.
  unfold sum_upto. rewrite seq_S, map_app, fold_right_app. cbn. generalize (seq 0 q). intros l. induction l; cbn; lia.
Qed.
Lemma sum_blk n p m q : 1 <= p -> sum_upto (fun k => blk_len n p k * m) q = blk_lo n p q * m.
Proof.
  intros Hp. induction q as [|q IH]. rewrite blk_lo_0 by auto. auto. rewrite sum_upto_S, IH, blk_lo_S by auto. lia.
Qed.
Lemma describes_blk n p m : 1 <= p ->
  describes p (fun q => blk_len n p q * m) (n * m) (counts_of (fun q => blk_lo n p q * m) p) (displs_of (fun q => blk_lo n p q * m) p).
Proof.
  intros Hp. split; [|split].
  - unfold counts_of. apply map_ext. intros q. f_equal. rewrite blk_lo_S by auto. lia.
  - unfold displs_of. apply map_ext. intros q. rewrite sum_blk by auto. auto.
  - rewrite sum_blk, blk_lo_p by auto. auto.
Qed.

(** Transposes: exact as soon as the pencils of this rank have fewer than 2^31
    elements (the global array may be larger). *)
Theorem C46_transpose_counts : forall bm n0 n1 p r, 1 <= p -> p <= n0 -> p <= n1 -> r < p ->
  (Z.of_nat (n0 * blk_len n1 p r) < 2 ^ 31)%Z -> (Z.of_nat (blk_len n0 p r * n1) < 2 ^ 31)%Z ->
  exists d sc sd rc rd, decomp_new bm p r [n0; n1] = Ok d /\
    get_counts_all_to_all bm (x_pencil d) (y_pencil d) = Ok (sc, sd) /\
    describes p (fun q => blk_len n0 p q * blk_len n1 p r) (n0 * blk_len n1 p r) sc sd /\
    get_counts_all_to_all bm (y_pencil d) (x_pencil d) = Ok (rc, rd) /\
    describes p (fun q => blk_len n1 p q * blk_len n0 p r) (n1 * blk_len n0 p r) rc rd.
Proof.
  intros bm n0 n1 p r Hp H0 H1 Hr Bx By. change (2 ^ 31)%Z with 2147483648%Z in *.
  pose proof (blk_len_pos n0 p Hp r H0). pose proof (blk_len_pos n1 p Hp r H1).
  exists (dcp n0 n1 p r). do 4 eexists. split; [apply decomp_new_ok; auto; unfold u64max; change (2 ^ 64)%Z with 18446744073709551616%Z; nia|].
  cbn [dcp x_pencil y_pencil]. split; [apply counts_xy; auto|]. split; [apply describes_blk; auto|]. split; [apply counts_yx; auto|]. apply describes_blk; auto.
Qed.
(** Gather, all_gather and scatter: exact as soon as the global array has
    fewer than 2^31 elements. *)
Theorem C46_gather_counts : forall bm n0 n1 p r, 1 <= p -> p <= n0 -> p <= n1 -> r < p -> (Z.of_nat (n0 * n1) < 2 ^ 31)%Z ->
  exists d cx dx cy dy, decomp_new bm p r [n0; n1] = Ok d /\
    get_counts_all_gather bm (x_pencil d) = Ok (cx, dx) /\ describes p (fun q => blk_len n1 p q * n0) (n1 * n0) cx dx /\
    get_counts_all_gather bm (y_pencil d) = Ok (cy, dy) /\ describes p (fun q => blk_len n0 p q * n1) (n0 * n1) cy dy.
Proof.
  intros bm n0 n1 p r Hp H0 H1 Hr B. change (2 ^ 31)%Z with 2147483648%Z in *.
  destruct (global_bounds n0 n1 p Hp H0 H1 B) as [B0 B1].
  exists (dcp n0 n1 p r). do 4 eexists. split; [apply decomp_new_ok; auto|].
  cbn [dcp x_pencil y_pencil]. split; [apply counts_x; auto|]. split; [apply describes_blk; auto|]. split; [apply counts_y; auto|]. apply describes_blk; auto.
Qed.
Example C46_nonvacuous : exists d, decomp_new Debug 2 1 [3; 4] = Ok d /\
  get_counts_all_to_all Debug (x_pencil d) (y_pencil d) = Ok ([2; 4]%Z, [0; 2]%Z) /\ get_counts_all_gather Debug (x_pencil d) = Ok ([6; 6]%Z, [0; 6]%Z).
Proof. eexists. split. reflexivity. split; reflexivity. Qed.

Section Large.
Context {T : Type} {dT : Dflt T}.
Variable bm : bmode.
Lemma scan_cases l : forall acc, scan_displs bm acc l = Panic \/ exists v, scan_displs bm acc l = Ok v.
Proof.
  induction l as [|c l IH]; cbn; intros acc; eauto. unfold iadd. destruct (_ && _)%Z; cbn [bind].
  - destruct (IH (acc + c)%Z) as [->|[v ->]]; cbn; eauto.
  - destruct bm; cbn [bind]; auto. match goal with |- context [scan_displs Release ?a l] => destruct (IH a) as [->|[v ->]] end; cbn; eauto.
Qed.
Lemma mapM_cases {X Y} (f : X -> res Y) l : (forall x, f x = Panic \/ exists y, f x = Ok y) -> mapM f l = Panic \/ exists v, mapM f l = Ok v.
Proof. intros Hf. induction l as [|c l IH]; cbn; eauto. destruct (Hf c) as [->|[v ->]]; cbn; auto. destruct IH as [->|[w ->]]; cbn; eauto. Qed.
Lemma rd_cases {X} (l : list X) i : rd Checked l i = Panic \/ exists v, rd Checked l i = Ok v.
Proof. unfold rd. destruct (nth_error l i); cbn; eauto. Qed.
Lemma a2a_cases a b : get_counts_all_to_all bm a b = Panic \/ exists c ds, get_counts_all_to_all bm a b = Ok (c, ds).
Proof.
  unfold get_counts_all_to_all.
  match goal with |- context [mapM ?f ?l] => destruct (mapM_cases f l) as [->|[v ->]] end; cbn [bind]; auto.
  - intros z. destruct (rd_cases z (axis_contig a)) as [->|[u ->]]; cbn [bind]; auto. destruct (rd_cases (d_sz a) (axis_contig b)) as [->|[u' ->]]; cbn [bind]; eauto.
  - destruct (scan_cases v 0%Z) as [->|[w ->]]; cbn; eauto.
Qed.
Lemma ag_cases a : get_counts_all_gather bm a = Panic \/ exists c ds, get_counts_all_gather bm a = Ok (c, ds).
Proof. unfold get_counts_all_gather. match goal with |- context [scan_displs bm 0 ?l] => destruct (scan_cases l 0%Z) as [->|[w ->]] end; cbn; eauto. Qed.
Lemma check_cases (a : arr T) sh : check_shape a sh = Ok tt \/ check_shape a sh = Panic.
Proof. unfold check_shape; destruct (list_eqb _ _); auto. Qed.
Lemma part_cases (l : list T) c ds : partition l c ds = Panic \/ partition l c ds = Ok tt.
Proof. unfold partition, count_of. destruct (_ <? _)%Z; cbn; auto. destruct (forallb _ _); cbn; auto. Qed.
Lemma part_large (l : list T) c ds : (2147483648 <= Z.of_nat (length l))%Z -> partition l c ds = Panic.
Proof. intros H. unfold partition, count_of. destruct (Z.ltb_spec (Z.of_nat (length l)) 2147483648); auto. lia. Qed.
Lemma fill_length n (l : list T) : length (fill n l) = n.
Proof. unfold fill. rewrite zip_write_length, repeat_length. auto. Qed.
End Large.

(** Larger buffers panic before anything is communicated: wrapped counts never
    reach MPI, neither in debug nor in release builds. *)
Theorem C46_too_large_panics : forall T (dT : Dflt T) bm (d : decomp) (a b : arr T),
  ((2 ^ 31 <= Z.of_nat (size (d_sz (x_pencil d))))%Z \/ (2 ^ 31 <= Z.of_nat (size (d_sz (y_pencil d))))%Z ->
     transpose_x_to_y bm d a b = MPanic /\ transpose_y_to_x bm d a b = MPanic) /\
  ((2 ^ 31 <= Z.of_nat (size (n_global d)))%Z ->
     gather_x_root bm d a = MPanic /\ gather_x_inplace_root bm d a b = MPanic /\ gather_y_root bm d a = MPanic /\ gather_y_inplace_root bm d a b = MPanic /\
     scatter_x_root bm d a = MPanic /\ scatter_x_inplace_root bm d a b = MPanic /\ scatter_y_root bm d a = MPanic /\ scatter_y_inplace_root bm d a b = MPanic /\
     all_gather_x bm d a b = MPanic /\ all_gather_y bm d a b = MPanic).
Proof.
  intros T dT bm d a b. change (2 ^ 31)%Z with 2147483648%Z.
  assert (Tr : (2147483648 <= Z.of_nat (size (d_sz (x_pencil d))))%Z \/ (2147483648 <= Z.of_nat (size (d_sz (y_pencil d))))%Z ->
    forall (s1 r1 : nat) (l1 l2 : list T) c ds c' ds', length l1 = s1 -> length l2 = r1 ->
      (s1 = size (d_sz (x_pencil d)) /\ r1 = size (d_sz (y_pencil d))) \/ (s1 = size (d_sz (y_pencil d)) /\ r1 = size (d_sz (x_pencil d))) ->
      partition l1 c ds = Panic \/ (partition l1 c ds = Ok tt /\ partition l2 c' ds' = Panic)).
  { intros H s1 r1 l1 l2 c ds c' ds' L1 L2 E. destruct (part_cases l1 c ds) as [Hl|Hl]; auto. right. split; auto.
    destruct (Z_lt_le_dec (Z.of_nat s1) 2147483648).
    - apply part_large. lia.
    - rewrite part_large in Hl by lia. discriminate. }
  split.
  - intros H. specialize (Tr H). split.
    + unfold transpose_x_to_y. destruct (check_cases a (d_sz (x_pencil d))) as [->| ->]; auto. cbn [mlift mbind].
      destruct (check_cases b (d_sz (y_pencil d))) as [->| ->]; auto. cbn [mlift mbind].
      destruct (a2a_cases bm (x_pencil d) (y_pencil d)) as [->|(sc & sd & ->)]; auto. cbn [mlift mbind].
      destruct (a2a_cases bm (y_pencil d) (x_pencil d)) as [->|(rc & rd & ->)]; auto. cbn [mlift mbind].
      match goal with |- context [partition ?l1 sc sd] => match goal with |- context [partition ?l2 rc rd] =>
        destruct (Tr _ _ l1 l2 sc sd rc rd eq_refl eq_refl) as [->|[-> E]] end end; auto.
      * left. rewrite fill_length, repeat_length. auto.
      * cbn [mlift mbind]. rewrite E. auto.
    + unfold transpose_y_to_x. destruct (check_cases a (d_sz (y_pencil d))) as [->| ->]; auto. cbn [mlift mbind].
      destruct (check_cases b (d_sz (x_pencil d))) as [->| ->]; auto. cbn [mlift mbind].
      destruct (a2a_cases bm (y_pencil d) (x_pencil d)) as [->|(sc & sd & ->)]; auto. cbn [mlift mbind].
      destruct (a2a_cases bm (x_pencil d) (y_pencil d)) as [->|(rc & rd & ->)]; auto. cbn [mlift mbind].
      match goal with |- context [partition ?l1 sc sd] => match goal with |- context [partition ?l2 rc rd] =>
        destruct (Tr _ _ l1 l2 sc sd rc rd eq_refl eq_refl) as [->|[-> E]] end end; auto.
      * right. rewrite fill_length, repeat_length. auto.
      * cbn [mlift mbind]. rewrite E. auto.
  - intros H.
    assert (Gx : forall b, gather_x_inplace_root bm d a b = MPanic).
    { intros b'. unfold gather_x_inplace_root. destruct (check_cases a (d_sz (x_pencil d))) as [->| ->]; auto. cbn [mlift mbind]. destruct (_ =? _); auto.
      destruct (ag_cases bm (x_pencil d)) as [->|(c & ds & ->)]; auto. cbn [mlift mbind]. rewrite part_large by (rewrite repeat_length; auto). auto. }
    assert (Gy : forall b, gather_y_inplace_root bm d a b = MPanic).
    { intros b'. unfold gather_y_inplace_root. destruct (check_cases a (d_sz (y_pencil d))) as [->| ->]; auto. cbn [mlift mbind]. destruct (_ =? _); auto.
      destruct (ag_cases bm (y_pencil d)) as [->|(c & ds & ->)]; auto. cbn [mlift mbind]. rewrite part_large by (rewrite repeat_length; auto). auto. }
    assert (Sx : forall b, scatter_x_inplace_root bm d a b = MPanic).
    { intros b'. unfold scatter_x_inplace_root. destruct (check_cases a (n_global d)) as [->| ->]; auto. cbn [mlift mbind].
      destruct (check_cases b' (d_sz (x_pencil d))) as [->| ->]; auto. cbn [mlift mbind]. destruct (_ =? _); auto.
      destruct (ag_cases bm (x_pencil d)) as [->|(c & ds & ->)]; auto. cbn [mlift mbind]. rewrite part_large by (rewrite fill_length; auto). auto. }
    assert (Sy : forall b, scatter_y_inplace_root bm d a b = MPanic).
    { intros b'. unfold scatter_y_inplace_root. destruct (check_cases a (n_global d)) as [->| ->]; auto. cbn [mlift mbind].
      destruct (check_cases b' (d_sz (y_pencil d))) as [->| ->]; auto. cbn [mlift mbind]. destruct (_ =? _); auto.
      destruct (ag_cases bm (y_pencil d)) as [->|(c & ds & ->)]; auto. cbn [mlift mbind]. rewrite part_large by (rewrite fill_length; auto). auto. }
    unfold gather_x_root, gather_y_root, scatter_x_root, scatter_y_root. rewrite !Gx, !Gy, !Sx, !Sy. repeat split; auto; try (destruct (_ =? _); auto; fail).
    + unfold all_gather_x. destruct (check_cases a (d_sz (x_pencil d))) as [->| ->]; auto. cbn [mlift mbind].
      destruct (check_cases b (n_global d)) as [->| ->]; auto. cbn [mlift mbind].
      destruct (ag_cases bm (x_pencil d)) as [->|(c & ds & ->)]; auto. cbn [mlift mbind]. rewrite part_large by (rewrite repeat_length; auto). auto.
    + unfold all_gather_y. destruct (check_cases a (d_sz (y_pencil d))) as [->| ->]; auto. cbn [mlift mbind].
      destruct (check_cases b (n_global d)) as [->| ->]; auto. cbn [mlift mbind].
      destruct (ag_cases bm (y_pencil d)) as [->|(c & ds & ->)]; auto. cbn [mlift mbind]. rewrite part_large by (rewrite repeat_length; auto). auto.
Qed.
