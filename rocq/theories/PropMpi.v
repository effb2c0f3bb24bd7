(** C33-C35: distribution of a global array over the ranks, and the pencil
    transposes. *)
From Coq Require Import List Arith Lia Bool ZArith.
From Verif Require Import Base Num Cheb ChebMat NdArray NdArrayFacts AxisFacts Space MpiSem MpiSpec Decomp DistFacts TabFacts DecompFacts DistNew MergeFacts MpiRuns.
Import ListNotations.
Local Open Scope nat_scope.

(** ** C33 *)
(** Every rank computes the same tables. Along the contiguous axis a rank owns
    everything, along every other axis the blocks of the ranks are a balanced
    partition. *)
Theorem C33_distribution : forall bm ng p contig, 1 <= p -> contig <= 1 ->
  (forall ax, ax < length ng -> 1 <= ng.[ax] /\ (Z.of_nat ng.[ax] < 2 ^ 64 - 1)%Z /\ (ax <> contig -> p <= ng.[ax])) -> (Z.of_nat p < 2 ^ 64)%Z ->
  exists st en sz, forall r, r < p ->
    exists d, dist_new bm ng p r contig = Ok d /\
      st_procs d = st /\ en_procs d = en /\ sz_procs d = sz /\ length st = p /\ length en = p /\ length sz = p /\
      d_st d = st.[r] /\ d_en d = en.[r] /\ d_sz d = sz.[r] /\ d_nprocs d = p /\ d_nrank d = r /\ axis_contig d = contig /\
      length st.[r] = length ng /\ length en.[r] = length ng /\ length sz.[r] = length ng /\
      (forall ax, ax < length ng -> ax <> contig ->
         balanced ng.[ax] p (fun q => st.[q].[ax]) (fun q => en.[q].[ax]) (fun q => sz.[q].[ax])) /\
      (contig < length ng -> st.[r].[contig] = 0 /\ en.[r].[contig] = ng.[contig] - 1 /\ sz.[r].[contig] = ng.[contig]).
Proof.
  intros bm ng p contig Hp Hc Hn Hpb. change (2 ^ 64)%Z with u64max in *.
  set (D := dist_of ng p contig). exists (st_procs (D 0)), (en_procs (D 0)), (sz_procs (D 0)). intros r Hr. exists (D r).
  assert (N : forall ax, ax < length ng -> 1 <= ng.[ax] /\ (ax <> contig -> p <= ng.[ax])) by (intros ax Hax; specialize (Hn ax Hax); tauto).
  assert (B : forall ax, ax < length ng -> (Z.of_nat ng.[ax] + 1 < u64max)%Z) by (intros ax Hax; specialize (Hn ax Hax); lia).
  split; [apply dist_new_ok; auto|].
  unfold D, dist_of. cbn [st_procs en_procs sz_procs d_st d_en d_sz d_nprocs d_nrank axis_contig].
  rewrite !map_length, !seq_length, !at_map_seq by auto. cbn [plus].
  assert (Lr : forall f g k, length (row ng contig f g k) = length ng) by (intros; unfold row; rewrite map_length, seq_length; auto).
  rewrite !Lr. repeat (split; [reflexivity|]). split.
  - intros ax Hax Nc. destruct (N ax Hax) as [_ Hpn]. specialize (Hpn Nc). pose proof (balanced_blk ng.[ax] p Hp Hpn) as Bal.
    assert (E : forall q, q < p ->
      (map (fun q => row ng contig (fun _ => 0) (fun ax => blk_lo ng.[ax] p q) (length ng)) (seq 0 p)).[q].[ax] = blk_lo ng.[ax] p q /\
      (map (fun q => row ng contig (en_full ng) (fun ax => Z.to_nat (blk_en ng.[ax] p q)) (length ng)) (seq 0 p)).[q].[ax] = blk_lo ng.[ax] p q + blk_len ng.[ax] p q - 1 /\
      (map (fun q => row ng contig (fun ax => ng.[ax]) (fun ax => blk_len ng.[ax] p q) (length ng)) (seq 0 p)).[q].[ax] = blk_len ng.[ax] p q).
    { intros q Hq. rewrite !at_map_seq by auto. cbn [plus]. unfold row. rewrite !at_map_seq by auto. cbn [plus].
      rewrite (proj2 (Nat.ltb_lt _ _) Hax), (proj2 (Nat.eqb_neq _ _) Nc). cbn [negb andb]. rewrite to_nat_en; auto. }
    clear -Bal E Hp. unfold balanced in *. cbv beta in *. destruct Bal as (b1 & b2 & b3 & b4 & b5 & b6). split; [|split; [|split; [|split; [|split]]]].
    + rewrite (proj1 (E 0 ltac:(lia))). auto.
    + intros r Hr. destruct (E r Hr) as (-> & -> & ->). auto.
    + intros r Hr. rewrite (proj1 (E (S r) Hr)). destruct (E r ltac:(lia)) as (_ & -> & _). auto.
    + destruct (E (p - 1) ltac:(lia)) as (_ & -> & _). auto.
    + intros r s Hr Hs. destruct (E r Hr) as (_ & _ & ->), (E s Hs) as (_ & _ & ->). auto.
    + intros x Hx. destruct (b6 x Hx) as (r & [Hr Hx'] & U). exists r. split.
      * destruct (E r Hr) as (-> & -> & _). auto.
      * intros s [Hs Es]. apply U. destruct (E s Hs) as (E1 & E2 & _). rewrite E1, E2 in Es. auto.
  - intros Hcl. unfold row. rewrite !at_map_seq by auto. cbn [plus]. rewrite Nat.eqb_refl, andb_false_r.
    split; auto. split; auto. unfold en_full. destruct (N contig Hcl) as [N1 _]. specialize (B contig Hcl). rewrite Z.mod_small by lia. lia.
Qed.
(** 10 x 7 points on 3 ranks, split along axis 1: blocks 0..1, 2..3, 4..6 *)
Example C33_nonvacuous : exists d, dist_new Debug [10; 7] 3 2 0 = Ok d /\ sz_procs d = [[10; 2]; [10; 2]; [10; 3]] /\
  st_procs d = [[0; 0]; [0; 2]; [0; 4]] /\ en_procs d = [[9; 1]; [9; 3]; [9; 6]].
Proof. eexists. split. reflexivity. repeat split. Qed.

(** ** C34 *)
(** With fewer points than ranks along a distributed axis, a debug build always
    panics: ranks with empty blocks are not supported. *)
Theorem C34_debug_panics : forall ng p r contig ax, 1 <= p -> ax < length ng ->
  (forall ax, ax < length ng -> (Z.of_nat ng.[ax] < 2 ^ 64 - 1)%Z) -> (Z.of_nat p < 2 ^ 64)%Z ->
  ax <> contig -> ng.[ax] < p -> dist_new Debug ng p r contig = Panic.
Proof.
  intros ng p r contig ax Hp Hax Hb Hpb Nc Hn. apply (dist_new_panic ng p r contig ax); auto.
  intros k Hk. specialize (Hb k Hk). change (2 ^ 64)%Z with u64max in Hb. lia.
Qed.
Example C34_debug_nonvacuous : dist_new Debug [10; 2] 3 0 0 = Panic.
Proof. reflexivity. Qed.

(** A release build returns. The first p - n ranks get empty blocks whose last
    index is usize::MAX, each other rank gets one point. *)
Theorem C34_release_table : forall ng p r contig, 1 <= p -> r < p -> contig <= 1 ->
  (forall ax, ax < length ng -> (Z.of_nat ng.[ax] < 2 ^ 64 - 1)%Z) -> (Z.of_nat p < 2 ^ 64)%Z ->
  exists d, dist_new Release ng p r contig = Ok d /\
    forall ax q, ax < length ng -> ax <> contig -> q < p -> ng.[ax] < p ->
      if q <? p - ng.[ax]
      then (sz_procs d).[q].[ax] = 0 /\ (st_procs d).[q].[ax] = 0 /\ Z.of_nat (en_procs d).[q].[ax] = (2 ^ 64 - 1)%Z
      else (sz_procs d).[q].[ax] = 1 /\ (st_procs d).[q].[ax] = q - (p - ng.[ax]) /\ (en_procs d).[q].[ax] = q - (p - ng.[ax]).
Proof.
  intros ng p r contig Hp Hr Hc Hb Hpb. change (2 ^ 64)%Z with u64max in *. exists (dist_of ng p contig r). split.
  { apply dist_new_ok; auto. intros ax Hax. specialize (Hb ax Hax). lia. }
  intros ax q Hax Nc Hq Hn. unfold dist_of. cbn [st_procs en_procs sz_procs]. rewrite !at_map_seq by auto. cbn [plus].
  unfold row. rewrite !at_map_seq by auto. cbn [plus]. rewrite (proj2 (Nat.ltb_lt _ _) Hax), (proj2 (Nat.eqb_neq _ _) Nc). cbn [negb andb].
  unfold blk_en, blk_len, blk_lo. rewrite Nat.div_small, Nat.mod_small by auto. rewrite Nat.mul_0_r, !Nat.add_0_l. pose proof (Hb ax Hax).
  destruct (Nat.ltb_spec q (p - ng.[ax])).
  - destruct (Nat.leb_spec (p - ng.[ax]) q); [lia|]. split; [reflexivity|]. replace (q - (p - ng.[ax])) with 0 by lia. split; [reflexivity|].
    rewrite Z2Nat.id by (apply Z.mod_pos_bound; reflexivity). reflexivity.
  - destruct (Nat.leb_spec (p - ng.[ax]) q); [|lia]. split; [reflexivity|]. split; [reflexivity|]. rewrite Z.mod_small by lia. lia.
Qed.
Example C34_release_nonvacuous : exists d, dist_new Release [10; 2] 3 0 0 = Ok d /\ sz_procs d = [[10; 0]; [10; 1]; [10; 1]].
Proof.
  destruct (C34_release_table [10; 2] 3 0 0 ltac:(lia) ltac:(lia) ltac:(lia)) as (d & E & H).
  - intros [|[|ax]] Hax; cbn in *; lia.
  - lia.
  - exists d. split; auto. rewrite dist_new_ok in E; auto; try lia.
    + injection E as <-. reflexivity.
    + reflexivity.
    + intros [|[|ax]] Hax; cbn in *; try lia; reflexivity.
Qed.

(** ** C35 *)
Lemma fit_bounds n0 n1 p : 1 <= p -> p <= n0 -> p <= n1 -> pencils_fit n0 n1 p ->
  (Z.of_nat n0 + 1 < u64max)%Z /\ (Z.of_nat n1 + 1 < u64max)%Z.
Proof.
  intros Hp H0 H1 F. destruct (F 0 ltac:(lia)) as [A B]. pose proof (blk_len_pos n1 p Hp 0 H1). pose proof (blk_len_pos n0 p Hp 0 H0).
  unfold u64max. change (2 ^ 64)%Z with 18446744073709551616%Z. nia.
Qed.

Section C35.
Context {T : Type} {dT : Dflt T}.
Variables (bm : bmode) (n0 n1 p : nat) (g : arr T).
Hypothesis Hp : 1 <= p.
Hypothesis H0 : p <= n0.
Hypothesis H1 : p <= n1.

Lemma every_schedule_ext (ps ps' : nat -> mprog T (arr T)) xs : (forall r, r < p -> ps r = ps' r) ->
  every_schedule (map ps (seq 0 p)) xs -> every_schedule (map ps' (seq 0 p)) xs.
Proof. intros E H. erewrite map_ext_in; [exact H|]. intros r Hr. apply in_seq in Hr. symmetry. apply E. lia. Qed.

Lemma xpens (xs : nat -> arr T) : (forall r, r < p -> x_block n0 n1 p r g (xs r)) -> forall r, r < p -> xs r = xpen n0 n1 p g r (std (xs r)).
Proof. intros H r Hr. apply x_block_xpen. auto. Qed.
Lemma ypens (ys : nat -> arr T) : (forall r, r < p -> y_block n0 n1 p r g (ys r)) -> forall r, r < p -> ys r = ypen n0 n1 p g r (std (ys r)).
Proof. intros H r Hr. apply y_block_ypen. auto. Qed.
Lemma xpen_block r st : x_block n0 n1 p r g (xpen n0 n1 p g r st).
Proof. apply x_block_xpen. auto. Qed.
Lemma ypen_block r st : y_block n0 n1 p r g (ypen n0 n1 p g r st).
Proof. apply y_block_ypen. auto. Qed.
End C35.

(** Whatever the schedule of the ranks: they all terminate, and each holds the
    y-pencil of the global array whose x-pencils they started from. *)
Theorem C35_transpose_x_to_y : forall T (dT : Dflt T) bm n0 n1 p (g : arr T) (xs ys : nat -> arr T),
  1 <= p -> p <= n0 -> p <= n1 -> pencils_fit n0 n1 p ->
  (forall r, r < p -> x_block n0 n1 p r g (xs r)) -> (forall r, r < p -> has_shape (blk_len n0 p r) n1 (ys r)) ->
  exists out,
    every_schedule (map (fun r => let^ d := decomp_new bm p r [n0; n1] in transpose_x_to_y bm d (xs r) (ys r)) (seq 0 p)) (map out (seq 0 p)) /\
    forall r, r < p -> y_block n0 n1 p r g (out r).
Proof.
  intros T dT bm n0 n1 p g xs ys Hp H0 H1 F Hx Hy. destruct (fit_bounds n0 n1 p Hp H0 H1 F) as [B0 B1].
  exists (fun r => ypen n0 n1 p g r (std (ys r))). split; [|intros; apply ypen_block].
  apply brun_every_schedule. eapply brun_ext. apply (transpose_xy_run bm n0 n1 p g Hp H0 H1 (fun r Hr => proj1 (F r Hr)) (fun r Hr => proj2 (F r Hr)) (fun r => std (xs r)) ys Hy).
  intros r Hr. cbn beta. rewrite decomp_new_ok by auto. cbn [mlift mbind]. rewrite <- xpens by auto. auto.
Qed.
Theorem C35_transpose_y_to_x : forall T (dT : Dflt T) bm n0 n1 p (g : arr T) (ys xs : nat -> arr T),
  1 <= p -> p <= n0 -> p <= n1 -> pencils_fit n0 n1 p ->
  (forall r, r < p -> y_block n0 n1 p r g (ys r)) -> (forall r, r < p -> has_shape n0 (blk_len n1 p r) (xs r)) ->
  exists out,
    every_schedule (map (fun r => let^ d := decomp_new bm p r [n0; n1] in transpose_y_to_x bm d (ys r) (xs r)) (seq 0 p)) (map out (seq 0 p)) /\
    forall r, r < p -> x_block n0 n1 p r g (out r).
Proof.
  intros T dT bm n0 n1 p g ys xs Hp H0 H1 F Hy Hx. destruct (fit_bounds n0 n1 p Hp H0 H1 F) as [B0 B1].
  exists (fun r => xpen n0 n1 p g r (std (xs r))). split; [|intros; apply xpen_block].
  apply brun_every_schedule. eapply brun_ext. apply (transpose_yx_run bm n0 n1 p g Hp H0 H1 (fun r Hr => proj1 (F r Hr)) (fun r Hr => proj2 (F r Hr)) (fun r => std (ys r)) xs Hx).
  intros r Hr. cbn beta. rewrite decomp_new_ok by auto. cbn [mlift mbind]. rewrite <- ypens by auto. auto.
Qed.

(** Both orders compose to the identity (here on arbitrary local arrays). *)
Theorem C35_there_and_back : forall T (dT : Dflt T) bm n0 n1 p (xs tmp out : nat -> arr T),
  1 <= p -> p <= n0 -> p <= n1 -> pencils_fit n0 n1 p ->
  (forall r, r < p -> has_shape n0 (blk_len n1 p r) (xs r)) -> (forall r, r < p -> has_shape (blk_len n0 p r) n1 (tmp r)) ->
  (forall r, r < p -> has_shape n0 (blk_len n1 p r) (out r)) ->
  every_schedule (map (fun r => let^ d := decomp_new bm p r [n0; n1] in
      let! y := transpose_x_to_y bm d (xs r) (tmp r) in transpose_y_to_x bm d y (out r)) (seq 0 p))
    (map (fun r => mk_arr (shp (xs r)) (std (out r)) (dat (xs r))) (seq 0 p)) /\
  every_schedule (map (fun r => let^ d := decomp_new bm p r [n0; n1] in
      let! x := transpose_y_to_x bm d (tmp r) (xs r) in transpose_x_to_y bm d x (tmp r)) (seq 0 p))
    (map tmp (seq 0 p)).
Proof.
  intros T dT bm n0 n1 p xs tmp out Hp H0 H1 F Hx Ht Ho. destruct (fit_bounds n0 n1 p Hp H0 H1 F) as [B0 B1].
  assert (Own : forall n x, exists r, x < n -> r < p /\ blk_lo n p r <= x < blk_lo n p r + blk_len n p r).
  { intros n x. destruct (le_lt_dec n x). exists 0; lia. destruct (blk_owner n p Hp x l) as (r & H). exists r; auto. }
  split.
  - (* the global array whose x-pencils are xs *)
    set (own := fun j => nth 0 (filter (fun r => (blk_lo n1 p r <=? j) && (j <? blk_lo n1 p r + blk_len n1 p r)) (seq 0 p)) 0).
    assert (Ow : forall j r, r < p -> blk_lo n1 p r <= j < blk_lo n1 p r + blk_len n1 p r -> own j = r).
    { intros j r Hr Hj. unfold own. destruct (filter _ _) as [|s l] eqn:Ef.
      - exfalso. assert (I : In r []) by (rewrite <- Ef; apply filter_In; split; [apply in_seq; lia|]; apply andb_true_intro; split; [apply Nat.leb_le|apply Nat.ltb_lt]; lia). destruct I.
      - cbn [nth]. assert (I : In s (s :: l)) by (cbn; auto). rewrite <- Ef in I. apply filter_In in I. destruct I as [_ I].
        apply andb_prop in I. destruct I as [I1 I2]. apply Nat.leb_le in I1. apply Nat.ltb_lt in I2. apply (blk_owner_unique n1 p Hp j); auto. }
    set (g := mk_arr [n0; n1] true (tab n0 n1 (fun i j => get (xs (own j)) [i; j - blk_lo n1 p (own j)]))).
    assert (Hxb : forall r, r < p -> x_block n0 n1 p r g (xs r)).
    { intros r Hr. destruct (Hx r Hr) as [S W]. split; auto. split; auto. intros i j Hi Hj. pose proof (blk_end_le n1 p Hp r Hr).
      unfold g. rewrite get_tab by (auto; lia). rewrite (Ow _ r) by (auto; lia). do 2 f_equal. f_equal. lia. }
    apply brun_every_schedule. eapply brun_res with (xs := fun r => xpen n0 n1 p g r (std (out r))).
    2:{ intros r Hr. rewrite (xpens n0 n1 p g xs Hxb r Hr) at 1 2. reflexivity. }
    eapply brun_ext.
    { eapply (brun_bind p (fun r => transpose_x_to_y bm (dcp n0 n1 p r) (xpen n0 n1 p g r (std (xs r))) (tmp r)) (fun r y => transpose_y_to_x bm (dcp n0 n1 p r) y (out r))).
      apply (transpose_xy_run bm n0 n1 p g Hp H0 H1 (fun r Hr => proj1 (F r Hr)) (fun r Hr => proj2 (F r Hr)) (fun r => std (xs r)) tmp Ht).
      apply (transpose_yx_run bm n0 n1 p g Hp H0 H1 (fun r Hr => proj1 (F r Hr)) (fun r Hr => proj2 (F r Hr)) (fun r => std (tmp r)) out Ho). }
    intros r Hr. cbn beta. rewrite decomp_new_ok by auto. cbn [mlift mbind]. rewrite <- xpens by auto. auto.
  - set (own := fun j => nth 0 (filter (fun r => (blk_lo n0 p r <=? j) && (j <? blk_lo n0 p r + blk_len n0 p r)) (seq 0 p)) 0).
    assert (Ow : forall j r, r < p -> blk_lo n0 p r <= j < blk_lo n0 p r + blk_len n0 p r -> own j = r).
    { intros j r Hr Hj. unfold own. destruct (filter _ _) as [|s l] eqn:Ef.
      - exfalso. assert (I : In r []) by (rewrite <- Ef; apply filter_In; split; [apply in_seq; lia|]; apply andb_true_intro; split; [apply Nat.leb_le|apply Nat.ltb_lt]; lia). destruct I.
      - cbn [nth]. assert (I : In s (s :: l)) by (cbn; auto). rewrite <- Ef in I. apply filter_In in I. destruct I as [_ I].
        apply andb_prop in I. destruct I as [I1 I2]. apply Nat.leb_le in I1. apply Nat.ltb_lt in I2. apply (blk_owner_unique n0 p Hp j); auto. }
    set (g := mk_arr [n0; n1] true (tab n0 n1 (fun i j => get (tmp (own i)) [i - blk_lo n0 p (own i); j]))).
    assert (Hyb : forall r, r < p -> y_block n0 n1 p r g (tmp r)).
    { intros r Hr. destruct (Ht r Hr) as [S W]. split; auto. split; auto. intros i j Hi Hj. pose proof (blk_end_le n0 p Hp r Hr).
      unfold g. rewrite get_tab by (auto; lia). rewrite (Ow _ r) by (auto; lia). do 2 f_equal. lia. }
    apply brun_every_schedule. eapply brun_res with (xs := fun r => ypen n0 n1 p g r (std (tmp r))).
    2:{ intros r Hr. symmetry. apply ypens; auto. }
    eapply brun_ext.
    { eapply (brun_bind p (fun r => transpose_y_to_x bm (dcp n0 n1 p r) (ypen n0 n1 p g r (std (tmp r))) (xs r)) (fun r x => transpose_x_to_y bm (dcp n0 n1 p r) x (tmp r))).
      apply (transpose_yx_run bm n0 n1 p g Hp H0 H1 (fun r Hr => proj1 (F r Hr)) (fun r Hr => proj2 (F r Hr)) (fun r => std (tmp r)) xs Hx).
      apply (transpose_xy_run bm n0 n1 p g Hp H0 H1 (fun r Hr => proj1 (F r Hr)) (fun r Hr => proj2 (F r Hr)) (fun r => std (xs r)) tmp Ht). }
    intros r Hr. cbn beta. rewrite decomp_new_ok by auto. cbn [mlift mbind]. rewrite <- ypens by auto. auto.
Qed.

(** Counts agree between every pair of ranks: what rank r sends to q is what q
    expects from r, namely the part of the array that r owns in one
    distribution and q in the other. *)
Theorem C35_counts_match : forall bm n0 n1 p r q, 1 <= p -> p <= n0 -> p <= n1 -> pencils_fit n0 n1 p -> r < p -> q < p ->
  exists dr dq scr sdr rcq rdq, decomp_new bm p r [n0; n1] = Ok dr /\ decomp_new bm p q [n0; n1] = Ok dq /\
    get_counts_all_to_all bm (x_pencil dr) (y_pencil dr) = Ok (scr, sdr) /\
    get_counts_all_to_all bm (y_pencil dq) (x_pencil dq) = Ok (rcq, rdq) /\
    scr.[q] = rcq.[r] /\ scr.[q] = Z.of_nat (blk_len n0 p q * blk_len n1 p r).
Proof.
  intros bm n0 n1 p r q Hp H0 H1 F Hr Hq. destruct (fit_bounds n0 n1 p Hp H0 H1 F) as [B0 B1].
  do 6 eexists. split; [apply decomp_new_ok; auto|]. split; [apply decomp_new_ok; auto|]. cbn [dcp x_pencil y_pencil].
  split; [apply counts_xy; auto; apply F; auto|]. split; [apply counts_yx; auto; apply F; auto|].
  unfold counts_of. rewrite !at_map_seq by auto. cbn [plus]. rewrite !blk_lo_S by auto.
  replace ((blk_lo n0 p q + blk_len n0 p q) * blk_len n1 p r - blk_lo n0 p q * blk_len n1 p r) with (blk_len n0 p q * blk_len n1 p r) by lia.
  split; auto. f_equal. lia.
Qed.

(** A 3 x 2 array on two ranks. *)
Example C35_nonvacuous :
  let g := mk_arr [3; 2] true [1; 2; 3; 4; 5; 6] in
  let xs r := if r =? 0 then mk_arr [3; 1] true [1; 3; 5] else mk_arr [3; 1] true [2; 4; 6] in
  let ys r := if r =? 0 then mk_arr [1; 2] true [0; 0] else mk_arr [2; 2] true [0; 0; 0; 0] in
  every_schedule (map (fun r => let^ d := decomp_new Debug 2 r [3; 2] in transpose_x_to_y Debug d (xs r) (ys r)) (seq 0 2))
    [mk_arr [1; 2] true [1; 2]; mk_arr [2; 2] true [3; 4; 5; 6]].
Proof.
  intros g xs ys.
  assert (Fit : pencils_fit 3 2 2) by (intros [|[|r]] Hr; cbn; lia).
  assert (Hx : forall r, r < 2 -> x_block 3 2 2 r g (xs r)).
  { intros [|[|r]] Hr; [| |lia]; (split; [reflexivity|split; [reflexivity|]]); intros [|[|[|i]]] [|j] Hi Hj; cbn in Hi, Hj; try lia; reflexivity. }
  assert (Hy : forall r, r < 2 -> has_shape (blk_len 3 2 r) 2 (ys r)) by (intros [|[|r]] Hr; [| |lia]; split; reflexivity).
  refine (brun_every_schedule 2 _ (fun r => ypen 3 2 2 g r (std (ys r))) _).
  eapply brun_ext. apply (transpose_xy_run Debug 3 2 2 g ltac:(lia) ltac:(lia) ltac:(lia) (fun r Hr => proj1 (Fit r Hr)) (fun r Hr => proj2 (Fit r Hr)) (fun r => std (xs r)) ys Hy).
  intros r Hr. cbn beta. rewrite decomp_new_ok by (auto; reflexivity). cbn [mlift mbind]. rewrite <- (xpens 3 2 2 g xs Hx) by auto. auto.
Qed.

(** ** C34: what a release build does with more ranks than points *)
(** The constructor returns, but transpose_x_to_y cannot be used: every rank
    that owns rows panics in it, before or after communicating. *)
Definition never_returns {T X} (m : mprog T X) : Prop := m = MPanic \/ exists q k, m = MCall q k /\ forall buf, k buf = MPanic.

Lemma long_loop_panics {S} (body : nat -> S -> res S) lo hi stop s :
  (forall j s, body j s = Panic \/ exists s', body j s = Ok s') -> (forall s, body stop s = Panic) -> lo <= stop < hi ->
  for_each (range lo hi) body s = Panic.
Proof.
  intros H Hs Hl. unfold range. replace (hi - lo) with ((stop - lo) + Datatypes.S (hi - stop - 1)) by lia.
  rewrite seq_app. cbn [seq]. replace (lo + (stop - lo)) with stop by lia.
  generalize (seq (Datatypes.S stop) (hi - stop - 1)) as tl. intros tl. revert s.
  generalize (seq lo (stop - lo)) as l. induction l as [|j l IH]; intros s; cbn [app for_each].
  - rewrite Hs. auto.
  - destruct (H j s) as [->|[s' ->]]; auto. cbn [bind]. apply IH.
Qed.

Theorem C34_release_transpose_panics : forall T (dT : Dflt T) n0 n1 p r (x y : arr T), 1 <= p -> r < p -> n1 < p -> p <= n0 ->
  (Z.of_nat n0 < 2 ^ 64 - 1)%Z ->
  exists d, decomp_new Release p r [n0; n1] = Ok d /\ never_returns (transpose_x_to_y Release d x y).
Proof.
  intros T dT n0 n1 p r x y Hp Hr H1 H0 B0.
  change (2 ^ 64 - 1)%Z with (u64max - 1)%Z in B0.
  assert (B : forall ax, ax < length [n0; n1] -> (Z.of_nat [n0; n1].[ax] + 1 < u64max)%Z).
  { intros [|[|ax]] Hax; cbn in Hax; try lia. change ([n0; n1].[0]) with n0. lia. change ([n0; n1].[1]) with n1. lia. }
  exists (mk_decomp p r [n0; n1] (dist_of [n0; n1] p 0 r) (dist_of [n0; n1] p 1 r)). split.
  { unfold decomp_new. rewrite dist_new_ok by (auto; lia). cbn [bind]. rewrite dist_new_ok by (auto; lia). reflexivity. }
  set (d := mk_decomp _ _ _ _ _). unfold transpose_x_to_y.
  assert (Chk : forall (a : arr T) sh, (shp a = sh /\ check_shape a sh = Ok tt) \/ check_shape a sh = Panic).
  { intros a sh. unfold check_shape. destruct (list_eqb (shp a) sh) eqn:E; auto. left. split; auto. apply list_eqb_eq; auto. }
  destruct (Chk x (d_sz (x_pencil d))) as [[_ ->]| ->]; [|left; reflexivity]. cbn [mlift mbind].
  destruct (Chk y (d_sz (y_pencil d))) as [[Hy ->]| ->]; [|left; reflexivity]. cbn [mlift mbind].
  assert (Sc : forall l acc, scan_displs Release acc l = Panic \/ exists v, scan_displs Release acc l = Ok v).
  { induction l as [|c l IH]; cbn; intros acc; eauto. unfold iadd. destruct (_ && _)%Z; cbn [bind].
    - destruct (IH (acc + c)%Z) as [->|[v ->]]; cbn; eauto.
    - match goal with |- context [scan_displs Release ?a l] => destruct (IH a) as [->|[v ->]] end; cbn; eauto. }
  assert (Mm : forall {X Y} (f : X -> res Y) l, (forall x, f x = Panic \/ exists y, f x = Ok y) -> mapM f l = Panic \/ exists v, mapM f l = Ok v).
  { intros X Y f l Hf. induction l as [|c l IH]; cbn; eauto. destruct (Hf c) as [->|[v ->]]; cbn; auto. destruct IH as [->|[w ->]]; cbn; eauto. }
  assert (Rd : forall {X} (l : list X) i, rd Checked l i = Panic \/ exists v, rd Checked l i = Ok v).
  { intros X l i. unfold rd. destruct (nth_error l i); cbn; eauto. }
  assert (Cnt : forall a b, get_counts_all_to_all Release a b = Panic \/ exists v, get_counts_all_to_all Release a b = Ok v).
  { intros a b. unfold get_counts_all_to_all.
    match goal with |- context [mapM ?f ?l] => destruct (Mm _ _ f l) as [->|[v ->]] end; cbn [bind]; auto.
    - intros z. destruct (Rd _ z (axis_contig a)) as [->|[u ->]]; cbn [bind]; auto. destruct (Rd _ (d_sz a) (axis_contig b)) as [->|[u' ->]]; cbn [bind]; eauto.
    - destruct (Sc v 0%Z) as [->|[w ->]]; cbn; eauto. }
  assert (Pt : forall (l : list T) c ds, partition l c ds = Panic \/ partition l c ds = Ok tt).
  { intros l c ds. unfold partition, count_of. destruct (_ <? _)%Z; cbn; auto. destruct (forallb _ _); cbn; auto. }
  destruct (Cnt (x_pencil d) (y_pencil d)) as [->|[[sc sd] ->]]; [left; reflexivity|]. cbn [mlift mbind].
  destruct (Cnt (y_pencil d) (x_pencil d)) as [->|[[rc rdd] ->]]; [left; reflexivity|]. cbn [mlift mbind].
  match goal with |- context [partition ?a sc sd] => destruct (Pt a sc sd) as [->| ->] end; [left; reflexivity|]. cbn [mlift mbind].
  match goal with |- context [partition ?a rc rdd] => destruct (Pt a rc rdd) as [->| ->] end; [left; reflexivity|]. cbn [mlift mbind call].
  right. do 2 eexists. split. reflexivity. intros buf. cbn beta.
  enough (E : merge_xy d y buf = Panic) by (rewrite E; reflexivity).
  pose proof (blk_len_pos n0 p Hp r H0) as Pos.
  unfold merge_xy. cbn [d dc_nprocs x_pencil y_pencil].
  unfold range at 1. replace (p - 0) with (S (p - 1)) by lia. cbn [seq for_each].
  assert (Hst : (st_procs (dist_of [n0; n1] p 0 r)).[0].[1] = 0 /\ S ((en_procs (dist_of [n0; n1] p 0 r)).[0].[1]) > n1).
  { unfold dist_of. cbn [st_procs en_procs]. rewrite !at_map_seq by lia. cbn [plus length]. unfold row. rewrite !at_map_seq by (cbn; lia).
    cbn [plus Nat.ltb Nat.leb negb Nat.eqb andb]. change ([n0; n1].[1]) with n1. unfold blk_en, blk_lo, blk_len.
    rewrite Nat.div_small, Nat.mod_small by auto. destruct (Nat.leb_spec (p - n1) 0); [lia|]. rewrite !Nat.mul_0_l. cbn [plus]. split.
    - lia.
    - rewrite Nat.sub_0_l. cbn [plus]. specialize (B 1 ltac:(cbn; lia)). change ([n0; n1].[1]) with n1 in B.
      change ((Z.of_nat 0 - 1) mod u64max)%Z with (u64max - 1)%Z. apply Nat2Z.inj_gt. rewrite Nat2Z.inj_succ, Z2Nat.id by discriminate. lia. }
  assert (Lst : length (st_procs (dist_of [n0; n1] p 0 r)) = p /\ length (en_procs (dist_of [n0; n1] p 0 r)) = p).
  { unfold dist_of. cbn [st_procs en_procs]. rewrite !map_length, seq_length. auto. }
  assert (Lst2 : length ((st_procs (dist_of [n0; n1] p 0 r)).[0]) = 2 /\ length ((en_procs (dist_of [n0; n1] p 0 r)).[0]) = 2).
  { unfold dist_of. cbn [st_procs en_procs]. rewrite !at_map_seq by lia. unfold row. rewrite !map_length, seq_length. auto. }
  destruct Hst as [E1 E2], Lst as [L1 L2], Lst2 as [L3 L4].
  rewrite (rd_at _ _ 0), (rd_at _ (en_procs _) 0) by lia. cbn [bind].
  rewrite (rd_at _ ((st_procs _).[0]) 1), (rd_at _ ((en_procs _).[0]) 1) by lia. cbn [bind]. rewrite E1.
  set (e := (en_procs (dist_of [n0; n1] p 0 r)).[0].[1]) in *. clearbody e.
  assert (Hsz : d_sz (dist_of [n0; n1] p 1 r) = [blk_len n0 p r; n1]) by reflexivity.
  rewrite Hsz. cbn [rd nth_error bind].
  destruct (blk_len n0 p r) as [|m0] eqn:Em; [lia|]. unfold range at 1. cbn [Nat.sub seq for_each].
  rewrite long_loop_panics with (stop := n1); auto.
  - intros j [l pos]. destruct (Rd _ buf pos) as [->|[v ->]]; cbn [bind]; auto. unfold set2.
    destruct (Rd _ (shp y) 0) as [->|[v0 ->]]; cbn [bind]; auto. destruct (Rd _ (shp y) 1) as [->|[v1 ->]]; cbn [bind]; auto.
    destruct (_ && _); cbn [assertb bind]; auto. unfold wr. destruct (_ <? _); cbn; eauto.
  - intros [l pos]. destruct (Rd _ buf pos) as [->|[v ->]]; cbn [bind]; auto. unfold set2. rewrite Hy. unfold d. cbn [y_pencil]. rewrite Hsz. cbn [rd nth_error bind].
    rewrite Nat.ltb_irrefl, andb_false_r. auto.
  - lia.
Qed.
Example C34_release_transpose_nonvacuous : exists d, decomp_new Release 3 1 [10; 2] = Ok d /\
  never_returns (transpose_x_to_y Release d (azeros 0 [10; 1]) (azeros 0 [3; 2])).
Proof. apply C34_release_transpose_panics; lia. Qed.
