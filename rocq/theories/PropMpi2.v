(** C36: gather, all_gather, scatter; C37: shape checks; C41: scalar
    reductions; C46: 32-bit counts. *)
From Coq Require Import List Arith Lia Bool ZArith Reals.
From Verif Require Import Base Num Cheb ChebMat NdArray NdArrayFacts AxisFacts Space MpiSem MpiSpec Decomp DistFacts TabFacts DecompFacts DistNew MergeFacts MpiRuns PropMpi.
Import ListNotations.
Local Open Scope nat_scope.

Lemma global_bounds n0 n1 p : 1 <= p -> p <= n0 -> p <= n1 -> (Z.of_nat (n0 * n1) < 2147483648)%Z ->
  (Z.of_nat n0 + 1 < u64max)%Z /\ (Z.of_nat n1 + 1 < u64max)%Z.
Proof. intros. unfold u64max. change (2 ^ 64)%Z with 18446744073709551616%Z. nia. Qed.
Lemma zeros_shape {T} (z : T) n0 n1 : has_shape n0 n1 (azeros z [n0; n1]).
Proof. split; auto. unfold wf, azeros. cbn [dat shp]. apply repeat_length. Qed.
Lemma whole_eq {T} {dT : Dflt T} n0 n1 (g : arr T) st : has_shape n0 n1 g -> whole n0 n1 g st = mk_arr [n0; n1] st (dat g).
Proof. intros H. unfold whole. rewrite (dat_tab g n0 n1) by auto. auto. Qed.

(** ** C36 *)
(** split_array: the pencils of a global array. *)
Theorem C36_split_array : forall T (dT : Dflt T) bm n0 n1 p r (g : arr T), 1 <= p -> p <= n0 -> p <= n1 -> r < p ->
  (Z.of_nat n0 < 2 ^ 64 - 1)%Z -> (Z.of_nat n1 < 2 ^ 64 - 1)%Z -> has_shape n0 n1 g ->
  exists d x y, decomp_new bm p r [n0; n1] = Ok d /\
    split_array_x_pencil d g = Ok x /\ x_block n0 n1 p r g x /\ split_array_y_pencil d g = Ok y /\ y_block n0 n1 p r g y.
Proof.
  intros T dT bm n0 n1 p r g Hp H0 H1 Hr B0 B1 [Hg Wg].
  change (2 ^ 64 - 1)%Z with (u64max - 1)%Z in *.
  pose proof (blk_end_le n0 p Hp r Hr) as E0. pose proof (blk_end_le n1 p Hp r Hr) as E1.
  pose proof (blk_len_pos n0 p Hp r H0) as P0. pose proof (blk_len_pos n1 p Hp r H1) as P1.
  exists (dcp n0 n1 p r), (xpen n0 n1 p g r true), (ypen n0 n1 p g r true).
  split; [apply decomp_new_ok; auto; lia|].
  assert (Sh : forall s0 s1 l0 l1, flat_map (fun i => map (fun j => (dat g).[i * n1 + j]) (seq s1 l1)) (seq s0 l0)
                           = tab l0 l1 (fun i j => get g [s0 + i; s1 + j])).
  { intros. unfold tab. rewrite !flat_map_concat_map. f_equal.
    assert (Sq : forall s l, seq s l = map (fun i => s + i) (seq 0 l)).
    { intros s l. revert s. induction l as [|l IH]; intros s; auto. cbn [seq map]. rewrite Nat.add_0_r. f_equal.
      rewrite (IH (S s)), (IH 1), map_map. apply map_ext. intros; lia. }
    rewrite (Sq s0 l0), map_map. apply map_ext. intros i. rewrite (Sq s1 l1), map_map. apply map_ext. intros j. symmetry. apply get2 with n0; auto. }
  split; [|split; [apply xpen_block; auto|split; [|apply ypen_block; auto]]].
  - unfold split_array_x_pencil, split_array. cbn [dcp x_pencil xdist d_st d_en rd nth_error bind]. rewrite Hg. cbn [rd nth_error bind].
    rewrite (proj2 (Nat.leb_le 0 n0)), (proj2 (Nat.leb_le (S (n0 - 1)) n0)), (proj2 (Nat.leb_le (blk_lo n1 p r) n1)), (proj2 (Nat.leb_le (S (blk_lo n1 p r + blk_len n1 p r - 1)) n1)) by lia.
    cbn [andb assertb bind]. rewrite Sh. unfold xpen. replace (S (n0 - 1) - 0) with n0 by lia.
    replace (S (blk_lo n1 p r + blk_len n1 p r - 1) - blk_lo n1 p r) with (blk_len n1 p r) by lia. reflexivity.
  - unfold split_array_y_pencil, split_array. cbn [dcp y_pencil ydist d_st d_en rd nth_error bind]. rewrite Hg. cbn [rd nth_error bind].
    rewrite (proj2 (Nat.leb_le 0 n1)), (proj2 (Nat.leb_le (S (n1 - 1)) n1)), (proj2 (Nat.leb_le (blk_lo n0 p r) n0)), (proj2 (Nat.leb_le (S (blk_lo n0 p r + blk_len n0 p r - 1)) n0)) by lia.
    cbn [andb assertb bind]. rewrite Sh. unfold ypen. replace (S (n1 - 1) - 0) with n1 by lia.
    replace (S (blk_lo n0 p r + blk_len n0 p r - 1) - blk_lo n0 p r) with (blk_len n0 p r) by lia. reflexivity.
Qed.

(** The ranks of a gather: the root calls the root variant, the others the
    plain one. [None]: this rank receives nothing. *)
Definition gatherers {T} {dT : Dflt T} (root : decomp -> arr T -> mprog T (arr T)) (other : decomp -> arr T -> mprog T unit)
    bm n0 n1 p (loc : nat -> arr T) : list (mprog T (option (arr T))) :=
  map (fun r => let^ d := decomp_new bm p r [n0; n1] in
    if r =? 0 then let! x := root d (loc r) in MRet (Some x) else let! _ := other d (loc r) in MRet None) (seq 0 p).
Definition root_only {X} p (x : X) : list (option X) := map (fun r => if r =? 0 then Some x else None) (seq 0 p).

(** The root gets the global array, whatever the schedule; into a given array
    ([_inplace_root]) or a new one ([_root]). *)
Theorem C36_gather : forall T (dT : Dflt T) bm n0 n1 p (g out : arr T) (xs ys : nat -> arr T),
  1 <= p -> p <= n0 -> p <= n1 -> (Z.of_nat (n0 * n1) < 2 ^ 31)%Z -> has_shape n0 n1 g -> has_shape n0 n1 out ->
  (forall r, r < p -> x_block n0 n1 p r g (xs r)) -> (forall r, r < p -> y_block n0 n1 p r g (ys r)) ->
  every_schedule (gatherers (fun d a => gather_x_inplace_root bm d a out) gather_x bm n0 n1 p xs) (root_only p (mk_arr [n0; n1] (std out) (dat g))) /\
  every_schedule (gatherers (gather_x_root bm) gather_x bm n0 n1 p xs) (root_only p (mk_arr [n0; n1] true (dat g))) /\
  every_schedule (gatherers (fun d a => gather_y_inplace_root bm d a out) gather_y bm n0 n1 p ys) (root_only p (mk_arr [n0; n1] (std out) (dat g))) /\
  every_schedule (gatherers (gather_y_root bm) gather_y bm n0 n1 p ys) (root_only p (mk_arr [n0; n1] true (dat g))).
Proof.
  intros T dT bm n0 n1 p g out xs ys Hp H0 H1 B Hg Ho Hx Hy. change (2 ^ 31)%Z with 2147483648%Z in B.
  destruct (global_bounds n0 n1 p Hp H0 H1 B) as [B0 B1]. unfold root_only.
  split; [|split; [|split]].
  - rewrite <- whole_eq by auto. apply brun_every_schedule. eapply brun_ext.
    apply (gather_x_run bm n0 n1 p g Hp B (fun r => std (xs r)) out Ho).
    intros r Hr. cbn beta. rewrite decomp_new_ok by auto. cbn [mlift mbind]. unfold world_gather_x. rewrite <- xpens by auto. auto.
  - rewrite <- whole_eq by auto. apply brun_every_schedule. eapply brun_ext.
    apply (gather_x_run bm n0 n1 p g Hp B (fun r => std (xs r)) (azeros dflt [n0; n1]) (zeros_shape _ _ _)).
    intros r Hr. cbn beta. rewrite decomp_new_ok by auto. cbn [mlift mbind]. unfold world_gather_x. rewrite <- xpens by auto.
    destruct (Nat.eqb_spec r 0) as [->|]; auto.
  - rewrite <- whole_eq by auto. apply brun_every_schedule. eapply brun_ext.
    apply (gather_y_run bm n0 n1 p g Hp B (fun r => std (ys r)) out Ho).
    intros r Hr. cbn beta. rewrite decomp_new_ok by auto. cbn [mlift mbind]. unfold world_gather_y. rewrite <- ypens by auto. auto.
  - rewrite <- whole_eq by auto. apply brun_every_schedule. eapply brun_ext.
    apply (gather_y_run bm n0 n1 p g Hp B (fun r => std (ys r)) (azeros dflt [n0; n1]) (zeros_shape _ _ _)).
    intros r Hr. cbn beta. rewrite decomp_new_ok by auto. cbn [mlift mbind]. unfold world_gather_y. rewrite <- ypens by auto.
    destruct (Nat.eqb_spec r 0) as [->|]; auto.
Qed.

(** Every rank gets the global array. *)
Theorem C36_all_gather : forall T (dT : Dflt T) bm n0 n1 p (g : arr T) (xs ys out : nat -> arr T),
  1 <= p -> p <= n0 -> p <= n1 -> (Z.of_nat (n0 * n1) < 2 ^ 31)%Z -> has_shape n0 n1 g -> (forall r, r < p -> has_shape n0 n1 (out r)) ->
  (forall r, r < p -> x_block n0 n1 p r g (xs r)) -> (forall r, r < p -> y_block n0 n1 p r g (ys r)) ->
  every_schedule (map (fun r => let^ d := decomp_new bm p r [n0; n1] in all_gather_x bm d (xs r) (out r)) (seq 0 p))
    (map (fun r => mk_arr [n0; n1] (std (out r)) (dat g)) (seq 0 p)) /\
  every_schedule (map (fun r => let^ d := decomp_new bm p r [n0; n1] in all_gather_y bm d (ys r) (out r)) (seq 0 p))
    (map (fun r => mk_arr [n0; n1] (std (out r)) (dat g)) (seq 0 p)).
Proof.
  intros T dT bm n0 n1 p g xs ys out Hp H0 H1 B Hg Ho Hx Hy. change (2 ^ 31)%Z with 2147483648%Z in B.
  destruct (global_bounds n0 n1 p Hp H0 H1 B) as [B0 B1]. split.
  - apply brun_every_schedule. eapply brun_res with (xs := fun r => whole n0 n1 g (std (out r))); [|intros; apply whole_eq; auto].
    eapply brun_ext. apply (all_gather_x_run bm n0 n1 p g Hp B (fun r => std (xs r)) out Ho).
    intros r Hr. cbn beta. rewrite decomp_new_ok by auto. cbn [mlift mbind]. rewrite <- xpens by auto. auto.
  - apply brun_every_schedule. eapply brun_res with (xs := fun r => whole n0 n1 g (std (out r))); [|intros; apply whole_eq; auto].
    eapply brun_ext. apply (all_gather_y_run bm n0 n1 p g Hp B (fun r => std (ys r)) out Ho).
    intros r Hr. cbn beta. rewrite decomp_new_ok by auto. cbn [mlift mbind]. rewrite <- ypens by auto. auto.
Qed.

(** The ranks of a scatter of the root's global array. *)
Definition scatterers {T} {dT : Dflt T} (root other : decomp -> nat -> mprog T (arr T)) bm n0 n1 p : list (mprog T (arr T)) :=
  map (fun r => let^ d := decomp_new bm p r [n0; n1] in if r =? 0 then root d r else other d r) (seq 0 p).

Theorem C36_scatter : forall T (dT : Dflt T) bm n0 n1 p (g : arr T) (ox oy : nat -> arr T),
  1 <= p -> p <= n0 -> p <= n1 -> (Z.of_nat (n0 * n1) < 2 ^ 31)%Z -> has_shape n0 n1 g ->
  (forall r, r < p -> has_shape n0 (blk_len n1 p r) (ox r)) -> (forall r, r < p -> has_shape (blk_len n0 p r) n1 (oy r)) ->
  exists xs ys xs' ys',
    every_schedule (scatterers (fun d r => scatter_x_inplace_root bm d g (ox r)) (fun d r => scatter_x_inplace d (ox r)) bm n0 n1 p) (map xs (seq 0 p)) /\
    every_schedule (scatterers (fun d r => scatter_x_root bm d g) (fun d r => scatter_x d) bm n0 n1 p) (map xs' (seq 0 p)) /\
    every_schedule (scatterers (fun d r => scatter_y_inplace_root bm d g (oy r)) (fun d r => scatter_y_inplace d (oy r)) bm n0 n1 p) (map ys (seq 0 p)) /\
    every_schedule (scatterers (fun d r => scatter_y_root bm d g) (fun d r => scatter_y d) bm n0 n1 p) (map ys' (seq 0 p)) /\
    forall r, r < p -> x_block n0 n1 p r g (xs r) /\ x_block n0 n1 p r g (xs' r) /\ y_block n0 n1 p r g (ys r) /\ y_block n0 n1 p r g (ys' r).
Proof.
  intros T dT bm n0 n1 p g ox oy Hp H0 H1 B Hg Hx Hy. change (2 ^ 31)%Z with 2147483648%Z in B.
  destruct (global_bounds n0 n1 p Hp H0 H1 B) as [B0 B1].
  exists (fun r => xpen n0 n1 p g r (std (ox r))), (fun r => ypen n0 n1 p g r (std (oy r))), (fun r => xpen n0 n1 p g r true), (fun r => ypen n0 n1 p g r true).
  split; [|split; [|split; [|split]]].
  - apply brun_every_schedule. eapply brun_ext. apply (scatter_x_run bm n0 n1 p g Hp Hg B ox Hx).
    intros r Hr. cbn beta. rewrite decomp_new_ok by auto. reflexivity.
  - apply brun_every_schedule. eapply brun_ext. apply (scatter_x_run bm n0 n1 p g Hp Hg B (fun r => azeros dflt [n0; blk_len n1 p r]) (fun r _ => zeros_shape _ _ _)).
    intros r Hr. cbn beta. rewrite decomp_new_ok by auto. cbn [mlift mbind]. unfold world_scatter_x, scatter_x_root, scatter_x. cbn [dcp dc_nrank].
    destruct (Nat.eqb_spec r 0); auto.
  - apply brun_every_schedule. eapply brun_ext. apply (scatter_y_run bm n0 n1 p g Hp Hg B oy Hy).
    intros r Hr. cbn beta. rewrite decomp_new_ok by auto. reflexivity.
  - apply brun_every_schedule. eapply brun_ext. apply (scatter_y_run bm n0 n1 p g Hp Hg B (fun r => azeros dflt [blk_len n0 p r; n1]) (fun r _ => zeros_shape _ _ _)).
    intros r Hr. cbn beta. rewrite decomp_new_ok by auto. cbn [mlift mbind]. unfold world_scatter_y, scatter_y_root, scatter_y. cbn [dcp dc_nrank].
    destruct (Nat.eqb_spec r 0); auto.
  - intros r Hr. repeat split; try apply tab_shape; intros; unfold xpen, ypen; rewrite get_tab; auto.
Qed.

(** Scattering and gathering again gives the root its array back. *)
Theorem C36_gather_after_scatter : forall T (dT : Dflt T) bm n0 n1 p (g : arr T),
  1 <= p -> p <= n0 -> p <= n1 -> (Z.of_nat (n0 * n1) < 2 ^ 31)%Z -> has_shape n0 n1 g -> std g = true ->
  every_schedule (map (fun r => let^ d := decomp_new bm p r [n0; n1] in
      if r =? 0 then let! x := scatter_x_root bm d g in let! y := gather_x_root bm d x in MRet (Some y)
      else let! x := scatter_x d in let! _ := gather_x d x in MRet None) (seq 0 p)) (root_only p g) /\
  every_schedule (map (fun r => let^ d := decomp_new bm p r [n0; n1] in
      if r =? 0 then let! x := scatter_y_root bm d g in let! y := gather_y_root bm d x in MRet (Some y)
      else let! x := scatter_y d in let! _ := gather_y d x in MRet None) (seq 0 p)) (root_only p g).
Proof.
  intros T dT bm n0 n1 p g Hp H0 H1 B Hg Hs. change (2 ^ 31)%Z with 2147483648%Z in B.
  destruct (global_bounds n0 n1 p Hp H0 H1 B) as [B0 B1].
  assert (W : whole n0 n1 g true = g). { rewrite whole_eq by auto. destruct g as [sh st l]. destruct Hg as [E _]. cbn in *. subst. auto. }
  split; unfold root_only.
  - replace (map (fun r => if r =? 0 then Some g else None) (seq 0 p)) with (map (fun r => if r =? 0 then Some (whole n0 n1 g true) else None) (seq 0 p)) by (rewrite W; auto). apply brun_every_schedule. eapply brun_ext.
    { eapply (brun_bind p (world_scatter_x bm n0 n1 p g (fun r => azeros dflt [n0; blk_len n1 p r]))
        (fun r x => world_gather_x bm n0 n1 p (fun _ => x) (azeros dflt [n0; n1]) r)).
      - apply (scatter_x_run bm n0 n1 p g Hp Hg B (fun r => azeros dflt [n0; blk_len n1 p r]) (fun r _ => zeros_shape _ _ _)).
      - apply (gather_x_run bm n0 n1 p g Hp B (fun _ => true) (azeros dflt [n0; n1]) (zeros_shape _ _ _)). }
    intros r Hr. cbn beta. rewrite decomp_new_ok by auto. cbn [mlift mbind].
    unfold world_scatter_x, world_gather_x, scatter_x_root, scatter_x, gather_x_root. cbn [dcp dc_nrank n_global]. destruct (Nat.eqb_spec r 0); auto.
  - replace (map (fun r => if r =? 0 then Some g else None) (seq 0 p)) with (map (fun r => if r =? 0 then Some (whole n0 n1 g true) else None) (seq 0 p)) by (rewrite W; auto). apply brun_every_schedule. eapply brun_ext.
    { eapply (brun_bind p (world_scatter_y bm n0 n1 p g (fun r => azeros dflt [blk_len n0 p r; n1]))
        (fun r x => world_gather_y bm n0 n1 p (fun _ => x) (azeros dflt [n0; n1]) r)).
      - apply (scatter_y_run bm n0 n1 p g Hp Hg B (fun r => azeros dflt [blk_len n0 p r; n1]) (fun r _ => zeros_shape _ _ _)).
      - apply (gather_y_run bm n0 n1 p g Hp B (fun _ => true) (azeros dflt [n0; n1]) (zeros_shape _ _ _)). }
    intros r Hr. cbn beta. rewrite decomp_new_ok by auto. cbn [mlift mbind].
    unfold world_scatter_y, world_gather_y, scatter_y_root, scatter_y, gather_y_root. cbn [dcp dc_nrank n_global]. destruct (Nat.eqb_spec r 0); auto.
Qed.
Example C36_nonvacuous : every_schedule (map (fun r => let^ d := decomp_new Debug 2 r [3; 2] in
      if r =? 0 then let! x := scatter_x_root Debug d (mk_arr [3; 2] true [1; 2; 3; 4; 5; 6]) in let! y := gather_x_root Debug d x in MRet (Some y)
      else let! x := scatter_x d in let! _ := gather_x d x in MRet None) (seq 0 2)) [Some (mk_arr [3; 2] true [1; 2; 3; 4; 5; 6]); None].
Proof. refine (proj1 (C36_gather_after_scatter nat _ Debug 3 2 2 (mk_arr [3; 2] true [1; 2; 3; 4; 5; 6]) _ _ _ _ _ _)); try lia; try reflexivity. split; reflexivity. Qed.

(** ** C37 *)
Lemma check_no {T} (a : arr T) sh : shp a <> sh -> check_shape a sh = Panic.
Proof. intros H. unfold check_shape. destruct (list_eqb (shp a) sh) eqn:E; auto. exfalso. apply H, list_eqb_eq. auto. Qed.

(** A local array of the wrong shape makes the rank panic before it
    communicates, in every routine and for every decomposition. *)
Theorem C37_wrong_shape_panics : forall T (dT : Dflt T) bm (d : decomp) (a b : arr T),
  (shp a <> d_sz (x_pencil d) \/ shp b <> d_sz (y_pencil d) -> transpose_x_to_y bm d a b = MPanic) /\
  (shp a <> d_sz (y_pencil d) \/ shp b <> d_sz (x_pencil d) -> transpose_y_to_x bm d a b = MPanic) /\
  (shp a <> d_sz (x_pencil d) -> gather_x d a = MPanic /\ gather_x_root bm d a = MPanic /\ gather_x_inplace_root bm d a b = MPanic /\ all_gather_x bm d a b = MPanic) /\
  (shp a <> d_sz (y_pencil d) -> gather_y d a = MPanic /\ gather_y_root bm d a = MPanic /\ gather_y_inplace_root bm d a b = MPanic /\ all_gather_y bm d a b = MPanic) /\
  (shp b <> n_global d -> all_gather_x bm d a b = MPanic /\ all_gather_y bm d a b = MPanic) /\
  (shp b <> d_sz (x_pencil d) -> scatter_x_inplace d b = MPanic /\ scatter_x_inplace_root bm d a b = MPanic) /\
  (shp b <> d_sz (y_pencil d) -> scatter_y_inplace d b = MPanic /\ scatter_y_inplace_root bm d a b = MPanic) /\
  (shp a <> n_global d -> scatter_x_inplace_root bm d a b = MPanic /\ scatter_y_inplace_root bm d a b = MPanic /\
     scatter_x_root bm d a = MPanic /\ scatter_y_root bm d a = MPanic).
Proof.
  intros T dT bm d a b.
  assert (C : forall (a : arr T) sh, check_shape a sh = Ok tt \/ check_shape a sh = Panic) by (intros a' sh; unfold check_shape; destruct (list_eqb _ _); auto).
  split; [|split; [|split; [|split; [|split; [|split; [|split]]]]]].
  - intros [H|H]; unfold transpose_x_to_y. rewrite (check_no a _ H). auto. destruct (C a (d_sz (x_pencil d))) as [->| ->]; auto. cbn [mlift mbind]. rewrite check_no by auto. auto.
  - intros [H|H]; unfold transpose_y_to_x. rewrite (check_no a _ H). auto. destruct (C a (d_sz (y_pencil d))) as [->| ->]; auto. cbn [mlift mbind]. rewrite check_no by auto. auto.
  - intros H. unfold gather_x, gather_x_root, gather_x_inplace_root, all_gather_x. rewrite check_no by auto. destruct (_ =? _); auto.
  - intros H. unfold gather_y, gather_y_root, gather_y_inplace_root, all_gather_y. rewrite check_no by auto. destruct (_ =? _); auto.
  - intros H. unfold all_gather_x, all_gather_y. destruct (C a (d_sz (x_pencil d))) as [->| ->], (C a (d_sz (y_pencil d))) as [->| ->]; cbn [mlift mbind]; rewrite ?(check_no b) by auto; auto.
  - intros H. unfold scatter_x_inplace, scatter_x_inplace_root. rewrite (check_no b) by auto. destruct (C a (n_global d)) as [->| ->]; auto.
  - intros H. unfold scatter_y_inplace, scatter_y_inplace_root. rewrite (check_no b) by auto. destruct (C a (n_global d)) as [->| ->]; auto.
  - intros H. unfold scatter_x_root, scatter_y_root, scatter_x_inplace_root, scatter_y_inplace_root. rewrite check_no by auto. destruct (_ =? _); auto.
Qed.
(** The one late check: a wrong output array of gather_*_inplace_root makes the
    root panic after the communication; it never returns. *)
Theorem C37_gather_output_checked : forall T (dT : Dflt T) bm (d : decomp) (a out : arr T), shp out <> n_global d ->
  never_returns (gather_x_inplace_root bm d a out) /\ never_returns (gather_y_inplace_root bm d a out).
Proof.
  intros T dT bm d a out H.
  assert (C : forall (a : arr T) sh, check_shape a sh = Ok tt \/ check_shape a sh = Panic) by (intros a' sh; unfold check_shape; destruct (list_eqb _ _); auto).
  assert (Sc : forall l acc, scan_displs bm acc l = Panic \/ exists v, scan_displs bm acc l = Ok v).
  { induction l as [|c l IH]; cbn; intros acc; eauto. unfold iadd. destruct (_ && _)%Z; cbn [bind].
    - destruct (IH (acc + c)%Z) as [->|[v ->]]; cbn; eauto.
    - destruct bm; cbn [bind]; auto. match goal with |- context [scan_displs Release ?a l] => destruct (IH a) as [->|[v ->]] end; cbn; eauto. }
  assert (Pt : forall (l : list T) c ds, partition l c ds = Panic \/ partition l c ds = Ok tt).
  { intros l c ds. unfold partition, count_of. destruct (_ <? _)%Z; cbn; auto. destruct (forallb _ _); cbn; auto. }
  split.
  - unfold gather_x_inplace_root. destruct (C a (d_sz (x_pencil d))) as [->| ->]; [|left; auto]. cbn [mlift mbind].
    destruct (_ =? _); [|left; auto]. unfold get_counts_all_gather.
    match goal with |- context [scan_displs bm 0 ?l] => destruct (Sc l 0%Z) as [->|[v ->]] end; [left; auto|]. cbn [mlift mbind bind].
    match goal with |- context [partition ?l ?c ?ds] => destruct (Pt l c ds) as [->| ->] end; [left; auto|]. cbn [mlift mbind].
    unfold count_of. destruct (_ <? _)%Z; [|left; auto]. right. do 2 eexists. split. reflexivity. intros buf. cbn [mbind]. rewrite (check_no out) by auto. auto.
  - unfold gather_y_inplace_root. destruct (C a (d_sz (y_pencil d))) as [->| ->]; [|left; auto]. cbn [mlift mbind].
    destruct (_ =? _); [|left; auto]. unfold get_counts_all_gather.
    match goal with |- context [scan_displs bm 0 ?l] => destruct (Sc l 0%Z) as [->|[v ->]] end; [left; auto|]. cbn [mlift mbind bind].
    match goal with |- context [partition ?l ?c ?ds] => destruct (Pt l c ds) as [->| ->] end; [left; auto|]. cbn [mlift mbind].
    unfold count_of. destruct (_ <? _)%Z; [|left; auto]. right. do 2 eexists. split. reflexivity. intros buf. cbn [mbind]. rewrite (check_no out) by auto. auto.
Qed.
(** Root variants on other ranks, and plain variants on the root, panic. *)
Theorem C37_root_checked : forall T (dT : Dflt T) bm (d : decomp) (a b : arr T),
  (dc_nrank d <> 0 -> gather_x_root bm d a = MPanic /\ gather_y_root bm d a = MPanic /\ gather_x_inplace_root bm d a b = MPanic /\
     gather_y_inplace_root bm d a b = MPanic /\ scatter_x_root bm d a = MPanic /\ scatter_y_root bm d a = MPanic /\
     scatter_x_inplace_root bm d a b = MPanic /\ scatter_y_inplace_root bm d a b = MPanic) /\
  (dc_nrank d = 0 -> gather_x d a = MPanic /\ gather_y d a = MPanic /\ scatter_x (T := T) d = MPanic /\ scatter_y (T := T) d = MPanic /\
     scatter_x_inplace d b = MPanic /\ scatter_y_inplace d b = MPanic).
Proof.
  intros T dT bm d a b.
  assert (C : forall (a : arr T) sh, check_shape a sh = Ok tt \/ check_shape a sh = Panic) by (intros a' sh; unfold check_shape; destruct (list_eqb _ _); auto).
  split; intros H.
  - apply Nat.eqb_neq in H.
    unfold gather_x_root, gather_y_root, gather_x_inplace_root, gather_y_inplace_root, scatter_x_root, scatter_y_root, scatter_x_inplace_root, scatter_y_inplace_root. rewrite H.
    repeat split; auto.
    + destruct (C a (d_sz (x_pencil d))) as [->| ->]; auto.
    + destruct (C a (d_sz (y_pencil d))) as [->| ->]; auto.
    + destruct (C a (n_global d)) as [->| ->]; auto; cbn [mlift mbind]. destruct (C b (d_sz (x_pencil d))) as [->| ->]; auto.
    + destruct (C a (n_global d)) as [->| ->]; auto; cbn [mlift mbind]. destruct (C b (d_sz (y_pencil d))) as [->| ->]; auto.
  - unfold gather_x, gather_y, scatter_x, scatter_y, scatter_x_inplace, scatter_y_inplace. rewrite H. cbn [Nat.eqb]. repeat split; auto.
    + destruct (C a (d_sz (x_pencil d))) as [->| ->]; auto.
    + destruct (C a (d_sz (y_pencil d))) as [->| ->]; auto.
    + destruct (C b (d_sz (x_pencil d))) as [->| ->]; auto.
    + destruct (C b (d_sz (y_pencil d))) as [->| ->]; auto.
Qed.
(** a 4 x 1 array where rank 0 of two should hold 3 x 1 *)
Example C37_nonvacuous : exists d, decomp_new Debug 2 0 [3; 2] = Ok d /\ transpose_x_to_y Debug d (mk_arr [4; 1] true [1; 2; 3; 4]) (mk_arr [1; 2] true [0; 0]) = MPanic.
Proof. eexists. split. reflexivity. apply C37_wrong_shape_panics. left. discriminate. Qed.

(** ** C41 *)
Theorem C41_broadcast : forall T p (x : nat -> T), 1 <= p ->
  every_schedule (map (fun r => broadcast_scalar (x r)) (seq 0 p)) (map (fun _ => x 0) (seq 0 p)).
Proof.
  intros T p x Hp. apply brun_every_schedule.
  apply brun_call with (qs := fun r => QBcast 0 (x r)) (ks := fun _ r => match r with y :: _ => MRet y | [] => MPanic end) (rs := fun _ => [x 0]).
  - reflexivity.
  - intros r Hr. unfold reply. rewrite (posted_all p) by auto. rewrite (posted_all p) by lia. reflexivity.
  - apply brun_ret. auto.
Qed.

Lemma collect_scalars {T} {dT : Dflt T} p (src : nat -> option (list T)) x rcv : length rcv = p -> (forall q, q < p -> src q = Some [x q]) ->
  collect src (repeat 1%Z p) (map Z.of_nat (seq 0 p)) (seq 0 p) rcv = Some (map x (seq 0 p)).
Proof.
  intros L S. pose proof (collect_ok src (fun q => [x q]) (fun q => q) p rcv) as K.
  unfold counts_of, displs_of in K.
  replace (map (fun q => Z.of_nat (Datatypes.S q - q)) (seq 0 p)) with (repeat 1%Z p) in K.
  - etransitivity; [apply K|]; auto.
    + intros q Hq. split; auto. cbn [length]. lia.
    + f_equal. clear. induction (seq 0 p); cbn; congruence.
  - rewrite (repeat_map 1%Z p 0). apply map_ext. intros q. lia.
Qed.

(** Every rank gets the same value: zero plus the contributions in rank order. *)
Theorem C41_all_gather_sum : forall T (zero : Dflt T) (add : T -> T -> T) p (x : nat -> T), 1 <= p ->
  every_schedule (map (fun r => all_gather_sum add p (x r)) (seq 0 p))
    (map (fun _ => fold_left add (map x (seq 0 p)) zero) (seq 0 p)).
Proof.
  intros T zero add p x Hp. apply brun_every_schedule.
  apply brun_call with (qs := fun r => QAllGather (x r) (repeat dflt p)) (ks := fun _ a => MRet (iter_sum add a)) (rs := fun _ => map x (seq 0 p)).
  - reflexivity.
  - intros r Hr. unfold reply. rewrite (posted_all p) by auto. rewrite map_length, seq_length. apply collect_scalars. apply repeat_length.
    intros q Hq. rewrite (posted_all p) by auto. auto.
  - apply brun_ret. auto.
Qed.
(** Only the root's result changes. *)
Theorem C41_gather_sum : forall T (zero : Dflt T) (add : T -> T -> T) p (x result : nat -> T), 1 <= p ->
  every_schedule (map (fun r => gather_sum add p r (x r) (result r)) (seq 0 p))
    (map (fun r => if r =? 0 then fold_left add (map x (seq 0 p)) zero else result r) (seq 0 p)).
Proof.
  intros T zero add p x result Hp. apply brun_every_schedule.
  apply brun_call with (qs := fun r => if r =? 0 then QGatherRoot 0 (x r) (repeat dflt p) else QGather 0 (x r))
    (ks := fun r a => if r =? 0 then MRet (iter_sum add a) else MRet (result r)) (rs := fun r => if r =? 0 then map x (seq 0 p) else []).
  - intros r Hr. unfold gather_sum. destruct (r =? 0); reflexivity.
  - intros r Hr. unfold reply. rewrite (posted_all p) by auto. rewrite map_length, seq_length. destruct (Nat.eqb_spec r 0) as [->|Nr].
    + cbn [Nat.eqb]. apply collect_scalars. apply repeat_length. intros q Hq. rewrite (posted_all p) by auto.
      destruct (Nat.eqb_spec q 0) as [->|Nq]; [auto|]. cbn. destruct (Nat.eqb_spec q 0); [lia|]; auto.
    + destruct (Nat.eqb_spec r 0); [lia|]. auto.
  - apply brun_ret. intros r Hr. destruct (Nat.eqb_spec r 0); auto.
Qed.
(** Over the reals this is the sum of all contributions. *)
Theorem C41_real_sum : forall p (x : nat -> R), 1 <= p ->
  every_schedule (map (fun r => all_gather_sum (dT := 0%R) Rplus p (x r)) (seq 0 p)) (map (fun _ => rsum p x) (seq 0 p)).
Proof.
  intros p x Hp. pose proof (C41_all_gather_sum R 0%R Rplus p x Hp) as H.
  replace (rsum p x) with (fold_left Rplus (map x (seq 0 p)) 0%R); auto. clear.
  induction p as [|p IH]; auto. rewrite seq_S, map_app, fold_left_app, IH. reflexivity.
Qed.
Example C41_nonvacuous : every_schedule (map (fun r => gather_sum (dT := 0) Nat.add 3 r (10 * (r + 1)) 7) (seq 0 3)) [60; 7; 7].
Proof. refine (C41_gather_sum nat 0 Nat.add 3 (fun r => 10 * (r + 1)) (fun _ => 7) _). lia. Qed.
