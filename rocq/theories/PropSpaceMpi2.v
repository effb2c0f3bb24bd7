(** C48: the pencil helpers of Space2Mpi (shapes, zero arrays, gather,
    all_gather, scatter, transposes; physical and spectral flavour) work on the
    decomposition of the matching global shape. *)
From Coq Require Import List Arith Lia Bool ZArith Reals.
From Verif Require Import Base Num Cheb Compo Fourier NdArray NdArrayFacts AxisFacts Bases BaseLin LibBase PropAxis Space SpaceFacts SpaceBases PropSpace
  MpiSem Decomp MpiSpec DistFacts TabFacts DecompFacts DistNew MpiRuns PropMpi PropMpi2 SpaceMpi PropHandler SpaceMpiFacts PropSpaceMpi.
Import ListNotations.
Local Open Scope nat_scope.

Section Wrappers.
Context {P I S : Type} {VP : Vec R P} {VI : Vec R I} {VS : Vec R S} {dP : Dflt P} {dI : Dflt I} {dS : Dflt S}.
Variables (b0 : base_ops I S S) (b1 : base_ops P I S).
Hypothesis U0 : usable I S S VI VS VS b0.
Hypothesis U1 : usable P I S VP VI VS b1.
Variables (bm : bmode) (p : nat).
Hypothesis Hd : distributable (mk_space2 b0 b1) p.
Lemma phys_run {E X} (k : nat -> decomp -> mprog E X) xs : brun p (fun r => k r (dcp (len_phys b0) (len_phys b1) p r)) xs ->
  every_schedule (world bm p (mk_space2 b0 b1) (fun r sm => with_phys sm (k r))) (map xs (seq 0 p)).
Proof.
  intros B. eapply (world_run b0 b1 U0 U1 bm p Hd). exact B. intros r sm Hr Esp Lk. unfold with_phys. rewrite Esp.
  unfold s2_shape_physical. cbn [s2_base0 s2_base1]. rewrite Lk by (cbn; auto). reflexivity.
Qed.
Lemma spec_run {E X} (k : nat -> decomp -> mprog E X) xs : brun p (fun r => k r (dcp (len_spec b0) (len_spec b1) p r)) xs ->
  every_schedule (world bm p (mk_space2 b0 b1) (fun r sm => with_spec sm (k r))) (map xs (seq 0 p)).
Proof.
  intros B. eapply (world_run b0 b1 U0 U1 bm p Hd). exact B. intros r sm Hr Esp Lk. unfold with_spec. rewrite Esp.
  unfold s2_shape_spectral. cbn [s2_base0 s2_base1]. rewrite Lk by (cbn; auto). reflexivity.
Qed.
End Wrappers.
Lemma world_ext {P I S E X} bm p (sp : space2 P I S S) (f g : nat -> space2mpi P I S -> mprog E X) xs :
  (forall r sm, f r sm = g r sm) -> every_schedule (world bm p sp f) xs -> every_schedule (world bm p sp g) xs.
Proof.
  intros H. unfold world. intros K. erewrite map_ext; [exact K|]. intros r. cbn beta. destruct (s2mpi_new bm p r sp); cbn; auto.
Qed.

(** Shapes of the local arrays. *)
Theorem C48_pencil_shapes :
  forall P I S (VP : Vec R P) (VI : Vec R I) (VS : Vec R S) (dP : Dflt P) (dI : Dflt I) (dS : Dflt S) (b0 : base_ops I S S) (b1 : base_ops P I S),
  usable I S S VI VS VS b0 -> usable P I S VP VI VS b1 ->
  let sp := mk_space2 b0 b1 in forall bm p r, distributable sp p -> r < p ->
  exists sm, s2mpi_new bm p r sp = Ok sm /\
    shape_physical_x_pen sm = Ok [len_phys b0; blk_len (len_phys b1) p r] /\ shape_physical_y_pen sm = Ok [blk_len (len_phys b0) p r; len_phys b1] /\
    shape_spectral_x_pen sm = Ok [len_spec b0; blk_len (len_spec b1) p r] /\ shape_spectral_y_pen sm = Ok [blk_len (len_spec b0) p r; len_spec b1] /\
    ndarray_physical_x_pen sm = Ok (azeros dflt [len_phys b0; blk_len (len_phys b1) p r]) /\ ndarray_physical_y_pen sm = Ok (azeros dflt [blk_len (len_phys b0) p r; len_phys b1]) /\
    ndarray_spectral_x_pen sm = Ok (azeros dflt [len_spec b0; blk_len (len_spec b1) p r]) /\ ndarray_spectral_y_pen sm = Ok (azeros dflt [blk_len (len_spec b0) p r; len_spec b1]).
Proof.
  intros P I S VP VI VS dP dI dS b0 b1 U0 U1 sp bm p r Hd Hr. subst sp.
  destruct (new_and_lookups b0 b1 U0 U1 bm p Hd r Hr) as (sm & Es & Esp & Lk). exists sm. split; auto.
  assert (E1 : get_dcp sm (s2_shape_physical (sm_space sm)) = Ok (dcp (len_phys b0) (len_phys b1) p r)) by (rewrite Esp; apply Lk; cbn; auto).
  assert (E2 : get_dcp sm (s2_shape_spectral (sm_space sm)) = Ok (dcp (len_spec b0) (len_spec b1) p r)) by (rewrite Esp; apply Lk; cbn; auto).
  unfold ndarray_physical_x_pen, ndarray_physical_y_pen, ndarray_spectral_x_pen, ndarray_spectral_y_pen, shape_physical_x_pen, shape_physical_y_pen, shape_spectral_x_pen, shape_spectral_y_pen.
  rewrite E1, E2. cbn [bind]. repeat split.
Qed.

(** ** phys *)
Theorem C48_gather_phys :
  forall P I S (VP : Vec R P) (VI : Vec R I) (VS : Vec R S) (dP : Dflt P) (dI : Dflt I) (dS : Dflt S) (b0 : base_ops I S S) (b1 : base_ops P I S),
  usable I S S VI VS VS b0 -> usable P I S VP VI VS b1 ->
  let sp := mk_space2 b0 b1 in forall bm p, distributable sp p ->
  (Z.of_nat (len_phys b0 * len_phys b1) < 2 ^ 31)%Z ->
  forall (g out : arr P) (xs ys : nat -> arr P), has_shape (len_phys b0) (len_phys b1) g -> has_shape (len_phys b0) (len_phys b1) out ->
  (forall r, r < p -> x_block (len_phys b0) (len_phys b1) p r g (xs r)) -> (forall r, r < p -> y_block (len_phys b0) (len_phys b1) p r g (ys r)) ->
  every_schedule (world bm p sp (fun r sm => if r =? 0 then let! x := gather_from_x_pencil_phys_root bm sm (xs r) out in MRet (Some x)
                                             else let! _ := gather_from_x_pencil_phys sm (xs r) in MRet None)) (root_only p (mk_arr [len_phys b0; len_phys b1] (std out) (dat g))) /\
  every_schedule (world bm p sp (fun r sm => if r =? 0 then let! x := gather_from_y_pencil_phys_root bm sm (ys r) out in MRet (Some x)
                                             else let! _ := gather_from_y_pencil_phys sm (ys r) in MRet None)) (root_only p (mk_arr [len_phys b0; len_phys b1] (std out) (dat g))).
Proof.
  intros P I S VP VI VS dP dI dS b0 b1 U0 U1 sp bm p Hd B g out xs ys Hg Ho Hx Hy. subst sp. pose proof (proj1 Hd) as Hp.
  destruct (dist_orth b0 b1 U0 U1 p Hd (len_phys b0) (len_phys b1)) as (H0 & H1 & F); [cbn; auto|cbn; auto|].
  change (2 ^ 31)%Z with 2147483648%Z in B. unfold root_only. rewrite <- whole_eq by auto. split.
  - eapply world_ext; [|apply (phys_run b0 b1 U0 U1 bm p Hd (fun r d => if r =? 0 then let! x := gather_x_inplace_root bm d (xs r) out in MRet (Some x) else let! _ := gather_x d (xs r) in MRet None))].
    + intros r sm. unfold gather_from_x_pencil_phys_root, gather_from_x_pencil_phys, with_phys. destruct (r =? 0), (get_dcp sm _); reflexivity.
    + eapply brun_ext. apply (gather_x_run bm (len_phys b0) (len_phys b1) p g Hp B (fun r => std (xs r)) out Ho). intros r Hr. unfold world_gather_x. cbn beta. rewrite <- xpens by auto. auto.
  - eapply world_ext; [|apply (phys_run b0 b1 U0 U1 bm p Hd (fun r d => if r =? 0 then let! x := gather_y_inplace_root bm d (ys r) out in MRet (Some x) else let! _ := gather_y d (ys r) in MRet None))].
    + intros r sm. unfold gather_from_y_pencil_phys_root, gather_from_y_pencil_phys, with_phys. destruct (r =? 0), (get_dcp sm _); reflexivity.
    + eapply brun_ext. apply (gather_y_run bm (len_phys b0) (len_phys b1) p g Hp B (fun r => std (ys r)) out Ho). intros r Hr. unfold world_gather_y. cbn beta. rewrite <- ypens by auto. auto.
Qed.
Theorem C48_all_gather_phys :
  forall P I S (VP : Vec R P) (VI : Vec R I) (VS : Vec R S) (dP : Dflt P) (dI : Dflt I) (dS : Dflt S) (b0 : base_ops I S S) (b1 : base_ops P I S),
  usable I S S VI VS VS b0 -> usable P I S VP VI VS b1 ->
  let sp := mk_space2 b0 b1 in forall bm p, distributable sp p ->
  (Z.of_nat (len_phys b0 * len_phys b1) < 2 ^ 31)%Z ->
  forall (g : arr P) (xs ys out : nat -> arr P), has_shape (len_phys b0) (len_phys b1) g -> (forall r, r < p -> has_shape (len_phys b0) (len_phys b1) (out r)) ->
  (forall r, r < p -> x_block (len_phys b0) (len_phys b1) p r g (xs r)) -> (forall r, r < p -> y_block (len_phys b0) (len_phys b1) p r g (ys r)) ->
  every_schedule (world bm p sp (fun r sm => all_gather_from_x_pencil_phys bm sm (xs r) (out r))) (map (fun r => mk_arr [len_phys b0; len_phys b1] (std (out r)) (dat g)) (seq 0 p)) /\
  every_schedule (world bm p sp (fun r sm => all_gather_from_y_pencil_phys bm sm (ys r) (out r))) (map (fun r => mk_arr [len_phys b0; len_phys b1] (std (out r)) (dat g)) (seq 0 p)).
Proof.
  intros P I S VP VI VS dP dI dS b0 b1 U0 U1 sp bm p Hd B g xs ys out Hg Ho Hx Hy. subst sp. pose proof (proj1 Hd) as Hp.
  destruct (dist_orth b0 b1 U0 U1 p Hd (len_phys b0) (len_phys b1)) as (H0 & H1 & F); [cbn; auto|cbn; auto|].
  change (2 ^ 31)%Z with 2147483648%Z in B. split.
  - apply (phys_run b0 b1 U0 U1 bm p Hd (fun r d => all_gather_x bm d (xs r) (out r))).
    eapply brun_res with (xs := fun r => whole (len_phys b0) (len_phys b1) g (std (out r))); [|intros; apply whole_eq; auto].
    eapply brun_ext. apply (all_gather_x_run bm (len_phys b0) (len_phys b1) p g Hp B (fun r => std (xs r)) out Ho). intros r Hr. cbn beta. rewrite <- xpens by auto. auto.
  - apply (phys_run b0 b1 U0 U1 bm p Hd (fun r d => all_gather_y bm d (ys r) (out r))).
    eapply brun_res with (xs := fun r => whole (len_phys b0) (len_phys b1) g (std (out r))); [|intros; apply whole_eq; auto].
    eapply brun_ext. apply (all_gather_y_run bm (len_phys b0) (len_phys b1) p g Hp B (fun r => std (ys r)) out Ho). intros r Hr. cbn beta. rewrite <- ypens by auto. auto.
Qed.
Theorem C48_scatter_phys :
  forall P I S (VP : Vec R P) (VI : Vec R I) (VS : Vec R S) (dP : Dflt P) (dI : Dflt I) (dS : Dflt S) (b0 : base_ops I S S) (b1 : base_ops P I S),
  usable I S S VI VS VS b0 -> usable P I S VP VI VS b1 ->
  let sp := mk_space2 b0 b1 in forall bm p, distributable sp p ->
  (Z.of_nat (len_phys b0 * len_phys b1) < 2 ^ 31)%Z ->
  forall (g : arr P) (ox oy : nat -> arr P), has_shape (len_phys b0) (len_phys b1) g ->
  (forall r, r < p -> has_shape (len_phys b0) (blk_len (len_phys b1) p r) (ox r)) -> (forall r, r < p -> has_shape (blk_len (len_phys b0) p r) (len_phys b1) (oy r)) ->
  exists xs ys,
  every_schedule (world bm p sp (fun r sm => if r =? 0 then scatter_to_x_pencil_phys_root bm sm g (ox r) else scatter_to_x_pencil_phys sm (ox r))) (map xs (seq 0 p)) /\
  every_schedule (world bm p sp (fun r sm => if r =? 0 then scatter_to_y_pencil_phys_root bm sm g (oy r) else scatter_to_y_pencil_phys sm (oy r))) (map ys (seq 0 p)) /\
  forall r, r < p -> x_block (len_phys b0) (len_phys b1) p r g (xs r) /\ y_block (len_phys b0) (len_phys b1) p r g (ys r).
Proof.
  intros P I S VP VI VS dP dI dS b0 b1 U0 U1 sp bm p Hd B g ox oy Hg Hx Hy. subst sp. pose proof (proj1 Hd) as Hp.
  destruct (dist_orth b0 b1 U0 U1 p Hd (len_phys b0) (len_phys b1)) as (H0 & H1 & F); [cbn; auto|cbn; auto|].
  change (2 ^ 31)%Z with 2147483648%Z in B.
  exists (fun r => xpen (len_phys b0) (len_phys b1) p g r (std (ox r))), (fun r => ypen (len_phys b0) (len_phys b1) p g r (std (oy r))). split; [|split].
  - eapply world_ext; [|apply (phys_run b0 b1 U0 U1 bm p Hd (fun r d => if r =? 0 then scatter_x_inplace_root bm d g (ox r) else scatter_x_inplace d (ox r)))].
    + intros r sm. unfold scatter_to_x_pencil_phys_root, scatter_to_x_pencil_phys, with_phys. destruct (r =? 0), (get_dcp sm _); reflexivity.
    + apply (scatter_x_run bm (len_phys b0) (len_phys b1) p g Hp Hg B ox Hx).
  - eapply world_ext; [|apply (phys_run b0 b1 U0 U1 bm p Hd (fun r d => if r =? 0 then scatter_y_inplace_root bm d g (oy r) else scatter_y_inplace d (oy r)))].
    + intros r sm. unfold scatter_to_y_pencil_phys_root, scatter_to_y_pencil_phys, with_phys. destruct (r =? 0), (get_dcp sm _); reflexivity.
    + apply (scatter_y_run bm (len_phys b0) (len_phys b1) p g Hp Hg B oy Hy).
  - intros r Hr. split; [apply xpen_block|apply ypen_block].
Qed.
Theorem C48_transpose_phys :
  forall P I S (VP : Vec R P) (VI : Vec R I) (VS : Vec R S) (dP : Dflt P) (dI : Dflt I) (dS : Dflt S) (b0 : base_ops I S S) (b1 : base_ops P I S),
  usable I S S VI VS VS b0 -> usable P I S VP VI VS b1 ->
  let sp := mk_space2 b0 b1 in forall bm p, distributable sp p ->
  forall (g : arr P) (xs ys : nat -> arr P),
  (forall r, r < p -> x_block (len_phys b0) (len_phys b1) p r g (xs r)) -> (forall r, r < p -> y_block (len_phys b0) (len_phys b1) p r g (ys r)) ->
  forall ox oy, (forall r, r < p -> has_shape (len_phys b0) (blk_len (len_phys b1) p r) (ox r)) -> (forall r, r < p -> has_shape (blk_len (len_phys b0) p r) (len_phys b1) (oy r)) ->
  exists rx ry, every_schedule (world bm p sp (fun r sm => transpose_x_to_y_phys bm sm (xs r) (oy r))) (map ry (seq 0 p)) /\
    every_schedule (world bm p sp (fun r sm => transpose_y_to_x_phys bm sm (ys r) (ox r))) (map rx (seq 0 p)) /\
    forall r, r < p -> x_block (len_phys b0) (len_phys b1) p r g (rx r) /\ y_block (len_phys b0) (len_phys b1) p r g (ry r).
Proof.
  intros P I S VP VI VS dP dI dS b0 b1 U0 U1 sp bm p Hd g xs ys Hx Hy ox oy Hox Hoy. subst sp. pose proof (proj1 Hd) as Hp.
  destruct (dist_orth b0 b1 U0 U1 p Hd (len_phys b0) (len_phys b1)) as (H0 & H1 & F); [cbn; auto|cbn; auto|].
  exists (fun r => xpen (len_phys b0) (len_phys b1) p g r (std (ox r))), (fun r => ypen (len_phys b0) (len_phys b1) p g r (std (oy r))). split; [|split].
  - apply (phys_run b0 b1 U0 U1 bm p Hd (fun r d => transpose_x_to_y bm d (xs r) (oy r))). eapply brun_ext.
    apply (transpose_xy_run bm (len_phys b0) (len_phys b1) p g Hp H0 H1 (fun r Hr => proj1 (F r Hr)) (fun r Hr => proj2 (F r Hr)) (fun r => std (xs r)) oy Hoy).
    intros r Hr. cbn beta. rewrite <- xpens by auto. auto.
  - apply (phys_run b0 b1 U0 U1 bm p Hd (fun r d => transpose_y_to_x bm d (ys r) (ox r))). eapply brun_ext.
    apply (transpose_yx_run bm (len_phys b0) (len_phys b1) p g Hp H0 H1 (fun r Hr => proj1 (F r Hr)) (fun r Hr => proj2 (F r Hr)) (fun r => std (ys r)) ox Hox).
    intros r Hr. cbn beta. rewrite <- ypens by auto. auto.
  - intros r Hr. split; [apply xpen_block|apply ypen_block].
Qed.

(** ** spec *)
Theorem C48_gather_spec :
  forall P I S (VP : Vec R P) (VI : Vec R I) (VS : Vec R S) (dP : Dflt P) (dI : Dflt I) (dS : Dflt S) (b0 : base_ops I S S) (b1 : base_ops P I S),
  usable I S S VI VS VS b0 -> usable P I S VP VI VS b1 ->
  let sp := mk_space2 b0 b1 in forall bm p, distributable sp p ->
  (Z.of_nat (len_spec b0 * len_spec b1) < 2 ^ 31)%Z ->
  forall (g out : arr S) (xs ys : nat -> arr S), has_shape (len_spec b0) (len_spec b1) g -> has_shape (len_spec b0) (len_spec b1) out ->
  (forall r, r < p -> x_block (len_spec b0) (len_spec b1) p r g (xs r)) -> (forall r, r < p -> y_block (len_spec b0) (len_spec b1) p r g (ys r)) ->
  every_schedule (world bm p sp (fun r sm => if r =? 0 then let! x := gather_from_x_pencil_spec_root bm sm (xs r) out in MRet (Some x)
                                             else let! _ := gather_from_x_pencil_spec sm (xs r) in MRet None)) (root_only p (mk_arr [len_spec b0; len_spec b1] (std out) (dat g))) /\
  every_schedule (world bm p sp (fun r sm => if r =? 0 then let! x := gather_from_y_pencil_spec_root bm sm (ys r) out in MRet (Some x)
                                             else let! _ := gather_from_y_pencil_spec sm (ys r) in MRet None)) (root_only p (mk_arr [len_spec b0; len_spec b1] (std out) (dat g))).
Proof.
  intros P I S VP VI VS dP dI dS b0 b1 U0 U1 sp bm p Hd B g out xs ys Hg Ho Hx Hy. subst sp. pose proof (proj1 Hd) as Hp.
  destruct (dist_orth b0 b1 U0 U1 p Hd (len_spec b0) (len_spec b1)) as (H0 & H1 & F); [cbn; auto|cbn; auto|].
  change (2 ^ 31)%Z with 2147483648%Z in B. unfold root_only. rewrite <- whole_eq by auto. split.
  - eapply world_ext; [|apply (spec_run b0 b1 U0 U1 bm p Hd (fun r d => if r =? 0 then let! x := gather_x_inplace_root bm d (xs r) out in MRet (Some x) else let! _ := gather_x d (xs r) in MRet None))].
    + intros r sm. unfold gather_from_x_pencil_spec_root, gather_from_x_pencil_spec, with_spec. destruct (r =? 0), (get_dcp sm _); reflexivity.
    + eapply brun_ext. apply (gather_x_run bm (len_spec b0) (len_spec b1) p g Hp B (fun r => std (xs r)) out Ho). intros r Hr. unfold world_gather_x. cbn beta. rewrite <- xpens by auto. auto.
  - eapply world_ext; [|apply (spec_run b0 b1 U0 U1 bm p Hd (fun r d => if r =? 0 then let! x := gather_y_inplace_root bm d (ys r) out in MRet (Some x) else let! _ := gather_y d (ys r) in MRet None))].
    + intros r sm. unfold gather_from_y_pencil_spec_root, gather_from_y_pencil_spec, with_spec. destruct (r =? 0), (get_dcp sm _); reflexivity.
    + eapply brun_ext. apply (gather_y_run bm (len_spec b0) (len_spec b1) p g Hp B (fun r => std (ys r)) out Ho). intros r Hr. unfold world_gather_y. cbn beta. rewrite <- ypens by auto. auto.
Qed.
Theorem C48_all_gather_spec :
  forall P I S (VP : Vec R P) (VI : Vec R I) (VS : Vec R S) (dP : Dflt P) (dI : Dflt I) (dS : Dflt S) (b0 : base_ops I S S) (b1 : base_ops P I S),
  usable I S S VI VS VS b0 -> usable P I S VP VI VS b1 ->
  let sp := mk_space2 b0 b1 in forall bm p, distributable sp p ->
  (Z.of_nat (len_spec b0 * len_spec b1) < 2 ^ 31)%Z ->
  forall (g : arr S) (xs ys out : nat -> arr S), has_shape (len_spec b0) (len_spec b1) g -> (forall r, r < p -> has_shape (len_spec b0) (len_spec b1) (out r)) ->
  (forall r, r < p -> x_block (len_spec b0) (len_spec b1) p r g (xs r)) -> (forall r, r < p -> y_block (len_spec b0) (len_spec b1) p r g (ys r)) ->
  every_schedule (world bm p sp (fun r sm => all_gather_from_x_pencil_spec bm sm (xs r) (out r))) (map (fun r => mk_arr [len_spec b0; len_spec b1] (std (out r)) (dat g)) (seq 0 p)) /\
  every_schedule (world bm p sp (fun r sm => all_gather_from_y_pencil_spec bm sm (ys r) (out r))) (map (fun r => mk_arr [len_spec b0; len_spec b1] (std (out r)) (dat g)) (seq 0 p)).
Proof.
  intros P I S VP VI VS dP dI dS b0 b1 U0 U1 sp bm p Hd B g xs ys out Hg Ho Hx Hy. subst sp. pose proof (proj1 Hd) as Hp.
  destruct (dist_orth b0 b1 U0 U1 p Hd (len_spec b0) (len_spec b1)) as (H0 & H1 & F); [cbn; auto|cbn; auto|].
  change (2 ^ 31)%Z with 2147483648%Z in B. split.
  - apply (spec_run b0 b1 U0 U1 bm p Hd (fun r d => all_gather_x bm d (xs r) (out r))).
    eapply brun_res with (xs := fun r => whole (len_spec b0) (len_spec b1) g (std (out r))); [|intros; apply whole_eq; auto].
    eapply brun_ext. apply (all_gather_x_run bm (len_spec b0) (len_spec b1) p g Hp B (fun r => std (xs r)) out Ho). intros r Hr. cbn beta. rewrite <- xpens by auto. auto.
  - apply (spec_run b0 b1 U0 U1 bm p Hd (fun r d => all_gather_y bm d (ys r) (out r))).
    eapply brun_res with (xs := fun r => whole (len_spec b0) (len_spec b1) g (std (out r))); [|intros; apply whole_eq; auto].
    eapply brun_ext. apply (all_gather_y_run bm (len_spec b0) (len_spec b1) p g Hp B (fun r => std (ys r)) out Ho). intros r Hr. cbn beta. rewrite <- ypens by auto. auto.
Qed.
Theorem C48_scatter_spec :
  forall P I S (VP : Vec R P) (VI : Vec R I) (VS : Vec R S) (dP : Dflt P) (dI : Dflt I) (dS : Dflt S) (b0 : base_ops I S S) (b1 : base_ops P I S),
  usable I S S VI VS VS b0 -> usable P I S VP VI VS b1 ->
  let sp := mk_space2 b0 b1 in forall bm p, distributable sp p ->
  (Z.of_nat (len_spec b0 * len_spec b1) < 2 ^ 31)%Z ->
  forall (g : arr S) (ox oy : nat -> arr S), has_shape (len_spec b0) (len_spec b1) g ->
  (forall r, r < p -> has_shape (len_spec b0) (blk_len (len_spec b1) p r) (ox r)) -> (forall r, r < p -> has_shape (blk_len (len_spec b0) p r) (len_spec b1) (oy r)) ->
  exists xs ys,
  every_schedule (world bm p sp (fun r sm => if r =? 0 then scatter_to_x_pencil_spec_root bm sm g (ox r) else scatter_to_x_pencil_spec sm (ox r))) (map xs (seq 0 p)) /\
  every_schedule (world bm p sp (fun r sm => if r =? 0 then scatter_to_y_pencil_spec_root bm sm g (oy r) else scatter_to_y_pencil_spec sm (oy r))) (map ys (seq 0 p)) /\
  forall r, r < p -> x_block (len_spec b0) (len_spec b1) p r g (xs r) /\ y_block (len_spec b0) (len_spec b1) p r g (ys r).
Proof.
  intros P I S VP VI VS dP dI dS b0 b1 U0 U1 sp bm p Hd B g ox oy Hg Hx Hy. subst sp. pose proof (proj1 Hd) as Hp.
  destruct (dist_orth b0 b1 U0 U1 p Hd (len_spec b0) (len_spec b1)) as (H0 & H1 & F); [cbn; auto|cbn; auto|].
  change (2 ^ 31)%Z with 2147483648%Z in B.
  exists (fun r => xpen (len_spec b0) (len_spec b1) p g r (std (ox r))), (fun r => ypen (len_spec b0) (len_spec b1) p g r (std (oy r))). split; [|split].
  - eapply world_ext; [|apply (spec_run b0 b1 U0 U1 bm p Hd (fun r d => if r =? 0 then scatter_x_inplace_root bm d g (ox r) else scatter_x_inplace d (ox r)))].
    + intros r sm. unfold scatter_to_x_pencil_spec_root, scatter_to_x_pencil_spec, with_spec. destruct (r =? 0), (get_dcp sm _); reflexivity.
    + apply (scatter_x_run bm (len_spec b0) (len_spec b1) p g Hp Hg B ox Hx).
  - eapply world_ext; [|apply (spec_run b0 b1 U0 U1 bm p Hd (fun r d => if r =? 0 then scatter_y_inplace_root bm d g (oy r) else scatter_y_inplace d (oy r)))].
    + intros r sm. unfold scatter_to_y_pencil_spec_root, scatter_to_y_pencil_spec, with_spec. destruct (r =? 0), (get_dcp sm _); reflexivity.
    + apply (scatter_y_run bm (len_spec b0) (len_spec b1) p g Hp Hg B oy Hy).
  - intros r Hr. split; [apply xpen_block|apply ypen_block].
Qed.
Theorem C48_transpose_spec :
  forall P I S (VP : Vec R P) (VI : Vec R I) (VS : Vec R S) (dP : Dflt P) (dI : Dflt I) (dS : Dflt S) (b0 : base_ops I S S) (b1 : base_ops P I S),
  usable I S S VI VS VS b0 -> usable P I S VP VI VS b1 ->
  let sp := mk_space2 b0 b1 in forall bm p, distributable sp p ->
  forall (g : arr S) (xs ys : nat -> arr S),
  (forall r, r < p -> x_block (len_spec b0) (len_spec b1) p r g (xs r)) -> (forall r, r < p -> y_block (len_spec b0) (len_spec b1) p r g (ys r)) ->
  forall ox oy, (forall r, r < p -> has_shape (len_spec b0) (blk_len (len_spec b1) p r) (ox r)) -> (forall r, r < p -> has_shape (blk_len (len_spec b0) p r) (len_spec b1) (oy r)) ->
  exists rx ry, every_schedule (world bm p sp (fun r sm => transpose_x_to_y_spec bm sm (xs r) (oy r))) (map ry (seq 0 p)) /\
    every_schedule (world bm p sp (fun r sm => transpose_y_to_x_spec bm sm (ys r) (ox r))) (map rx (seq 0 p)) /\
    forall r, r < p -> x_block (len_spec b0) (len_spec b1) p r g (rx r) /\ y_block (len_spec b0) (len_spec b1) p r g (ry r).
Proof.
  intros P I S VP VI VS dP dI dS b0 b1 U0 U1 sp bm p Hd g xs ys Hx Hy ox oy Hox Hoy. subst sp. pose proof (proj1 Hd) as Hp.
  destruct (dist_orth b0 b1 U0 U1 p Hd (len_spec b0) (len_spec b1)) as (H0 & H1 & F); [cbn; auto|cbn; auto|].
  exists (fun r => xpen (len_spec b0) (len_spec b1) p g r (std (ox r))), (fun r => ypen (len_spec b0) (len_spec b1) p g r (std (oy r))). split; [|split].
  - apply (spec_run b0 b1 U0 U1 bm p Hd (fun r d => transpose_x_to_y bm d (xs r) (oy r))). eapply brun_ext.
    apply (transpose_xy_run bm (len_spec b0) (len_spec b1) p g Hp H0 H1 (fun r Hr => proj1 (F r Hr)) (fun r Hr => proj2 (F r Hr)) (fun r => std (xs r)) oy Hoy).
    intros r Hr. cbn beta. rewrite <- xpens by auto. auto.
  - apply (spec_run b0 b1 U0 U1 bm p Hd (fun r d => transpose_y_to_x bm d (ys r) (ox r))). eapply brun_ext.
    apply (transpose_yx_run bm (len_spec b0) (len_spec b1) p g Hp H0 H1 (fun r Hr => proj1 (F r Hr)) (fun r Hr => proj2 (F r Hr)) (fun r => std (ys r)) ox Hox).
    intros r Hr. cbn beta. rewrite <- ypens by auto. auto.
  - intros r Hr. split; [apply xpen_block|apply ypen_block].
Qed.
