(** C40: the distributed transforms of Space2Mpi compute the pencils of the
    serial Space2 result, on every number of ranks and under every schedule. *)
From Coq Require Import List Arith Lia Bool ZArith Reals FunctionalExtensionality.
From Verif Require Import Base Num Cheb Compo Fourier NdArray NdArrayFacts AxisFacts Bases BaseLin LibBase AxisProps PropAxis Space SpaceFacts SpaceBases SpaceStages PropSpace
  PropSpace4 MpiSem Decomp MpiSpec DistFacts TabFacts DecompFacts DistNew MpiRuns PropMpi SpaceMpi PropHandler SpaceMpiFacts Stencils Witness.
Import ListNotations.
Local Open Scope nat_scope.

(** Every shape the space works with can be distributed over p ranks: no empty
    pencils, and each pencil has fewer than 2^31 elements. *)
Definition distributable {P I S} (sp : space2 P I S S) (p : nat) : Prop :=
  1 <= p /\ forall e0 e1, In e0 [len_phys (s2_base0 sp); len_spec (s2_base0 sp)] -> In e1 [len_phys (s2_base1 sp); len_spec (s2_base1 sp)] ->
    p <= e0 /\ p <= e1 /\ pencils_fit e0 e1 p.
(** rank r's arrays, in standard layout *)
Definition x_pencils_of {T} {dT : Dflt T} (sh : list nat) (p : nat) (g : arr T) (a : nat -> arr T) : Prop :=
  forall r, r < p -> x_block (sh.[0]) (sh.[1]) p r g (a r) /\ std (a r) = true.
Definition y_pencils_of {T} {dT : Dflt T} (sh : list nat) (p : nat) (g : arr T) (a : nat -> arr T) : Prop :=
  forall r, r < p -> y_block (sh.[0]) (sh.[1]) p r g (a r) /\ std (a r) = true.
(** the program of all ranks: construct the space, then call the method *)
Definition world {P I S E X} bm p (sp : space2 P I S S) (method : nat -> space2mpi P I S -> mprog E X) : list (mprog E X) :=
  map (fun r => let^ sm := s2mpi_new bm p r sp in method r sm) (seq 0 p).

Section Runs.
Context {P I S : Type} {VP : Vec R P} {VI : Vec R I} {VS : Vec R S} {dP : Dflt P} {dI : Dflt I} {dS : Dflt S}.
Variables (b0 : base_ops I S S) (b1 : base_ops P I S).
Hypothesis U0 : usable I S S VI VS VS b0.
Hypothesis U1 : usable P I S VP VI VS b1.
Variables (bm : bmode) (p : nat).
Notation sp := (mk_space2 b0 b1).
Hypothesis Hd : distributable sp p.

Lemma dist_orth e0 e1 : In e0 [len_phys b0; len_spec b0; len_orth b0] -> In e1 [len_phys b1; len_spec b1; len_orth b1] ->
  p <= e0 /\ p <= e1 /\ pencils_fit e0 e1 p.
Proof.
  intros H0 H1. pose proof (lib_orth _ _ _ _ _ _ _ (usable_lib _ _ _ _ _ _ _ U0)) as O0. pose proof (lib_orth _ _ _ _ _ _ _ (usable_lib _ _ _ _ _ _ _ U1)) as O1.
  apply (proj2 Hd); cbn [s2_base0 s2_base1 In] in *; intuition congruence.
Qed.

Lemma new_and_lookups r : r < p -> exists sm, s2mpi_new bm p r sp = Ok sm /\ sm_space sm = sp /\
  forall e0 e1, In e0 [len_phys b0; len_spec b0; len_orth b0] -> In e1 [len_phys b1; len_spec b1; len_orth b1] -> get_dcp sm [e0; e1] = Ok (dcp e0 e1 p r).
Proof.
  intros Hr. pose proof (proj1 Hd) as Hp.
  assert (B : forall e0 e1, In e0 [len_phys b0; len_spec b0; len_orth b0] -> In e1 [len_phys b1; len_spec b1; len_orth b1] ->
    (Z.of_nat e0 + 1 < u64max)%Z /\ (Z.of_nat e1 + 1 < u64max)%Z).
  { intros e0 e1 H0 H1. destruct (dist_orth e0 e1 H0 H1) as (A & B & F). apply (fit_bounds e0 e1 p); auto. }
  destruct (B (len_phys b0) (len_phys b1)) as [B1 B2]; cbn; auto.
  destruct (B (len_spec b0) (len_spec b1)) as [B3 B4]; cbn; auto.
  destruct (dist_orth (len_phys b0) (len_phys b1)) as (A1 & A2 & _); cbn; auto.
  destruct (dist_orth (len_spec b0) (len_spec b1)) as (A3 & A4 & _); cbn; auto.
  destruct (C39_constructor_returns P I S VP VI VS b0 b1 (usable_lib _ _ _ _ _ _ _ U0) (usable_lib _ _ _ _ _ _ _ U1) bm p r Hp Hr A1 A2 A3 A4) as (sm & E & Es).
  { change (2 ^ 64)%Z with u64max. intros n [<-|[<-|[<-|[<-|[]]]]]; lia. }
  exists sm. split; auto. split; auto. intros e0 e1 H0 H1.
  destruct (C39_every_lookup_is_registered P I S VP VI VS b0 b1 (usable_lib _ _ _ _ _ _ _ U0) (usable_lib _ _ _ _ _ _ _ U1) bm p r sm E e0 e1 H0 H1) as (d & -> & Ed).
  destruct (dist_orth e0 e1 H0 H1) as (C1 & C2 & F). destruct (B e0 e1 H0 H1).
  rewrite decomp_new_ok in Ed by auto. congruence.
Qed.

Lemma xy_run {E} {dE : Dflt E} e0 e1 (g : arr E) : p <= e0 /\ p <= e1 /\ pencils_fit e0 e1 p ->
  brun p (fun r => transpose_x_to_y bm (dcp e0 e1 p r) (xpen e0 e1 p g r true) (azeros dflt (d_sz (y_pencil (dcp e0 e1 p r))))) (fun r => ypen e0 e1 p g r true).
Proof.
  intros (A & B & F).
  apply (transpose_xy_run bm e0 e1 p g (proj1 Hd) A B (fun r Hr => proj1 (F r Hr)) (fun r Hr => proj2 (F r Hr)) (fun _ => true) (fun r => azeros dflt (d_sz (y_pencil (dcp e0 e1 p r))))).
  intros r Hr. split. reflexivity. unfold wf, azeros. cbn [dat shp]. apply repeat_length.
Qed.
Lemma yx_run {E} {dE : Dflt E} e0 e1 (g : arr E) (out : nat -> arr E) : p <= e0 /\ p <= e1 /\ pencils_fit e0 e1 p ->
  (forall r, r < p -> proper [e0; blk_len e1 p r] (out r)) ->
  brun p (fun r => transpose_y_to_x bm (dcp e0 e1 p r) (ypen e0 e1 p g r true) (out r)) (fun r => xpen e0 e1 p g r true).
Proof.
  intros (A & B & F) Ho.
  eapply brun_res. apply (transpose_yx_run bm e0 e1 p g (proj1 Hd) A B (fun r Hr => proj1 (F r Hr)) (fun r Hr => proj2 (F r Hr)) (fun _ => true) out).
  - intros r Hr. destruct (Ho r Hr) as (S1 & _ & W1). split; auto.
  - intros r Hr. destruct (Ho r Hr) as (_ & -> & _). auto.
Qed.
Lemma zeros_x {E} {dE : Dflt E} e0 e1 r : proper [e0; blk_len e1 p r] (azeros (dflt : E) (d_sz (x_pencil (dcp e0 e1 p r)))).
Proof. apply (proper_zeros (dflt : E) [e0; blk_len e1 p r]). Qed.

Lemma inx {E} {dE : Dflt E} e0 e1 (g : arr E) a : x_pencils_of [e0; e1] p g a -> forall r, r < p -> a r = xpen e0 e1 p g r true.
Proof. intros H r Hr. destruct (H r Hr) as [X St]. apply x_block_xpen in X. rewrite St in X. exact X. Qed.
Lemma iny {E} {dE : Dflt E} e0 e1 (g : arr E) a : y_pencils_of [e0; e1] p g a -> forall r, r < p -> a r = ypen e0 e1 p g r true.
Proof. intros H r Hr. destruct (H r Hr) as [X St]. apply y_block_ypen in X. rewrite St in X. exact X. Qed.
Lemma outx {E} {dE : Dflt E} e0 e1 (g : arr E) : x_pencils_of [e0; e1] p g (fun r => xpen e0 e1 p g r true).
Proof. intros r Hr. split. apply (xpen_block e0 e1 p g r true). reflexivity. Qed.
Lemma outy {E} {dE : Dflt E} e0 e1 (g : arr E) : y_pencils_of [e0; e1] p g (fun r => ypen e0 e1 p g r true).
Proof. intros r Hr. split. apply (ypen_block e0 e1 p g r true). reflexivity. Qed.

(** the four method patterns *)
Variable zo : nat -> zip_order.
Hypothesis Hz : forall r, zip_ok (zo r).

Lemma forward_run (f1 : list P -> list I -> res (list I)) (f0 : list I -> list S -> res (list S)) n0 n1 m0 m1 g m h (fin : nat -> arr I -> res (arr S)) :
  linop f1 n1 m1 -> linop f0 n0 m0 -> shp g = [n0; n1] -> axis_op f1 m1 1 g m -> axis_op f0 m0 0 m h ->
  p <= n0 /\ p <= m1 /\ pencils_fit n0 m1 p ->
  (forall r x, r < p -> proper [n0; blk_len m1 p r] x -> fin r x = axop f0 n0 m0 (zo r) x 0) ->
  brun p (fun r => let^ buffer := axop f1 n1 m1 (zo r) (ypen n0 n1 p g r true) 1 in
                   let! x := transpose_y_to_x bm (dcp n0 m1 p r) buffer (azeros dflt (d_sz (x_pencil (dcp n0 m1 p r)))) in
                   mlift (fin r x)) (fun r => xpen m0 m1 p h r true).
Proof.
  intros L1 L0 Sg A1 A0 F Fin. pose proof (proj1 Hd) as Hp. assert (Sm : shp m = [n0; m1]) by (destruct A1 as [-> _]; rewrite Sg; reflexivity).
  eapply brun_ext with (ps := fun r => mbind (transpose_y_to_x bm (dcp n0 m1 p r) (ypen n0 m1 p m r true) (azeros dflt (d_sz (x_pencil (dcp n0 m1 p r))))) (fun x => mlift (fin r x))).
  - eapply (brun_bind p _ (fun r x => mlift (fin r x))).
    + apply yx_run; auto. intros r Hr. apply zeros_x.
    + apply brun_lift. intros r Hr. rewrite Fin; auto. apply (x_stage f0 n0 m0 p (zo r) L0 (Hz r) Hp m1 m h r Sm A0 Hr). split; [|split]; auto. apply (xpen_shape n0 m1 p m r true).
  - intros r Hr. rewrite (y_stage f1 n1 m1 p (zo r) L1 (Hz r) Hp n0 g m r Sg A1 Hr). reflexivity.
Qed.
Lemma backward_run (f0 : list S -> list I -> res (list I)) (f1 : list I -> list P -> res (list P)) n0 n1 m0 m1 g m h (fin : nat -> arr I -> res (arr P)) :
  linop f0 n0 m0 -> linop f1 n1 m1 -> shp g = [n0; n1] -> axis_op f0 m0 0 g m -> axis_op f1 m1 1 m h ->
  p <= m0 /\ p <= n1 /\ pencils_fit m0 n1 p ->
  (forall r x, r < p -> proper [blk_len m0 p r; n1] x -> fin r x = axop f1 n1 m1 (zo r) x 1) ->
  brun p (fun r => let^ buffer := axop f0 n0 m0 (zo r) (xpen n0 n1 p g r true) 0 in
                   let! y := transpose_x_to_y bm (dcp m0 n1 p r) buffer (azeros dflt (d_sz (y_pencil (dcp m0 n1 p r)))) in
                   mlift (fin r y)) (fun r => ypen m0 m1 p h r true).
Proof.
  intros L0 L1 Sg A0 A1 F Fin. pose proof (proj1 Hd) as Hp. assert (Sm : shp m = [m0; n1]) by (destruct A0 as [-> _]; rewrite Sg; reflexivity).
  eapply brun_ext with (ps := fun r => mbind (transpose_x_to_y bm (dcp m0 n1 p r) (xpen m0 n1 p m r true) (azeros dflt (d_sz (y_pencil (dcp m0 n1 p r))))) (fun y => mlift (fin r y))).
  - eapply (brun_bind p _ (fun r y => mlift (fin r y))).
    + apply xy_run; auto.
    + apply brun_lift. intros r Hr. rewrite Fin; auto. apply (y_stage f1 n1 m1 p (zo r) L1 (Hz r) Hp m0 m h r Sm A1 Hr). split; [|split]; auto. apply (ypen_shape m0 n1 p m r true).
  - intros r Hr. rewrite (x_stage f0 n0 m0 p (zo r) L0 (Hz r) Hp n1 g m r Sg A0 Hr). reflexivity.
Qed.
Lemma ortho_run (f0 f1 : list S -> list S -> res (list S)) n0 n1 m0 m1 g m h (out : nat -> arr S) :
  linop f0 n0 m0 -> linop f1 n1 m1 -> shp g = [n0; n1] -> axis_op f0 m0 0 g m -> axis_op f1 m1 1 m h ->
  p <= m0 /\ p <= n1 /\ pencils_fit m0 n1 p -> p <= m0 /\ p <= m1 /\ pencils_fit m0 m1 p ->
  (forall r, r < p -> proper [m0; blk_len m1 p r] (out r)) ->
  brun p (fun r => let^ a := axop f0 n0 m0 (zo r) (xpen n0 n1 p g r true) 0 in
                   let! y := transpose_x_to_y bm (dcp m0 n1 p r) a (azeros dflt (d_sz (y_pencil (dcp m0 n1 p r)))) in
                   let^ work := axop f1 n1 m1 (zo r) y 1 in
                   transpose_y_to_x bm (dcp m0 m1 p r) work (out r)) (fun r => xpen m0 m1 p h r true).
Proof.
  intros L0 L1 Sg A0 A1 F F' Ho. pose proof (proj1 Hd) as Hp. assert (Sm : shp m = [m0; n1]) by (destruct A0 as [-> _]; rewrite Sg; reflexivity).
  eapply brun_ext with (ps := fun r => mbind (transpose_x_to_y bm (dcp m0 n1 p r) (xpen m0 n1 p m r true) (azeros dflt (d_sz (y_pencil (dcp m0 n1 p r)))))
     (fun y => let^ work := axop f1 n1 m1 (zo r) y 1 in transpose_y_to_x bm (dcp m0 m1 p r) work (out r))).
  - eapply (brun_bind p _ (fun r y => let^ work := axop f1 n1 m1 (zo r) y 1 in transpose_y_to_x bm (dcp m0 m1 p r) work (out r))).
    + apply xy_run; auto.
    + eapply (brun_bind p (fun r => mlift (axop f1 n1 m1 (zo r) (ypen m0 n1 p m r true) 1)) (fun r work => transpose_y_to_x bm (dcp m0 m1 p r) work (out r))).
      * apply brun_lift. intros r Hr. apply (y_stage f1 n1 m1 p (zo r) L1 (Hz r) Hp m0 m h r Sm A1 Hr).
      * apply yx_run; auto.
  - intros r Hr. rewrite (x_stage f0 n0 m0 p (zo r) L0 (Hz r) Hp n1 g m r Sg A0 Hr). reflexivity.
Qed.
Lemma gradient_run (f0 f1 : list S -> list S -> res (list S)) n0 n1 m0 m1 g m h (out : nat -> arr S) (post : arr S -> arr S) h' :
  linop f0 n0 m0 -> linop f1 n1 m1 -> shp g = [n0; n1] -> axis_op f0 m0 0 g m -> axis_op f1 m1 1 m h ->
  p <= m0 /\ p <= n1 /\ pencils_fit m0 n1 p -> p <= m0 /\ p <= m1 /\ pencils_fit m0 m1 p ->
  (forall r, r < p -> proper [m0; blk_len m1 p r] (out r)) ->
  (forall r, r < p -> post (xpen m0 m1 p h r true) = xpen m0 m1 p h' r true) ->
  brun p (fun r => let^ a := axop f0 n0 m0 (zo r) (xpen n0 n1 p g r true) 0 in
                   let! y := transpose_x_to_y bm (dcp m0 n1 p r) a (azeros dflt (d_sz (y_pencil (dcp m0 n1 p r)))) in
                   let^ work := axop f1 n1 m1 (zo r) y 1 in
                   let! o := transpose_y_to_x bm (dcp m0 m1 p r) work (out r) in MRet (post o)) (fun r => xpen m0 m1 p h' r true).
Proof.
  intros L0 L1 Sg A0 A1 F F' Ho Hpost. pose proof (proj1 Hd) as Hp. assert (Sm : shp m = [m0; n1]) by (destruct A0 as [-> _]; rewrite Sg; reflexivity).
  eapply brun_ext with (ps := fun r => mbind (transpose_x_to_y bm (dcp m0 n1 p r) (xpen m0 n1 p m r true) (azeros dflt (d_sz (y_pencil (dcp m0 n1 p r)))))
     (fun y => let^ work := axop f1 n1 m1 (zo r) y 1 in let! o := transpose_y_to_x bm (dcp m0 m1 p r) work (out r) in MRet (post o))).
  - eapply (brun_bind p _ (fun r y => let^ work := axop f1 n1 m1 (zo r) y 1 in let! o := transpose_y_to_x bm (dcp m0 m1 p r) work (out r) in MRet (post o))).
    + apply xy_run; auto.
    + eapply (brun_bind p (fun r => mlift (axop f1 n1 m1 (zo r) (ypen m0 n1 p m r true) 1)) (fun r work => let! o := transpose_y_to_x bm (dcp m0 m1 p r) work (out r) in MRet (post o))).
      * apply brun_lift. intros r Hr. apply (y_stage f1 n1 m1 p (zo r) L1 (Hz r) Hp m0 m h r Sm A1 Hr).
      * eapply (brun_bind p _ (fun r o => MRet (post o))). apply yx_run; auto. apply brun_ret. intros r Hr. rewrite Hpost; auto.
  - intros r Hr. rewrite (x_stage f0 n0 m0 p (zo r) L0 (Hz r) Hp n1 g m r Sg A0 Hr). reflexivity.
Qed.
(** run a method of the constructed space *)
Lemma world_run {E X} (k : nat -> mprog E X) (method : nat -> space2mpi P I S -> mprog E X) xs :
  brun p k xs ->
  (forall r sm, r < p -> sm_space sm = sp ->
    (forall e0 e1, In e0 [len_phys b0; len_spec b0; len_orth b0] -> In e1 [len_phys b1; len_spec b1; len_orth b1] -> get_dcp sm [e0; e1] = Ok (dcp e0 e1 p r)) ->
    method r sm = k r) ->
  every_schedule (world bm p sp method) (map xs (seq 0 p)).
Proof.
  intros B H. apply (brun_every_schedule p (fun r => let^ sm := s2mpi_new bm p r sp in method r sm)). eapply brun_ext. exact B.
  intros r Hr. cbn beta. destruct (new_and_lookups r Hr) as (sm & Es & Esp & Lk). rewrite Es. cbn [mlift mbind]. symmetry. apply H; auto.
Qed.
Lemma fin_inplace {T1 T2} {V1 : Vec R T1} {V2 : Vec R T2} {d1 : Dflt T1} {d2 : Dflt T2} (f : list T1 -> list T2 -> res (list T2)) l1 l2 z (x : arr T1) (o : arr T2) ax sh :
  linop f l1 l2 -> zip_ok z -> ax < length (shp x) -> proper sh o -> upd (shp x) ax l2 = sh ->
  apply_along_axis dflt f l1 l2 (z (shp x) (shp o) ax) x o ax = axop f l1 l2 z x ax.
Proof. intros L Z Hax (So & Sto & Wo) E. apply inplace_runs; auto. left; auto. rewrite So. auto. Qed.
End Runs.

(** Each theorem: the serial method returns on the global array; the
    distributed method, called by all ranks on the pencils of that array,
    terminates under every schedule and leaves each rank with its pencil of the
    serial result. The allocating and the in-place variant agree. *)
Theorem C40_forward :
  forall P I S (VP : Vec R P) (VI : Vec R I) (VS : Vec R S) (dP : Dflt P) (dI : Dflt I) (dS : Dflt S) (b0 : base_ops I S S) (b1 : base_ops P I S),
  usable I S S VI VS VS b0 -> usable P I S VP VI VS b1 ->
  let sp := mk_space2 b0 b1 in forall bm p, distributable sp p ->
  forall zs zo, zip_ok zs -> (forall r, zip_ok (zo r)) ->
  forall g ins outs, proper (s2_shape_physical sp) g -> y_pencils_of (s2_shape_physical sp) p g ins ->
    (forall r, r < p -> proper [len_spec b0; blk_len (len_spec b1) p r] (outs r)) ->
  exists h res, s2_forward zs sp g = Ok h /\ x_pencils_of (s2_shape_spectral sp) p h res /\
    every_schedule (world bm p sp (fun r sm => forward_mpi bm (zo r) sm (ins r))) (map res (seq 0 p)) /\
    every_schedule (world bm p sp (fun r sm => forward_inplace_mpi bm (zo r) sm (ins r) (outs r))) (map res (seq 0 p)).
Proof.
  intros P I S VP VI VS dP dI dS b0 b1 U0 U1 sp bm p Hd zs zo Hzs Hz g ins outs Hg Hin Ho. subst sp.
  destruct (usable_facts _ _ _ _ _ _ b0 U0) as (F0 & B0 & O0 & Q0 & _). destruct (usable_facts _ _ _ _ _ _ b1 U1) as (F1 & B1 & O1 & Q1 & _).
  destruct (C29_space2_applies_each_base_along_its_axis P I S S VP VI VS VS b0 b1 U0 U1 dP dI dS dS zs Hzs) as (K & _).
  destruct (K g (azeros dflt (s2_shape_spectral (mk_space2 b0 b1))) Hg (proper_zeros _ _)) as (m & h & _ & E & Ph & A1 & A0).
  exists h, (fun r => xpen (len_spec b0) (len_spec b1) p h r true). split; auto. split. apply (outx p (len_spec b0) (len_spec b1) h).
  assert (F : p <= len_phys b0 /\ p <= len_spec b1 /\ pencils_fit (len_phys b0) (len_spec b1) p) by (apply (dist_orth b0 b1 U0 U1 p Hd); cbn; auto).
  assert (Sg : shp g = [len_phys b0; len_phys b1]) by apply Hg.
  split.
  - eapply (world_run b0 b1 U0 U1 bm p Hd).
    + apply (forward_run b0 b1 bm p Hd zo Hz _ _ _ _ _ _ g m h (fun r x => forward (zo r) b0 x 0) F1 F0 Sg A1 A0 F).
      intros r x Hr Hx. reflexivity.
    + intros r sm Hr Esp Lk. unfold forward_mpi. rewrite Esp. cbn [s2_base0 s2_base1]. rewrite Lk by (cbn; auto). rewrite (iny p _ _ g ins Hin r Hr). reflexivity.
  - eapply (world_run b0 b1 U0 U1 bm p Hd).
    + apply (forward_run b0 b1 bm p Hd zo Hz _ _ _ _ _ _ g m h (fun r x => forward_inplace (zo r) b0 x (outs r) 0) F1 F0 Sg A1 A0 F).
      intros r x Hr (Sx & _ & _). eapply (fin_inplace (forward_slice b0) (len_phys b0) (len_spec b0) (zo r) x (outs r) 0); auto. all: rewrite Sx; cbn; auto; lia.
    + intros r sm Hr Esp Lk. unfold forward_inplace_mpi. rewrite Esp. cbn [s2_base0 s2_base1]. rewrite Lk by (cbn; auto). rewrite (iny p _ _ g ins Hin r Hr). reflexivity.
Qed.
Print Assumptions C40_forward.

Theorem C40_backward :
  forall P I S (VP : Vec R P) (VI : Vec R I) (VS : Vec R S) (dP : Dflt P) (dI : Dflt I) (dS : Dflt S) (b0 : base_ops I S S) (b1 : base_ops P I S),
  usable I S S VI VS VS b0 -> usable P I S VP VI VS b1 ->
  let sp := mk_space2 b0 b1 in forall bm p, distributable sp p ->
  forall zs zo, zip_ok zs -> (forall r, zip_ok (zo r)) ->
  forall g ins outs, proper (s2_shape_spectral sp) g -> x_pencils_of (s2_shape_spectral sp) p g ins ->
    (forall r, r < p -> proper [blk_len (len_phys b0) p r; len_phys b1] (outs r)) ->
  exists h res, s2_backward zs sp g = Ok h /\ y_pencils_of (s2_shape_physical sp) p h res /\
    every_schedule (world bm p sp (fun r sm => backward_mpi bm (zo r) sm (ins r))) (map res (seq 0 p)) /\
    every_schedule (world bm p sp (fun r sm => backward_inplace_mpi bm (zo r) sm (ins r) (outs r))) (map res (seq 0 p)).
Proof.
  intros P I S VP VI VS dP dI dS b0 b1 U0 U1 sp bm p Hd zs zo Hzs Hz g ins outs Hg Hin Ho. subst sp.
  destruct (usable_facts _ _ _ _ _ _ b0 U0) as (F0 & B0 & O0 & Q0 & _). destruct (usable_facts _ _ _ _ _ _ b1 U1) as (F1 & B1 & O1 & Q1 & _).
  destruct (C29_space2_applies_each_base_along_its_axis P I S S VP VI VS VS b0 b1 U0 U1 dP dI dS dS zs Hzs) as (_ & K & _).
  destruct (K g (azeros dflt (s2_shape_physical (mk_space2 b0 b1))) Hg (proper_zeros _ _)) as (m & h & _ & E & Ph & A0 & A1).
  exists h, (fun r => ypen (len_phys b0) (len_phys b1) p h r true). split; auto. split. apply (outy p (len_phys b0) (len_phys b1) h).
  assert (F : p <= len_phys b0 /\ p <= len_spec b1 /\ pencils_fit (len_phys b0) (len_spec b1) p) by (apply (dist_orth b0 b1 U0 U1 p Hd); cbn; auto).
  assert (Sg : shp g = [len_spec b0; len_spec b1]) by apply Hg.
  split.
  - eapply (world_run b0 b1 U0 U1 bm p Hd).
    + apply (backward_run b0 b1 bm p Hd zo Hz _ _ _ _ _ _ g m h (fun r x => backward (zo r) b1 x 1) B0 B1 Sg A0 A1 F).
      intros r x Hr Hx. reflexivity.
    + intros r sm Hr Esp Lk. unfold backward_mpi. rewrite Esp. cbn [s2_base0 s2_base1]. rewrite Lk by (cbn; auto). rewrite (inx p _ _ g ins Hin r Hr). reflexivity.
  - eapply (world_run b0 b1 U0 U1 bm p Hd).
    + apply (backward_run b0 b1 bm p Hd zo Hz _ _ _ _ _ _ g m h (fun r x => backward_inplace (zo r) b1 x (outs r) 1) B0 B1 Sg A0 A1 F).
      intros r x Hr (Sx & _ & _). eapply (fin_inplace (backward_slice b1) (len_spec b1) (len_phys b1) (zo r) x (outs r) 1); auto. all: rewrite Sx; cbn; auto; lia.
    + intros r sm Hr Esp Lk. unfold backward_inplace_mpi. rewrite Esp. cbn [s2_base0 s2_base1]. rewrite Lk by (cbn; auto). rewrite (inx p _ _ g ins Hin r Hr). reflexivity.
Qed.
Print Assumptions C40_backward.

Theorem C40_to_ortho :
  forall P I S (VP : Vec R P) (VI : Vec R I) (VS : Vec R S) (dP : Dflt P) (dI : Dflt I) (dS : Dflt S) (b0 : base_ops I S S) (b1 : base_ops P I S),
  usable I S S VI VS VS b0 -> usable P I S VP VI VS b1 ->
  let sp := mk_space2 b0 b1 in forall bm p, distributable sp p ->
  forall zs zo, zip_ok zs -> (forall r, zip_ok (zo r)) ->
  forall g ins outs, proper (s2_shape_spectral sp) g -> x_pencils_of (s2_shape_spectral sp) p g ins ->
    (forall r, r < p -> proper [len_orth b0; blk_len (len_orth b1) p r] (outs r)) ->
  exists h res, s2_to_ortho zs sp g = Ok h /\ x_pencils_of (s2_shape_spectral_ortho sp) p h res /\
    every_schedule (world bm p sp (fun r sm => to_ortho_mpi bm (zo r) sm (ins r))) (map res (seq 0 p)) /\
    every_schedule (world bm p sp (fun r sm => to_ortho_inplace_mpi bm (zo r) sm (ins r) (outs r))) (map res (seq 0 p)).
Proof.
  intros P I S VP VI VS dP dI dS b0 b1 U0 U1 sp bm p Hd zs zo Hzs Hz g ins outs Hg Hin Ho. subst sp.
  destruct (usable_facts _ _ _ _ _ _ b0 U0) as (F0 & B0 & O0 & Q0 & _). destruct (usable_facts _ _ _ _ _ _ b1 U1) as (F1 & B1 & O1 & Q1 & _).
  destruct (C29_space2_applies_each_base_along_its_axis P I S S VP VI VS VS b0 b1 U0 U1 dP dI dS dS zs Hzs) as (_ & _ & K & _).
  destruct (K g (azeros dflt (s2_shape_spectral_ortho (mk_space2 b0 b1))) Hg (proper_zeros _ _)) as (m & h & _ & E & Ph & A0 & A1).
  exists h, (fun r => xpen (len_orth b0) (len_orth b1) p h r true). split; auto. split. apply (outx p (len_orth b0) (len_orth b1) h).
  assert (F : p <= len_orth b0 /\ p <= len_spec b1 /\ pencils_fit (len_orth b0) (len_spec b1) p) by (apply (dist_orth b0 b1 U0 U1 p Hd); cbn; auto).
  assert (F' : p <= len_orth b0 /\ p <= len_orth b1 /\ pencils_fit (len_orth b0) (len_orth b1) p) by (apply (dist_orth b0 b1 U0 U1 p Hd); cbn; auto).
  assert (Sg : shp g = [len_spec b0; len_spec b1]) by apply Hg.
  split.
  - eapply (world_run b0 b1 U0 U1 bm p Hd).
    + apply (ortho_run b0 b1 bm p Hd zo Hz _ _ _ _ _ _ g m h (fun r => azeros dflt (d_sz (x_pencil (dcp (len_orth b0) (len_orth b1) p r)))) O0 O1 Sg A0 A1 F F').
      intros r Hr. apply zeros_x.
    + intros r sm Hr Esp Lk. unfold to_ortho_mpi. rewrite Esp. cbn [s2_base0 s2_base1]. rewrite !Lk by (cbn; auto). rewrite (inx p _ _ g ins Hin r Hr). reflexivity.
  - eapply (world_run b0 b1 U0 U1 bm p Hd).
    + apply (ortho_run b0 b1 bm p Hd zo Hz _ _ _ _ _ _ g m h outs O0 O1 Sg A0 A1 F F').
      exact Ho.
    + intros r sm Hr Esp Lk. unfold to_ortho_inplace_mpi. rewrite Esp. cbn [s2_base0 s2_base1]. rewrite !Lk by (cbn; auto). rewrite (inx p _ _ g ins Hin r Hr). reflexivity.
Qed.
Print Assumptions C40_to_ortho.

Theorem C40_from_ortho :
  forall P I S (VP : Vec R P) (VI : Vec R I) (VS : Vec R S) (dP : Dflt P) (dI : Dflt I) (dS : Dflt S) (b0 : base_ops I S S) (b1 : base_ops P I S),
  usable I S S VI VS VS b0 -> usable P I S VP VI VS b1 ->
  let sp := mk_space2 b0 b1 in forall bm p, distributable sp p ->
  forall zs zo, zip_ok zs -> (forall r, zip_ok (zo r)) ->
  forall g ins outs, proper (s2_shape_spectral_ortho sp) g -> x_pencils_of (s2_shape_spectral_ortho sp) p g ins ->
    (forall r, r < p -> proper [len_spec b0; blk_len (len_spec b1) p r] (outs r)) ->
  exists h res, s2_from_ortho zs sp g = Ok h /\ x_pencils_of (s2_shape_spectral sp) p h res /\
    every_schedule (world bm p sp (fun r sm => from_ortho_mpi bm (zo r) sm (ins r))) (map res (seq 0 p)) /\
    every_schedule (world bm p sp (fun r sm => from_ortho_inplace_mpi bm (zo r) sm (ins r) (outs r))) (map res (seq 0 p)).
Proof.
  intros P I S VP VI VS dP dI dS b0 b1 U0 U1 sp bm p Hd zs zo Hzs Hz g ins outs Hg Hin Ho. subst sp.
  destruct (usable_facts _ _ _ _ _ _ b0 U0) as (F0 & B0 & O0 & Q0 & _). destruct (usable_facts _ _ _ _ _ _ b1 U1) as (F1 & B1 & O1 & Q1 & _).
  destruct (C29_space2_applies_each_base_along_its_axis P I S S VP VI VS VS b0 b1 U0 U1 dP dI dS dS zs Hzs) as (_ & _ & _ & K).
  destruct (K g (azeros dflt (s2_shape_spectral (mk_space2 b0 b1))) Hg (proper_zeros _ _)) as (m & h & _ & E & Ph & A0 & A1).
  exists h, (fun r => xpen (len_spec b0) (len_spec b1) p h r true). split; auto. split. apply (outx p (len_spec b0) (len_spec b1) h).
  assert (F : p <= len_spec b0 /\ p <= len_orth b1 /\ pencils_fit (len_spec b0) (len_orth b1) p) by (apply (dist_orth b0 b1 U0 U1 p Hd); cbn; auto).
  assert (F' : p <= len_spec b0 /\ p <= len_spec b1 /\ pencils_fit (len_spec b0) (len_spec b1) p) by (apply (dist_orth b0 b1 U0 U1 p Hd); cbn; auto).
  assert (Sg : shp g = [len_orth b0; len_orth b1]) by apply Hg.
  split.
  - eapply (world_run b0 b1 U0 U1 bm p Hd).
    + apply (ortho_run b0 b1 bm p Hd zo Hz _ _ _ _ _ _ g m h (fun r => azeros dflt (d_sz (x_pencil (dcp (len_spec b0) (len_spec b1) p r)))) Q0 Q1 Sg A0 A1 F F').
      intros r Hr. apply zeros_x.
    + intros r sm Hr Esp Lk. unfold from_ortho_mpi. rewrite Esp. cbn [s2_base0 s2_base1]. rewrite !Lk by (cbn; auto). rewrite (inx p _ _ g ins Hin r Hr). reflexivity.
  - eapply (world_run b0 b1 U0 U1 bm p Hd).
    + apply (ortho_run b0 b1 bm p Hd zo Hz _ _ _ _ _ _ g m h outs Q0 Q1 Sg A0 A1 F F').
      exact Ho.
    + intros r sm Hr Esp Lk. unfold from_ortho_inplace_mpi. rewrite Esp. cbn [s2_base0 s2_base1]. rewrite !Lk by (cbn; auto). rewrite (inx p _ _ g ins Hin r Hr). reflexivity.
Qed.
Print Assumptions C40_from_ortho.

(** The scale factor is applied to every element. *)
Lemma scale_xpen {A T} {D : DivInto A T} {dT : Dflt T} n0 n1 p (h : arr T) r (sc : A) : 1 <= p -> r < p -> has_shape n0 n1 h ->
  scale_arr (xpen n0 n1 p h r true) sc = xpen n0 n1 p (scale_arr h sc) r true.
Proof.
  intros Hp Hr (Sh & Wh). unfold scale_arr, xpen. cbn [shp std dat]. f_equal. unfold tab. rewrite !flat_map_concat_map, concat_map, map_map. f_equal.
  apply map_ext_in. intros i Hi. rewrite map_map. apply map_ext_in. intros j Hj. apply in_seq in Hi, Hj.
  pose proof (blk_end_le n1 p Hp r Hr). unfold get. cbn [shp dat]. rewrite Sh. 
  assert (L : ravel [n0; n1] [i; blk_lo n1 p r + j] < length (dat h)).
  { unfold wf in Wh. rewrite Wh, Sh. apply ravel_lt. repeat constructor; lia. }
  rewrite at_map by auto. auto.
Qed.
Lemma shape_scale {A T} {D : DivInto A T} n0 n1 (h : arr T) d0 d1 {N : Num A} scale : has_shape n0 n1 h -> has_shape n0 n1 (s2_scale (A := A) d0 d1 scale h).
Proof. intros (Sh & Wh). destruct scale as [[s0 s1]|]; split; auto. unfold wf in *. cbn. rewrite map_length. auto. Qed.

Theorem C40_gradient :
  forall P I S (VP : Vec R P) (VI : Vec R I) (VS : Vec R S) (dP : Dflt P) (dI : Dflt I) (dS : Dflt S) (b0 : base_ops I S S) (b1 : base_ops P I S),
  usable I S S VI VS VS b0 -> usable P I S VP VI VS b1 ->
  let sp := mk_space2 b0 b1 in forall bm p, distributable sp p ->
  forall zs zo, zip_ok zs -> (forall r, zip_ok (zo r)) ->
  forall A (N : Num A) (D : DivInto A S) d0 d1 (scale : option (A * A)), total_gradient b0 d0 -> total_gradient b1 d1 ->
  forall g ins, proper (s2_shape_spectral sp) g -> x_pencils_of (s2_shape_spectral sp) p g ins ->
  exists h res, s2_gradient zs sp g d0 d1 scale = Ok h /\ x_pencils_of (s2_shape_spectral_ortho sp) p h res /\
    every_schedule (world bm p sp (fun r sm => gradient_mpi bm (zo r) sm (ins r) d0 d1 scale)) (map res (seq 0 p)).
Proof.
  intros P I S VP VI VS dP dI dS b0 b1 U0 U1 sp bm p Hd zs zo Hzs Hz A N D d0 d1 scale T0 T1 g ins Hg Hin. subst sp.
  pose proof (usable_grad_linop _ _ _ _ _ _ _ d0 U0 dS T0) as L0. pose proof (usable_grad_linop _ _ _ _ _ _ _ d1 U1 dS T1) as L1.
  destruct (C31_space2_gradient_applies_each_base_along_its_axis P I S S VP VI VS VS b0 b1 U0 U1 dP dI dS dS A N D zs Hzs d0 d1 T0 T1 g Hg) as (m & h & E & Ph & A0 & A1).
  exists (s2_scale d0 d1 scale h), (fun r => xpen (len_orth b0) (len_orth b1) p (s2_scale d0 d1 scale h) r true).
  split. { unfold s2_gradient in E |- *. destruct (gradient zs _ g d0 0); try discriminate. cbn [bind] in *. destruct (gradient zs _ _ d1 1); try discriminate. cbn [bind] in *. injection E as ->. auto. }
  split. apply (outx p (len_orth b0) (len_orth b1) (s2_scale d0 d1 scale h)).
  assert (F : p <= len_orth b0 /\ p <= len_spec b1 /\ pencils_fit (len_orth b0) (len_spec b1) p) by (apply (dist_orth b0 b1 U0 U1 p Hd); cbn; auto).
  assert (F' : p <= len_orth b0 /\ p <= len_orth b1 /\ pencils_fit (len_orth b0) (len_orth b1) p) by (apply (dist_orth b0 b1 U0 U1 p Hd); cbn; auto).
  assert (Sg : shp g = [len_spec b0; len_spec b1]) by apply Hg.
  eapply (world_run b0 b1 U0 U1 bm p Hd).
  - apply (gradient_run b0 b1 bm p Hd zo Hz _ _ _ _ _ _ g m h (fun r => azeros dflt (d_sz (x_pencil (dcp (len_orth b0) (len_orth b1) p r)))) (s2_scale d0 d1 scale) (s2_scale d0 d1 scale h) L0 L1 Sg A0 A1 F F').
    intros r Hr; apply zeros_x. intros r Hr. destruct scale as [[s0 s1]|]; auto. cbn [s2_scale]. apply scale_xpen; auto. apply Hd. split; apply Ph.
  - intros r sm Hr Esp Lk. unfold gradient_mpi. rewrite Esp. cbn [s2_base0 s2_base1]. rewrite !Lk by (cbn; auto). rewrite (inx p _ _ g ins Hin r Hr).
    cbn [mlift mbind]. rewrite gradient_axop. f_equal. apply functional_extensionality. intros a. f_equal. apply functional_extensionality. intros y. rewrite gradient_axop. reflexivity.
Qed.
Print Assumptions C40_gradient.

(** A Fourier (n = 6) x Dirichlet (n = 7) space on three ranks can be built and
    distributed; on five ranks it cannot (4 Fourier modes). *)
Example C40_hyps_met : exists f b, r2c_new 6 = Ok f /\ new_composite KDirichlet 7 = Ok b /\
  let b0 := r2c_ops (A := R) f in let b1 := r2r_ops (T := cplx R) b in let sp := mk_space2 b0 b1 in
  usable R (cplx R) (cplx R) vec_self vec_cplx vec_cplx b0 /\ usable R R (cplx R) vec_self vec_self vec_cplx b1 /\
  distributable sp 3 /\ ~ distributable sp 5 /\ s2_shape_physical sp = [6; 7] /\ s2_shape_spectral sp = [4; 5] /\
  (exists ins, y_pencils_of (s2_shape_physical sp) 3 (ramp [6; 7]) ins) /\
  forall r, r < 3 -> exists sm, s2mpi_new Debug 3 r sp = Ok sm.
Proof.
  destruct witness_r2c as (f & Hf & Uf & Pf & Sf & Of). destruct witness_dirichlet as (b & Hb & _ & Ub & Lb). destruct (Lb (cplx R) vec_cplx) as (Pb & Sb & Ob).
  exists f, b. do 2 (split; [assumption|]). cbv zeta. do 2 (split; [assumption|]).
  assert (Ds : distributable (mk_space2 (r2c_ops (A := R) f) (r2r_ops (T := cplx R) b)) 3).
  { split. lia. cbn [s2_base0 s2_base1]. rewrite Pf, Sf, Pb, Sb. intros e0 e1 [<-|[<-|[]]] [<-|[<-|[]]]; repeat split; try lia;
      (destruct r as [|[|[|r]]]; [vm_compute; reflexivity..|lia]). }
  split; auto. split. { intros [_ K]. specialize (K 4 5). cbn [s2_base0 s2_base1] in K. rewrite Pf, Sf, Pb, Sb in K. cbn in K. lia. }
  unfold s2_shape_physical, s2_shape_spectral. cbn [s2_base0 s2_base1]. rewrite Pf, Sf, Pb, Sb. do 2 (split; [reflexivity|]). split.
  - eexists. apply (outy 3 6 7 (ramp [6; 7])).
  - intros r Hr. destruct (new_and_lookups _ _ Uf Ub Debug 3 Ds r Hr) as (sm & E & _). eauto.
Qed.
