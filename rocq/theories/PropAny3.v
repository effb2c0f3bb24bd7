(** C53, distributed: Space2Mpi leaves every rank with its pencil of the serial
    Space2 result, bit for bit: in any arithmetic and with any transform
    libraries the same library calls are made on the same lines. *)
From Coq Require Import List Arith Lia Bool ZArith Reals FunctionalExtensionality.
From Verif Require Import Base Num Linalg Stencils Cheb Compo CompoProofs Fourier FourierF64 NdArray NdArrayFacts AxisFacts Bases BaseLin LibBase AxisProps PropAxis Space
  SpaceFacts SpaceBases SpaceStages PropSpace PropSpace4 MpiSem Decomp MpiSpec DistFacts TabFacts DecompFacts DistNew MpiRuns PropMpi SpaceMpi PropHandler
  SpaceMpiFacts PropSpaceMpi ExtLib AnyArith ExtFacts AnyBase PropAny PropAny2.
Import ListNotations.
Local Open Scope nat_scope.

Theorem C53_every_lookup_is_registered :
  forall A (N : Num A) (Z0 : EqZ A) (E : ext A),
  forall P I S (b0 : base_ops I S S) (b1 : base_ops P I S),
  any_base E I S S b0 -> any_base E P I S b1 ->
  forall bm p me sm, s2mpi_new bm p me (mk_space2 b0 b1) = Ok sm ->
  forall e0 e1, In e0 [len_phys b0; len_spec b0; len_orth b0] -> In e1 [len_phys b1; len_spec b1; len_orth b1] ->
  exists d, get_dcp sm [e0; e1] = Ok d /\ decomp_new bm p me [e0; e1] = Ok d.
Proof.
  intros A N Z0 EX P I S b0 b1 L0 L1 bm p me sm H e0 e1 H0 H1.
  pose proof (any_orth EX I S S b0 L0) as O0. pose proof (any_orth EX P I S b1 L1) as O1.
  destruct (s2mpi_new_inv _ _ _ _ _ H) as (_ & ds & Eh & Hd & Hr). cbn [s2_base0 s2_base1] in Hr.
  assert (K : In [e0; e1] (map n_global ds)).
  { apply Hr.
    - destruct H0 as [<-|[<-|[<-|[]]]]; auto.
    - destruct H1 as [<-|[<-|[<-|[]]]]; auto. }
  unfold get_dcp. rewrite Eh. destruct (C38_lookup ds [e0; e1]) as [A1 B].
  destruct (handler_get (handler_of ds) [e0; e1]) as [d| |] eqn:E.
  - exists d. split; auto. destruct (proj1 (A1 d) eq_refl) as (N1 & l1 & l2 & -> & _). rewrite <- N1. apply Hd. apply in_elt.
  - exfalso. apply in_map_iff in K as (d & Nd & Id). apply (proj1 B eq_refl d Id). auto.
  - exfalso. unfold handler_get in E. destruct (hm_get _ _ _); cbn in E; try discriminate. destruct (hm_get _ _ _); discriminate.
Qed.
Print Assumptions C53_every_lookup_is_registered.

Theorem C53_constructor_returns :
  forall A (N : Num A) (Z0 : EqZ A) (E : ext A),
  forall P I S (b0 : base_ops I S S) (b1 : base_ops P I S),
  any_base E I S S b0 -> any_base E P I S b1 ->
  forall bm p me, 1 <= p -> me < p -> p <= len_phys b0 -> p <= len_phys b1 -> p <= len_spec b0 -> p <= len_spec b1 ->
  (forall n, In n [len_phys b0; len_phys b1; len_spec b0; len_spec b1] -> (Z.of_nat n < 2 ^ 64 - 1)%Z) ->
  exists sm, s2mpi_new bm p me (mk_space2 b0 b1) = Ok sm /\ sm_space sm = mk_space2 b0 b1.
Proof.
  intros A N Z0 EX P I S b0 b1 L0 L1 bm p me Hp Hm K0 K1 K2 K3 Hb.
  assert (B : forall n, In n [len_phys b0; len_phys b1; len_spec b0; len_spec b1] -> (Z.of_nat n + 1 < u64max)%Z).
  { intros n Hn. specialize (Hb n Hn). unfold u64max. lia. }
  unfold s2mpi_new. cbn [s2_base0 s2_base1].
  rewrite decomp_new_ok by (auto; apply B; cbn; auto). cbn [bind].
  destruct (negb (len_spec b0 =? len_phys b0)); [rewrite decomp_new_ok by (auto; apply B; cbn; auto)|]; cbn [bind andb];
  (destruct (negb (len_spec b1 =? len_phys b1)); [rewrite decomp_new_ok by (auto; apply B; cbn; auto)|]); cbn [bind];
  try (rewrite decomp_new_ok by (auto; apply B; cbn; auto)); cbn [bind]; eexists; split; reflexivity.
Qed.

Section Runs.
Context {A : Type} {N : Num A} {Z0 : EqZ A} (EX : ext A) {P I S : Type} {dP : Dflt P} {dI : Dflt I} {dS : Dflt S}.
Variables (b0 : base_ops I S S) (b1 : base_ops P I S).
Hypothesis U0 : any_usable EX I S S b0.
Hypothesis U1 : any_usable EX P I S b1.
Variables (bm : bmode) (p : nat).
Notation sp := (mk_space2 b0 b1).
Hypothesis Hd : distributable sp p.

Lemma any_dist_orth e0 e1 : In e0 [len_phys b0; len_spec b0; len_orth b0] -> In e1 [len_phys b1; len_spec b1; len_orth b1] ->
  p <= e0 /\ p <= e1 /\ pencils_fit e0 e1 p.
Proof.
  intros H0 H1. pose proof (any_orth EX I S S b0 (any_usable_base EX I S S b0 U0)) as O0. pose proof (any_orth EX P I S b1 (any_usable_base EX P I S b1 U1)) as O1.
  apply (proj2 Hd); cbn [s2_base0 s2_base1 In] in *; intuition congruence.
Qed.

Lemma any_new_and_lookups r : r < p -> exists sm, s2mpi_new bm p r sp = Ok sm /\ sm_space sm = sp /\
  forall e0 e1, In e0 [len_phys b0; len_spec b0; len_orth b0] -> In e1 [len_phys b1; len_spec b1; len_orth b1] -> get_dcp sm [e0; e1] = Ok (dcp e0 e1 p r).
Proof.
  intros Hr. pose proof (proj1 Hd) as Hp.
  assert (B : forall e0 e1, In e0 [len_phys b0; len_spec b0; len_orth b0] -> In e1 [len_phys b1; len_spec b1; len_orth b1] ->
    (Z.of_nat e0 + 1 < u64max)%Z /\ (Z.of_nat e1 + 1 < u64max)%Z).
  { intros e0 e1 H0 H1. destruct (any_dist_orth e0 e1 H0 H1) as (A' & B & F). apply (fit_bounds e0 e1 p); auto. }
  destruct (B (len_phys b0) (len_phys b1)) as [B1 B2]; cbn; auto.
  destruct (B (len_spec b0) (len_spec b1)) as [B3 B4]; cbn; auto.
  destruct (any_dist_orth (len_phys b0) (len_phys b1)) as (A1 & A2 & _); cbn; auto.
  destruct (any_dist_orth (len_spec b0) (len_spec b1)) as (A3 & A4 & _); cbn; auto.
  destruct (C53_constructor_returns A N Z0 EX P I S b0 b1 (any_usable_base EX I S S b0 U0) (any_usable_base EX P I S b1 U1) bm p r Hp Hr A1 A2 A3 A4) as (sm & E & Es).
  { change (2 ^ 64)%Z with u64max. intros n [<-|[<-|[<-|[<-|[]]]]]; lia. }
  exists sm. split; auto. split; auto. intros e0 e1 H0 H1.
  destruct (C53_every_lookup_is_registered A N Z0 EX P I S b0 b1 (any_usable_base EX I S S b0 U0) (any_usable_base EX P I S b1 U1) bm p r sm E e0 e1 H0 H1) as (d & -> & Ed).
  destruct (any_dist_orth e0 e1 H0 H1) as (C1 & C2 & F). destruct (B e0 e1 H0 H1).
  rewrite decomp_new_ok in Ed by auto. congruence.
Qed.

(** run a method of the constructed space *)
Lemma any_world_run {E X} (k : nat -> mprog E X) (method : nat -> space2mpi P I S -> mprog E X) xs :
  brun p k xs ->
  (forall r sm, r < p -> sm_space sm = sp ->
    (forall e0 e1, In e0 [len_phys b0; len_spec b0; len_orth b0] -> In e1 [len_phys b1; len_spec b1; len_orth b1] -> get_dcp sm [e0; e1] = Ok (dcp e0 e1 p r)) ->
    method r sm = k r) ->
  every_schedule (world bm p sp method) (map xs (seq 0 p)).
Proof.
  intros B H. apply (brun_every_schedule p (fun r => let^ sm := s2mpi_new bm p r sp in method r sm)). eapply brun_ext. exact B.
  intros r Hr. cbn beta. destruct (any_new_and_lookups r Hr) as (sm & Es & Esp & Lk). rewrite Es. cbn [mlift mbind]. symmetry. apply H; auto.
Qed.
End Runs.

Theorem C53_distributed_forward :
  forall A (N : Num A) (Z0 : EqZ A) (E : ext A), ext_ok E -> is0 (n0 (A := A)) = true ->
  forall P I S (dP : Dflt P) (dI : Dflt I) (dS : Dflt S) (b0 : base_ops I S S) (b1 : base_ops P I S),
  any_usable E I S S b0 -> any_usable E P I S b1 ->
  let sp := mk_space2 b0 b1 in forall bm p, distributable sp p ->
  forall zs zo, zip_ok zs -> (forall r, zip_ok (zo r)) ->
  forall g ins outs, proper (s2_shape_physical sp) g -> y_pencils_of (s2_shape_physical sp) p g ins ->
    (forall r, r < p -> proper [len_spec b0; blk_len (len_spec b1) p r] (outs r)) ->
  exists h res, s2_forward zs sp g = Ok h /\ x_pencils_of (s2_shape_spectral sp) p h res /\
    every_schedule (world bm p sp (fun r sm => forward_mpi bm (zo r) sm (ins r))) (map res (seq 0 p)) /\
    every_schedule (world bm p sp (fun r sm => forward_inplace_mpi bm (zo r) sm (ins r) (outs r))) (map res (seq 0 p)).
Proof.
  intros A NN Z0 EX HE HZ P I S dP dI dS b0 b1 U0 U1 sp bm p Hd zs zo Hzs Hz g ins outs Hg Hin Ho. pose (VP := deg dP : Vec R P). pose (VI := deg dI : Vec R I). pose (VS := deg dS : Vec R S). subst sp.
  destruct (any_facts EX HE HZ I S S b0 dI dS dS U0) as (F0 & B0 & O0 & Q0). destruct (any_facts EX HE HZ P I S b1 dP dI dS U1) as (F1 & B1 & O1 & Q1).
  destruct (C53_space2_applies_each_base_along_its_axis A NN Z0 EX HE HZ P I S S b0 b1 U0 U1 dP dI dS dS zs Hzs) as (K & _).
  destruct (K g (azeros dflt (s2_shape_spectral (mk_space2 b0 b1))) Hg (proper_zeros _ _)) as (m & h & _ & E & Ph & A1 & A0).
  exists h, (fun r => xpen (len_spec b0) (len_spec b1) p h r true). split; auto. split. apply (outx p (len_spec b0) (len_spec b1) h).
  assert (F : p <= len_phys b0 /\ p <= len_spec b1 /\ pencils_fit (len_phys b0) (len_spec b1) p) by (apply (any_dist_orth EX b0 b1 U0 U1 p Hd); cbn; auto).
  assert (Sg : shp g = [len_phys b0; len_phys b1]) by apply Hg.
  split.
  - eapply (any_world_run EX b0 b1 U0 U1 bm p Hd).
    + apply (forward_run b0 b1 bm p Hd zo Hz _ _ _ _ _ _ g m h (fun r x => forward (zo r) b0 x 0) F1 F0 Sg A1 A0 F).
      intros r x Hr Hx. reflexivity.
    + intros r sm Hr Esp Lk. unfold forward_mpi. rewrite Esp. cbn [s2_base0 s2_base1]. rewrite Lk by (cbn; auto). rewrite (iny p _ _ g ins Hin r Hr). reflexivity.
  - eapply (any_world_run EX b0 b1 U0 U1 bm p Hd).
    + apply (forward_run b0 b1 bm p Hd zo Hz _ _ _ _ _ _ g m h (fun r x => forward_inplace (zo r) b0 x (outs r) 0) F1 F0 Sg A1 A0 F).
      intros r x Hr (Sx & _ & _). eapply (fin_inplace (forward_slice b0) (len_phys b0) (len_spec b0) (zo r) x (outs r) 0); auto. all: rewrite Sx; cbn; auto; lia.
    + intros r sm Hr Esp Lk. unfold forward_inplace_mpi. rewrite Esp. cbn [s2_base0 s2_base1]. rewrite Lk by (cbn; auto). rewrite (iny p _ _ g ins Hin r Hr). reflexivity.
Qed.
Print Assumptions C53_distributed_forward.

Theorem C53_distributed_backward :
  forall A (N : Num A) (Z0 : EqZ A) (E : ext A), ext_ok E -> is0 (n0 (A := A)) = true ->
  forall P I S (dP : Dflt P) (dI : Dflt I) (dS : Dflt S) (b0 : base_ops I S S) (b1 : base_ops P I S),
  any_usable E I S S b0 -> any_usable E P I S b1 ->
  let sp := mk_space2 b0 b1 in forall bm p, distributable sp p ->
  forall zs zo, zip_ok zs -> (forall r, zip_ok (zo r)) ->
  forall g ins outs, proper (s2_shape_spectral sp) g -> x_pencils_of (s2_shape_spectral sp) p g ins ->
    (forall r, r < p -> proper [blk_len (len_phys b0) p r; len_phys b1] (outs r)) ->
  exists h res, s2_backward zs sp g = Ok h /\ y_pencils_of (s2_shape_physical sp) p h res /\
    every_schedule (world bm p sp (fun r sm => backward_mpi bm (zo r) sm (ins r))) (map res (seq 0 p)) /\
    every_schedule (world bm p sp (fun r sm => backward_inplace_mpi bm (zo r) sm (ins r) (outs r))) (map res (seq 0 p)).
Proof.
  intros A NN Z0 EX HE HZ P I S dP dI dS b0 b1 U0 U1 sp bm p Hd zs zo Hzs Hz g ins outs Hg Hin Ho. pose (VP := deg dP : Vec R P). pose (VI := deg dI : Vec R I). pose (VS := deg dS : Vec R S). subst sp.
  destruct (any_facts EX HE HZ I S S b0 dI dS dS U0) as (F0 & B0 & O0 & Q0). destruct (any_facts EX HE HZ P I S b1 dP dI dS U1) as (F1 & B1 & O1 & Q1).
  destruct (C53_space2_applies_each_base_along_its_axis A NN Z0 EX HE HZ P I S S b0 b1 U0 U1 dP dI dS dS zs Hzs) as (_ & K & _).
  destruct (K g (azeros dflt (s2_shape_physical (mk_space2 b0 b1))) Hg (proper_zeros _ _)) as (m & h & _ & E & Ph & A0 & A1).
  exists h, (fun r => ypen (len_phys b0) (len_phys b1) p h r true). split; auto. split. apply (outy p (len_phys b0) (len_phys b1) h).
  assert (F : p <= len_phys b0 /\ p <= len_spec b1 /\ pencils_fit (len_phys b0) (len_spec b1) p) by (apply (any_dist_orth EX b0 b1 U0 U1 p Hd); cbn; auto).
  assert (Sg : shp g = [len_spec b0; len_spec b1]) by apply Hg.
  split.
  - eapply (any_world_run EX b0 b1 U0 U1 bm p Hd).
    + apply (backward_run b0 b1 bm p Hd zo Hz _ _ _ _ _ _ g m h (fun r x => backward (zo r) b1 x 1) B0 B1 Sg A0 A1 F).
      intros r x Hr Hx. reflexivity.
    + intros r sm Hr Esp Lk. unfold backward_mpi. rewrite Esp. cbn [s2_base0 s2_base1]. rewrite Lk by (cbn; auto). rewrite (inx p _ _ g ins Hin r Hr). reflexivity.
  - eapply (any_world_run EX b0 b1 U0 U1 bm p Hd).
    + apply (backward_run b0 b1 bm p Hd zo Hz _ _ _ _ _ _ g m h (fun r x => backward_inplace (zo r) b1 x (outs r) 1) B0 B1 Sg A0 A1 F).
      intros r x Hr (Sx & _ & _). eapply (fin_inplace (backward_slice b1) (len_spec b1) (len_phys b1) (zo r) x (outs r) 1); auto. all: rewrite Sx; cbn; auto; lia.
    + intros r sm Hr Esp Lk. unfold backward_inplace_mpi. rewrite Esp. cbn [s2_base0 s2_base1]. rewrite Lk by (cbn; auto). rewrite (inx p _ _ g ins Hin r Hr). reflexivity.
Qed.
Print Assumptions C53_distributed_backward.

Theorem C53_distributed_to_ortho :
  forall A (N : Num A) (Z0 : EqZ A) (E : ext A), ext_ok E -> is0 (n0 (A := A)) = true ->
  forall P I S (dP : Dflt P) (dI : Dflt I) (dS : Dflt S) (b0 : base_ops I S S) (b1 : base_ops P I S),
  any_usable E I S S b0 -> any_usable E P I S b1 ->
  let sp := mk_space2 b0 b1 in forall bm p, distributable sp p ->
  forall zs zo, zip_ok zs -> (forall r, zip_ok (zo r)) ->
  forall g ins outs, proper (s2_shape_spectral sp) g -> x_pencils_of (s2_shape_spectral sp) p g ins ->
    (forall r, r < p -> proper [len_orth b0; blk_len (len_orth b1) p r] (outs r)) ->
  exists h res, s2_to_ortho zs sp g = Ok h /\ x_pencils_of (s2_shape_spectral_ortho sp) p h res /\
    every_schedule (world bm p sp (fun r sm => to_ortho_mpi bm (zo r) sm (ins r))) (map res (seq 0 p)) /\
    every_schedule (world bm p sp (fun r sm => to_ortho_inplace_mpi bm (zo r) sm (ins r) (outs r))) (map res (seq 0 p)).
Proof.
  intros A NN Z0 EX HE HZ P I S dP dI dS b0 b1 U0 U1 sp bm p Hd zs zo Hzs Hz g ins outs Hg Hin Ho. pose (VP := deg dP : Vec R P). pose (VI := deg dI : Vec R I). pose (VS := deg dS : Vec R S). subst sp.
  destruct (any_facts EX HE HZ I S S b0 dI dS dS U0) as (F0 & B0 & O0 & Q0). destruct (any_facts EX HE HZ P I S b1 dP dI dS U1) as (F1 & B1 & O1 & Q1).
  destruct (C53_space2_applies_each_base_along_its_axis A NN Z0 EX HE HZ P I S S b0 b1 U0 U1 dP dI dS dS zs Hzs) as (_ & _ & K & _).
  destruct (K g (azeros dflt (s2_shape_spectral_ortho (mk_space2 b0 b1))) Hg (proper_zeros _ _)) as (m & h & _ & E & Ph & A0 & A1).
  exists h, (fun r => xpen (len_orth b0) (len_orth b1) p h r true). split; auto. split. apply (outx p (len_orth b0) (len_orth b1) h).
  assert (F : p <= len_orth b0 /\ p <= len_spec b1 /\ pencils_fit (len_orth b0) (len_spec b1) p) by (apply (any_dist_orth EX b0 b1 U0 U1 p Hd); cbn; auto).
  assert (F' : p <= len_orth b0 /\ p <= len_orth b1 /\ pencils_fit (len_orth b0) (len_orth b1) p) by (apply (any_dist_orth EX b0 b1 U0 U1 p Hd); cbn; auto).
  assert (Sg : shp g = [len_spec b0; len_spec b1]) by apply Hg.
  split.
  - eapply (any_world_run EX b0 b1 U0 U1 bm p Hd).
    + apply (ortho_run b0 b1 bm p Hd zo Hz _ _ _ _ _ _ g m h (fun r => azeros dflt (d_sz (x_pencil (dcp (len_orth b0) (len_orth b1) p r)))) O0 O1 Sg A0 A1 F F').
      intros r Hr. apply zeros_x.
    + intros r sm Hr Esp Lk. unfold to_ortho_mpi. rewrite Esp. cbn [s2_base0 s2_base1]. rewrite !Lk by (cbn; auto). rewrite (inx p _ _ g ins Hin r Hr). reflexivity.
  - eapply (any_world_run EX b0 b1 U0 U1 bm p Hd).
    + apply (ortho_run b0 b1 bm p Hd zo Hz _ _ _ _ _ _ g m h outs O0 O1 Sg A0 A1 F F').
      exact Ho.
    + intros r sm Hr Esp Lk. unfold to_ortho_inplace_mpi. rewrite Esp. cbn [s2_base0 s2_base1]. rewrite !Lk by (cbn; auto). rewrite (inx p _ _ g ins Hin r Hr). reflexivity.
Qed.
Print Assumptions C53_distributed_to_ortho.

Theorem C53_distributed_from_ortho :
  forall A (N : Num A) (Z0 : EqZ A) (E : ext A), ext_ok E -> is0 (n0 (A := A)) = true ->
  forall P I S (dP : Dflt P) (dI : Dflt I) (dS : Dflt S) (b0 : base_ops I S S) (b1 : base_ops P I S),
  any_usable E I S S b0 -> any_usable E P I S b1 ->
  let sp := mk_space2 b0 b1 in forall bm p, distributable sp p ->
  forall zs zo, zip_ok zs -> (forall r, zip_ok (zo r)) ->
  forall g ins outs, proper (s2_shape_spectral_ortho sp) g -> x_pencils_of (s2_shape_spectral_ortho sp) p g ins ->
    (forall r, r < p -> proper [len_spec b0; blk_len (len_spec b1) p r] (outs r)) ->
  exists h res, s2_from_ortho zs sp g = Ok h /\ x_pencils_of (s2_shape_spectral sp) p h res /\
    every_schedule (world bm p sp (fun r sm => from_ortho_mpi bm (zo r) sm (ins r))) (map res (seq 0 p)) /\
    every_schedule (world bm p sp (fun r sm => from_ortho_inplace_mpi bm (zo r) sm (ins r) (outs r))) (map res (seq 0 p)).
Proof.
  intros A NN Z0 EX HE HZ P I S dP dI dS b0 b1 U0 U1 sp bm p Hd zs zo Hzs Hz g ins outs Hg Hin Ho. pose (VP := deg dP : Vec R P). pose (VI := deg dI : Vec R I). pose (VS := deg dS : Vec R S). subst sp.
  destruct (any_facts EX HE HZ I S S b0 dI dS dS U0) as (F0 & B0 & O0 & Q0). destruct (any_facts EX HE HZ P I S b1 dP dI dS U1) as (F1 & B1 & O1 & Q1).
  destruct (C53_space2_applies_each_base_along_its_axis A NN Z0 EX HE HZ P I S S b0 b1 U0 U1 dP dI dS dS zs Hzs) as (_ & _ & _ & K).
  destruct (K g (azeros dflt (s2_shape_spectral (mk_space2 b0 b1))) Hg (proper_zeros _ _)) as (m & h & _ & E & Ph & A0 & A1).
  exists h, (fun r => xpen (len_spec b0) (len_spec b1) p h r true). split; auto. split. apply (outx p (len_spec b0) (len_spec b1) h).
  assert (F : p <= len_spec b0 /\ p <= len_orth b1 /\ pencils_fit (len_spec b0) (len_orth b1) p) by (apply (any_dist_orth EX b0 b1 U0 U1 p Hd); cbn; auto).
  assert (F' : p <= len_spec b0 /\ p <= len_spec b1 /\ pencils_fit (len_spec b0) (len_spec b1) p) by (apply (any_dist_orth EX b0 b1 U0 U1 p Hd); cbn; auto).
  assert (Sg : shp g = [len_orth b0; len_orth b1]) by apply Hg.
  split.
  - eapply (any_world_run EX b0 b1 U0 U1 bm p Hd).
    + apply (ortho_run b0 b1 bm p Hd zo Hz _ _ _ _ _ _ g m h (fun r => azeros dflt (d_sz (x_pencil (dcp (len_spec b0) (len_spec b1) p r)))) Q0 Q1 Sg A0 A1 F F').
      intros r Hr. apply zeros_x.
    + intros r sm Hr Esp Lk. unfold from_ortho_mpi. rewrite Esp. cbn [s2_base0 s2_base1]. rewrite !Lk by (cbn; auto). rewrite (inx p _ _ g ins Hin r Hr). reflexivity.
  - eapply (any_world_run EX b0 b1 U0 U1 bm p Hd).
    + apply (ortho_run b0 b1 bm p Hd zo Hz _ _ _ _ _ _ g m h outs Q0 Q1 Sg A0 A1 F F').
      exact Ho.
    + intros r sm Hr Esp Lk. unfold from_ortho_inplace_mpi. rewrite Esp. cbn [s2_base0 s2_base1]. rewrite !Lk by (cbn; auto). rewrite (inx p _ _ g ins Hin r Hr). reflexivity.
Qed.
Print Assumptions C53_distributed_from_ortho.

Theorem C53_distributed_gradient :
  forall A (N : Num A) (Z0 : EqZ A) (E : ext A), ext_ok E -> is0 (n0 (A := A)) = true ->
  forall P I S (dP : Dflt P) (dI : Dflt I) (dS : Dflt S) (b0 : base_ops I S S) (b1 : base_ops P I S),
  any_usable E I S S b0 -> any_usable E P I S b1 ->
  let sp := mk_space2 b0 b1 in forall bm p, distributable sp p ->
  forall zs zo, zip_ok zs -> (forall r, zip_ok (zo r)) ->
  forall A' (N' : Num A') (D : DivInto A' S) d0 d1 (scale : option (A' * A')), total_gradient b0 d0 -> total_gradient b1 d1 ->
  forall g ins, proper (s2_shape_spectral sp) g -> x_pencils_of (s2_shape_spectral sp) p g ins ->
  exists h res, s2_gradient zs sp g d0 d1 scale = Ok h /\ x_pencils_of (s2_shape_spectral_ortho sp) p h res /\
    every_schedule (world bm p sp (fun r sm => gradient_mpi bm (zo r) sm (ins r) d0 d1 scale)) (map res (seq 0 p)).
Proof.
  intros A NN Z0 EX HE HZ P I S dP dI dS b0 b1 U0 U1 sp bm p Hd zs zo Hzs Hz A' N' D d0 d1 scale T0 T1 g ins Hg Hin. pose (VP := deg dP : Vec R P). pose (VI := deg dI : Vec R I). pose (VS := deg dS : Vec R S). subst sp.
  pose proof (any_grad_linop EX HE HZ I S S b0 d0 dS U0 T0) as L0. pose proof (any_grad_linop EX HE HZ P I S b1 d1 dS U1 T1) as L1.
  destruct (C53_space2_gradient A NN Z0 EX HE HZ P I S S b0 b1 U0 U1 dP dI dS dS A' N' D zs Hzs d0 d1 T0 T1 g Hg) as (m & h & E & Ph & A0 & A1).
  exists (s2_scale d0 d1 scale h), (fun r => xpen (len_orth b0) (len_orth b1) p (s2_scale d0 d1 scale h) r true).
  split. { unfold s2_gradient in E |- *. destruct (gradient zs _ g d0 0); try discriminate. cbn [bind] in *. destruct (gradient zs _ _ d1 1); try discriminate. cbn [bind] in *. injection E as ->. auto. }
  split. apply (outx p (len_orth b0) (len_orth b1) (s2_scale d0 d1 scale h)).
  assert (F : p <= len_orth b0 /\ p <= len_spec b1 /\ pencils_fit (len_orth b0) (len_spec b1) p) by (apply (any_dist_orth EX b0 b1 U0 U1 p Hd); cbn; auto).
  assert (F' : p <= len_orth b0 /\ p <= len_orth b1 /\ pencils_fit (len_orth b0) (len_orth b1) p) by (apply (any_dist_orth EX b0 b1 U0 U1 p Hd); cbn; auto).
  assert (Sg : shp g = [len_spec b0; len_spec b1]) by apply Hg.
  eapply (any_world_run EX b0 b1 U0 U1 bm p Hd).
  - apply (gradient_run b0 b1 bm p Hd zo Hz _ _ _ _ _ _ g m h (fun r => azeros dflt (d_sz (x_pencil (dcp (len_orth b0) (len_orth b1) p r)))) (s2_scale d0 d1 scale) (s2_scale d0 d1 scale h) L0 L1 Sg A0 A1 F F').
    intros r Hr; apply zeros_x. intros r Hr. destruct scale as [[s0 s1]|]; auto. cbn [s2_scale]. apply scale_xpen; auto. apply Hd. split; apply Ph.
  - intros r sm Hr Esp Lk. unfold gradient_mpi. rewrite Esp. cbn [s2_base0 s2_base1]. rewrite !Lk by (cbn; auto). rewrite (inx p _ _ g ins Hin r Hr).
    cbn [mlift mbind]. rewrite gradient_axop. f_equal. apply functional_extensionality. intros a. f_equal. apply functional_extensionality. intros y. rewrite gradient_axop. reflexivity.
Qed.
Print Assumptions C53_distributed_gradient.

(** Binary64, any sin/cos table: a Fourier (n = 6) x Dirichlet (n = 7) space on
    three ranks meets the hypotheses of this file and of PropAny2.v. *)
Example C53_hyps_met : forall Tr : Trig f64, exists (E : ext f64) f b, ext_ok E /\ is0 (n0 (A := f64)) = true /\
  r2c_new 6 = Ok f /\ new_composite KDirichlet 7 = Ok b /\
  let b0 := r2c_ops_x E f in let b1 := r2r_ops_x E (T := cplx f64) b in let sp := mk_space2 b0 b1 in
  any_usable E f64 (cplx f64) (cplx f64) b0 /\ any_usable E f64 f64 (cplx f64) b1 /\
  s2_shape_physical sp = [6; 7] /\ s2_shape_spectral sp = [4; 5] /\ s2_shape_spectral_ortho sp = [4; 7] /\
  distributable sp 3 /\ ~ distributable sp 5 /\ total_gradient b0 2 /\ total_gradient b1 3 /\
  (forall g : arr f64, exists ins, y_pencils_of (s2_shape_physical sp) 3 g ins) /\
  proper (s2_shape_physical sp) (mk_arr [6; 7] true (map (fun k => nofZ (Z.of_nat k)) (seq 0 42)) : arr f64).
Proof.
  intros Tr. exists documented. pose proof (documented_ok (A := f64)) as HE. assert (HZ : is0 (n0 (A := f64)) = true) by reflexivity.
  destruct (r2c_new 6) as [f| |] eqn:Ef; try discriminate.
  pose proof (proj1 (proj2 (C53_constructors f64 num_f64)) KDirichlet 7) as K. destruct (new_composite KDirichlet 7) as [b| |] eqn:Eb; [|cbn in K; lia|tauto].
  exists f, b. do 4 (split; [assumption || reflexivity|]). cbv zeta.
  destruct (proj1 (C53_fourier_slices f64 _ _ documented HE HZ) 6 f Ef) as (P0 & S0 & O0 & _ & _ & _ & _ & G0).
  destruct (C53_composite_slices f64 _ documented HE (cplx f64) vec_cplx KDirichlet 7 b Eb) as (P1 & S1 & O1 & _ & _ & _ & G1).
  change (6 / 2 + 1) with 4 in *. change (sdim KDirichlet 7) with 5 in *.
  split. { eapply aus_r2c; eauto. } split. { apply (aus_composite documented _ _ KDirichlet 7); auto. }
  unfold s2_shape_physical, s2_shape_spectral, s2_shape_spectral_ortho, distributable, total_gradient. cbn [s2_base0 s2_base1].
  rewrite P0, S0, O0, P1, S1, O1. do 3 (split; [reflexivity|]).
  split. { split. lia. intros e0 e1 [<-|[<-|[]]] [<-|[<-|[]]]; repeat split; try lia; (destruct r as [|[|[|r]]]; [vm_compute; reflexivity..|lia]). }
  split. { intros [_ K']. specialize (K' 4 5). cbn in K'. lia. }
  split. { intros x y Hx Hy. destruct (G0 2) as (g & Hg). exists (g x). apply (Hg x y); auto. }
  split. { intros x y Hx Hy. destruct (G1 3) as (g & Hg). exists (g x). apply (Hg x y); auto. }
  split. { intros g. eexists. apply (outy 3 6 7 g). }
  split; [reflexivity|]. split; reflexivity.
Qed.
