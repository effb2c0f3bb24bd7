(** C61: the distributed example programs run to completion on every number of
    ranks and under every schedule; their assertion that the distributed result
    equals the serial one can fail only on values that are not equal to
    themselves (NaN). *)
From Coq Require Import List Arith Lia Bool ZArith Reals FunctionalExtensionality.
From Verif Require Import Base Num Linalg Stencils Cheb Compo CompoProofs Fourier FourierF64 NdArray NdArrayFacts AxisFacts Bases BaseLin LibBase AxisProps PropAxis Space
  SpaceFacts SpaceBases SpaceStages PropSpace PropSpace4 MpiSem Decomp MpiSpec DistFacts TabFacts DecompFacts DistNew MpiRuns PropMpi PropMpi2 SpaceMpi PropHandler
  SpaceMpiFacts PropSpaceMpi ExtLib AnyArith ExtFacts AnyBase PropAny PropAny2 PropAny3 MpiMix Examples.
Import ListNotations.
Local Open Scope nat_scope.

Lemma all_eq_refl {P} (eqP : P -> P -> bool) l : (forall x, In x l -> eqP x x = true) -> all_eq eqP l l = true.
Proof. induction l as [|x l IH]; cbn; auto. intros H. rewrite (H x) by auto. apply IH. auto. Qed.
Lemma list_eqb_refl l : list_eqb l l = true.
Proof. induction l; cbn; auto. rewrite Nat.eqb_refl; auto. Qed.

Theorem C61_mpi_examples_run_to_completion :
  forall A (N : Num A) (Z0 : EqZ A) (E : ext A), ext_ok E -> is0 (n0 (A := A)) = true ->
  forall P I S (dP : Dflt P) (dI : Dflt I) (dS : Dflt S) (b0 : base_ops I S S) (b1 : base_ops P I S),
  any_usable E I S S b0 -> any_usable E P I S b1 ->
  let sp := mk_space2 b0 b1 in forall bm p, distributable sp p -> (Z.of_nat (len_phys b0 * len_phys b1) < 2 ^ 31)%Z ->
  forall zs (zo : nat -> nat -> zip_order), zip_ok zs -> (forall r c, zip_ok (zo r c)) ->
  forall (value : nat -> P) (eqP : P -> P -> bool),
  let g := mk_arr [len_phys b0; len_phys b1] true (map value (seq 0 (len_phys b0 * len_phys b1))) in
  exists vhat v, s2_forward zs sp g = Ok vhat /\ s2_backward zs sp vhat = Ok v /\
    ((forall x, In x (dat v) -> eqP x x = true) ->
     every_schedule (world bm p sp (fun r sm => mpi_example bm (zo r) eqP value r sm)) (repeat tt p)).
Proof.
  intros A NN Z0 EX HE HZ P I S dP dI dS b0 b1 U0 U1 sp bm p Hd B zs zo Hzs Hzo value eqP g.
  pose (VP := deg dP : Vec R P). pose (VI := deg dI : Vec R I). pose (VS := deg dS : Vec R S). subst sp.
  destruct (any_facts EX HE HZ I S S b0 dI dS dS U0) as (F0 & B0 & O0 & Q0). destruct (any_facts EX HE HZ P I S b1 dP dI dS U1) as (F1 & B1 & O1 & Q1).
  set (sp := mk_space2 b0 b1) in *. pose proof (proj1 Hd) as Hp.
  assert (Pg : proper (s2_shape_physical sp) g). { split; [reflexivity|]. split; [reflexivity|]. unfold g, wf. cbn [dat shp]. rewrite map_length, seq_length. unfold NdArray.size. cbn [fold_right]. lia. }
  assert (Gs : mk_arr (s2_shape_physical sp) true (map value (seq 0 (NdArray.size (s2_shape_physical sp)))) = g).
  { unfold g, s2_shape_physical, NdArray.size. cbn [s2_base0 s2_base1 fold_right]. rewrite Nat.mul_1_r. reflexivity. }
  destruct (C53_space2_applies_each_base_along_its_axis A NN Z0 EX HE HZ P I S S b0 b1 U0 U1 dP dI dS dS zs Hzs) as (KF & KB & KT & KO).
  destruct (KF g (azeros dflt (s2_shape_spectral sp)) Pg (proper_zeros _ _)) as (mf & vhat & _ & EF & PF & AF1 & AF0).
  destruct (KB vhat (azeros dflt (s2_shape_physical sp)) PF (proper_zeros _ _)) as (mb & v & _ & EB & PB & AB0 & AB1).
  destruct (KT vhat (azeros dflt (s2_shape_spectral_ortho sp)) PF (proper_zeros _ _)) as (mt & w & _ & ET & PT & AT0 & AT1).
  destruct (KO w (azeros dflt (s2_shape_spectral sp)) PT (proper_zeros _ _)) as (mo & w' & _ & EO & PO & AO0 & AO1).
  exists vhat, v. split; [exact EF|]. split; [exact EB|]. intros Heq.
  assert (DO : forall e0 e1, In e0 [len_phys b0; len_spec b0; len_orth b0] -> In e1 [len_phys b1; len_spec b1; len_orth b1] -> p <= e0 /\ p <= e1 /\ pencils_fit e0 e1 p).
  { apply (any_dist_orth EX b0 b1 U0 U1 p Hd). }
  replace (repeat tt p) with (map (fun _ => tt) (seq 0 p)).
  2: { clear. generalize 0. induction p as [|p IH]; cbn; auto. intros s. rewrite IH. auto. }
  set (smf := fun r => match s2mpi_new bm p r sp with Ok sm => sm | _ => mk_space2mpi sp handler_new end).
  assert (SM : forall r, r < p -> s2mpi_new bm p r sp = Ok (smf r) /\ sm_space (smf r) = sp /\
    forall e0 e1, In e0 [len_phys b0; len_spec b0; len_orth b0] -> In e1 [len_phys b1; len_spec b1; len_orth b1] -> get_dcp (smf r) [e0; e1] = Ok (dcp e0 e1 p r)).
  { intros r Hr. destruct (any_new_and_lookups EX b0 b1 U0 U1 bm p Hd r Hr) as (sm & Es & Esp & Lk). unfold smf. fold sp in Es. rewrite Es. auto. }
  unfold world. apply brun_every_schedule.
  eapply brun_ext with (ps := fun r => mpi_example bm (zo r) eqP value r (smf r)).
  2: { intros r Hr. destruct (SM r Hr) as (-> & _). reflexivity. }
  set (n0 := len_phys b0) in *. set (n1 := len_phys b1) in *.
  set (py := fun a r => ypen (dT := dP) n0 n1 p a r true). set (px := fun r => xpen (dT := dS) (len_spec b0) (len_spec b1) p vhat r true).
  (* the pieces *)
  assert (R1 : brun p (fun r => (if r =? 0 then phys (scatter_to_y_pencil_phys_root bm (smf r) g (azeros dflt [blk_len n0 p r; n1])) else phys (scatter_to_y_pencil_phys (smf r) (azeros dflt [blk_len n0 p r; n1]))) : mprog (mix P I S) (arr P)) (py g)).
  { eapply brun_ext. apply (brun_via of_phys get_phys (fun x => eq_refl)). exact (scatter_y_run bm n0 n1 p g Hp (Logic.conj (proj1 Pg) (proj2 (proj2 Pg))) B (fun r => azeros dflt [blk_len n0 p r; n1]) (fun r _ => zeros_shape _ _ _)).
    intros r Hr. destruct (SM r Hr) as (_ & Esp & Lk). unfold world_scatter_y, scatter_to_y_pencil_phys_root, scatter_to_y_pencil_phys, with_phys. rewrite Esp. unfold s2_shape_physical. cbn [s2_base0 s2_base1 sp]. rewrite Lk by (cbn; auto). cbn [mlift mbind]. destruct (r =? 0); reflexivity. }
  assert (R2 : brun p (fun r => mid (forward_inplace_mpi bm (zo r 0) (smf r) (py g r) (azeros dflt [len_spec b0; blk_len (len_spec b1) p r])) : mprog (mix P I S) (arr S)) px).
  { apply (brun_via of_mid get_mid (fun x => eq_refl)). eapply brun_ext.
    apply (forward_run b0 b1 bm p Hd (fun r => zo r 0) (fun r => Hzo r 0) _ _ _ _ _ _ g mf vhat (fun r x => forward_inplace (zo r 0) b0 x (azeros dflt [len_spec b0; blk_len (len_spec b1) p r]) 0) F1 F0 (proj1 Pg) AF1 AF0 ltac:(apply DO; cbn; auto)).
    intros r x Hr (Sx & _ & _). apply (fin_inplace (forward_slice b0) (len_phys b0) (len_spec b0) (zo r 0) x _ 0 [len_spec b0; blk_len (len_spec b1) p r] F0 (Hzo r 0)); [rewrite Sx; cbn; lia|apply proper_zeros|rewrite Sx; reflexivity].
    intros r Hr. destruct (SM r Hr) as (_ & Esp & Lk). unfold forward_inplace_mpi. rewrite Esp. cbn [s2_base0 s2_base1 sp]. rewrite Lk by (cbn; auto). reflexivity. }
  assert (R3 : brun p (fun r => mid (backward_inplace_mpi bm (zo r 1) (smf r) (px r) (py g r)) : mprog (mix P I S) (arr P)) (py v)).
  { apply (brun_via of_mid get_mid (fun x => eq_refl)). eapply brun_ext.
    apply (backward_run b0 b1 bm p Hd (fun r => zo r 1) (fun r => Hzo r 1) _ _ _ _ _ _ vhat mb v (fun r x => backward_inplace (zo r 1) b1 x (py g r) 1) B0 B1 (proj1 PF) AB0 AB1 ltac:(apply DO; cbn; auto)).
    intros r x Hr (Sx & _ & _). apply (fin_inplace (backward_slice b1) (len_spec b1) (len_phys b1) (zo r 1) x (py g r) 1 [blk_len n0 p r; n1] B1 (Hzo r 1)); [rewrite Sx; cbn; lia| |rewrite Sx; reflexivity].
    split; [reflexivity|]. split; [reflexivity|]. apply (ypen_shape n0 n1 p g r true).
    intros r Hr. destruct (SM r Hr) as (_ & Esp & Lk). unfold backward_inplace_mpi. rewrite Esp. cbn [s2_base0 s2_base1 sp]. rewrite Lk by (cbn; auto). reflexivity. }
  assert (R4 : brun p (fun r => phys (all_gather_from_y_pencil_phys bm (smf r) (py v r) (azeros dflt [n0; n1])) : mprog (mix P I S) (arr P)) (fun _ => v)).
  { apply (brun_via of_phys get_phys (fun x => eq_refl)). eapply brun_ext.
    eapply brun_res. apply (all_gather_y_run bm n0 n1 p v Hp B (fun _ => true) (fun _ => azeros dflt [n0; n1])). intros r Hr. split; [reflexivity|]. unfold wf, azeros. cbn [dat shp]. apply repeat_length.
    intros r Hr. cbn beta. rewrite whole_eq by (split; apply PB). destruct PB as (S1 & S2 & _). destruct v as [sh st l]. cbn [shp std dat azeros] in *. subst. reflexivity.
    intros r Hr. destruct (SM r Hr) as (_ & Esp & Lk). unfold all_gather_from_y_pencil_phys, with_phys. rewrite Esp. unfold s2_shape_physical. cbn [s2_base0 s2_base1 sp]. rewrite Lk by (cbn; auto). reflexivity. }
  assert (R5 : brun p (fun r => spec (to_ortho_mpi bm (zo r 4) (smf r) (px r)) : mprog (mix P I S) (arr S)) (fun r => xpen (len_orth b0) (len_orth b1) p w r true)).
  { apply (brun_via of_spec get_spec (fun x => eq_refl)). eapply brun_ext.
    apply (ortho_run b0 b1 bm p Hd (fun r => zo r 4) (fun r => Hzo r 4) _ _ _ _ _ _ vhat mt w (fun r => azeros dflt (d_sz (x_pencil (dcp (len_orth b0) (len_orth b1) p r)))) O0 O1 (proj1 PF) AT0 AT1 ltac:(apply DO; cbn; auto) ltac:(apply DO; cbn; auto)).
    intros r Hr. apply zeros_x. intros r Hr. destruct (SM r Hr) as (_ & Esp & Lk). unfold to_ortho_mpi. rewrite Esp. cbn [s2_base0 s2_base1 sp]. rewrite !Lk by (cbn; auto). reflexivity. }
  assert (R6 : brun p (fun r => spec (from_ortho_mpi bm (zo r 5) (smf r) (xpen (len_orth b0) (len_orth b1) p w r true)) : mprog (mix P I S) (arr S)) (fun r => xpen (len_spec b0) (len_spec b1) p w' r true)).
  { apply (brun_via of_spec get_spec (fun x => eq_refl)). eapply brun_ext.
    apply (ortho_run b0 b1 bm p Hd (fun r => zo r 5) (fun r => Hzo r 5) _ _ _ _ _ _ w mo w' (fun r => azeros dflt (d_sz (x_pencil (dcp (len_spec b0) (len_spec b1) p r)))) Q0 Q1 (proj1 PT) AO0 AO1 ltac:(apply DO; cbn; auto) ltac:(apply DO; cbn; auto)).
    intros r Hr. apply zeros_x. intros r Hr. destruct (SM r Hr) as (_ & Esp & Lk). unfold from_ortho_mpi. rewrite Esp. cbn [s2_base0 s2_base1 sp]. rewrite !Lk by (cbn; auto). reflexivity. }
  (* the serial part on each rank *)
  assert (SF : forall z o, zip_ok z -> proper (s2_shape_spectral sp) o -> s2_forward_inplace z sp g o = Ok vhat).
  { intros z o Hz Ho. destruct (C53_space2_applies_each_base_along_its_axis A NN Z0 EX HE HZ P I S S b0 b1 U0 U1 dP dI dS dS z Hz) as (K & _).
    destruct (K g o Pg Ho) as (m' & h' & E1 & _ & P' & A1' & A0'). fold sp in E1. rewrite E1. f_equal.
    assert (X : m' = mf) by (refine (axis_op_det _ _ _ _ _ _ _ A1' AF1); rewrite (proj1 Pg); cbn; lia). destruct X.
    refine (axis_op_det _ _ _ _ _ _ _ A0' AF0). rewrite (proj1 A1'), upd_length, (proj1 Pg). cbn; lia. }
  assert (SB : forall z o, zip_ok z -> proper (s2_shape_physical sp) o -> s2_backward_inplace z sp vhat o = Ok v).
  { intros z o Hz Ho. destruct (C53_space2_applies_each_base_along_its_axis A NN Z0 EX HE HZ P I S S b0 b1 U0 U1 dP dI dS dS z Hz) as (_ & K & _).
    destruct (K vhat o PF Ho) as (m' & h' & E1 & _ & P' & A0' & A1'). fold sp in E1. rewrite E1. f_equal.
    assert (X : m' = mb) by (refine (axis_op_det _ _ _ _ _ _ _ A0' AB0); rewrite (proj1 PF); cbn; lia). destruct X.
    refine (axis_op_det _ _ _ _ _ _ _ A1' AB1). rewrite (proj1 A0'), upd_length, (proj1 PF). cbn; lia. }
  (* one after the other *)
  unfold mpi_example.
  eapply brun_ext with (ps := fun r => let! y_pencil := (if r =? 0 then phys (scatter_to_y_pencil_phys_root bm (smf r) g (azeros dflt [blk_len n0 p r; n1])) else phys (scatter_to_y_pencil_phys (smf r) (azeros dflt [blk_len n0 p r; n1]))) in
    let! x_pencil := mid (forward_inplace_mpi bm (zo r 0) (smf r) y_pencil (azeros dflt [len_spec b0; blk_len (len_spec b1) p r])) in
    let! y_pencil := mid (backward_inplace_mpi bm (zo r 1) (smf r) x_pencil y_pencil) in
    let! v_mpi := phys (all_gather_from_y_pencil_phys bm (smf r) y_pencil (azeros dflt [n0; n1])) in
    let^ _ := assertb (arr_eq eqP v v_mpi) in
    let! ortho := spec (to_ortho_mpi bm (zo r 4) (smf r) x_pencil) in
    let! _ := spec (from_ortho_mpi bm (zo r 5) (smf r) ortho) in
    MRet tt).
  2: { intros r Hr. destruct (SM r Hr) as (_ & Esp & Lk). unfold ndarray_physical_y_pen, ndarray_spectral_x_pen, shape_physical_y_pen, shape_spectral_x_pen, enumerated. rewrite Esp. rewrite Gs.
    assert (L1 : get_dcp (smf r) (s2_shape_physical sp) = Ok (dcp n0 n1 p r)) by (apply Lk; cbn; auto).
    assert (L2 : get_dcp (smf r) (s2_shape_spectral sp) = Ok (dcp (len_spec b0) (len_spec b1) p r)) by (apply Lk; cbn; auto). rewrite L1, L2. cbn [bind mlift mbind].
    change (d_sz (y_pencil (dcp n0 n1 p r))) with [blk_len n0 p r; n1]. change (d_sz (x_pencil (dcp (len_spec b0) (len_spec b1) p r))) with [len_spec b0; blk_len (len_spec b1) p r].
    f_equal. apply functional_extensionality. intros y. f_equal. apply functional_extensionality. intros x. f_equal. apply functional_extensionality. intros y'. f_equal. apply functional_extensionality. intros vm.
    rewrite SF by (auto; apply proper_zeros). cbn [mlift mbind]. rewrite SB by auto. reflexivity. }
  eapply (brun_bind p _ (fun r y_pencil => _)). exact R1. cbv beta.
  eapply (brun_bind p _ (fun r x_pencil => _)). exact R2. cbv beta.
  eapply (brun_bind p _ (fun r y_pencil => _)). exact R3. cbv beta.
  eapply (brun_bind p _ (fun r v_mpi => _)). exact R4. cbv beta.
  assert (EQ : arr_eq eqP v v = true). { unfold arr_eq. rewrite list_eqb_refl, all_eq_refl; auto. } rewrite EQ. cbn [assertb mlift mbind].
  eapply (brun_bind p _ (fun r ortho => _)). exact R5. cbv beta.
  eapply (brun_bind p _ (fun r _ => _)). exact R6. cbv beta. apply brun_ret. auto.
Qed.
Print Assumptions C61_mpi_examples_run_to_completion.
