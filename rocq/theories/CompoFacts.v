(** Composite Chebyshev bases: boundary conditions, small sizes, round trips. *)
From Coq Require Import List Arith Lia Bool ZArith Reals Lra.
From Verif Require Import Base Num Linalg LinalgSpec LinalgModes Stencils StencilProofs StencilProofs2 Cheb Compo
  ChebPoly ChebGrad ChebMat ChebDct ChebFacts CompoProofs.
Import ListNotations.
Local Open Scope R_scope.

(** ** Specification of the boundary conditions *)
Definition bc (k : skind) (f : R -> R) : Prop :=
  match k with
  | KDirichlet => f (-1) = 0 /\ f 1 = 0
  | KNeumann => derivable_pt_lim f (-1) 0 /\ derivable_pt_lim f 1 0
  | KDirichletNeumann => f (-1) = 0 /\ derivable_pt_lim f 1 0
  | KBiHarmonicA => f (-1) = 0 /\ f 1 = 0 /\ derivable_pt_lim f (-1) 0 /\ derivable_pt_lim f 1 0
  | KBiHarmonicB => f (-1) = 0 /\ f 1 = 0 /\
      exists f', (forall x, derivable_pt_lim f x (f' x)) /\ derivable_pt_lim f' (-1) 0 /\ derivable_pt_lim f' 1 0
  end.

Definition killed (k : skind) (g : nat -> R) : Prop :=
  forall j, g j + g (j + sstep k)%nat * slowa k j + g (j + 2 * sstep k)%nat * slowb k j = 0.

Lemma killed_sum k m (v g : nat -> R) : killed k g ->
  rsum (m + 2 * sstep k) (fun i => rsum m (fun j => v j * smat k i j) * g i) = 0.
Proof.
  intros HK.
  transitivity (rsum m (fun j => v j * rsum (m + 2 * sstep k) (fun i => g i * smat k i j))).
  - rewrite (rsum_ext _ _ (fun i => rsum m (fun j => v j * smat k i j * g i))) by (intros; rewrite <- rsum_scal_r; reflexivity).
    rewrite rsum_swap. apply rsum_ext. intros j Hj. rewrite <- rsum_scal_l. apply rsum_ext. intros; ring.
  - apply rsum_0. intros j Hj. unfold smat. rewrite scol_col; auto; [|destruct k; cbn; lia].
    replace (g j * 1) with (g j) by ring. rewrite HK. ring.
Qed.

Lemma nofN_INR j : nofN (A := R) j = INR j.
Proof. unfold nofN. cbn. rewrite INR_IZR_INZ. reflexivity. Qed.

Lemma pow_m1_2 j : (-1) ^ (j + 2) = (-1) ^ j.
Proof. rewrite pow_add. simpl. ring. Qed.
Lemma pow_m1_4 j : (-1) ^ (j + 4) = (-1) ^ j.
Proof. rewrite pow_add. simpl. ring. Qed.
Lemma pow_m1_1 j : (-1) ^ (j + 1) = - (-1) ^ j.
Proof. rewrite pow_add. simpl. ring. Qed.

Lemma INR_pos j : 0 <= INR j. Proof. apply pos_INR. Qed.

Ltac kill j := 
  intros j; cbn [sstep slowa slowb]; 
  unfold dirichlet_low2, neumann_low2, dn_low1, dn_low2, ba_low2, ba_low4, bb_low2, bb_low4;
  cbn [Nat.mul Nat.add]; rewrite ?nofN_INR; rewrite ?mult_INR, ?plus_INR; cbn [INR nadd nsub nmul ndiv nopp n1 n0 nofZ num_R];
  pose proof (INR_pos j).

Lemma WW_p1' k : WW k 1 = INR k * (INR k * INR k - 1) / 3.
Proof. pose proof (WW_p1 k). lra. Qed.
Lemma WW_m1' k : WW k (-1) = (-1)^k * INR k * (INR k * INR k - 1) / 3.
Proof. pose proof (WW_m1 k). lra. Qed.

Lemma killed_ext k g g' : (forall j, g j = g' j) -> killed k g' -> killed k g.
Proof. intros E H j. rewrite !E. apply H. Qed.

Lemma killed_T_p1 k : match k with KDirichlet | KBiHarmonicA | KBiHarmonicB => killed k (fun i => TT i 1) | _ => True end.
Proof.
  destruct k; auto.
  - kill j. rewrite !TT_p1. ring.
  - kill j. rewrite !TT_p1. field. lra.
  - kill j. rewrite !TT_p1. field. split; nra.
Qed.
Lemma killed_T_m1 k : match k with KNeumann => True | _ => killed k (fun i => TT i (-1)) end.
Proof.
  destruct k; auto.
  - kill j. rewrite !TT_m1, pow_m1_2. ring.
  - kill j. rewrite !TT_m1, pow_m1_2, pow_m1_1. field. nra.
  - kill j. rewrite !TT_m1, pow_m1_2, pow_m1_4. field. lra.
  - kill j. rewrite !TT_m1, pow_m1_2, pow_m1_4. field. split; nra.
Qed.
Lemma killed_D_p1 k : match k with KNeumann | KDirichletNeumann | KBiHarmonicA => killed k (fun i => INR i * VV i 1) | _ => True end.
Proof.
  destruct k; auto.
  - kill j. rewrite !VV_p1, !plus_INR. cbn [INR]. field. nra.
  - kill j. rewrite !VV_p1, !plus_INR. cbn [INR]. field. nra.
  - kill j. rewrite !VV_p1, !plus_INR. cbn [INR]. field. lra.
Qed.
Lemma killed_D_m1 k : match k with KNeumann | KBiHarmonicA => killed k (fun i => INR i * VV i (-1)) | _ => True end.
Proof.
  destruct k; auto.
  - kill j. rewrite !VV_m1, !plus_INR, pow_m1_2. cbn [INR]. field. nra.
  - kill j. rewrite !VV_m1, !plus_INR, pow_m1_2, pow_m1_4. cbn [INR]. field. lra.
Qed.
Lemma killed_D2_p1 : killed KBiHarmonicB (fun i => INR i * WW i 1).
Proof. kill j. rewrite !WW_p1', !plus_INR. cbn [INR]. field. split; nra. Qed.
Lemma killed_D2_m1 : killed KBiHarmonicB (fun i => INR i * WW i (-1)).
Proof. kill j. rewrite !WW_m1', !plus_INR, pow_m1_2, pow_m1_4. cbn [INR]. field. split; nra. Qed.

Section Vec.
Context {T : Type} {V : Vec R T} {L : VecR T}.

Lemma matvec_coord n m S (v u : list T) p i : is_matvec n m S v u -> (i < n)%nat ->
  vproj p u.[i] = rsum m (fun j => vproj p v.[j] * S i j).
Proof. intros [_ E] Hi. rewrite E by auto. rewrite vproj_vsum. apply rsum_ext. intros. apply vproj_mul. Qed.

Lemma matvec_killed k n m (v u : list T) p g : n = (m + 2 * sstep k)%nat -> is_matvec n m (smat k) v u -> killed k g ->
  rsum (length u) (fun i => vproj p u.[i] * g i) = 0.
Proof.
  intros En HM HK. pose proof HM as [Lu _]. rewrite Lu.
  rewrite (rsum_ext _ _ (fun i => rsum m (fun j => vproj p v.[j] * smat k i j) * g i)).
  2:{ intros i Hi. rewrite (matvec_coord n m (smat k) v u) by auto. reflexivity. }
  subst n. apply (killed_sum k m (fun j => vproj p v.[j])). auto.
Qed.

Lemma bc_matvec k n m (v u : list T) p : n = (m + 2 * sstep k)%nat -> is_matvec n m (smat k) v u -> bc k (peval u p).
Proof.
  intros En HM.
  assert (T0 : forall x, killed k (fun i => TT i x) -> peval u p x = 0).
  { intros x HK. apply (matvec_killed k n m v u p _ En HM HK). }
  assert (D0 : forall x, killed k (fun i => INR i * VV i x) -> derivable_pt_lim (peval u p) x 0).
  { intros x HK. pose proof (pevalf_deriv (length u) (fun i => vproj p u.[i]) x) as HD.
    cbv beta in HD. rewrite (matvec_killed k n m v u p _ En HM HK) in HD. exact HD. }
  assert (D2 : forall x, killed k (fun i => INR i * WW i x) ->
     derivable_pt_lim (fun y => rsum (length u) (fun k => vproj p u.[k] * (INR k * VV k y))) x 0).
  { intros x HK. pose proof (pevalf_deriv2 (length u) (fun i => vproj p u.[i]) x) as HD.
    cbv beta in HD. rewrite (matvec_killed k n m v u p _ En HM HK) in HD. exact HD. }
  pose proof (killed_T_p1 k) as K1. pose proof (killed_T_m1 k) as K2.
  pose proof (killed_D_p1 k) as K3. pose proof (killed_D_m1 k) as K4.
  destruct k; cbn [bc]; auto.
  - split; auto. split; auto. exists (fun y => rsum (length u) (fun k => vproj p u.[k] * (INR k * VV k y))).
    split; [|split].
    + intros x. exact (pevalf_deriv (length u) (fun i => vproj p u.[i]) x).
    + apply D2, killed_D2_m1.
    + apply D2, killed_D2_p1.
Qed.

(** ** Small sizes: from_ortho panics *)
Lemma Panic_bind {A B} (m : res A) (k : A -> res B) (P : A -> Prop) :
  wp m P -> (forall a, P a -> k a = Panic) -> bind m k = Panic.
Proof. intros H HK. apply wp_Ok in H. destruct H as (a & -> & Ha). apply HK; auto. Qed.

Lemma tdma_small md (l2 d0 u2 : list R) (rhs : list T) : (length rhs <= 2)%nat -> tdma md l2 d0 u2 rhs = Panic.
Proof. apply (small_sizes_panic R T _ _ md l2 l2 l2 d0 u2 u2 u2 rhs). Qed.
Lemma pdma_small md (l2 l1 d0 u1 u2 : list R) (rhs : list T) : (length rhs <= 3)%nat -> pdma md l2 l1 d0 u1 u2 rhs = Panic.
Proof. apply (small_sizes_panic R T _ _ md l2 l2 l1 d0 u1 u2 u2 rhs). Qed.
Lemma pdma2_small md (l4 l2 d0 u2 u4 : list R) (rhs : list T) : (length rhs <= 5)%nat -> pdma2 md l4 l2 d0 u2 u4 rhs = Panic.
Proof. apply (small_sizes_panic R T _ _ md l4 l2 l2 d0 u2 u2 u4 rhs). Qed.

Lemma from_ortho_small k n c (u v : list T) : compo_new k n = Ok c -> (n < ssolve k)%nat ->
  length u = n -> length v = sdim k n -> compo_from_ortho c u v = Panic.
Proof.
  intros H Hn Lu Lv. apply compo_new_inv in H as (Hs & _ & _ & _ & Sp). unfold compo_from_ortho, stencil_solve.
  pose proof (sdim_eq k n Hs) as En. set (m := sdim k n) in *.
  destruct k, (p_st c) as [h|h|h|h|h]; cbn [st_spec] in Sp; try contradiction; cbn [sstep ssolve smin] in *.
  1,2: destruct Sp as (E1 & L2 & _); unfold st2_solve;
    (eapply Panic_bind; [eapply (fill_rhs m u v); intros i Hi;
      assert (length (d2_diag h) = m) by (rewrite E1, repeat_length; auto); rdok; reflexivity|]);
    intros a [La _]; apply tdma_small; lia.
  all: destruct Sp as (E1 & La & Lb & _).
  1: unfold st3_solve;
    (eapply Panic_bind; [eapply (fill_rhs m u v); intros i Hi;
      assert (length (d3_diag h) = m) by (rewrite E1, repeat_length; auto); rdok; reflexivity|]);
    intros a [La' _]; apply pdma_small; lia.
  all: unfold st4_solve;
    (eapply Panic_bind; [eapply (fill_rhs m u v); intros i Hi;
      assert (length (d3_diag h) = m) by (rewrite E1, repeat_length; auto); rdok; reflexivity|]);
    intros a [La' _]; apply pdma2_small; lia.
Qed.
End Vec.

(** ** The pseudo inverse does not use the last [2*sstep] inputs *)
Lemma for_each_inv {I S} (l : list I) (body : I -> S -> res S) (P : S -> Prop) :
  (forall i s s', In i l -> P s -> body i s = Ok s' -> P s') ->
  forall s s', P s -> for_each l body s = Ok s' -> P s'.
Proof.
  induction l as [|a l IH]; simpl; intros HB s s' Hs E.
  - apply Ok_inj in E; subst; auto.
  - destruct (body a s) eqn:Eb; try discriminate. simpl in E.
    eapply (IH ltac:(intros i t t' Hi Ht Et; apply (HB i t t'); auto)); [|exact E]. eapply HB; eauto.
Qed.

Lemma in_step_by {X} k (l : list X) x : In x (step_by k l) -> In x l.
Proof.
  unfold step_by. generalize 0%nat as c. induction l as [|a l IH]; simpl; intros c; auto.
  destruct c; simpl; intros H. destruct H; auto; right; eapply IH; eauto. right; eapply IH; eauto.
Qed.

Definition zcols (m n : nat) (M : list (list R)) := mat_dims M m n /\ forall i j, (m <= j)%nat -> M.[i].[j] = 0.

Lemma mset_zcols m n M i j e M' : zcols m n M -> (i < m)%nat -> (j < m)%nat -> (m <= n)%nat -> mset M i j e = Ok M' -> zcols m n M'.
Proof.
  intros [HD HZ] Hi Hj Hn E. unfold mset in E. destruct e as [x| |]; try discriminate. cbn [bind] in E.
  assert (W : wp (mwr M i j x) (zcols m n)).
  { eapply wp_mwr; eauto. lia. intros M1 HD1 _ HO. split; auto. intros i' j' Hj'. rewrite HO by lia. auto. }
  rewrite E in W. exact W.
Qed.

Lemma in_range_iff lo hi i : In i (range lo hi) <-> (lo <= i < hi)%nat.
Proof. unfold range. rewrite in_seq. lia. Qed.

Lemma zcols_init m n : zcols m n (mzeros 0 m n).
Proof. split. apply mzeros_dims. intros. apply (mzeros_at m n). Qed.

Lemma inv_bind {A B} (m : res A) (k : A -> res B) b : bind m k = Ok b -> exists a, m = Ok a /\ k a = Ok b.
Proof. destruct m; try discriminate. simpl. eauto. Qed.

Lemma st2_pinv_zcols (h : st2 R) P : st2_pinv h = Ok P -> zcols (length (d2_diag h)) (length (d2_diag h) + 2) P.
Proof.
  unfold st2_pinv. set (m := length (d2_diag h)). apply (for_each_inv _ _ (zcols m (m+2))); [|apply zcols_init].
  intros i s s' Hi Hs E. apply in_range_iff in Hi. apply inv_bind in E as (s1 & E1 & E2).
  apply mset_zcols with (m := m) (n := (m+2)%nat) in E1; auto; try lia.
  destruct (2 <=? i)%nat; [|apply Ok_inj in E2; subst; auto].
  revert E2. apply (for_each_inv _ _ (zcols m (m+2))); auto.
  intros j t t' Hj Ht Et. apply in_step_by in Hj. apply in_rev, in_range_iff in Hj.
  apply mset_zcols with (m := m) (n := (m+2)%nat) in Et; auto; lia.
Qed.

Lemma st3_pinv_zcols (h : st3 R) P : st3_pinv h = Ok P -> zcols (length (d3_diag h)) (length (d3_diag h) + 2) P.
Proof.
  unfold st3_pinv. set (m := length (d3_diag h)). apply (for_each_inv _ _ (zcols m (m+2))); [|apply zcols_init].
  intros i s s' Hi Hs E. apply in_range_iff in Hi. apply inv_bind in E as (s1 & E1 & E2).
  apply mset_zcols with (m := m) (n := (m+2)%nat) in E1; auto; try lia.
  apply inv_bind in E2 as (s2 & E2 & E3).
  assert (Z2 : zcols m (m+2) s2).
  { destruct (Nat.leb_spec 1 i); [|apply Ok_inj in E2; subst; auto].
    apply mset_zcols with (m := m) (n := (m+2)%nat) in E2; auto; lia. }
  destruct (2 <=? i)%nat; [|apply Ok_inj in E3; subst; auto].
  revert E3. apply (for_each_inv _ _ (zcols m (m+2))); auto.
  intros j t t' Hj Ht Et. apply in_rev, in_range_iff in Hj.
  apply mset_zcols with (m := m) (n := (m+2)%nat) in Et; auto; lia.
Qed.

Lemma st4_pinv_zcols (h : st3 R) P : st4_pinv h = Ok P -> zcols (length (d3_diag h)) (length (d3_diag h) + 4) P.
Proof.
  unfold st4_pinv. set (m := length (d3_diag h)). apply (for_each_inv _ _ (zcols m (m+4))); [|apply zcols_init].
  intros i s s' Hi Hs E. apply in_range_iff in Hi. apply inv_bind in E as (s1 & E1 & E2).
  apply mset_zcols with (m := m) (n := (m+4)%nat) in E1; auto; try lia.
  apply inv_bind in E2 as (s2 & E2 & E3).
  assert (Z2 : zcols m (m+4) s2).
  { destruct (Nat.leb_spec 2 i); [|apply Ok_inj in E2; subst; auto].
    apply mset_zcols with (m := m) (n := (m+4)%nat) in E2; auto; lia. }
  destruct (4 <=? i)%nat; [|apply Ok_inj in E3; subst; auto].
  revert E3. apply (for_each_inv _ _ (zcols m (m+4))); auto.
  intros j t t' Hj Ht Et. apply in_step_by in Hj. apply in_rev, in_range_iff in Hj.
  apply mset_zcols with (m := m) (n := (m+4)%nat) in Et; auto; lia.
Qed.

Lemma stencil_inv_zcols k n c P : compo_new k n = Ok c -> compo_stencil_inv c = Ok P ->
  forall i j, (sdim k n <= j)%nat -> P.[i].[j] = 0.
Proof.
  intros H. apply compo_new_inv in H as (Hs & _ & _ & _ & Sp). unfold compo_stencil_inv, stencil_pinv.
  destruct k, (p_st c) as [h|h|h|h|h]; cbn [st_spec] in Sp; try contradiction; destruct Sp as (E1 & _); intros E;
    (apply st2_pinv_zcols in E || apply st3_pinv_zcols in E || apply st4_pinv_zcols in E);
    rewrite E1, repeat_length in E; apply E.
Qed.

(** The last row of the stencil is not zero. *)
Lemma slowb_nz k j : (1 <= j)%nat -> slowb k j <> 0.
Proof.
  intros Hj. assert (1 <= INR j) by (apply (le_INR 1); auto).
  destruct k; cbn [slowb]; unfold dirichlet_low2, neumann_low2, dn_low2, ba_low4, bb_low4;
    rewrite ?nofN_INR; rewrite ?mult_INR, ?plus_INR; cbn [INR nadd nsub nmul ndiv nopp n1 n0 nofZ num_R].
  - lra.
  - intros E. apply (f_equal (fun x => x * ((INR j + (1+1)) * (INR j + (1+1))))) in E. field_simplify in E; nra.
  - intros E. apply (f_equal (fun x => x * ((INR j + 1) * (INR j + 1) + (INR j + 2) * (INR j + 2)))) in E.
    unfold Rdiv in E. rewrite Rmult_assoc, Rinv_l in E by nra. nra.
  - intros E. apply (f_equal (fun x => x * (INR j + 3))) in E.
    unfold Rdiv in E. rewrite Rmult_assoc, Rinv_l in E by nra. nra.
  - intros E. apply (f_equal (fun x => x * ((INR j + 3) * (19 + 2 * INR j * (6 + INR j))))) in E.
    unfold Rdiv in E. rewrite Rmult_assoc, Rinv_l in E by (apply Rmult_integral_contrapositive; split; nra). nra.
Qed.
