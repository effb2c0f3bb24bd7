(** [diffmat_pinv] against [gradient_slice] (which has no size limit). *)
From Coq Require Import List Arith Lia Bool ZArith Reals Lra.
From Verif Require Import Base Num Linalg LinalgProofs StencilProofs StencilProofs2 Cheb ChebPoly ChebGrad ChebMat ChebPinv ChebPinv2 ChebPinv3 ChebFacts.
Import ListNotations.
Local Open Scope R_scope.

Section T.
Context {T : Type} {V : Vec R T} {L : VecR T}.

Lemma C08_grad bm n c d (a o : list T) : cheb_new n = Ok c -> (3 <= n)%nat -> (1 <= d <= 4)%nat -> (2 * d <= n)%nat ->
  (Z.of_nat n <= psafe d)%Z -> length a = n -> length o = n ->
  wp (cheb_diffmat_pinv (A := R) bm c d) (fun '(P, E) => mat_dims P n n /\
    wp (cheb_gradient c a o d) (fun b => length b = n /\
      (forall i, (i < d)%nat -> vsum n (fun l => vmul b.[l] P.[i].[l]) = v0) /\
      (forall i, (d <= i < n)%nat -> vsum n (fun l => vmul b.[l] P.[i].[l]) = a.[i]))).
Proof.
  intros H Hn Hd H2 Hs La Lo. apply cheb_new_inv in H as [_ ->]. unfold cheb_diffmat_pinv. cbn [c_n].
  destruct (Nat.ltb_spec 0 d); [|lia]. cbn [assertb bind].
  apply wp_bind. eapply wp_mono. { apply pinv_ok; auto. }
  intros P [HP EP]. unfold pinv_eye. destruct (Nat.leb_spec d n); [|lia]. cbn [assertb bind wp]. split; auto.
  eapply wp_mono. { apply gradient_matrix; auto; cbn [c_m]; try lia. }
  cbn [c_m]. intros b [Lb Eb]. split; auto.
  assert (G : forall i, (i < n)%nat -> forall p, vproj p (vsum n (fun l => vmul b.[l] P.[i].[l])) = if (d <=? i)%nat then vproj p a.[i] else 0).
  { intros i Hi p. rewrite vproj_vsum.
    rewrite (rsum_ext _ _ (fun l => rsum n (fun q => vproj p a.[q] * (psum n d i l * dex d l q)))).
    2:{ intros l Hl. rewrite vproj_mul, EP, Eb by auto. rewrite vproj_vsum, Rmult_comm, <- rsum_scal_l.
        apply rsum_ext. intros q Hq. rewrite vproj_mul. destruct d; [lia|]. cbn [dexn]. ring. }
    rewrite rsum_swap. rewrite (rsum_ext _ _ (fun q => (if (d <=? i)%nat then vproj p a.[q] else 0) * (if (q =? i)%nat then 1 else 0))).
    2:{ intros q Hq. rewrite rsum_scal_l. rewrite pinv_dmat by lia. rewrite (Nat.eqb_sym i q).
        destruct (d <=? i)%nat, (q =? i)%nat; cbn [andb]; ring. }
    rewrite rsum_ind_mul. destruct (Nat.ltb_spec i n); auto; lia. }
  split; intros i Hi; apply vext; intros p; rewrite G by lia; destruct (Nat.leb_spec d i); try lia.
  - symmetry. apply vproj_0.
  - auto.
Qed.
End T.

Lemma pinv_eye_ok n d : (d <= n)%nat -> pinv_eye (A := R) n d = Ok (skipn d (eye n)).
Proof. intros. unfold pinv_eye. destruct (Nat.leb_spec d n); [|lia]. reflexivity. Qed.

Lemma C08_small bm n c d : cheb_new n = Ok c -> (1 <= d <= 4)%nat -> (n < 2 * d)%nat -> cheb_diffmat_pinv (A := R) bm c d = Panic.
Proof.
  intros H Hd Hn. apply cheb_new_inv in H as [H2 ->]. unfold cheb_diffmat_pinv. cbn [c_n].
  destruct (Nat.ltb_spec 0 d); [|lia]. cbn [assertb bind]. rewrite pinv_small by auto. reflexivity.
Qed.
Lemma C08_debug n c d : cheb_new n = Ok c -> (2 <= d <= 4)%nat -> (psafe d < Z.of_nat n)%Z -> cheb_diffmat_pinv (A := R) Debug c d = Panic.
Proof.
  intros H Hd Hn. apply cheb_new_inv in H as [H2 ->]. unfold cheb_diffmat_pinv. cbn [c_n].
  destruct (Nat.ltb_spec 0 d); [|lia]. cbn [assertb bind]. rewrite pinv_debug_panics by auto. reflexivity.
Qed.
Lemma C08_range bm n c d : cheb_new n = Ok c -> (d = 0 \/ 4 < d)%nat -> cheb_diffmat_pinv (A := R) bm c d = Panic.
Proof.
  intros H Hd. unfold cheb_diffmat_pinv. destruct d as [|[|[|[|[|d]]]]]; try lia; reflexivity.
Qed.

Lemma C08_wrong n c d : cheb_new n = Ok c -> (2 <= d <= 4)%nat -> (psafe d < Z.of_nat n < u64max)%Z ->
  wp (cheb_diffmat_pinv (A := R) Release c d) (fun '(P, E) => mat_dims P n n /\
    exists a : list R, length a = n /\ wp (cheb_gradient c a a d) (fun b =>
      exists i, (d <= i < n)%nat /\ rsum n (fun l => P.[i].[l] * b.[l]) <> a.[i])).
Proof.
  intros H Hd Hn. apply cheb_new_inv in H as [H2 ->]. unfold cheb_diffmat_pinv. cbn [c_n].
  assert (H9 : (9 < n)%nat).
  { clear H2. assert (9 < psafe d)%Z by (destruct d as [|[|[|[|d]]]]; try lia; reflexivity). lia. }
  destruct (Nat.ltb_spec 0 d); [|lia]. cbn [assertb bind].
  apply wp_bind. eapply wp_mono. { apply pinv_release_wrong; auto. }
  intros P (i0 & HP & Hi0 & Hw & Hz). rewrite pinv_eye_ok by lia. cbn [bind wp]. split; auto.
  exists (map (fun j => if (j =? i0)%nat then 1 else 0) (seq 0 n)).
  split. rewrite map_length, seq_length; auto.
  eapply wp_mono. { apply gradient_matrix; cbn [c_m]; rewrite ?map_length, ?seq_length; try lia. }
  cbn [c_m]. intros b [Lb Eb]. exists i0. split; [lia|]. rewrite at_map_seq, Nat.eqb_refl by lia.
  assert (G : forall l, (l < n)%nat -> b.[l] = dex d l i0).
  { intros l Hl. rewrite Eb by auto. destruct d as [|d]; [lia|]. cbn [dexn].
    change (vsum n (fun j => vmul (map (fun j => if (j =? i0)%nat then 1 else 0) (seq 0 n)).[j] (dex (S d) l j)) = dex (S d) l i0).
    rewrite vsum_rsum. rewrite (rsum_ext _ _ (fun j => dex (S d) l j * (if (j =? i0)%nat then 1 else 0))).
    2:{ intros k Hk. rewrite at_map_seq by auto. cbn [vmul vec_self nmul num_R]. rewrite Rmult_comm. reflexivity. }
    rewrite rsum_ind_mul. destruct (Nat.ltb_spec i0 n); auto; lia. }
  rewrite (rsum_ext _ _ (fun l => (P.[i0].[i0-d] * dex d (i0-d) i0) * (if (l =? i0 - d)%nat then 1 else 0))).
  2:{ intros l Hl. rewrite G by auto. destruct (Nat.eqb_spec l (i0-d)) as [->|]; [ring|].
      destruct (le_lt_dec l (i0 - d)). { rewrite Hz by lia. ring. }
      rewrite dex_pex by lia. rewrite dsel_false by (intros; lia). ring. }
  rewrite rsum_ind_mul. destruct (Nat.ltb_spec (i0 - d) n); [|lia].
  pose proof (pinv_identity d i0 i0 ltac:(lia) ltac:(lia)) as Hid. rewrite Nat.eqb_refl in Hid.
  rewrite rsum_first, rsum_0 in Hid.
  2:{ intros k Hk. rewrite dex_pex by lia. rewrite dsel_false by (intros; lia). ring. }
  replace (i0 - d + 2 * 0)%nat with (i0 - d)%nat in Hid by lia. intros E.
  assert (dex d (i0 - d) i0 <> 0) by (intros Z; rewrite Z in Hid; lra). apply Hw.
  apply (Rmult_eq_reg_r (dex d (i0-d) i0)); lra.
Qed.
