(** Sizes for which [pinv] fails: too small, or so large that the integer
    products overflow. *)
From Coq Require Import List Arith Lia Bool ZArith Reals Lra.
From Verif Require Import Base Num Linalg LinalgProofs StencilProofs StencilProofs2 Cheb ChebPoly ChebGrad ChebMat ChebPinv ChebPinv2.
Import ListNotations.
Local Open Scope R_scope.

(** ** n < 2d *)
Lemma bind_panic {A B} (m : res A) (k : A -> res B) Q : wp m Q -> (forall a, Q a -> k a = Panic) -> bind m k = Panic.
Proof. intros W H. apply wp_Ok in W as (a & -> & Ha). cbn [bind]. auto. Qed.

Lemma mwr_col_panic {A} (M : list (list A)) n m i j x : mat_dims M n m -> (m <= j)%nat -> mwr M i j x = Panic.
Proof.
  intros [HL HR] Hj. unfold mwr, rd. destruct (nth_error M i) eqn:E; [|reflexivity]. cbn [bind].
  assert (Hi : (i < n)%nat). { rewrite <- HL. apply nth_error_Some. congruence. }
  assert (length l = m). { rewrite <- (HR i Hi). unfold at_. rewrite (nth_error_nth _ _ _ E). auto. }
  unfold wr. destruct (Nat.ltb_spec j (length l)); [lia|reflexivity].
Qed.

Lemma pdiag_first (P : list (list R)) n lo hi col num dv z :
  mat_dims P n n -> (Z.of_nat lo < hi)%Z -> dv (Z.of_nat lo) = Ok z -> (n <= col lo)%nat ->
  pdiag (A := R) P lo hi col num dv = Panic.
Proof.
  intros HD Hh Hd Hc. unfold pdiag, range.
  destruct (Z.to_nat hi - lo)%nat as [|k] eqn:E; [lia|]. cbn [seq for_each]. rewrite Hd. cbn [bind].
  rewrite (mwr_col_panic _ n n) by auto. reflexivity.
Qed.

Lemma mdouble_row_panic (M : list (list R)) n m i j : mat_dims M n m -> (n <= i)%nat -> mdouble (A := R) M i j = Panic.
Proof.
  intros [HL HR] Hj. unfold mdouble, mrd, rd. destruct (nth_error M i) eqn:E; [|reflexivity].
  assert (Hi : (i < n)%nat). { rewrite <- HL. apply nth_error_Some. congruence. } lia.
Qed.

Lemma pinv_small bm n d : (2 <= n)%nat -> (1 <= d <= 4)%nat -> (n < 2 * d)%nat -> pinv (A := R) bm n d = Panic.
Proof.
  intros H2 Hd Hn.
  assert (M0 : matches n (mzeros 0 n n) (fun _ _ => 0)).
  { split. apply mzeros_dims. intros. apply mzeros_at. }
  assert (n = 2 \/ n = 3 \/ n = 4 \/ n = 5 \/ n = 6 \/ n = 7)%nat as HN by lia.
  assert (d = 1 \/ d = 2 \/ d = 3 \/ d = 4)%nat as HD by lia.
  Ltac smd := match goal with
    | |- bind (pdiag _ _ _ _ _ _) _ = Panic => eapply bind_panic;
        [eapply pdiag_ok; [eassumption|lia|intros; lia|
          let i := fresh "i" in intros i ? ?; cbv beta; eapply is_in_eq; isin 7%Z]|]; intros ? ?; cbv beta in *
    | |- bind (mwr _ _ _ _) _ = Panic => eapply bind_panic; [eapply wr_ok; [eassumption|lia|lia]|]; intros ? ?; cbv beta in *
    | |- bind (mdouble _ _ _) _ = Panic => eapply bind_panic; [eapply mdouble_ok; [eassumption|lia|lia]|]; intros ? ?; cbv beta in *
    | |- Panic = Panic => reflexivity
    | |- bind (mwr _ _ _ _) _ = Panic => reflexivity
    | |- bind (mdouble _ _ _) _ = Panic => erewrite mdouble_row_panic; [reflexivity|match goal with H : matches _ ?P _ |- mat_dims ?P _ _ => apply H end|lia]
    | |- bind (uminus ?b ?x ?y) _ = Panic => let v := eval vm_compute in (uminus b x y) in change (uminus b x y) with v; cbn [bind]
    | |- pdiag _ _ _ _ _ _ = Panic => eapply pdiag_first; [match goal with H : matches _ ?P _ |- mat_dims ?P _ _ => apply H end|reflexivity|reflexivity|lia]
    | |- bind (pdiag _ _ _ _ _ _) _ = Panic => erewrite pdiag_first; [reflexivity|match goal with H : matches _ ?P _ |- mat_dims ?P _ _ => apply H end|reflexivity|reflexivity|lia]
    end.
  destruct bm;
  destruct HN as [->|[->|[->|[->|[->| ->]]]]]; destruct HD as [->|[->|[->| ->]]]; try lia;
    unfold pinv; cbv zeta iota; repeat smd.
Qed.

(** ** Too large *)
Lemma nat_of z : (0 <= z)%Z -> exists i, Z.of_nat i = z.
Proof. intros. exists (Z.to_nat z). apply Z2Nat.id; auto. Qed.

Lemma pdiag_noUB (P : list (list R)) lo hi col num dv : (forall i, dv i <> UB) -> pdiag (A := R) P lo hi col num dv <> UB.
Proof. intros H. apply for_each_noUB. intros. apply bind_noUB; auto. intros. apply mwr_noUB. Qed.
Lemma pdiag_panic (P : list (list R)) lo hi col num dv i : (forall i, dv i <> UB) ->
  (lo <= i)%nat -> (Z.of_nat i < hi)%Z -> dv (Z.of_nat i) = Panic -> pdiag (A := R) P lo hi col num dv = Panic.
Proof.
  intros H Hl Hh Hp. apply (for_each_panic _ _ _ i).
  - intros. apply bind_noUB; auto. intros. apply mwr_noUB.
  - apply in_seq. lia.
  - intros. rewrite Hp. reflexivity.
Qed.

Lemma mwr_total {A} (M : list (list A)) i j x : mwr M i j x <> UB.
Proof. apply mwr_noUB. Qed.

Ltac nub := unfold uadd, umul, uminus;
  repeat (apply bind_noUB; [| intros ]; try (apply uwrap_noUB)); try discriminate; try apply uwrap_noUB.

Lemma pinv_debug_panics n d : (2 <= d <= 4)%nat -> (psafe d < Z.of_nat n)%Z -> pinv (A := R) Debug n d = Panic.
Proof.
  intros Hd Hn. assert (d = 2 \/ d = 3 \/ d = 4)%nat as [->|[->| ->]] by lia; cbn [psafe] in Hn; unfold pinv; cbv zeta iota.
  - destruct (nat_of 2147483649 ltac:(lia)) as [i Hi]. destruct (mwr (mzeros n0 n n) 2 0 (ndiv n1 (nofZ 4))) eqn:E; cbn [bind]; auto. 2:{ elim (mwr_noUB _ _ _ _ E). }
    rewrite (pdiag_panic _ _ _ _ _ _ i); auto; try lia.
    + intros. nub.
    + rewrite Hi. reflexivity.
  - destruct (nat_of 1321124 ltac:(lia)) as [i Hi]. rewrite (pdiag_panic _ _ _ _ _ _ i); auto; try lia.
    + intros. nub.
    + rewrite Hi. reflexivity.
  - destruct (nat_of 32770 ltac:(lia)) as [i Hi]. rewrite (pdiag_panic _ _ _ _ _ _ i); auto; try lia.
    + intros. nub.
    + rewrite Hi. reflexivity.
Qed.

Ltac prel := eapply pdiag_ok; [eassumption|lia|intros; lia|
  let i := fresh "i" in intros i ? ?; cbv beta; eapply rmod_valm; rmod_tac].
Ltac prb := apply wp_bind; eapply wp_mono; [prel|]; intros ? ?; cbv beta in *.
Ltac pru n := apply wp_bind; match goal with |- wp (uminus ?b ?x ?y) _ => replace (uminus b x y) with (Ok (Z.of_nat n - ltac:(match y with Ok ?k => exact k end))%Z);
   [|symmetry; unfold uminus; cbn [bind]; apply uwrap_ok; lia] end; cbn [wp].

(** The first wrong row, and what is in it. *)
Definition wrong_row (d n i0 : nat) (P : list (list R)) : Prop :=
  mat_dims P n n /\ (2 * d <= i0 < n)%nat /\ P.[i0].[i0-d] <> pco d 0 i0 /\ forall l, (l < i0 - d)%nat -> P.[i0].[l] = 0.

Lemma inv_neq w z : w <> z -> z <> 0 -> 1 / w <> 1 / z.
Proof.
  intros H Hz E. unfold Rdiv in E. rewrite !Rmult_1_l in E. apply H. 
  rewrite <- (Rinv_inv w), <- (Rinv_inv z), E. reflexivity.
Qed.

Lemma pinv4_release_wrong n : (psafe 4 < Z.of_nat n < u64max)%Z ->
  wp (pinv (A := R) Release n 4) (fun P => exists i0, wrong_row 4 n i0 P).
Proof.
  intros Hn. cbn [psafe] in Hn.
  assert (M0 : matches n (mzeros 0 n n) (fun _ _ => 0)).
  { split. apply mzeros_dims. intros. apply mzeros_at. }
  unfold pinv; cbv zeta iota. prb. 
  apply wp_bind; eapply wp_mono; [eapply mdouble_ok; [eassumption|lia|lia]|]; intros ? ?; cbv beta in *.
  pru n. prb. pru n. prb. pru n. prb. pru n.
  eapply wp_mono; [prel|]. intros P [HD HM]. cbv beta in HM.
  destruct (nat_of 32770 ltac:(lia)) as [i Hi]. exists i. split; auto. split; [lia|].
  assert (E1 : P.[i].[i-4] = 1 / IZR ((16 * Z.of_nat i * (Z.of_nat i - 1) * (Z.of_nat i - 2) * (Z.of_nat i - 3)) mod u64max)).
  { rewrite HM by lia. unfold msetcol. clear -Hn Hi.
    destruct (Nat.eqb_spec (i-4) (i+4)); [lia|]. destruct (Nat.eqb_spec (i-4) (i+2)); [lia|].
    destruct (Nat.eqb_spec (i-4) i); [lia|]. destruct (Nat.eqb_spec (i-4) (i-2)); [lia|].
    rewrite !andb_false_r. destruct (Nat.eqb_spec i 4); [lia|]. cbn [andb]. rewrite Nat.eqb_refl.
    destruct (Nat.leb_spec 4 i); [|lia]. destruct (Nat.ltb_spec i (Z.to_nat (Z.of_nat n))); [|lia]. reflexivity. }
  split.
  - rewrite E1, Hi. cbn [pco]. destruct (Nat.eqb_spec i 4); [lia|]. rewrite INR_IZR_INZ, Hi, Rmult_1_l.
    rewrite <- ?minus_IZR, <- ?mult_IZR. apply inv_neq; intro E; apply eq_IZR in E; vm_compute in E; discriminate.
  - intros l Hl. rewrite HM by lia. unfold msetcol. clear -Hl Hi Hn.
    destruct (Nat.eqb_spec l (i+4)); [lia|]. destruct (Nat.eqb_spec l (i+2)); [lia|].
    destruct (Nat.eqb_spec l i); [lia|]. destruct (Nat.eqb_spec l (i-2)); [lia|]. destruct (Nat.eqb_spec l (i-4)); [lia|].
    rewrite !andb_false_r. destruct (Nat.eqb_spec i 4); [lia|]. reflexivity.
Qed.

Lemma pinv3_release_wrong n : (psafe 3 < Z.of_nat n < u64max)%Z ->
  wp (pinv (A := R) Release n 3) (fun P => exists i0, wrong_row 3 n i0 P).
Proof.
  intros Hn. cbn [psafe] in Hn.
  assert (M0 : matches n (mzeros 0 n n) (fun _ _ => 0)).
  { split. apply mzeros_dims. intros. apply mzeros_at. }
  unfold pinv; cbv zeta iota. prb. 
  apply wp_bind; eapply wp_mono; [eapply mdouble_ok; [eassumption|lia|lia]|]; intros ? ?; cbv beta in *.
  pru n. prb. pru n. prb. pru n.
  eapply wp_mono; [prel|]. intros P [HD HM]. cbv beta in HM.
  destruct (nat_of 1321124 ltac:(lia)) as [i Hi]. exists i. split; auto. split; [lia|].
  assert (E1 : P.[i].[i-3] = 1 / IZR ((8 * Z.of_nat i * (Z.of_nat i - 1) * (Z.of_nat i - 2)) mod u64max)).
  { rewrite HM by lia. unfold msetcol. clear -Hn Hi.
    destruct (Nat.eqb_spec (i-3) (i+3)); [lia|]. destruct (Nat.eqb_spec (i-3) (i+1)); [lia|].
    destruct (Nat.eqb_spec (i-3) (i-1)); [lia|].
    rewrite !andb_false_r. destruct (Nat.eqb_spec i 3); [lia|]. cbn [andb]. rewrite Nat.eqb_refl.
    destruct (Nat.leb_spec 3 i); [|lia]. destruct (Nat.ltb_spec i (Z.to_nat (Z.of_nat n))); [|lia]. reflexivity. }
  split.
  - rewrite E1, Hi. cbn [pco]. destruct (Nat.eqb_spec i 3); [lia|]. rewrite INR_IZR_INZ, Hi, Rmult_1_l.
    rewrite <- ?minus_IZR, <- ?mult_IZR. apply inv_neq; intro E; apply eq_IZR in E; vm_compute in E; discriminate.
  - intros l Hl. rewrite HM by lia. unfold msetcol. clear -Hl Hi Hn.
    destruct (Nat.eqb_spec l (i+3)); [lia|]. destruct (Nat.eqb_spec l (i+1)); [lia|].
    destruct (Nat.eqb_spec l (i-1)); [lia|]. destruct (Nat.eqb_spec l (i-3)); [lia|].
    rewrite !andb_false_r. destruct (Nat.eqb_spec i 3); [lia|]. reflexivity.
Qed.

Lemma pinv2_release_wrong n : (psafe 2 < Z.of_nat n < u64max)%Z ->
  wp (pinv (A := R) Release n 2) (fun P => exists i0, wrong_row 2 n i0 P).
Proof.
  intros Hn. cbn [psafe] in Hn.
  assert (M0 : matches n (mzeros 0 n n) (fun _ _ => 0)).
  { split. apply mzeros_dims. intros. apply mzeros_at. }
  unfold pinv; cbv zeta iota.
  apply wp_bind; eapply wp_mono; [eapply wr_ok; [eassumption|lia|lia]|]; intros P1 H1; cbv beta in *.
  prb. pru n. prb. pru n.
  eapply wp_mono; [prel|]. intros P [HD HM]. cbv beta in HM.
  destruct (nat_of 2147483649 ltac:(lia)) as [i Hi]. exists i. split; auto. split; [lia|].
  assert (E1 : P.[i].[i-2] = 1 / IZR ((4 * Z.of_nat i * (Z.of_nat i - 1)) mod u64max)).
  { rewrite HM by lia. unfold msetcol. clear -Hn Hi.
    destruct (Nat.eqb_spec (i-2) (i+2)); [lia|]. destruct (Nat.eqb_spec (i-2) i); [lia|].
    rewrite !andb_false_r. rewrite Nat.eqb_refl.
    destruct (Nat.leb_spec 3 i); [|lia]. destruct (Nat.ltb_spec i (Z.to_nat (Z.of_nat n))); [|lia]. reflexivity. }
  split.
  - rewrite E1, Hi. cbn [pco]. destruct (Nat.eqb_spec i 2); [lia|]. rewrite INR_IZR_INZ, Hi.
    rewrite <- ?minus_IZR, <- ?mult_IZR. apply inv_neq; intro E; apply eq_IZR in E; vm_compute in E; discriminate.
  - intros l Hl. rewrite HM by lia. unfold msetcol. clear -Hl Hi Hn.
    destruct (Nat.eqb_spec l (i+2)); [lia|].
    destruct (Nat.eqb_spec l i); [lia|]. destruct (Nat.eqb_spec l (i-2)); [lia|].
    rewrite !andb_false_r. destruct (Nat.eqb_spec i 2); [lia|]. reflexivity.
Qed.

Lemma pinv_release_wrong n d : (2 <= d <= 4)%nat -> (psafe d < Z.of_nat n < u64max)%Z ->
  wp (pinv (A := R) Release n d) (fun P => exists i0, wrong_row d n i0 P).
Proof.
  intros Hd Hn. assert (d = 2 \/ d = 3 \/ d = 4)%nat as [->|[->| ->]] by lia;
  [apply pinv2_release_wrong|apply pinv3_release_wrong|apply pinv4_release_wrong]; auto.
Qed.
