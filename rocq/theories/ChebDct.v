(** The Chebyshev transforms (Cheb.cheb_forward, cheb_backward) and nodes. *)
From Coq Require Import List Arith Lia Bool ZArith Reals Lra.
From Verif Require Import Base Num Linalg LinalgProofs StencilProofs StencilProofs2 Cheb ChebPoly ChebGrad.
Import ListNotations.
Local Open Scope R_scope.

(** ** Discrete orthogonality *)
Lemma trap_closed M phi :
  2 * sin (phi/2) * (/2 + rsum M (fun j => cos (INR (S j) * phi)) - cos (INR M * phi) / 2) = sin (INR M * phi) * cos (phi/2).
Proof.
  induction M.
  - simpl. rewrite Rmult_0_l, cos_0, sin_0. lra.
  - cbn [rsum].
    assert (A : sin (INR (S M) * phi) * cos (phi/2) - sin (INR M * phi) * cos (phi/2) =
                sin (phi/2) * (cos (INR (S M) * phi) + cos (INR M * phi))).
    { rewrite S_INR. set (v := phi/2). set (w := INR M * phi + phi/2).
      replace ((INR M + 1) * phi) with (w + v) by (unfold w, v; field).
      replace (INR M * phi) with (w - v) by (unfold w, v; field).
      rewrite sin_plus, sin_minus, cos_plus, cos_minus. ring. }
    replace (sin (INR (S M) * phi) * cos (phi/2)) with
      (sin (INR M * phi) * cos (phi/2) + sin (phi/2) * (cos (INR (S M) * phi) + cos (INR M * phi))) by lra.
    rewrite <- IHM. field.
Qed.

(** weights: 1/2 at the end points *)
Definition wgt (N j : nat) : R := if ((j =? 0) || (j =? N))%nat then / 2 else 1.

Lemma wgt_pos N j : 0 < wgt N j.
Proof. unfold wgt. destruct (_ || _); lra. Qed.

Lemma trap_sum N f : (1 <= N)%nat ->
  rsum (S N) (fun j => wgt N j * f j) = f 0%nat / 2 + rsum N (fun j => f (S j)) - f N / 2.
Proof.
  intros HN. rewrite rsum_first. unfold wgt at 1. simpl.
  destruct N as [|N]; [lia|]. simpl rsum.
  rewrite (rsum_ext N _ (fun j => f (S j))).
  2:{ intros k Hk. unfold wgt. simpl. destruct (Nat.eqb_spec k N); [lia|ring]. }
  unfold wgt. simpl. rewrite Nat.eqb_refl. field.
Qed.

Lemma trap_zero N r : (1 <= N)%nat -> (0 < r < 2 * N)%nat ->
  rsum (S N) (fun j => wgt N j * cos (PI * INR (j * r) / INR N)) = 0.
Proof.
  intros HN Hr. rewrite trap_sum by auto.
  assert (HNR : 0 < INR N) by (apply lt_0_INR; lia).
  set (phi := PI * INR r / INR N).
  assert (E : forall j, cos (PI * INR (j * r) / INR N) = cos (INR j * phi)).
  { intros. f_equal. unfold phi. rewrite mult_INR. field. lra. }
  rewrite (rsum_ext N _ (fun j => cos (INR (S j) * phi))) by (intros; apply E).
  rewrite !E. simpl (INR 0). rewrite Rmult_0_l, cos_0.
  pose proof (trap_closed N phi) as C.
  replace (INR N * phi) with (INR r * PI) in * by (unfold phi; field; lra).
  assert (S0 : sin (INR r * PI) = 0).
  { rewrite <- IZR_INR. apply sin_eq_0_1. exists (Z.of_nat r). auto. }
  rewrite S0, Rmult_0_l in C.
  assert (0 < sin (phi/2)).
  { apply sin_gt_0; unfold phi.
    - apply Rmult_lt_0_compat; [|lra]. apply Rmult_lt_0_compat; [|apply Rinv_0_lt_compat; auto].
      apply Rmult_lt_0_compat. apply PI_RGT_0. apply lt_0_INR; lia.
    - assert (INR r < 2 * INR N). { replace 2 with (INR 2) by (simpl; lra). rewrite <- mult_INR. apply lt_INR; lia. }
      pose proof PI_RGT_0. apply (Rmult_lt_reg_r (2 * INR N)). lra.
      replace (PI * INR r / INR N / 2 * (2 * INR N)) with (PI * INR r) by (field; lra).
      apply Rmult_lt_compat_l; lra. }
  apply Rmult_integral in C. destruct C as [C|C]; [nra|]. lra.
Qed.

Lemma trap_full N : (1 <= N)%nat -> rsum (S N) (fun j => wgt N j * 1) = INR N.
Proof. intros. rewrite (trap_sum N (fun _ => 1)) by auto. rewrite rsum_const. lra. Qed.

(** cosine matrix *)
Definition cc (N j k : nat) : R := cos (PI * INR (j * k) / INR N).

Lemma cc_sym N j k : cc N j k = cc N k j.
Proof. unfold cc. rewrite Nat.mul_comm. auto. Qed.

Lemma cc_prod N j k l : (1 <= N)%nat -> (k <= l)%nat -> cc N j k * cc N j l = (cc N j (l + k) + cc N j (l - k)) / 2.
Proof.
  intros HN Hkl. unfold cc. assert (0 < INR N) by (apply lt_0_INR; lia).
  replace (PI * INR (j * (l+k)) / INR N) with (PI * INR (j*l) / INR N + PI * INR (j*k) / INR N)
    by (rewrite !mult_INR, plus_INR; field; lra).
  replace (PI * INR (j * (l-k)) / INR N) with (PI * INR (j*l) / INR N - PI * INR (j*k) / INR N)
    by (rewrite !mult_INR, minus_INR by auto; field; lra).
  rewrite cos_plus, cos_minus. field.
Qed.

Lemma cc_0 N j : cc N j 0 = 1.
Proof. unfold cc. rewrite Nat.mul_0_r. simpl. replace (PI * 0 / INR N) with 0 by (unfold Rdiv; ring). apply cos_0. Qed.

Lemma cc_2N N j : (1 <= N)%nat -> cc N j (2*N) = 1.
Proof.
  intros. unfold cc. assert (0 < INR N) by (apply lt_0_INR; lia).
  replace (PI * INR (j * (2*N)) / INR N) with (0 + 2 * INR j * PI).
  rewrite cos_period. apply cos_0. rewrite !mult_INR. simpl. field. lra.
Qed.

Lemma cc_orth_le N k l : (1 <= N)%nat -> (k <= l)%nat -> (l <= N)%nat ->
  rsum (S N) (fun j => wgt N j * (cc N j k * cc N j l)) = if (k =? l)%nat then INR N / (2 * wgt N k) else 0.
Proof.
  intros HN Hkl Hl. remember (wgt N k) as w eqn:Ew.
  rewrite (rsum_ext _ _ (fun j => (wgt N j * cc N j (l+k) + wgt N j * cc N j (l-k)) / 2)).
  2:{ intros. rewrite cc_prod by auto. field. }
  unfold Rdiv at 1. rewrite rsum_scal_r, rsum_add.
  destruct (Nat.eqb_spec k l) as [->|].
  - replace (rsum (S N) (fun k => wgt N k * cc N k (l - l))) with (INR N).
    2:{ rewrite <- trap_full by auto. apply rsum_ext. intros. rewrite Nat.sub_diag, cc_0. auto. }
    unfold wgt in Ew. destruct (Nat.eqb_spec l 0); [|destruct (Nat.eqb_spec l N)]; simpl in Ew.
    + subst. replace (rsum (S N) (fun k => wgt N k * cc N k (0+0))) with (INR N).
      field. rewrite <- trap_full by auto. apply rsum_ext. intros. simpl. rewrite cc_0. auto.
    + subst. replace (rsum (S N) (fun k => wgt N k * cc N k (N + N))) with (INR N).
      field. rewrite <- trap_full by auto. apply rsum_ext. intros.
      replace (N+N)%nat with (2*N)%nat by lia. rewrite cc_2N by auto. auto.
    + unfold cc. rewrite trap_zero by lia. subst w. field.
  - unfold cc. rewrite !trap_zero by lia. ring.
Qed.

Lemma cc_orth N k l : (1 <= N)%nat -> (k <= N)%nat -> (l <= N)%nat ->
  rsum (S N) (fun j => wgt N j * (cc N j k * cc N j l)) = if (k =? l)%nat then INR N / (2 * wgt N k) else 0.
Proof.
  intros. destruct (le_dec k l). apply cc_orth_le; auto.
  rewrite (rsum_ext _ _ (fun j => wgt N j * (cc N j l * cc N j k))) by (intros; ring).
  rewrite cc_orth_le by lia. rewrite Nat.eqb_sym. destruct (Nat.eqb_spec k l); subst; auto.
Qed.

(** ** The transforms, explicitly *)
Lemma pos_INR_n1 n : (2 <= n)%nat -> 0 < INR (n-1).
Proof. intros. apply lt_0_INR; lia. Qed.

Lemma dct1_at n (x : list R) k : (k < n)%nat ->
  (dct1 n x).[k] = rsum n (fun j => x.[j] * (wgt (n-1) j * cc (n-1) j k)).
Proof.
  intros Hk. unfold dct1. rewrite at_map_seq by auto. rewrite vsum_rsum. apply rsum_ext. intros j Hj.
  unfold dct1_coef. numR. rewrite !IZR_INR. unfold wgt, cc. simpl (0 + k)%nat.
  destruct (_ || _); cbn [tcos tpi trig_R]; [unfold Rdiv; ring|ring].
Qed.
Lemma dct1_length n (x : list R) : length (dct1 n x) = n.
Proof. unfold dct1. rewrite map_length, seq_length. auto. Qed.

Lemma wp_scale_at (x : list R) i e (Q : list R -> Prop) : (i < length x)%nat ->
  (forall x', length x' = length x -> (forall k, x'.[k] = if (k =? i)%nat then x.[k] * e else x.[k]) -> Q x') ->
  wp (scale_at x i e) Q.
Proof.
  intros Hi HQ. unfold scale_at. wpus. apply HQ; auto. intros k. destruct (Nat.eqb_spec k i).
  subst; auto. apply HF; auto.
Qed.

Lemma cheb_forward_ok n (x out : list R) :
  (2 <= n)%nat -> length x = n -> length out = n ->
  wp (cheb_forward (mk_cheb n n) x out) (fun a => length a = n /\
    forall k, (k < n)%nat -> a.[k] = wgt (n-1) k * (2 / INR (n-1)) * rsum n (fun j => wgt (n-1) j * cc (n-1) j k * x.[n-1-j])).
Proof.
  intros Hn Lx Lo. unfold cheb_forward, cheb_len_phys, process_dct1. cbn [c_n c_m].
  rewrite Lx, Lo, Nat.eqb_refl. cbn [assertb bind]. apply wp_bind. apply wp_usub; [lia|].
  rewrite zip_write_full by (rewrite map_length, rev_length; lia).
  rewrite map_length, rev_length, Lx, Nat.eqb_refl. cbn [assertb bind].
  apply wp_bind. apply wp_scale_at. rewrite dct1_length; lia. intros x1 L1 E1. rewrite dct1_length in L1.
  apply wp_scale_at. lia. intros x2 L2 E2. split. lia.
  intros k Hk. remember (wgt (n-1) k) as w eqn:Ew. rewrite E2, E1, dct1_at by auto.
  rewrite (rsum_ext _ _ (fun j => 2 / INR (n-1) * (wgt (n-1) j * cc (n-1) j k * x.[n-1-j]))).
  2:{ intros j Hj. rewrite at_map by (rewrite rev_length; lia). rewrite at_rev by lia. rewrite Lx.
      numR. rewrite IZR_INR. field. apply Rgt_not_eq, pos_INR_n1; auto. }
  rewrite rsum_scal_l. unfold wgt in Ew. numR. set (X := rsum n _). clearbody X.
  assert (INR (n-1) <> 0) by (apply Rgt_not_eq, pos_INR_n1; auto).
  destruct (Nat.eqb_spec k (n-1)), (Nat.eqb_spec k 0); cbn [orb] in Ew; subst w; try lia; field; auto.
Qed.

Lemma combine_seq_at {A} {d : Dflt A} (l : list A) k : forall lo, (k < length l)%nat ->
  nth_error (combine (seq lo (length l)) l) k = Some ((lo + k)%nat, l.[k]).
Proof.
  revert k. induction l as [|y l IH]; intros k lo Hk; simpl in Hk; [lia|]. destruct k; simpl.
  - rewrite Nat.add_0_r. auto.
  - rewrite IH by lia. rewrite Nat.add_succ_r. auto.
Qed.

Lemma nth_error_at {A} {d : Dflt A} (l : list A) k v : nth_error l k = Some v -> l.[k] = v.
Proof. intros. unfold at_. apply nth_error_nth; auto. Qed.

(** the grid *)
Definition node (n j : nat) : R := - cos (PI * INR j / INR (n-1)).

Lemma cheb_nodes_ok n : (2 <= n)%nat ->
  wp (cheb_nodes (A := R) n) (fun xs => length xs = n /\ forall j, (j < n)%nat -> xs.[j] = node n j).
Proof.
  intros Hn. unfold cheb_nodes. apply wp_bind. apply wp_usub; [lia|]. apply wp_Ok; eexists; split; [reflexivity|].
  split. rewrite map_length, seq_length; auto. intros j Hj. rewrite at_map_seq by auto. simpl (0 + j)%nat.
  unfold node. numR. rewrite !IZR_INR. cbn [tsin tpi trig_R].
  replace (PI * (INR (n-1) - 2 * INR j) / (2 * INR (n-1))) with (PI/2 - PI * INR j / INR (n-1)).
  2:{ field. apply Rgt_not_eq, pos_INR_n1; auto. }
  rewrite <- cos_shift. replace (PI / 2 - (PI / 2 - PI * INR j / INR (n - 1))) with (PI * INR j / INR (n-1)) by ring.
  ring.
Qed.

Lemma pow_m1_cos k : (-1) ^ k = cos (INR k * PI).
Proof.
  induction k. simpl. rewrite Rmult_0_l, cos_0; auto.
  rewrite S_INR. replace ((INR k + 1) * PI) with (INR k * PI + PI) by ring. rewrite neg_cos. simpl. rewrite IHk. ring.
Qed.

Lemma TT_node n j k : (2 <= n)%nat -> TT k (node n j) = (-1) ^ k * cc (n-1) j k.
Proof.
  intros Hn. unfold node. rewrite <- neg_cos. rewrite TT_cos.
  rewrite pow_m1_cos. unfold cc.
  replace (INR k * (PI * INR j / INR (n - 1) + PI)) with (PI * INR (j*k) / INR (n-1) + INR k * PI).
  2:{ rewrite mult_INR. field. apply Rgt_not_eq, pos_INR_n1; auto. }
  rewrite cos_plus.
  assert (S0 : sin (INR k * PI) = 0). { rewrite <- IZR_INR. apply sin_eq_0_1. exists (Z.of_nat k). auto. }
  rewrite S0. ring.
Qed.

Lemma pow_m1_mod k : (-1) ^ k = if (k mod 2 =? 0)%nat then 1 else -1.
Proof.
  pose proof (Nat.div_mod_eq k 2). pose proof (Nat.mod_upper_bound k 2 ltac:(lia)).
  destruct (Nat.eqb_spec (k mod 2) 0).
  - rewrite H, e, Nat.add_0_r. apply pow_1_even.
  - rewrite H. replace (k mod 2)%nat with 1%nat by lia. rewrite Nat.add_1_r. apply pow_1_odd.
Qed.

Lemma cheb_backward_ok n (a out : list R) :
  (2 <= n)%nat -> length a = n -> length out = n ->
  wp (cheb_backward (mk_cheb n n) a out) (fun y => length y = n /\
    forall j, (j < n)%nat -> y.[j] = rsum n (fun k => a.[k] * ((-1) ^ k * cc (n-1) j k))).
Proof.
  intros Hn Lx Lo. unfold cheb_backward, cheb_len_spec, process_dct1. cbn [c_n c_m].
  rewrite Lx, Lo, Nat.eqb_refl. cbn [assertb bind].
  set (g := fun ix : nat * R => _).
  assert (LC : length (map g (combine (seq 0 n) a)) = n) by (rewrite map_length, combine_length, seq_length; lia).
  rewrite zip_write_full by lia.
  apply wp_bind. apply wp_scale_at. lia. intros x1 L1 E1. apply wp_bind. apply wp_usub; [lia|].
  apply wp_bind. apply wp_scale_at. lia. intros x2 L2 E2.
  replace (length x2) with n by lia. rewrite Nat.eqb_refl. cbn [assertb bind].
  apply wp_Ok; eexists; split; [reflexivity|].
  split. apply dct1_length. intros j Hj. rewrite dct1_at by auto. apply rsum_ext. intros k Hk.
  rewrite E2, E1. rewrite cc_sym.
  assert (EM : (map g (combine (seq 0 n) a)).[k] = (-1)^k * a.[k]).
  { apply nth_error_at. rewrite nth_error_map. rewrite <- Lx at 1. rewrite (@combine_seq_at R dflt_num) by lia. cbn [option_map].
    f_equal. unfold g. cbn [fst snd]. change (0 + k)%nat with k. rewrite pow_m1_mod. numR. destruct (k mod 2 =? 0)%nat; ring. }
  rewrite EM. unfold wgt. numR. 
  destruct (Nat.eqb_spec k (n-1)), (Nat.eqb_spec k 0); simpl orb; cbv iota; try lia; try field.
Qed.

(** ** Round trips *)
Lemma cc_flip N j k : (1 <= N)%nat -> (j <= N)%nat -> cc N (N - j) k = (-1) ^ k * cc N j k.
Proof.
  intros HN Hj. assert (0 < INR N) by (apply lt_0_INR; lia).
  rewrite pow_m1_cos. unfold cc.
  replace (PI * INR ((N - j) * k) / INR N) with (INR k * PI - PI * INR (j*k) / INR N).
  2:{ rewrite !mult_INR, minus_INR by auto. field. lra. }
  rewrite cos_minus.
  assert (S0 : sin (INR k * PI) = 0). { rewrite <- IZR_INR. apply sin_eq_0_1. exists (Z.of_nat k). auto. }
  rewrite S0. ring.
Qed.

Lemma pow_m1_sq k : (-1) ^ k * (-1) ^ k = 1.
Proof. rewrite pow_m1_mod. destruct (_ =? _)%nat; ring. Qed.

Lemma forward_backward n (a o1 o2 : list R) :
  (2 <= n)%nat -> length a = n -> length o1 = n -> length o2 = n ->
  wp (let* y := cheb_backward (mk_cheb n n) a o1 in cheb_forward (mk_cheb n n) y o2) (fun a' => a' = a).
Proof.
  intros Hn La L1 L2. apply wp_bind. eapply wp_mono. { apply cheb_backward_ok; auto. }
  intros y [Ly Ey]. eapply wp_mono. { apply cheb_forward_ok; auto. }
  intros a' [La' Ea']. apply list_ext; [lia|]. intros k Hk. rewrite Ea' by lia.
  destruct n as [|N]; [lia|]. replace (S N - 1)%nat with N in * by lia.
  assert (HN : 0 < INR N) by (apply lt_0_INR; lia).
  rewrite (rsum_ext _ _ (fun j => rsum (S N) (fun l => a.[l] * (wgt N j * (cc N j k * cc N j l))))).
  2:{ intros j Hj. rewrite Ey by lia. rewrite <- rsum_scal_l. apply rsum_ext. intros l Hl.
      rewrite cc_flip by lia. rewrite <- (Rmult_assoc ((-1)^l)), pow_m1_sq. ring. }
  rewrite rsum_swap.
  rewrite (rsum_ext _ _ (fun l => a.[l] * (INR N / (2 * wgt N k)) * (if (l =? k)%nat then 1 else 0))).
  2:{ intros l Hl. rewrite rsum_scal_l, cc_orth by lia. rewrite Nat.eqb_sym. destruct (_ =? _)%nat; ring. }
  rewrite rsum_ind_mul. destruct (Nat.ltb_spec k (S N)); [|lia].
  pose proof (wgt_pos N k). field. lra.
Qed.

Lemma backward_forward n (x o1 o2 : list R) :
  (2 <= n)%nat -> length x = n -> length o1 = n -> length o2 = n ->
  wp (let* a := cheb_forward (mk_cheb n n) x o1 in cheb_backward (mk_cheb n n) a o2) (fun x' => x' = x).
Proof.
  intros Hn Lx L1 L2. apply wp_bind. eapply wp_mono. { apply cheb_forward_ok; auto. }
  intros a [La Ea]. eapply wp_mono. { apply cheb_backward_ok; auto. }
  intros y [Ly Ey]. apply list_ext; [lia|]. intros j Hj. rewrite Ey by lia.
  destruct n as [|N]; [lia|]. replace (S N - 1)%nat with N in * by lia.
  assert (HN : 0 < INR N) by (apply lt_0_INR; lia).
  rewrite (rsum_ext _ _ (fun k => rsum (S N) (fun l => 2 / INR N * (wgt N l * x.[N-l]) * (wgt N k * (cc N k (N-j) * cc N k l))))).
  2:{ intros k Hk. rewrite Ea by lia. rewrite <- cc_flip by lia. rewrite (cc_sym N k (N-j)).
      rewrite <- rsum_scal_l, <- rsum_scal_r. apply rsum_ext. intros l Hl. rewrite (cc_sym N l k). ring. }
  rewrite rsum_swap.
  rewrite (rsum_ext _ _ (fun l => 2 / INR N * (wgt N l * x.[N-l]) * (INR N / (2 * wgt N (N-j))) * (if (l =? N-j)%nat then 1 else 0))).
  2:{ intros l Hl. rewrite rsum_scal_l, cc_orth by lia. rewrite (Nat.eqb_sym (N-j)). destruct (_ =? _)%nat; ring. }
  rewrite rsum_ind_mul. destruct (Nat.ltb_spec (N-j) (S N)); [|lia].
  replace (N - (N - j))%nat with j by lia.
  pose proof (wgt_pos N (N-j)). field. lra.
Qed.

(** ** Properties of the grid *)
Lemma node_first n : (2 <= n)%nat -> node n 0 = -1.
Proof. intros. unfold node. simpl (INR 0). unfold Rdiv. rewrite Rmult_0_r, Rmult_0_l, cos_0. auto. Qed.
Lemma node_last n : (2 <= n)%nat -> node n (n-1) = 1.
Proof.
  intros. unfold node. replace (PI * INR (n-1) / INR (n-1)) with PI. rewrite cos_PI. ring.
  field. apply Rgt_not_eq, pos_INR_n1; auto.
Qed.
Lemma node_sym n j : (2 <= n)%nat -> (j < n)%nat -> node n (n - 1 - j) = - node n j.
Proof.
  intros. unfold node. replace (PI * INR (n-1-j) / INR (n-1)) with (- (PI * INR j / INR (n-1)) + PI).
  rewrite neg_cos, cos_neg. ring. rewrite (minus_INR (n-1)) by lia. field. apply Rgt_not_eq, pos_INR_n1; auto.
Qed.
Lemma node_incr n i j : (2 <= n)%nat -> (i < j)%nat -> (j < n)%nat -> node n i < node n j.
Proof.
  intros Hn Hij Hj. unfold node. apply Ropp_lt_contravar.
  pose proof (pos_INR_n1 n Hn) as HP. pose proof PI_RGT_0.
  assert (F : forall k, (k < n)%nat -> 0 <= PI * INR k / INR (n-1) <= PI).
  { intros k Hk. split.
    - apply Rmult_le_pos; [|apply Rlt_le, Rinv_0_lt_compat; auto]. apply Rmult_le_pos; [lra|apply pos_INR].
    - apply (Rmult_le_reg_r (INR (n-1))); auto. unfold Rdiv. rewrite Rmult_assoc, Rinv_l, Rmult_1_r by lra.
      apply Rmult_le_compat_l; [lra|]. apply le_INR. lia. }
  apply cos_decreasing_1; try apply F; try lia.
  unfold Rdiv. apply Rmult_lt_compat_r. apply Rinv_0_lt_compat; auto.
  apply Rmult_lt_compat_l; auto. apply lt_INR; auto.
Qed.
