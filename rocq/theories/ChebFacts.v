(** Facts about the Chebyshev base in the form used by PropCheb.v. *)
From Coq Require Import List Arith Lia Bool ZArith Reals Lra.
From Verif Require Import Base Num Linalg LinalgProofs StencilProofs StencilProofs2 Cheb ChebPoly ChebGrad ChebMat
  ChebPinv ChebPinv2 ChebDct.
Import ListNotations.
Local Open Scope R_scope.

(** M is the n x m matrix product of A (n x k) and B (k x m). *)
Definition is_matmul (k : nat) (A B M : nat -> nat -> R) (n m : nat) : Prop :=
  forall i j, (i < n)%nat -> (j < m)%nat -> M i j = rsum k (fun l => A i l * B l j).

Lemma cheb_new_inv n c : cheb_new n = Ok c -> (2 <= n)%nat /\ c = mk_cheb n n.
Proof.
  unfold cheb_new, assertb. destruct (Nat.leb_spec 2 n); cbn [bind]; intros E; [|discriminate].
  apply Ok_inj in E. auto.
Qed.

Lemma C01_l n c (a o1 o2 : list R) : cheb_new n = Ok c -> length a = n -> length o1 = n -> length o2 = n ->
  wp (let* y := cheb_backward c a o1 in cheb_forward c y o2) (fun a' => a' = a).
Proof. intros H. apply cheb_new_inv in H as [Hn ->]. intros. apply forward_backward; auto. Qed.

Lemma C02_l n c (x o1 o2 : list R) : cheb_new n = Ok c -> length x = n -> length o1 = n -> length o2 = n ->
  wp (let* a := cheb_forward c x o1 in cheb_backward c a o2) (fun x' => x' = x).
Proof. intros H. apply cheb_new_inv in H as [Hn ->]. intros. apply backward_forward; auto. Qed.

Lemma coords_ok n c : cheb_new n = Ok c ->
  wp (cheb_coords c) (fun xs => length xs = n /\ forall j, (j < n)%nat -> xs.[j] = node n j).
Proof. intros H. apply cheb_new_inv in H as [Hn ->]. apply cheb_nodes_ok; auto. Qed.

Lemma backward_eval n c (a o : list R) : cheb_new n = Ok c -> length a = n -> length o = n ->
  wp (cheb_coords c) (fun xs => wp (cheb_backward c a o) (fun y => length y = n /\
    forall j, (j < n)%nat -> y.[j] = rsum n (fun k => a.[k] * TT k xs.[j]))).
Proof.
  intros H La Lo. eapply wp_mono. { apply coords_ok; eauto. }
  apply cheb_new_inv in H as [Hn ->].
  intros xs [Lx Ex]. eapply wp_mono. { apply cheb_backward_ok; auto. }
  intros y [Ly Ey]. split; auto. intros j Hj. rewrite Ey by auto. apply rsum_ext. intros k Hk.
  rewrite Ex by auto. rewrite TT_node by auto. auto.
Qed.

Lemma wp_det {A} (m : res A) P Q : wp m P -> wp m Q -> wp m (fun a => P a /\ Q a).
Proof. destruct m; simpl; auto. Qed.

Lemma forward_interpolates n c (x o : list R) : cheb_new n = Ok c -> length x = n -> length o = n ->
  wp (cheb_coords c) (fun xs => wp (cheb_forward c x o) (fun a => length a = n /\
    (forall j, (j < n)%nat -> rsum n (fun k => a.[k] * TT k xs.[j]) = x.[j]) /\
    (forall b, length b = n -> (forall j, (j < n)%nat -> rsum n (fun k => b.[k] * TT k xs.[j]) = x.[j]) -> b = a))).
Proof.
  intros H Lx Lo. pose proof (C02_l n c x o o H Lx Lo Lo) as RT. apply wp_bind_inv in RT.
  assert (LF : wp (cheb_forward c x o) (fun a => length a = n)).
  { pose proof (cheb_new_inv n c H) as [Hn ->]. eapply wp_mono; [apply cheb_forward_ok; auto|]. intros ? [? ?]; auto. }
  pose proof (wp_det _ _ _ RT LF) as W.
  destruct (cheb_coords c) as [xs| |] eqn:EC.
  2,3: pose proof (coords_ok n c H) as HC; rewrite EC in HC; destruct HC.
  cbn [wp]. eapply wp_mono; [exact W|]. cbv beta. intros a [WB La]. split; auto.
  assert (EV : forall b, length b = n -> wp (cheb_backward c b o) (fun y => length y = n /\
      forall j, (j < n)%nat -> y.[j] = rsum n (fun k => b.[k] * TT k xs.[j]))).
  { intros b Lb. pose proof (backward_eval n c b o H Lb Lo) as E. rewrite EC in E. exact E. }
  split.
  - intros j Hj. pose proof (wp_det _ _ _ WB (EV a La)) as W2.
    destruct (cheb_backward c a o); try contradiction. destruct W2 as [-> [_ E]]. symmetry; apply E; auto.
  - intros b Lb Hb.
    pose proof (C01_l n c b o o H Lb Lo Lo) as R1. apply wp_bind_inv in R1.
    pose proof (wp_det _ _ _ R1 (EV b Lb)) as W2.
    pose proof (C01_l n c a o o H La Lo Lo) as R2. apply wp_bind_inv in R2.
    pose proof (wp_det _ _ _ R2 WB) as W3.
    destruct (cheb_backward c b o) as [yb| |]; try contradiction.
    destruct (cheb_backward c a o) as [ya| |]; try contradiction.
    destruct W2 as [F2 [L2 E2]]. destruct W3 as [F3 E3].
    assert (yb = ya). { subst ya. apply list_ext; [lia|]. intros j Hj. rewrite E2 by lia. apply Hb; lia. }
    subst yb. destruct (cheb_forward c ya o); try contradiction. simpl in F2, F3. congruence.
Qed.

Section T.
Context {T : Type} {V : Vec R T} {L : VecR T}.

Lemma C05_l n c (a o : list T) d : cheb_new n = Ok c -> (3 <= n)%nat -> length a = n -> length o = n ->
  wp (cheb_gradient c a o d) (fun b => length b = n /\ forall p, nth_deriv d (peval a p) (peval b p)).
Proof. intros H. apply cheb_new_inv in H as [Hn ->]. intros. apply (cheb_gradient_ok (mk_cheb n n)); auto. Qed.

Lemma for_each_len {I} (l : list I) (body : I -> list T -> res (list T)) s (n : nat) :
  (forall i s s', length s = n -> body i s = Ok s' -> length s' = n) ->
  forall s', length s = n -> for_each l body s = Ok s' -> length s' = n.
Proof.
  intros HB. revert s. induction l; simpl; intros s s' Hs E.
  - apply Ok_inj in E; subst; auto.
  - destruct (body a s) eqn:Eb; try discriminate. simpl in E. eapply IHl; [|exact E]. eapply HB; eauto.
Qed.

Lemma range_const {S} (body : S -> res S) d lo s :
  for_each (seq lo d) (fun _ => body) s = for_each (seq 0 d) (fun _ => body) s.
Proof.
  revert lo s. induction d; intros; simpl; auto. destruct (body s); simpl; auto.
  rewrite (IHd (Datatypes.S lo)), (IHd 1%nat). auto.
Qed.

Lemma C05_compose n c (a o1 o2 : list T) d1 d2 :
  cheb_new n = Ok c -> (3 <= n)%nat -> length a = n -> length o1 = n -> length o2 = n ->
  wp (let* b := cheb_gradient c a o1 d1 in cheb_gradient c b o2 d2) (fun b =>
    cheb_gradient c a o1 (d1 + d2) = Ok b).
Proof.
  intros H Hn La L1 L2. apply cheb_new_inv in H as [_ ->]. set (c := mk_cheb n n).
  apply wp_bind. pose proof (cheb_gradient_ok c a o1 d1 ltac:(simpl; lia) La L1) as W.
  destruct (cheb_gradient c a o1 d1) as [b| |] eqn:E1; try contradiction. destruct W as [Lb _]. cbn [wp].
  simpl c_m in Lb.
  pose proof (cheb_gradient_ok c b o2 d2 ltac:(simpl; lia) Lb L2) as W2.
  destruct (cheb_gradient c b o2 d2) as [b2| |] eqn:E2; try contradiction. cbn [wp].
  revert E1 E2. unfold cheb_gradient. simpl c_m. rewrite L1, L2, Nat.eqb_refl. cbn [assertb bind].
  rewrite !zip_write_full by lia. unfold range. rewrite !Nat.sub_0_r.
  rewrite seq_app, for_each_app. intros -> E2. cbn [bind]. simpl Nat.add. rewrite range_const. exact E2.
Qed.

(** C06 *)
Lemma C06_l bm n c (a o : list T) d : cheb_new n = Ok c -> (3 <= n)%nat -> (1 <= d <= 4)%nat ->
  (Z.of_nat n <= dsafe bm d)%Z -> length a = n -> length o = n ->
  wp (cheb_diffmat (A := R) bm c d) (fun D => mat_dims D n n /\
    wp (cheb_gradient c a o d) (fun b => length b = n /\
       forall i, (i < n)%nat -> b.[i] = vsum n (fun j => vmul a.[j] D.[i].[j]))).
Proof.
  intros H Hn Hd Hs La Lo. apply cheb_new_inv in H as [_ ->]. unfold cheb_diffmat. cbn [c_n].
  destruct (Nat.ltb_spec 0 d); [|lia]. cbn [assertb bind].
  eapply wp_mono. { apply dmat_ok; auto; lia. }
  intros D [HD ED]. split; auto. eapply wp_mono. { apply gradient_matrix; auto; cbn [c_m]; try lia. }
  cbn [c_m]. intros b [Lb Eb]. split; auto. intros i Hi. rewrite Eb by auto.
  apply vsum_ext. intros j Hj. rewrite ED by auto. destruct d; [lia|reflexivity].
Qed.

Lemma C06_wrong n c d : cheb_new n = Ok c -> d = 4%nat -> (567 <= n)%nat -> (Z.of_nat n < u64max)%Z ->
  wp (cheb_diffmat (A := R) Release c d) (fun D =>
    exists a : list R, length a = n /\ wp (cheb_gradient c a a d) (fun b =>
       b.[0] <> vsum n (fun j => vmul a.[j] D.[0].[j]))).
Proof.
  intros H -> Hn Hb. apply cheb_new_inv in H as [_ ->]. unfold cheb_diffmat. cbn [c_n assertb bind Nat.ltb Nat.leb].
  eapply wp_mono. { apply dmat4_release_wrong; auto. }
  intros D [HD ED]. exists (map (fun j => if (j =? 566)%nat then 1 else 0) (seq 0 n)).
  split. rewrite map_length, seq_length; auto.
  eapply wp_mono. { apply gradient_matrix; cbn [c_m]; rewrite ?map_length, ?seq_length; try lia. }
  cbn [c_m]. intros b [Lb Eb] E. rewrite Eb in E by lia. apply ED.
  assert (G : forall f : nat -> R, vsum n (fun j => vmul (map (fun j => if (j =? 566)%nat then 1 else 0) (seq 0 n)).[j] (f j)) = f 566%nat).
  { intros f. rewrite vsum_rsum. rewrite (rsum_ext _ _ (fun j => f j * (if (j =? 566)%nat then 1 else 0))).
    2:{ intros k Hk. rewrite at_map_seq by auto. cbn [vmul vec_self nmul num_R]. rewrite Rmult_comm. reflexivity. }
    rewrite rsum_ind_mul. destruct (Nat.ltb_spec 566 n); auto; lia. }
  etransitivity; [symmetry; exact (G (fun j => D.[0].[j]))|]. etransitivity; [symmetry; exact E|]. exact (G (dexn 4 0)).
Qed.
End T.

(** C08 *)
Lemma eye_at n i j : (i < n)%nat -> (j < n)%nat -> (eye (A := R) n).[i].[j] = if (i =? j)%nat then 1 else 0.
Proof. intros. unfold eye. rewrite at_map_seq by auto. rewrite at_map_seq by auto. reflexivity. Qed.

Lemma skipn_at {A} {d : Dflt A} k (l : list A) i : (skipn k l).[i] = l.[k + i].
Proof.
  unfold at_. revert l; induction k; intros; simpl; auto. destruct l; simpl; auto. destruct i; auto.
Qed.

Lemma C08_l bm n c d : cheb_new n = Ok c -> (1 <= d <= 4)%nat -> (2 * d <= n)%nat -> (Z.of_nat n <= dsafe bm d)%Z ->
  wp (cheb_diffmat (A := R) bm c d) (fun D =>
  wp (cheb_diffmat_pinv (A := R) bm c d) (fun '(P, E) =>
    mat_dims P n n /\ mat_dims E (n - d) n /\
    (forall i j, (i < d)%nat -> (j < n)%nat -> P.[i].[j] = 0) /\
    (forall i j, (i < n - d)%nat -> (j < n)%nat ->
        rsum n (fun l => P.[d+i].[l] * D.[l].[j]) = E.[i].[j]) /\
    (forall i j, (i < n - d)%nat -> (j < n)%nat -> E.[i].[j] = if (d + i =? j)%nat then 1 else 0))).
Proof.
  intros H Hd Hn Hs. apply cheb_new_inv in H as [H2 ->]. unfold cheb_diffmat, cheb_diffmat_pinv. cbn [c_n].
  destruct (Nat.ltb_spec 0 d); [|lia]. cbn [assertb bind].
  eapply wp_mono. { apply dmat_ok; auto; lia. }
  intros D [HD ED]. apply wp_bind. eapply wp_mono. { apply pinv_ok; auto. eapply Z.le_trans; [exact Hs|]. destruct d as [|[|[|[|[|d]]]]]; try lia; destruct bm; intro; discriminate. }
  intros P [HP EP]. unfold pinv_eye. destruct (Nat.leb_spec d n); [|lia]. cbn [assertb bind wp].
  assert (EE : forall i j, (i < n - d)%nat -> (j < n)%nat -> (skipn d (eye (A:=R) n)).[i].[j] = if (d + i =? j)%nat then 1 else 0).
  { intros. rewrite (skipn_at d (eye n) i), eye_at by lia. auto. }
  split; auto. split; [|split; [|split]]; auto.
  - split. unfold eye. rewrite skipn_length, map_length, seq_length. auto.
    intros i Hi. rewrite skipn_at. unfold eye. rewrite at_map_seq by lia. rewrite map_length, seq_length; auto.
  - intros i j Hi Hj. rewrite EP by lia. unfold psum. destruct (Nat.ltb_spec i d); auto; lia.
  - intros i j Hi Hj. rewrite EE by auto.
    rewrite (rsum_ext _ _ (fun l => psum n d (d+i) l * dex d l j)).
    2:{ intros l Hl. rewrite EP, ED by lia. auto. }
    rewrite pinv_dmat by lia. destruct (Nat.leb_spec d (d+i)); [|lia]. auto.
Qed.

(** C07 *)
Lemma C07_ok bm n c d : cheb_new n = Ok c -> (1 <= d <= 4)%nat -> (Z.of_nat n <= dsafe bm d)%Z ->
  wp (cheb_diffmat (A := R) bm c d) (fun M => mat_dims M n n /\ cheb_diffmat (A := R) Release c d = Ok M).
Proof.
  intros H Hd Hs. apply cheb_new_inv in H as [H2 ->]. unfold cheb_diffmat. cbn [c_n].
  destruct (Nat.ltb_spec 0 d); [|lia]. cbn [assertb bind].
  assert (HR : (Z.of_nat n <= dsafe Release d)%Z).
  { destruct bm; auto. assert (d = 1 \/ d = 2 \/ d = 3 \/ d = 4)%nat as [->|[->|[->| ->]]] by lia;
    cbn [dsafe dbound] in *; lia. }
  pose proof (dmat_ok bm n d ltac:(lia) Hd Hs) as W1. pose proof (dmat_ok Release n d ltac:(lia) Hd HR) as W2.
  destruct (dmat bm n d) as [M1| |]; try contradiction. destruct (dmat Release n d) as [M2| |]; try contradiction.
  destruct W1 as [[D1 D1'] E1], W2 as [[D2 D2'] E2]. cbn [wp]. split; [split; auto|]. f_equal.
  apply list_ext; [lia|]. intros i Hi. apply list_ext. rewrite D1', D2' by lia; auto.
  intros j Hj. rewrite D2' in Hj by lia. rewrite E1, E2 by lia. auto.
Qed.

Lemma C07_debug3 n c : cheb_new n = Ok c -> (12 <= n)%nat -> cheb_diffmat (A := R) Debug c 3 = Panic.
Proof. intros H Hn. apply cheb_new_inv in H as [H2 ->]. unfold cheb_diffmat. cbn [c_n Nat.ltb Nat.leb assertb bind]. apply dmat3_debug_panics; auto. Qed.
Lemma C07_debug4 n c : cheb_new n = Ok c -> (567 <= n)%nat -> cheb_diffmat (A := R) Debug c 4 = Panic.
Proof. intros H Hn. apply cheb_new_inv in H as [H2 ->]. unfold cheb_diffmat. cbn [c_n Nat.ltb Nat.leb assertb bind]. apply dmat4_debug_panics; auto. Qed.
Lemma C07_range bm n c d : cheb_new n = Ok c -> (d = 0 \/ 4 < d)%nat -> cheb_diffmat (A := R) bm c d = Panic.
Proof.
  intros H Hd. unfold cheb_diffmat. destruct d as [|[|[|[|[|d]]]]]; try lia; reflexivity.
Qed.
