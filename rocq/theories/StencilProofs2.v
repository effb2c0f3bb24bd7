(** Stencil product and left inverse. *)
From Coq Require Import List Arith Lia Bool ZArith Reals Lra.
From Verif Require Import Base Num Linalg LinalgProofs LinalgProofs2 LinalgSpec Stencils StencilProofs.
Import ListNotations.
Local Open Scope R_scope.

Ltac wpu := match goal with
  | |- wp (usub _ _) _ => apply wp_usub; [ lens | ]
  | |- wp (assertb (_ =? _)%nat) _ => apply wp_assert; [ apply Nat.eqb_eq; lens | ]
  | _ => wp1
  end.
Ltac wpus := repeat (wpu; cbv beta).

Section Dot.
Context {T : Type} {V : Vec R T} {L : VecR T}.

(** u = S v *)
Definition is_matvec (n m : nat) (S : nat -> nat -> R) (v u : list T) : Prop :=
  length u = n /\ forall i, (i < n)%nat -> u.[i] = vsum m (fun j => vmul v.[j] (S i j)).

Lemma scol_rowT s m d a b (v : list T) i :
  (0 < s)%nat -> (i < m + 2*s)%nat ->
  vsum m (fun j => vmul v.[j] (scol s d a b i j)) =
  vadd (vadd (if (i <? m)%nat then vmul v.[i] (d i) else v0)
             (if ((s <=? i) && (i - s <? m))%nat then vmul v.[i-s] (a (i-s)%nat) else v0))
       (if ((2*s <=? i) && (i - 2*s <? m))%nat then vmul v.[i-2*s] (b (i-2*s)%nat) else v0).
Proof.
  intros Hs Hi. apply vext. intros p. rewrite vproj_vsum.
  rewrite (rsum_ext _ _ (fun j => vproj p v.[j] * scol s d a b i j)) by (intros; apply vproj_mul).
  rewrite scol_row by auto. rewrite !vproj_add.
  f_equal; [f_equal|].
  - destruct (i <? m)%nat; rewrite ?vproj_mul, ?vproj_0; auto.
  - destruct (_ && _)%bool; rewrite ?vproj_mul, ?vproj_0; auto.
  - destruct (_ && _)%bool; rewrite ?vproj_mul, ?vproj_0; auto.
Qed.

Ltac row_tac :=
  rewrite scol_rowT by lia;
  repeat match goal with
    | |- context [(?x <? ?y)%nat] => destruct (Nat.ltb_spec x y); try lia
    | |- context [(?x <=? ?y)%nat] => destruct (Nat.leb_spec x y); try lia
  end; cbn [andb].

Lemma st2_dot_ok (h : st2 R) m (v u : list T) :
  (2 <= m)%nat -> length (d2_diag h) = m -> length (d2_low2 h) = m ->
  length v = m -> length u = (m+2)%nat ->
  wp (st2_dot h v u)
    (is_matvec (m+2) m (scol 1 (at_ (d2_diag h)) (fun _ => 0) (at_ (d2_low2 h))) v).
Proof.
  intros Hm Ld Ll Lv Lu. unfold st2_dot. wpus.
  apply (wp_for_each_range 2 (length u - 2) _ (fun i w => length w = length u /\
    (forall j, (j < i)%nat -> w.[j] = vsum m (fun k => vmul v.[k]
        (scol 1 (at_ (d2_diag h)) (fun _ => 0) (at_ (d2_low2 h)) j k))))).
  - lia.
  - split; [lia|]. intros j Hj. assert (j = 0 \/ j = 1)%nat as [->| ->] by lia.
    + rewrite HF0, HE by lia. row_tac. vcoord. ring.
    + rewrite HE0 by lia. row_tac. vcoord. ring.
  - intros i w Hi [Hw Ew]. wpus. split; [lia|]. intros j Hj.
    destruct (Nat.eq_dec j i) as [->|].
    + rewrite HE1. row_tac. replace (i - 2*1)%nat with (i-2)%nat by lia. vcoord. ring.
    + rewrite HF1 by auto. apply Ew. lia.
  - intros w [Hw Ew]. wpus. split; [lia|]. intros j Hj.
    destruct (Nat.eq_dec j (length u - 1)) as [->|].
    + rewrite HE2. row_tac. replace (length u - 1 - 2*1)%nat with (length u - 3)%nat by lia. vcoord. ring.
    + rewrite HF2 by auto. destruct (Nat.eq_dec j (length u - 2)) as [->|].
      * rewrite HE1. row_tac. replace (length u - 2 - 2*1)%nat with (length u - 4)%nat by lia. vcoord. ring.
      * rewrite HF1 by auto. apply Ew. lia.
Qed.

Lemma st3_dot_ok (h : st3 R) m (v u : list T) :
  (2 <= m)%nat -> length (d3_diag h) = m -> length (d3_lowa h) = m -> length (d3_lowb h) = m ->
  length v = m -> length u = (m+2)%nat ->
  wp (st3_dot h v u)
    (is_matvec (m+2) m (scol 1 (at_ (d3_diag h)) (at_ (d3_lowa h)) (at_ (d3_lowb h))) v).
Proof.
  intros Hm Ld La Lb Lv Lu. unfold st3_dot. wpus.
  apply (wp_for_each_range 2 (length u - 2) _ (fun i w => length w = length u /\
    (forall j, (j < i)%nat -> w.[j] = vsum m (fun k => vmul v.[k]
        (scol 1 (at_ (d3_diag h)) (at_ (d3_lowa h)) (at_ (d3_lowb h)) j k))))).
  - lia.
  - split; [lia|]. intros j Hj. assert (j = 0 \/ j = 1)%nat as [->| ->] by lia.
    + rewrite HF0, HE by lia. row_tac. vcoord. ring.
    + rewrite HE0 by lia. row_tac. simpl Nat.sub. vcoord. ring.
  - intros i w Hi [Hw Ew]. wpus. split; [lia|]. intros j Hj.
    destruct (Nat.eq_dec j i) as [->|].
    + rewrite HE1. row_tac. replace (i - 2*1)%nat with (i-2)%nat by lia. vcoord. ring.
    + rewrite HF1 by auto. apply Ew. lia.
  - intros w [Hw Ew]. wpus. split; [lia|]. intros j Hj.
    destruct (Nat.eq_dec j (length u - 1)) as [->|].
    + rewrite HE2. row_tac. replace (length u - 1 - 2*1)%nat with (length u - 3)%nat by lia. vcoord. ring.
    + rewrite HF2 by auto. destruct (Nat.eq_dec j (length u - 2)) as [->|].
      * rewrite HE1. row_tac. replace (length u - 2 - 2*1)%nat with (length u - 4)%nat by lia.
        replace (length u - 2 - 1)%nat with (length u - 3)%nat by lia. vcoord. ring.
      * rewrite HF1 by auto. apply Ew. lia.
Qed.

(** The biharmonic product.  [mem] = slices together with what follows them in
    memory: running the same code on slices that are two elements longer shows
    what the out-of-range reads compute. *)
Lemma st4_dot_run (h : st3 R) m (v u : list T) :
  (4 <= m)%nat ->
  (m + 2 <= length (d3_diag h))%nat -> (m + 2 <= length (d3_lowa h))%nat ->
  (m <= length (d3_lowb h))%nat ->
  length v = length (d3_diag h) -> length u = (m+4)%nat ->
  wp (st4_dot h v u) (fun u' => length u' = (m+4)%nat /\
    (forall i, (i < m+1)%nat -> u'.[i] = vsum m (fun j => vmul v.[j]
        (scol 2 (at_ (d3_diag h)) (at_ (d3_lowa h)) (at_ (d3_lowb h)) i j))) /\
    u'.[m+1] = vadd (vmul v.[m-1] (d3_lowa h).[m-2]) (vmul v.[m-3] (d3_lowb h).[m-3]) /\
    u'.[m+2] = vadd (vmul v.[m] (d3_lowa h).[m]) (vmul v.[m-2] (d3_lowb h).[m-2]) /\
    u'.[m+3] = vadd (vmul v.[m+1] (d3_lowa h).[m+1]) (vmul v.[m-1] (d3_lowb h).[m-1])).
Proof.
  intros Hm Ld La Lb Lv Lu. unfold st4_dot. wpus.
  apply (wp_for_each_range 4 (length u - 4) _ (fun i w => length w = length u /\
    (forall j, (j < i)%nat -> w.[j] = vsum m (fun k => vmul v.[k]
        (scol 2 (at_ (d3_diag h)) (at_ (d3_lowa h)) (at_ (d3_lowb h)) j k))))).
  - lia.
  - split; [lia|]. intros j Hj.
    assert (j = 0 \/ j = 1 \/ j = 2 \/ j = 3)%nat as [->|[->|[->| ->]]] by lia.
    + rewrite HF2, HF1, HF0, HE by lia. row_tac. vcoord. ring.
    + rewrite HF2, HF1, HE0 by lia. row_tac. vcoord. ring.
    + rewrite HF2, HE1 by lia. row_tac. simpl Nat.sub. vcoord. ring.
    + rewrite HE2 by lia. row_tac. simpl Nat.sub. vcoord. ring.
  - intros i w Hi [Hw Ew]. wpus. split; [lia|]. intros j Hj.
    destruct (Nat.eq_dec j i) as [->|].
    + rewrite HE3. row_tac. replace (i - 2*2)%nat with (i-4)%nat by lia. vcoord. ring.
    + rewrite HF3 by auto. apply Ew. lia.
  - intros w [Hw Ew]. wpus. split; [lia|]. split; [|split; [|split]].
    + intros i Hi. rewrite HF6, HF5, HF4 by lia.
      destruct (Nat.eq_dec i (length u - 4)) as [->|].
      * rewrite HE3. row_tac. replace (length u - 4 - 2*2)%nat with (length u - 8)%nat by lia.
        replace (length u - 4 - 2)%nat with (length u - 6)%nat by lia. vcoord. ring.
      * rewrite HF3 by auto. apply Ew. lia.
    + rewrite HF6, HF5 by lia. replace (m+1)%nat with (length u - 3)%nat by lia. rewrite HE4.
      replace (length u - 5)%nat with (m-1)%nat by lia. replace (length u - 6)%nat with (m-2)%nat by lia.
      replace (length u - 7)%nat with (m-3)%nat by lia. auto.
    + rewrite HF6 by lia. replace (m+2)%nat with (length u - 2)%nat by lia. rewrite HE5.
      replace (length u - 4)%nat with m by lia. replace (length u - 6)%nat with (m-2)%nat by lia. auto.
    + replace (m+3)%nat with (length u - 1)%nat by lia. rewrite HE6.
      replace (length u - 3)%nat with (m+1)%nat by lia. replace (length u - 5)%nat with (m-1)%nat by lia. auto.
Qed.

(** With slices of the lengths the constructor makes, the product reads past
    the end of [v] (and of the sub-diagonal): undefined behaviour, always. *)
Definition goes_UB {B} (m : res B) : Prop := m = UB.

Lemma UB_bind {A B} (m : res A) (k : A -> res B) (P : A -> Prop) :
  wp m P -> (forall a, P a -> k a = UB) -> bind m k = UB.
Proof. intros H HK. apply wp_Ok in H. destruct H as (a & -> & Ha). apply HK; auto. Qed.

Lemma st4_dot_UB (h : st3 R) m (v u : list T) :
  (4 <= m)%nat -> length (d3_diag h) = m -> length (d3_lowa h) = m -> length (d3_lowb h) = m ->
  length v = m -> length u = (m+4)%nat ->
  st4_dot h v u = UB.
Proof.
  intros Hm Ld La Lb Lv Lu. unfold st4_dot.
  assert (ST : forall (w : list T) i (e : res T), wp e (fun _ => True) -> (i < length w)%nat ->
     wp (st Unchecked w i e) (fun w' => length w' = length w)).
  { intros w i e He Hi. apply wp_st. eapply wp_mono; [exact He|]. intros. split; auto. }
  eapply UB_bind with (P := fun _ => True). { wpus. exact I. } intros _ _.
  do 4 (eapply UB_bind; [apply ST; [wpus; auto|lia]|]; cbv beta; intros ? ?).
  unfold usub. destruct (Nat.leb_spec 4 (length u)); [|lia]. cbn [bind].
  eapply UB_bind with (P := fun w : list T => length w = length u).
  { apply (wp_for_each_range 4 (length u - 4) _ (fun _ w => length w = length u)); try lia.
    intros i w Hi Hw. eapply wp_mono. { apply ST; [wpus; auto|lia]. } cbv beta. intros. lia. }
  cbv beta. intros w Hw.
  destruct (Nat.leb_spec 6 (length u)); [|lia]. destruct (Nat.leb_spec 8 (length u)); [|lia]. cbn [bind].
  eapply UB_bind; [apply ST; [wpus; auto|lia]|]; cbv beta; intros ? ?.
  destruct (Nat.leb_spec 5 (length u)); [|lia]. destruct (Nat.leb_spec 7 (length u)); [|lia].
  destruct (Nat.leb_spec 3 (length u)); [|lia]. cbn [bind].
  eapply UB_bind; [apply ST; [wpus; auto|lia]|]; cbv beta; intros ? ?.
  destruct (Nat.leb_spec 2 (length u)); [|lia]. cbn [bind].
  unfold st. rewrite (rd_oob Unchecked v) by lia. reflexivity.
Qed.
End Dot.

(** ** Left inverse *)
Lemma wp_mset (M : list (list R)) r c i j (e : res R) (Q : list (list R) -> Prop) :
  mat_dims M r c -> (i < r)%nat -> (j < c)%nat ->
  wp e (fun x => forall M', mat_dims M' r c -> M'.[i].[j] = x ->
     (forall i' j', i' <> i \/ j' <> j -> M'.[i'].[j'] = M.[i'].[j']) -> Q M') ->
  wp (mset M i j e) Q.
Proof.
  intros HD Hi Hj H. unfold mset. apply wp_bind. eapply wp_mono; eauto.
  intros x Hx. cbv beta. eapply wp_mwr; eauto.
Qed.

(** [P @ S = I] *)
Definition left_inv (n m : nat) (P S : nat -> nat -> R) : Prop :=
  forall i j, (i < m)%nat -> (j < m)%nat ->
    rsum n (fun r => P i r * S r j) = if (i =? j)%nat then 1 else 0.

(** Row recurrence that makes P a left inverse. *)
Definition inv_row (s m : nat) (d a b : nat -> R) (P : nat -> R) (i : nat) : Prop :=
  forall j, (j < m)%nat ->
    P j * d j + P (j+s)%nat * a j + P (j+2*s)%nat * b j = if (i =? j)%nat then 1 else 0.

Lemma inv_row_left s m d a b (P : nat -> nat -> R) :
  (0 < s)%nat ->
  (forall i, (i < m)%nat -> inv_row s m d a b (P i) i) ->
  left_inv (m+2*s) m P (scol s d a b).
Proof.
  intros Hs H i j Hi Hj. rewrite scol_col by auto. apply H; auto.
Qed.

Lemma mod2_cases i : (i mod 2 = 0 \/ i mod 2 = 1)%nat.
Proof. pose proof (Nat.mod_upper_bound i 2). lia. Qed.

(** [(0..k).rev().step_by(2)] *)
Lemma step_by2_rev k :
  step_by 2 (rev (range 0 k)) = map (fun t => (k - 1 - 2*t)%nat) (range 0 ((k+1)/2)).
Proof.
  unfold range. rewrite !Nat.sub_0_r.
  enough (H : step_by 2 (rev (seq 0 k)) = map (fun t => (k - 1 - 2*t)%nat) (seq 0 ((k+1)/2)) /\
              step_by 2 (rev (seq 0 (S k))) = map (fun t => (S k - 1 - 2*t)%nat) (seq 0 ((S k+1)/2)))
    by apply H.
  induction k.
  - split; reflexivity.
  - destruct IHk as [IH1 IH2]. split; auto.
    rewrite !seq_S, !rev_app_distr. cbn [rev app Nat.add].
    change (step_by 2 (S k :: k :: rev (seq 0 k))) with (S k :: step_by 2 (rev (seq 0 k))).
    rewrite IH1.
    assert (ED : ((S (S k) + 1) / 2 = S ((k+1)/2))%nat).
    { replace (S (S k) + 1)%nat with (k + 1 + 1 * 2)%nat by lia. rewrite Nat.div_add by lia. lia. }
    change (S (S (k + 1)))%nat with (S (S k) + 1)%nat. rewrite ED.
    cbn [seq map]. f_equal. rewrite <- seq_shift, map_map. apply map_ext. intros. lia.
Qed.

Lemma for_each_map {I J S} (f : I -> J) (l : list I) (body : J -> S -> res S) s :
  for_each (map f l) body s = for_each l (fun i => body (f i)) s.
Proof. revert s; induction l; intros; simpl; auto. destruct (body (f a) s); simpl; auto. Qed.

Section Pinv.
Variable m : nat.

(** outer-loop invariant of all three: rows < i done, rest zero *)
Definition pinv_inv s n d a b (i : nat) (M : list (list R)) :=
  mat_dims M m n /\
  (forall r, (r < i)%nat -> inv_row s m d a b (at_ M.[r]) r) /\
  (forall r j, (i <= r)%nat -> M.[r].[j] = 0).

Lemma inv_row_eq s d a b P P' i : (forall j, P' j = P j) -> inv_row s m d a b P i -> inv_row s m d a b P' i.
Proof. intros E H j Hj. rewrite !E. apply H; auto. Qed.

Lemma st2_pinv_ok (h : st2 R) :
  length (d2_diag h) = m -> length (d2_low2 h) = m ->
  (forall j, (j < m)%nat -> (d2_diag h).[j] <> 0) ->
  wp (st2_pinv h) (fun P => mat_dims P m (m+2) /\
     left_inv (m+2) m (fun i j => P.[i].[j]) (scol 1 (at_ (d2_diag h)) (fun _ => 0) (at_ (d2_low2 h)))).
Proof.
  intros Ld Ll Hd. unfold st2_pinv. rewrite Ld.
  set (d := at_ (d2_diag h)). set (b := at_ (d2_low2 h)).
  apply (wp_for_each_range 0 m _ (pinv_inv 1 (m+2) d (fun _ => 0) b)).
  - lia.
  - split; [apply mzeros_dims|]. split; [intros; lia|]. intros; apply (mzeros_at (A := R)).
  - intros i M Hi (HD & HR & HZ).
    apply wp_bind. eapply wp_mset; eauto; try lia.
    apply wp_lift2. cbn [wp]. apply wp_rd; [lia|]. intros M1 D1 E1 F1.
    fold d in E1. cbn [ndiv n1 num_R] in E1.
    assert (Z1 : forall j, j <> i -> M1.[i].[j] = 0).
    { intros. rewrite F1 by lia. apply HZ. lia. }
    assert (Fin : forall M', mat_dims M' m (m+2) ->
       (forall r j, r <> i -> M'.[r].[j] = M.[r].[j]) ->
       inv_row 1 m d (fun _ => 0) b (at_ M'.[i]) i -> pinv_inv 1 (m+2) d (fun _ => 0) b (i+1) M').
    { intros M' D' F' I'. split; auto. split.
      - intros r Hr. destruct (Nat.eq_dec r i) as [->|]; auto.
        apply (inv_row_eq _ _ _ _ (at_ M.[r])); [|apply HR; lia]. intros; apply F'; auto.
      - intros r j Hr. rewrite F' by lia. apply HZ. lia. }
    pose proof (Nat.div_mod_eq i 2) as DM.
    assert (MC : (i mod 2 = 0 \/ i mod 2 = 1)%nat) by apply mod2_cases.
    set (RI := fun t M' => mat_dims M' m (m+2) /\
           (forall r j, r <> i -> M'.[r].[j] = M.[r].[j]) /\
           M'.[i].[i] = / d i /\ (forall j, (i < j)%nat -> M'.[i].[j] = 0) /\
           (forall q, (2*q+1 <= i)%nat -> M'.[i].[i - 1 - 2*q] = 0) /\
           (forall q, (q < t)%nat -> (2+2*q <= i)%nat -> M'.[i].[i - 2 - 2*q] * d (i - 2 - 2*q)%nat
                                     + M'.[i].[i - 2*q] * b (i - 2 - 2*q)%nat = 0)).
    assert (R0 : RI 0%nat M1).
    { split; auto. split; [intros; apply F1; auto|]. split; [rewrite E1; unfold Rdiv; ring|].
      split; [intros; apply Z1; lia|]. split; [|intros; lia]. intros q Hq. apply Z1; lia. }
    assert (Fin' : forall M', RI (i/2)%nat M' -> pinv_inv 1 (m+2) d (fun _ => 0) b (i+1) M').
    { intros M' (D' & F' & Ei & Zg & Zo & Er). apply Fin; auto. intros j Hj.
      replace (j + 2*1)%nat with (j+2)%nat by lia. rewrite Rmult_0_r, Rplus_0_r.
      destruct (Nat.eqb_spec i j) as [<-|Hne].
      - rewrite Ei, (Zg (i+2)%nat) by lia. field. apply Hd; lia.
      - destruct (Nat.ltb_spec i j); [rewrite !Zg by lia; ring|].
        pose proof (Nat.div_mod_eq (i-j) 2). destruct (mod2_cases (i-j)) as [MJ|MJ].
        + specialize (Er ((i-j)/2 - 1)%nat ltac:(lia) ltac:(lia)).
          replace (i - 2 - 2*((i-j)/2 - 1))%nat with j in Er by lia.
          replace (i - 2*((i-j)/2 - 1))%nat with (j+2)%nat in Er by lia. exact Er.
        + assert (Z : forall k, (k mod 2 = 0)%nat -> M'.[i].[j+k] = 0).
          { intros k Hk. pose proof (Nat.div_mod_eq k 2).
            destruct (Nat.ltb_spec i (j+k)); [apply Zg; auto|].
            pose proof (Zo ((i-j)/2 - k/2)%nat ltac:(lia)) as Z.
            replace (i - 1 - 2*((i-j)/2 - k/2))%nat with (j+k)%nat in Z by lia. exact Z. }
          pose proof (Z 0%nat eq_refl) as Z0. rewrite Nat.add_0_r in Z0.
          rewrite Z0, !Z by auto. ring. }
    destruct (Nat.leb_spec 2 i).
    2:{ cbn [wp]. apply Fin'. replace (i/2)%nat with 0%nat by lia. auto. }
    rewrite step_by2_rev, for_each_map. replace (i - 1 + 1)%nat with i by lia.
    apply (wp_for_each_range 0 (i/2) _ RI); auto; try lia.
    intros t M' Ht (D' & F' & Ei & Zg & Zo & Er).
    replace (i - 1 - 1 - 2*t)%nat with (i - 2 - 2*t)%nat by lia.
    eapply wp_mset; eauto; try lia.
    unfold negdiv; apply wp_lift2, wp_lift2; cbn [wp]; apply wp_lift2.
    eapply wp_mrd; eauto; try lia. apply wp_rd; [lia|]. apply wp_rd; [lia|].
    intros M2 D2 E2 F2. split; auto.
    split; [intros; rewrite F2 by lia; auto|].
    split; [rewrite F2 by lia; auto|]. split; [intros; rewrite F2 by lia; auto|].
    split; [intros q Hq; rewrite F2 by lia; auto|].
    intros q Hq Hq'. destruct (Nat.eq_dec q t) as [->|].
    + rewrite E2, (F2 i (i - 2*t)%nat) by lia.
      replace (i - 2 - 2*t + 2)%nat with (i - 2*t)%nat by lia.
      unfold d, b; numR; field; apply Hd; lia.
    + rewrite !F2 by lia. apply Er; lia.
  - intros P (HD & HR & _). split; auto. replace (m+2)%nat with (m+2*1)%nat by lia.
    apply inv_row_left; auto.
Qed.

Lemma st3_pinv_ok (h : st3 R) :
  length (d3_diag h) = m -> length (d3_lowa h) = m -> length (d3_lowb h) = m ->
  (forall j, (j < m)%nat -> (d3_diag h).[j] <> 0) ->
  wp (st3_pinv h) (fun P => mat_dims P m (m+2) /\
     left_inv (m+2) m (fun i j => P.[i].[j]) (scol 1 (at_ (d3_diag h)) (at_ (d3_lowa h)) (at_ (d3_lowb h)))).
Proof.
  intros Ld La Lb Hd. unfold st3_pinv. rewrite Ld.
  set (d := at_ (d3_diag h)). set (a := at_ (d3_lowa h)). set (b := at_ (d3_lowb h)).
  apply (wp_for_each_range 0 m _ (pinv_inv 1 (m+2) d a b)).
  - lia.
  - split; [apply mzeros_dims|]. split; [intros; lia|]. intros; apply (mzeros_at (A := R)).
  - intros i M Hi (HD & HR & HZ).
    apply wp_bind. eapply wp_mset; eauto; try lia.
    apply wp_lift2. cbn [wp]. apply wp_rd; [lia|]. intros M1 D1 E1 F1.
    fold d in E1. cbn [ndiv n1 num_R] in E1.
    assert (Z1 : forall j, j <> i -> M1.[i].[j] = 0).
    { intros. rewrite F1 by lia. apply HZ. lia. }
    assert (Fin : forall M', mat_dims M' m (m+2) ->
       (forall r j, r <> i -> M'.[r].[j] = M.[r].[j]) ->
       inv_row 1 m d a b (at_ M'.[i]) i -> pinv_inv 1 (m+2) d a b (i+1) M').
    { intros M' D' F' I'. split; auto. split.
      - intros r Hr. destruct (Nat.eq_dec r i) as [->|]; auto.
        apply (inv_row_eq _ _ _ _ (at_ M.[r])); [|apply HR; lia]. intros; apply F'; auto.
      - intros r j Hr. rewrite F' by lia. apply HZ. lia. }
    (* invariant of the row: columns >= k are final *)
    set (RI := fun k M' => mat_dims M' m (m+2) /\
           (forall r j, r <> i -> M'.[r].[j] = M.[r].[j]) /\
           M'.[i].[i] = / d i /\ (forall j, (i < j)%nat -> M'.[i].[j] = 0) /\
           (forall j, (k <= j < i)%nat -> M'.[i].[j] * d j + M'.[i].[j+1] * a j + M'.[i].[j+2] * b j = 0)).
    assert (Fin' : forall M', RI 0%nat M' -> pinv_inv 1 (m+2) d a b (i+1) M').
    { intros M' (D' & F' & Ei & Zg & Er). apply Fin; auto. intros j Hj.
      replace (j + 2*1)%nat with (j+2)%nat by lia.
      destruct (Nat.eqb_spec i j) as [<-|Hne].
      - rewrite Ei, (Zg (i+1)%nat), (Zg (i+2)%nat) by lia. field. apply Hd; lia.
      - destruct (Nat.ltb_spec i j); [rewrite !Zg by lia; ring|]. apply Er. lia. }
    assert (R1 : RI i M1).
    { split; auto. split; [intros; apply F1; auto|]. split; [rewrite E1; unfold Rdiv; ring|].
      split; [intros; apply Z1; lia|]. intros; lia. }
    apply wp_bind.
    destruct (Nat.leb_spec 1 i).
    2:{ cbn [wp]. destruct (Nat.leb_spec 2 i); [lia|]. cbn [wp]. apply Fin'.
        replace 0%nat with i by lia. auto. }
    eapply wp_mset; eauto; try lia.
    unfold negdiv; apply wp_lift2, wp_lift2; cbn [wp]; apply wp_lift2.
    eapply wp_mrd; eauto; try lia. apply wp_rd; [lia|]; apply wp_rd; [lia|].
    intros M2 D2 E2 F2.
    assert (R2 : RI (i-1)%nat M2).
    { destruct R1 as (D' & F' & Ei & Zg & Er). split; auto.
      split; [intros; rewrite F2 by lia; auto|].
      split; [rewrite F2 by lia; auto|]. split; [intros; rewrite F2 by lia; auto|].
      intros j Hj. assert (j = i-1)%nat as -> by lia. rewrite E2.
      rewrite (F2 i (i-1+1)%nat), (F2 i (i-1+2)%nat) by lia. rewrite (Zg (i-1+2)%nat) by lia.
      unfold d, a; numR; field; apply Hd; lia. }
    destruct (Nat.leb_spec 2 i).
    2:{ cbn [wp]. apply Fin'. replace 0%nat with (i-1)%nat by lia. auto. }
    apply (wp_for_each_rev 0 (i-1) _ RI); auto; try lia.
    intros j M' Hj (D' & F' & Ei & Zg & Er).
    eapply wp_mset; eauto; try lia.
    unfold negdiv; apply wp_lift2, wp_lift2; cbn [wp]; apply wp_lift2, wp_lift2.
    eapply wp_mrd; eauto; try lia. apply wp_rd; [lia|]. apply wp_lift2.
    eapply wp_mrd; eauto; try lia. apply wp_rd; [lia|]. apply wp_rd; [lia|].
    intros M3 D3 E3 F3. split; auto.
    split; [intros; rewrite F3 by lia; auto|].
    split; [rewrite F3 by lia; auto|]. split; [intros; rewrite F3 by lia; auto|].
    intros k Hk. destruct (Nat.eq_dec k j) as [->|].
    + rewrite E3, (F3 i (j+1)%nat), (F3 i (j+2)%nat) by lia.
      unfold d, a, b; numR; field; apply Hd; lia.
    + rewrite !F3 by lia. apply Er. lia.
  - intros P (HD & HR & _). split; auto. replace (m+2)%nat with (m+2*1)%nat by lia.
    apply inv_row_left; auto.
Qed.

Lemma st4_pinv_ok (h : st3 R) :
  length (d3_diag h) = m -> length (d3_lowa h) = m -> length (d3_lowb h) = m ->
  (forall j, (j < m)%nat -> (d3_diag h).[j] <> 0) ->
  wp (st4_pinv h) (fun P => mat_dims P m (m+4) /\
     left_inv (m+4) m (fun i j => P.[i].[j]) (scol 2 (at_ (d3_diag h)) (at_ (d3_lowa h)) (at_ (d3_lowb h)))).
Proof.
  intros Ld La Lb Hd. unfold st4_pinv. rewrite Ld.
  set (d := at_ (d3_diag h)). set (a := at_ (d3_lowa h)). set (b := at_ (d3_lowb h)).
  apply (wp_for_each_range 0 m _ (pinv_inv 2 (m+4) d a b)).
  - lia.
  - split; [apply mzeros_dims|]. split; [intros; lia|]. intros; apply (mzeros_at (A := R)).
  - intros i M Hi (HD & HR & HZ).
    apply wp_bind. eapply wp_mset; eauto; try lia.
    apply wp_lift2. cbn [wp]. apply wp_rd; [lia|]. intros M1 D1 E1 F1.
    fold d in E1. cbn [ndiv n1 num_R] in E1.
    assert (Z1 : forall j, j <> i -> M1.[i].[j] = 0).
    { intros. rewrite F1 by lia. apply HZ. lia. }
    assert (Fin : forall M', mat_dims M' m (m+4) ->
       (forall r j, r <> i -> M'.[r].[j] = M.[r].[j]) ->
       inv_row 2 m d a b (at_ M'.[i]) i -> pinv_inv 2 (m+4) d a b (i+1) M').
    { intros M' D' F' I'. split; auto. split.
      - intros r Hr. destruct (Nat.eq_dec r i) as [->|]; auto.
        apply (inv_row_eq _ _ _ _ (at_ M.[r])); [|apply HR; lia]. intros; apply F'; auto.
      - intros r j Hr. rewrite F' by lia. apply HZ. lia. }
    (* columns of the wrong parity stay zero, the others >= i - 2t are final *)
    set (RI := fun t M' => mat_dims M' m (m+4) /\
           (forall r j, r <> i -> M'.[r].[j] = M.[r].[j]) /\
           M'.[i].[i] = / d i /\ (forall j, (i < j)%nat -> M'.[i].[j] = 0) /\
           (forall q, (2*q+1 <= i)%nat -> M'.[i].[i - 1 - 2*q] = 0) /\
           (forall q, (q < t)%nat -> (2 + 2*q <= i)%nat -> M'.[i].[i-2-2*q] * d (i-2-2*q)%nat
              + M'.[i].[i-2*q] * a (i-2-2*q)%nat + M'.[i].[i+2-2*q] * b (i-2-2*q)%nat = 0)).
    assert (Fin' : forall M', RI (i/2)%nat M' -> pinv_inv 2 (m+4) d a b (i+1) M').
    { intros M' (D' & F' & Ei & Zg & Zo & Er). apply Fin; auto. intros j Hj.
      replace (j + 2*2)%nat with (j+4)%nat by lia.
      destruct (Nat.eqb_spec i j) as [<-|Hne].
      - rewrite Ei, (Zg (i+2)%nat), (Zg (i+4)%nat) by lia. field. apply Hd; lia.
      - destruct (Nat.ltb_spec i j); [rewrite !Zg by lia; ring|].
        pose proof (Nat.div_mod_eq (i-j) 2). pose proof (Nat.div_mod_eq i 2).
        destruct (mod2_cases (i-j)) as [MJ|MJ]; destruct (mod2_cases i) as [MC|MC].
        1,2: (specialize (Er ((i-j)/2 - 1)%nat ltac:(lia) ltac:(lia));
          replace (i - 2 - 2*((i-j)/2 - 1))%nat with j in Er by lia;
          replace (i - 2*((i-j)/2 - 1))%nat with (j+2)%nat in Er by lia;
          replace (i + 2 - 2*((i-j)/2 - 1))%nat with (j+4)%nat in Er by lia; exact Er).
        all: (assert (Z : forall k, (k mod 2 = 0)%nat -> M'.[i].[j+k] = 0);
          [ intros k Hk; pose proof (Nat.div_mod_eq k 2);
            destruct (Nat.ltb_spec i (j+k)); [apply Zg; auto|];
            pose proof (Zo ((i-j)/2 - k/2)%nat ltac:(lia)) as Z;
            replace (i - 1 - 2*((i-j)/2 - k/2))%nat with (j+k)%nat in Z by lia; exact Z
          | pose proof (Z 0%nat eq_refl) as Z0; rewrite Nat.add_0_r in Z0;
            rewrite Z0, !Z by auto; ring ]). }
    assert (R0 : RI 0%nat M1).
    { split; auto. split; [intros; apply F1; auto|]. split; [rewrite E1; unfold Rdiv; ring|].
      split; [intros; apply Z1; lia|]. split; [|intros; lia].
      intros q Hq. apply Z1; lia. }
    assert (Step : forall t M', RI t M' -> (2 + 2*t <= i)%nat -> forall M2, mat_dims M2 m (m+4) ->
       M2.[i].[i-2-2*t] * d (i-2-2*t)%nat + M'.[i].[i-2*t] * a (i-2-2*t)%nat + M'.[i].[i+2-2*t] * b (i-2-2*t)%nat = 0 ->
       (forall i' j', i' <> i \/ j' <> (i-2-2*t)%nat -> M2.[i'].[j'] = M'.[i'].[j']) -> RI (t+1)%nat M2).
    { intros t M' (D' & F' & Ei & Zg & Zo & Er) Ht M2 D2 E2 F2. split; auto.
      split; [intros; rewrite F2 by lia; auto|].
      split; [rewrite F2 by lia; auto|]. split; [intros; rewrite F2 by lia; auto|].
      split; [intros q Hq; rewrite F2 by lia; auto|].
      intros q Hq Hq'. destruct (Nat.eq_dec q t) as [->|].
      - rewrite (F2 i (i-2*t)%nat), (F2 i (i+2-2*t)%nat) by lia. exact E2.
      - rewrite !F2 by lia. apply Er; lia. }
    pose proof (Nat.div_mod_eq i 2) as DM.
    assert (MC : (i mod 2 = 0 \/ i mod 2 = 1)%nat) by apply mod2_cases.
    apply wp_bind.
    destruct (Nat.leb_spec 2 i).
    2:{ cbn [wp]. destruct (Nat.leb_spec 4 i); [lia|]. cbn [wp]. apply Fin'.
        replace (i/2)%nat with 0%nat by lia. auto. }
    eapply wp_mset; eauto; try lia.
    unfold negdiv; apply wp_lift2, wp_lift2; cbn [wp]; apply wp_lift2.
    eapply wp_mrd; eauto; try lia. apply wp_rd; [lia|]; apply wp_rd; [lia|].
    intros M2 D2 E2 F2.
    assert (R2 : RI 1%nat M2).
    { apply (Step 0%nat M1 R0); auto.
      - replace (i - 2 - 2*0)%nat with (i-2)%nat by lia. rewrite E2.
        replace (i - 2*0)%nat with (i-2+2)%nat by lia. replace (i + 2 - 2*0)%nat with (i+2)%nat by lia.
        destruct R0 as (_ & _ & _ & Zg & _). rewrite (Zg (i+2)%nat) by lia.
        unfold d, a; numR; field; apply Hd; lia.
      - intros. apply F2. lia. }
    destruct (Nat.leb_spec 4 i).
    2:{ cbn [wp]. apply Fin'. replace (i/2)%nat with 1%nat by lia. auto. }
    rewrite step_by2_rev, for_each_map. replace (i - 1 + 1)%nat with i by lia.
    (* the first iteration recomputes column i-2 *)
    assert (R2' : RI 0%nat M2).
    { destruct R2 as (D' & F' & Ei & Zg & Zo & _). split; auto. repeat (split; auto). intros; lia. }
    apply (wp_for_each_range 0 (i/2) _ RI); auto; try lia.
    intros t M' Ht R'.
    replace (i - 1 - 1 - 2*t)%nat with (i - 2 - 2*t)%nat by lia.
    pose proof R' as (D' & _).
    eapply wp_mset; eauto; try lia.
    unfold negdiv; apply wp_lift2, wp_lift2; cbn [wp]; apply wp_lift2, wp_lift2.
    eapply wp_mrd; eauto; try lia. apply wp_rd; [lia|]. apply wp_lift2.
    eapply wp_mrd; eauto; try lia. apply wp_rd; [lia|]. apply wp_rd; [lia|].
    intros M3 D3 E3 F3. apply (Step t M' R'); auto; try lia.
    rewrite E3. replace (i - 2 - 2*t + 2)%nat with (i - 2*t)%nat by lia.
    replace (i - 2 - 2*t + 4)%nat with (i + 2 - 2*t)%nat by lia.
    unfold d, a, b; numR; field; apply Hd; lia.
  - intros P (HD & HR & _). split; auto. replace (m+4)%nat with (m+2*2)%nat by lia.
    apply inv_row_left; auto.
Qed.
End Pinv.
