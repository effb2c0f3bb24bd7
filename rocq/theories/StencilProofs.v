(** Proofs about the stencils: matrix entries, product, normal equations,
    left inverse. *)
From Coq Require Import List Arith Lia Bool ZArith Reals Lra.
From Verif Require Import Base Num Linalg LinalgProofs LinalgProofs2 LinalgSpec Stencils.
Import ListNotations.
Local Open Scope R_scope.

(** ** Specification: a matrix with three diagonals, offsets 0, -s, -2s;
    column j carries d j, a j, b j. *)
Definition scol (s : nat) (d a b : nat -> R) (i j : nat) : R :=
  if (i =? j)%nat then d j else
  if (i =? j + s)%nat then a j else
  if (i =? j + 2*s)%nat then b j else 0.

(** M is the r x c matrix with entries e i j. *)
Definition is_mat (M : list (list R)) (r c : nat) (e : nat -> nat -> R) : Prop :=
  mat_dims M r c /\ forall i j, (i < r)%nat -> (j < c)%nat -> M.[i].[j] = e i j.

Lemma is_mat_ext M r c e e' :
  is_mat M r c e -> (forall i j, (i < r)%nat -> (j < c)%nat -> e i j = e' i j) -> is_mat M r c e'.
Proof. intros [D E] H. split; auto. intros. rewrite E by auto. auto. Qed.

Lemma Ok_inj {A} (a b : A) : Ok a = Ok b -> a = b.
Proof. congruence. Qed.

(** ** fill *)
Lemma fill_eq {B} {db : Dflt B} (l : list B) (e : nat -> res B) (f : nat -> B) :
  (forall i, (i < length l)%nat -> e i = Ok (f i)) ->
  fill l e = Ok (map f (seq 0 (length l))).
Proof.
  intros H. unfold fill.
  enough (W : wp (for_each (range 0 (length l)) (fun i l => st Checked l i (e i)) l)
            (fun l' => l' = map f (seq 0 (length l)))).
  { apply wp_Ok in W. destruct W as (a & E & ->). auto. }
  apply (wp_for_each_range 0 (length l) _
    (fun i l' => length l' = length l /\ forall j, (j < i)%nat -> l'.[j] = f j)).
  - lia.
  - split; auto. intros; lia.
  - intros i l' Hi [Hl HE]. rewrite H by lia. unfold st. cbn [bind].
    apply wp_wr; [lia|]. intros l'' Hl'' E'' F''. split; [lia|].
    intros j Hj. destruct (Nat.eq_dec j i) as [->|]; auto. rewrite F'' by auto. apply HE. lia.
  - intros l' [Hl HE]. apply (list_ext (A := B)). rewrite map_length, seq_length; auto.
    intros i Hi. rewrite at_map_seq by lia. apply HE. lia.
Qed.

Lemma rd_ok {B} {db : Dflt B} md (l : list B) i : (i < length l)%nat -> rd md l i = Ok l.[i].
Proof. apply rd_at. Qed.

Ltac rdok := repeat (rewrite rd_ok by lia); cbn [lift2 bind].

Lemma st2_new_eq (diag low2 : list R) m :
  (2 <= m)%nat -> length diag = m -> length low2 = m ->
  st2_new diag low2 = Ok (mk_st2 diag low2
    (map (fun i => diag.[i] * diag.[i] + low2.[i] * low2.[i]) (seq 0 m))
    (map (fun i => diag.[i+2] * low2.[i]) (seq 0 (m - 2)))).
Proof.
  intros Hm Hd Hl. unfold st2_new, get_tdma_diagonals. rewrite Hd.
  unfold usub. destruct (Nat.leb_spec 2 m); [|lia]. cbn [bind].
  rewrite (fill_eq _ _ (fun i => diag.[i] * diag.[i] + low2.[i] * low2.[i])).
  2:{ rewrite repeat_length. intros. rdok. reflexivity. }
  cbn [bind].
  rewrite (fill_eq _ _ (fun i => diag.[i+2] * low2.[i])).
  2:{ rewrite repeat_length. intros. rdok. reflexivity. }
  cbn [bind fst snd]. rewrite !repeat_length. reflexivity.
Qed.

Lemma st3_new_eq (diag low1 low2 : list R) m :
  (2 <= m)%nat -> length diag = m -> length low1 = m -> length low2 = m ->
  st3_new diag low1 low2 = Ok (mk_st3 diag low1 low2
    (map (fun i => diag.[i] * diag.[i] + low1.[i] * low1.[i] + low2.[i] * low2.[i]) (seq 0 m))
    (map (fun i => diag.[i+1] * low1.[i] + low1.[i+1] * low2.[i]) (seq 0 (m - 1)))
    (map (fun i => diag.[i+2] * low2.[i]) (seq 0 (m - 2)))).
Proof.
  intros Hm Hd Hl1 Hl. unfold st3_new, get_fdma_diagonals. rewrite Hd.
  unfold usub. destruct (Nat.leb_spec 1 m); [|lia]. destruct (Nat.leb_spec 2 m); [|lia]. cbn [bind].
  rewrite (fill_eq _ _ (fun i => diag.[i] * diag.[i] + low1.[i] * low1.[i] + low2.[i] * low2.[i])).
  2:{ rewrite repeat_length. intros. rdok. reflexivity. }
  cbn [bind].
  rewrite (fill_eq _ _ (fun i => diag.[i+1] * low1.[i] + low1.[i+1] * low2.[i])).
  2:{ rewrite repeat_length. intros. rdok. reflexivity. }
  cbn [bind].
  rewrite (fill_eq _ _ (fun i => diag.[i+2] * low2.[i])).
  2:{ rewrite repeat_length. intros. rdok. reflexivity. }
  cbn [bind fst snd]. rewrite !repeat_length. reflexivity.
Qed.

Lemma st4_new_eq (diag low2 low4 : list R) m :
  (4 <= m)%nat -> length diag = m -> length low2 = m -> length low4 = m ->
  st4_new diag low2 low4 = Ok (mk_st3 diag low2 low4
    (map (fun i => diag.[i] * diag.[i] + low2.[i] * low2.[i] + low4.[i] * low4.[i]) (seq 0 m))
    (map (fun i => diag.[i+2] * low2.[i] + low2.[i+2] * low4.[i]) (seq 0 (m - 2)))
    (map (fun i => diag.[i+4] * low4.[i]) (seq 0 (m - 4)))).
Proof.
  intros Hm Hd Hl1 Hl. unfold st4_new, get_fdma_diagonals2. rewrite Hd.
  unfold usub. destruct (Nat.leb_spec 2 m); [|lia]. destruct (Nat.leb_spec 4 m); [|lia]. cbn [bind].
  rewrite (fill_eq _ _ (fun i => diag.[i] * diag.[i] + low2.[i] * low2.[i] + low4.[i] * low4.[i])).
  2:{ rewrite repeat_length. intros. rdok. reflexivity. }
  cbn [bind].
  rewrite (fill_eq _ _ (fun i => diag.[i+2] * low2.[i] + low2.[i+2] * low4.[i])).
  2:{ rewrite repeat_length. intros. rdok. reflexivity. }
  cbn [bind].
  rewrite (fill_eq _ _ (fun i => diag.[i+4] * low4.[i])).
  2:{ rewrite repeat_length. intros. rdok. reflexivity. }
  cbn [bind fst snd]. rewrite !repeat_length. reflexivity.
Qed.

(** ** to_array *)
Ltac scol_tac :=
  unfold scol; repeat match goal with |- context [(?a =? ?b)%nat] =>
    destruct (Nat.eqb_spec a b); try lia end; subst; auto.

Lemma st2_to_array_ok (s : st2 R) m :
  length (d2_diag s) = m -> length (d2_low2 s) = m ->
  wp (st2_to_array s) (fun M => is_mat M (m+2) m
    (scol 1 (at_ (d2_diag s)) (fun _ => 0) (at_ (d2_low2 s)))).
Proof.
  intros Hd Hl. unfold st2_to_array. rewrite Hd, Hl, Nat.min_id.
  apply (wp_for_each_range 0 m _ (fun c M => mat_dims M (m+2) m /\
     forall i j, M.[i].[j] = if (j <? c)%nat
       then scol 1 (at_ (d2_diag s)) (fun _ => 0) (at_ (d2_low2 s)) i j else 0)).
  - lia.
  - split. apply mzeros_dims. intros. destruct (Nat.ltb_spec j 0); [lia|]. apply (mzeros_at (A:=R)).
  - intros c M Hc [HD HM].
    apply wp_bind, wp_rd; [lia|]. apply wp_bind, wp_rd; [lia|].
    apply wp_bind. eapply wp_mwr; eauto; try lia. intros M1 D1 E1 F1.
    eapply wp_mwr; eauto; try lia. intros M2 D2 E2 F2.
    split; auto. intros i j.
    destruct (Nat.eq_dec j c) as [->|Hj].
    + destruct (Nat.ltb_spec c (c+1)); [|lia].
      destruct (Nat.eq_dec i (c+2)) as [->|H1].
      * rewrite E2. scol_tac.
      * rewrite F2 by lia. destruct (Nat.eq_dec i c) as [->|H2].
        -- rewrite E1. scol_tac.
        -- rewrite F1 by lia. rewrite HM. destruct (Nat.ltb_spec c c); [lia|]. scol_tac.
    + rewrite F2, F1 by lia. rewrite HM.
      destruct (Nat.ltb_spec j c), (Nat.ltb_spec j (c+1)); try lia; auto.
  - intros M [HD HM]. split; auto. intros i j Hi Hj. rewrite HM.
    destruct (Nat.ltb_spec j m); auto; lia.
Qed.

Lemma st3_to_array_ok (s : st3 R) m :
  length (d3_diag s) = m -> length (d3_lowa s) = m -> length (d3_lowb s) = m ->
  wp (st3_to_array s) (fun M => is_mat M (m+2) m
    (scol 1 (at_ (d3_diag s)) (at_ (d3_lowa s)) (at_ (d3_lowb s)))).
Proof.
  intros Hd Ha Hb. unfold st3_to_array. rewrite Hd, Ha, Hb, !Nat.min_id.
  apply (wp_for_each_range 0 m _ (fun c M => mat_dims M (m+2) m /\
     forall i j, M.[i].[j] = if (j <? c)%nat
       then scol 1 (at_ (d3_diag s)) (at_ (d3_lowa s)) (at_ (d3_lowb s)) i j else 0)).
  - lia.
  - split. apply mzeros_dims. intros. destruct (Nat.ltb_spec j 0); [lia|]. apply (mzeros_at (A:=R)).
  - intros c M Hc [HD HM].
    apply wp_bind, wp_rd; [lia|]. apply wp_bind, wp_rd; [lia|]. apply wp_bind, wp_rd; [lia|].
    apply wp_bind. eapply wp_mwr; eauto; try lia. intros M1 D1 E1 F1.
    apply wp_bind. eapply wp_mwr; eauto; try lia. intros M2 D2 E2 F2.
    eapply wp_mwr; eauto; try lia. intros M3 D3 E3 F3.
    split; auto. intros i j.
    destruct (Nat.eq_dec j c) as [->|Hj].
    + destruct (Nat.ltb_spec c (c+1)); [|lia].
      destruct (Nat.eq_dec i (c+2)) as [->|H0].
      * rewrite E3. scol_tac.
      * rewrite F3 by lia. destruct (Nat.eq_dec i (c+1)) as [->|H1].
        -- rewrite E2. scol_tac.
        -- rewrite F2 by lia. destruct (Nat.eq_dec i c) as [->|H2].
           ++ rewrite E1. scol_tac.
           ++ rewrite F1 by lia. rewrite HM. destruct (Nat.ltb_spec c c); [lia|]. scol_tac.
    + rewrite F3, F2, F1 by lia. rewrite HM.
      destruct (Nat.ltb_spec j c), (Nat.ltb_spec j (c+1)); try lia; auto.
  - intros M [HD HM]. split; auto. intros i j Hi Hj. rewrite HM.
    destruct (Nat.ltb_spec j m); auto; lia.
Qed.

Lemma st4_to_array_ok (s : st3 R) m :
  length (d3_diag s) = m -> length (d3_lowa s) = m -> length (d3_lowb s) = m ->
  wp (st4_to_array s) (fun M => is_mat M (m+4) m
    (scol 2 (at_ (d3_diag s)) (at_ (d3_lowa s)) (at_ (d3_lowb s)))).
Proof.
  intros Hd Ha Hb. unfold st4_to_array. rewrite Hd, Ha, Hb, !Nat.min_id.
  apply (wp_for_each_range 0 m _ (fun c M => mat_dims M (m+4) m /\
     forall i j, M.[i].[j] = if (j <? c)%nat
       then scol 2 (at_ (d3_diag s)) (at_ (d3_lowa s)) (at_ (d3_lowb s)) i j else 0)).
  - lia.
  - split. apply mzeros_dims. intros. destruct (Nat.ltb_spec j 0); [lia|]. apply (mzeros_at (A:=R)).
  - intros c M Hc [HD HM].
    apply wp_bind, wp_rd; [lia|]. apply wp_bind, wp_rd; [lia|]. apply wp_bind, wp_rd; [lia|].
    apply wp_bind. eapply wp_mwr; eauto; try lia. intros M1 D1 E1 F1.
    apply wp_bind. eapply wp_mwr; eauto; try lia. intros M2 D2 E2 F2.
    eapply wp_mwr; eauto; try lia. intros M3 D3 E3 F3.
    split; auto. intros i j.
    destruct (Nat.eq_dec j c) as [->|Hj].
    + destruct (Nat.ltb_spec c (c+1)); [|lia].
      destruct (Nat.eq_dec i (c+4)) as [->|H0].
      * rewrite E3. scol_tac.
      * rewrite F3 by lia. destruct (Nat.eq_dec i (c+2)) as [->|H1].
        -- rewrite E2. scol_tac.
        -- rewrite F2 by lia. destruct (Nat.eq_dec i c) as [->|H2].
           ++ rewrite E1. scol_tac.
           ++ rewrite F1 by lia. rewrite HM. destruct (Nat.ltb_spec c c); [lia|]. scol_tac.
    + rewrite F3, F2, F1 by lia. rewrite HM.
      destruct (Nat.ltb_spec j c), (Nat.ltb_spec j (c+1)); try lia; auto.
  - intros M [HD HM]. split; auto. intros i j Hi Hj. rewrite HM.
    destruct (Nat.ltb_spec j m); auto; lia.
Qed.

(** ** Rows and columns of scol *)
Section Scol.
Variables (s m : nat) (d a b : nat -> R).
Hypothesis Hs : (0 < s)%nat.

(** row i of S x *)
Lemma scol_row (X : nat -> R) i :
  (i < m + 2*s)%nat ->
  rsum m (fun j => X j * scol s d a b i j) =
  (if (i <? m)%nat then X i * d i else 0)
  + (if ((s <=? i) && (i - s <? m))%nat then X (i-s)%nat * a (i-s)%nat else 0)
  + (if ((2*s <=? i) && (i - 2*s <? m))%nat then X (i-2*s)%nat * b (i-2*s)%nat else 0).
Proof.
  intros Hi.
  rewrite (rsum_ext _ _ (fun j =>
     (if (j =? i)%nat then X i * d i else 0)
     + (if (j =? i - s)%nat then (if (s <=? i)%nat then X (i-s)%nat * a (i-s)%nat else 0) else 0)
     + (if (j =? i - 2*s)%nat then (if (2*s <=? i)%nat then X (i-2*s)%nat * b (i-2*s)%nat else 0) else 0))).
  - rewrite !rsum_add, !rsum_ind.
    f_equal; [f_equal|].
    + destruct (Nat.leb_spec s i), (Nat.ltb_spec (i-s) m); simpl; auto.
    + destruct (Nat.leb_spec (2*s) i), (Nat.ltb_spec (i-2*s) m); simpl andb; auto.
  - intros j Hj. unfold scol.
    destruct (Nat.eqb_spec i j), (Nat.eqb_spec j i), (Nat.eqb_spec j (i-s)), (Nat.eqb_spec j (i-2*s)),
      (Nat.eqb_spec i (j+s)), (Nat.eqb_spec i (j+2*s)), (Nat.leb_spec s i), (Nat.leb_spec (2*s) i);
      try lia; subst; try ring.
Qed.

(** column j *)
Lemma scol_col (X : nat -> R) j :
  (j < m)%nat ->
  rsum (m + 2*s) (fun r => X r * scol s d a b r j) =
  X j * d j + X (j+s)%nat * a j + X (j+2*s)%nat * b j.
Proof.
  intros Hj.
  rewrite (rsum_ext _ _ (fun r =>
     (if (r =? j)%nat then X j * d j else 0)
     + (if (r =? j + s)%nat then X (j+s)%nat * a j else 0)
     + (if (r =? j + 2*s)%nat then X (j+2*s)%nat * b j else 0))).
  - rewrite !rsum_add, !rsum_ind.
    destruct (Nat.ltb_spec j (m+2*s)), (Nat.ltb_spec (j+s) (m+2*s)), (Nat.ltb_spec (j+2*s) (m+2*s)); try lia.
    auto.
  - intros r Hr. unfold scol.
    destruct (Nat.eqb_spec r j), (Nat.eqb_spec r (j+s)), (Nat.eqb_spec r (j+2*s)); try lia; subst; ring.
Qed.

(** Gram matrix S^T S *)
Definition gram (i j : nat) : R := rsum (m + 2*s) (fun r => scol s d a b r i * scol s d a b r j).

Lemma gram_sym i j : gram i j = gram j i.
Proof. unfold gram. apply rsum_ext. intros. ring. Qed.

Lemma gram_val i j : (i < m)%nat -> (j < m)%nat ->
  gram i j =
  if (i =? j)%nat then d i * d i + a i * a i + b i * b i else
  if (j =? i + s)%nat then d (i+s)%nat * a i + a (i+s)%nat * b i else
  if (i =? j + s)%nat then d (j+s)%nat * a j + a (j+s)%nat * b j else
  if (j =? i + 2*s)%nat then d (i+2*s)%nat * b i else
  if (i =? j + 2*s)%nat then d (j+2*s)%nat * b j else 0.
Proof.
  intros Hi Hj. unfold gram. rewrite scol_col by auto. unfold scol.
  repeat match goal with |- context [(?x =? ?y)%nat] => destruct (Nat.eqb_spec x y); try lia end;
  subst; try ring;
  try (replace i with (j + s)%nat by lia; ring); try (replace i with (j + 2*s)%nat by lia; ring).
Qed.

Hypothesis Hd : forall j, (j < m)%nat -> d j <> 0.

Lemma gram_quad (x : nat -> R) :
  rsum m (fun i => rsum m (fun j => x i * gram i j * x j)) =
  rsum (m + 2*s) (fun r => rsum m (fun j => x j * scol s d a b r j) * rsum m (fun j => x j * scol s d a b r j)).
Proof.
  transitivity (rsum m (fun i => rsum m (fun j => rsum (m+2*s) (fun r =>
     (x i * scol s d a b r i) * (x j * scol s d a b r j))))).
  { apply rsum_ext; intros i Hi. apply rsum_ext; intros j Hj. unfold gram.
    rewrite <- rsum_scal_l, <- rsum_scal_r. apply rsum_ext. intros. ring. }
  transitivity (rsum m (fun i => rsum (m+2*s) (fun r => rsum m (fun j =>
     (x i * scol s d a b r i) * (x j * scol s d a b r j))))).
  { apply rsum_ext; intros i Hi. apply rsum_swap. }
  rewrite rsum_swap. apply rsum_ext. intros r Hr.
  rewrite <- rsum_scal_r. apply rsum_ext. intros i Hi. rewrite rsum_scal_l. auto.
Qed.

(** S has trivial kernel: lower triangular with non-zero diagonal. *)
Lemma scol_kernel (x : nat -> R) :
  (forall r, (r < m)%nat -> rsum m (fun j => x j * scol s d a b r j) = 0) ->
  forall j, (j < m)%nat -> x j = 0.
Proof.
  intros H j. induction j as [j IH] using (well_founded_induction Wf_nat.lt_wf). intros Hj.
  pose proof (H j Hj) as E. rewrite scol_row in E by lia.
  destruct (Nat.ltb_spec j m); [|lia].
  assert (Z1 : (if ((s <=? j) && (j - s <? m))%nat then x (j - s)%nat * a (j - s)%nat else 0) = 0).
  { destruct (Nat.leb_spec s j), (Nat.ltb_spec (j-s) m); simpl; auto. rewrite IH by lia. ring. }
  assert (Z2 : (if ((2*s <=? j) && (j - 2*s <? m))%nat then x (j - 2*s)%nat * b (j - 2*s)%nat else 0) = 0).
  { destruct (Nat.leb_spec (2*s) j), (Nat.ltb_spec (j-2*s) m); simpl andb; auto. rewrite IH by lia. ring. }
  rewrite Z1, Z2 in E. apply Rmult_eq_reg_r with (d j); auto. lra.
Qed.

Lemma gram_pos_def : pos_def m gram.
Proof.
  intros x (j & Hj & Hne). rewrite gram_quad.
  set (q := fun r => rsum m (fun j => x j * scol s d a b r j)).
  assert (P : 0 <= rsum (m+2*s) (fun r => q r * q r)).
  { apply rsum_pos. intros. nra. }
  destruct P as [P|P]; auto. exfalso. apply Hne.
  apply scol_kernel; auto. intros r Hr. fold (q r).
  assert (Q : forall k, (k <= m + 2*s)%nat -> (forall r, (r < k)%nat -> q r = 0) \/
     0 < rsum k (fun r => q r * q r)).
  { induction k; intros. left; intros; lia.
    destruct IHk as [Z|Z]; [lia| |].
    - simpl. destruct (Req_dec (q k) 0) as [E|E].
      + left. intros r' Hr'. destruct (Nat.eq_dec r' k); [subst; auto|]. apply Z; lia.
      + right. assert (0 <= rsum k (fun r => q r * q r)) by (apply rsum_pos; intros; nra). nra.
    - right. simpl. nra. }
  destruct (Q (m+2*s)%nat ltac:(lia)) as [Z|Z]. apply Z; lia. lra.
Qed.
End Scol.

(** ** The right-hand side S^T u *)
Section Solve.
Context {T : Type} {V : Vec R T} {L : VecR T}.

(** Normal equations: S^T (S v - u) = 0, component by component. *)
Definition normal_eq (n m : nat) (S : nat -> nat -> R) (u v : list T) : Prop :=
  length v = m /\
  forall j, (j < m)%nat ->
    vsum m (fun k => vmul v.[k] (rsum n (fun r => S r j * S r k))) =
    vsum n (fun r => vmul u.[r] (S r j)).

Lemma fill_rhs (n : nat) (u v : list T) (e : nat -> res T) (f : nat -> T) :
  (forall i, (i < length v)%nat -> e i = Ok (f i)) ->
  wp (for_each (range 0 (length v)) (fun i v => st Unchecked v i (e i)) v)
     (fun v' => length v' = length v /\ forall i, (i < length v)%nat -> v'.[i] = f i).
Proof.
  intros H.
  apply (wp_for_each_range 0 (length v) _
    (fun i l' => length l' = length v /\ forall j, (j < i)%nat -> l'.[j] = f j)).
  - lia.
  - split; auto. intros; lia.
  - intros i l' Hi [Hl HE]. rewrite H by lia. unfold st. cbn [bind].
    apply wp_wr; [lia|]. intros l'' Hl'' E'' F''. split; [lia|].
    intros j Hj. destruct (Nat.eq_dec j i) as [->|]; auto. rewrite F'' by auto. apply HE. lia.
  - intros l' [Hl HE]. split; auto.
Qed.

Lemma scol_colT s m d a b (u : list T) j :
  (0 < s)%nat -> (j < m)%nat ->
  vsum (m+2*s) (fun r => vmul u.[r] (scol s d a b r j)) =
  vadd (vadd (vmul u.[j] (d j)) (vmul u.[j+s] (a j))) (vmul u.[j+2*s] (b j)).
Proof.
  intros Hs Hj. vcoord.
  rewrite (rsum_ext _ _ (fun r => vproj p u.[r] * scol s d a b r j)) by (intros; apply vproj_mul).
  rewrite scol_col by auto. auto.
Qed.

Lemma nonsing_ext k A B : (forall i j, (i < k)%nat -> (j < k)%nat -> A i j = B i j) ->
  nonsing k A -> nonsing k B.
Proof.
  intros E H x Hx. apply H. intros i Hi. rewrite <- (Hx i Hi). apply rsum_ext.
  intros. rewrite E; auto.
Qed.

Lemma leading_ext n A B : (forall i j, (i < n)%nat -> (j < n)%nat -> A i j = B i j) ->
  leading_nonsing n A -> leading_nonsing n B.
Proof.
  intros E H k Hk. apply (nonsing_ext k A); auto. intros; apply E; lia.
Qed.

Lemma st2_solve_ok (h : st2 R) m (u v : list T) :
  (3 <= m)%nat -> length (d2_diag h) = m -> length (d2_low2 h) = m ->
  st2_new (d2_diag h) (d2_low2 h) = Ok h ->
  (forall j, (j < m)%nat -> (d2_diag h).[j] <> 0) ->
  length u = (m+2)%nat -> length v = m ->
  wp (st2_solve h u v)
    (normal_eq (m+2) m (scol 1 (at_ (d2_diag h)) (fun _ => 0) (at_ (d2_low2 h))) u).
Proof.
  intros Hm Ld Ll Hnew Hd Lu Lv.
  rewrite (st2_new_eq _ _ m) in Hnew by lia. assert (Hh := Ok_inj _ _ Hnew).
  unfold st2_solve. apply wp_bind.
  eapply wp_mono. { apply (fill_rhs (m+2) u v _ (fun i => vadd (vmul u.[i] (d2_diag h).[i]) (vmul u.[i+2] (d2_low2 h).[i]))).
    intros i Hi. rdok. reflexivity. }
  intros rhs [Lr Hr]. cbv beta.
  set (S := scol 1 (at_ (d2_diag h)) (fun _ => 0) (at_ (d2_low2 h))).
  assert (EB : forall i j, (i < m)%nat -> (j < m)%nat ->
     gram 1 m (at_ (d2_diag h)) (fun _ => 0) (at_ (d2_low2 h)) i j = band3 2 (d2_toff2 h) (d2_tdiag h) (d2_toff2 h) i j).
  { intros i j Hi Hj. rewrite gram_val by lia. rewrite <- Hh. cbn [d2_toff2 d2_tdiag d2_diag d2_low2]. unfold band3.
    repeat match goal with |- context [(?x =? ?y)%nat] => destruct (Nat.eqb_spec x y); try lia end;
      rewrite ?at_map_seq by lia; simpl Nat.add; subst; try ring. }
  assert (LN : leading_nonsing m (band3 2 (d2_toff2 h) (d2_tdiag h) (d2_toff2 h))).
  { eapply leading_ext; [exact EB|]. apply pos_def_leading, gram_pos_def; auto; lia. }
  assert (Lt : length (d2_tdiag h) = m /\ length (d2_toff2 h) = (m-2)%nat).
  { rewrite <- Hh; simpl. rewrite !map_length, !seq_length. auto. }
  destruct Lt as [Lt1 Lt2].
  assert (Lrm : length rhs = m) by lia.
  eapply wp_mono. { apply tdma_solves; rewrite ?Lrm; auto; lia. }
  rewrite Lrm. intros x [Lx Hx]. split; auto. intros j Hj.
  transitivity rhs.[j].
  - rewrite <- Hx by auto. apply vsum_ext. intros k Hk. f_equal.
    rewrite <- EB by auto. unfold gram, S. replace (m + 2*1)%nat with (m+2)%nat by lia. auto.
  - rewrite Hr by lia. replace (m+2)%nat with (m+2*1)%nat by lia. unfold S.
    rewrite scol_colT by lia. replace (j + 2*1)%nat with (j+2)%nat by lia.
    vcoord. ring.
Qed.

Lemma st3_solve_ok (h : st3 R) m (u v : list T) :
  (4 <= m)%nat -> length (d3_diag h) = m -> length (d3_lowa h) = m -> length (d3_lowb h) = m ->
  st3_new (d3_diag h) (d3_lowa h) (d3_lowb h) = Ok h ->
  (forall j, (j < m)%nat -> (d3_diag h).[j] <> 0) ->
  length u = (m+2)%nat -> length v = m ->
  wp (st3_solve h u v)
    (normal_eq (m+2) m (scol 1 (at_ (d3_diag h)) (at_ (d3_lowa h)) (at_ (d3_lowb h))) u).
Proof.
  intros Hm Ld La Lb Hnew Hd Lu Lv.
  rewrite (st3_new_eq _ _ _ m) in Hnew by lia. assert (Hh := Ok_inj _ _ Hnew).
  unfold st3_solve. apply wp_bind.
  eapply wp_mono. { apply (fill_rhs (m+2) u v _ (fun i => vadd (vadd (vmul u.[i] (d3_diag h).[i]) (vmul u.[i+1] (d3_lowa h).[i])) (vmul u.[i+2] (d3_lowb h).[i]))).
    intros i Hi. rdok. reflexivity. }
  intros rhs [Lr Hr]. cbv beta.
  set (S := scol 1 (at_ (d3_diag h)) (at_ (d3_lowa h)) (at_ (d3_lowb h))).
  assert (EB : forall i j, (i < m)%nat -> (j < m)%nat ->
     gram 1 m (at_ (d3_diag h)) (at_ (d3_lowa h)) (at_ (d3_lowb h)) i j =
     band5 1 (d3_foffb h) (d3_foffa h) (d3_fdiag h) (d3_foffa h) (d3_foffb h) i j).
  { intros i j Hi Hj. rewrite gram_val by lia. rewrite <- Hh.
    cbn [d3_foffa d3_foffb d3_fdiag d3_diag d3_lowa d3_lowb]. unfold band5.
    repeat match goal with |- context [(?x =? ?y)%nat] => destruct (Nat.eqb_spec x y); try lia end;
      rewrite ?at_map_seq by lia; simpl Nat.add; subst; try ring. }
  assert (LN : leading_nonsing m (band5 1 (d3_foffb h) (d3_foffa h) (d3_fdiag h) (d3_foffa h) (d3_foffb h))).
  { eapply leading_ext; [exact EB|]. apply pos_def_leading, gram_pos_def; auto; lia. }
  assert (Lt : length (d3_fdiag h) = m /\ length (d3_foffa h) = (m-1)%nat /\ length (d3_foffb h) = (m-2)%nat).
  { rewrite <- Hh; simpl. rewrite !map_length, !seq_length. auto. }
  destruct Lt as (Lt1 & Lt2 & Lt3).
  assert (Lrm : length rhs = m) by lia.
  eapply wp_mono. { apply pdma_solves; rewrite ?Lrm; auto; lia. }
  rewrite Lrm. intros x [Lx Hx]. split; auto. intros j Hj.
  transitivity rhs.[j].
  - rewrite <- Hx by auto. apply vsum_ext. intros k Hk. f_equal.
    rewrite <- EB by auto. unfold gram, S. replace (m + 2*1)%nat with (m+2)%nat by lia. auto.
  - rewrite Hr by lia. replace (m+2)%nat with (m+2*1)%nat by lia. unfold S.
    rewrite scol_colT by lia. replace (j + 2*1)%nat with (j+2)%nat by lia. auto.
Qed.

Lemma st4_solve_ok (h : st3 R) m (u v : list T) :
  (6 <= m)%nat -> length (d3_diag h) = m -> length (d3_lowa h) = m -> length (d3_lowb h) = m ->
  st4_new (d3_diag h) (d3_lowa h) (d3_lowb h) = Ok h ->
  (forall j, (j < m)%nat -> (d3_diag h).[j] <> 0) ->
  length u = (m+4)%nat -> length v = m ->
  wp (st4_solve h u v)
    (normal_eq (m+4) m (scol 2 (at_ (d3_diag h)) (at_ (d3_lowa h)) (at_ (d3_lowb h))) u).
Proof.
  intros Hm Ld La Lb Hnew Hd Lu Lv.
  rewrite (st4_new_eq _ _ _ m) in Hnew by lia. assert (Hh := Ok_inj _ _ Hnew).
  unfold st4_solve. apply wp_bind.
  eapply wp_mono. { apply (fill_rhs (m+4) u v _ (fun i => vadd (vadd (vmul u.[i] (d3_diag h).[i]) (vmul u.[i+2] (d3_lowa h).[i])) (vmul u.[i+4] (d3_lowb h).[i]))).
    intros i Hi. rdok. reflexivity. }
  intros rhs [Lr Hr]. cbv beta.
  set (S := scol 2 (at_ (d3_diag h)) (at_ (d3_lowa h)) (at_ (d3_lowb h))).
  assert (EB : forall i j, (i < m)%nat -> (j < m)%nat ->
     gram 2 m (at_ (d3_diag h)) (at_ (d3_lowa h)) (at_ (d3_lowb h)) i j =
     band5 2 (d3_foffb h) (d3_foffa h) (d3_fdiag h) (d3_foffa h) (d3_foffb h) i j).
  { intros i j Hi Hj. rewrite gram_val by lia. rewrite <- Hh.
    cbn [d3_foffa d3_foffb d3_fdiag d3_diag d3_lowa d3_lowb]. unfold band5.
    repeat match goal with |- context [(?x =? ?y)%nat] => destruct (Nat.eqb_spec x y); try lia end;
      rewrite ?at_map_seq by lia; simpl Nat.add; subst; try ring. }
  assert (LN : leading_nonsing m (band5 2 (d3_foffb h) (d3_foffa h) (d3_fdiag h) (d3_foffa h) (d3_foffb h))).
  { eapply leading_ext; [exact EB|]. apply pos_def_leading, gram_pos_def; auto; lia. }
  assert (Lt : length (d3_fdiag h) = m /\ length (d3_foffa h) = (m-2)%nat /\ length (d3_foffb h) = (m-4)%nat).
  { rewrite <- Hh; simpl. rewrite !map_length, !seq_length. auto. }
  destruct Lt as (Lt1 & Lt2 & Lt3).
  assert (Lrm : length rhs = m) by lia.
  eapply wp_mono. { apply pdma2_solves; rewrite ?Lrm; auto; lia. }
  rewrite Lrm. intros x [Lx Hx]. split; auto. intros j Hj.
  transitivity rhs.[j].
  - rewrite <- Hx by auto. apply vsum_ext. intros k Hk. f_equal.
    rewrite <- EB by auto. unfold gram, S. replace (m + 2*2)%nat with (m+4)%nat by lia. auto.
  - rewrite Hr by lia. replace (m+4)%nat with (m+2*2)%nat by lia. unfold S.
    rewrite scol_colT by lia. replace (j + 2*2)%nat with (j+4)%nat by lia. auto.
Qed.
End Solve.
