(** What the constructors of space_mpi/decomp2d compute: closed forms of the
    block tables, the counts and displacements, and the reply of a collective
    on them. *)
From Coq Require Import List Arith Lia Bool ZArith.
From Verif Require Import Base Num Cheb ChebMat ChebGrad NdArray NdArrayFacts AxisFacts Space MpiSem MpiSpec Decomp DistFacts TabFacts.
Import ListNotations.
Local Open Scope nat_scope.

Lemma as_i32_id d : (Z.of_nat d < 2147483648)%Z -> as_i32 d = Z.of_nat d.
Proof. intros H. unfold as_i32. rewrite Z.mod_small; lia. Qed.

Lemma to_nat_en n p q : 1 <= p -> (Z.of_nat n + 1 < u64max)%Z -> p <= n -> q < p -> Z.to_nat (blk_en n p q) = blk_lo n p q + blk_len n p q - 1.
Proof.
  intros Hp B H Hq. unfold blk_en. pose proof (blk_len_pos n p Hp q H). pose proof (blk_end_le n p Hp q Hq). rewrite Z.mod_small by lia. lia.
Qed.


Section Closed.
Variables (bm : bmode) (n0 n1 p r : nat).
Hypothesis Hp : 1 <= p.
Hypothesis Hr : r < p.
Hypothesis H0 : p <= n0.
Hypothesis H1 : p <= n1.
Hypothesis B0 : (Z.of_nat n0 + 1 < u64max)%Z.
Hypothesis B1 : (Z.of_nat n1 + 1 < u64max)%Z.

Definition xdist : dist := mk_dist [n0; blk_len n1 p r] [0; blk_lo n1 p r] [n0 - 1; blk_lo n1 p r + blk_len n1 p r - 1]
  (map (fun q => [n0; blk_len n1 p q]) (seq 0 p)) (map (fun q => [0; blk_lo n1 p q]) (seq 0 p))
  (map (fun q => [n0 - 1; blk_lo n1 p q + blk_len n1 p q - 1]) (seq 0 p)) p r 0.
Definition ydist : dist := mk_dist [blk_len n0 p r; n1] [blk_lo n0 p r; 0] [blk_lo n0 p r + blk_len n0 p r - 1; n1 - 1]
  (map (fun q => [blk_len n0 p q; n1]) (seq 0 p)) (map (fun q => [blk_lo n0 p q; 0]) (seq 0 p))
  (map (fun q => [blk_lo n0 p q + blk_len n0 p q - 1; n1 - 1]) (seq 0 p)) p r 1.
Definition dcp : decomp := mk_decomp p r [n0; n1] xdist ydist.

Lemma mapM_repeat {X Y} (f : X -> res Y) x y k : f x = Ok y -> mapM f (repeat x k) = Ok (repeat y k).
Proof. intros E. induction k; cbn; auto. rewrite E. cbn [bind]. rewrite IHk. auto. Qed.
Lemma zip_set_map ax (g : nat -> list nat) (v : nat -> nat) k : forall s,
  zip_set ax (map g (seq s k)) (map v (seq s k)) = map (fun q => upd (g q) ax (v q)) (seq s k).
Proof. induction k; cbn; intros s; auto. f_equal. auto. Qed.
Lemma repeat_map {X} (x : X) k : forall s, repeat x k = map (fun _ => x) (seq s k).
Proof. induction k; cbn; intros s; auto. f_equal; auto. Qed.
Lemma dist_new_x : dist_new bm [n0; n1] p r 0 = Ok xdist.
Proof.
  unfold dist_new. cbn [length Nat.leb assertb bind].
  rewrite (mapM_repeat _ _ [n0 - 1; n1 - 1]).
  2:{ cbn [mapM]. unfold u64max in *. rewrite !uminus_ok by (unfold u64max; lia). cbn [bind]. do 2 f_equal; [|f_equal]; lia. }
  cbn [bind]. unfold range. cbn [Nat.sub seq for_each Nat.eqb bind]. rewrite (rd_at _ [n0; n1] 1) by (cbn; lia). cbn [bind].
  change ([n0; n1].[1]) with n1. rewrite distribute_ok by (auto; lia). cbn [bind]. rewrite !map_map.
  rewrite !(repeat_map _ p 0), !zip_set_map.
  rewrite !rd_at by (rewrite map_length, seq_length; auto). cbn [bind]. rewrite !at_map_seq by auto. unfold xdist. cbn [upd plus].
  rewrite !Nat2Z.id, to_nat_en by auto. do 2 f_equal; apply map_ext_in; intros q Hq; apply in_seq in Hq; rewrite ?Nat2Z.id, ?to_nat_en by (auto; lia); auto.
Qed.
Lemma dist_new_y : dist_new bm [n0; n1] p r 1 = Ok ydist.
Proof.
  unfold dist_new. cbn [length Nat.leb assertb bind].
  rewrite (mapM_repeat _ _ [n0 - 1; n1 - 1]).
  2:{ cbn [mapM]. unfold u64max in *. rewrite !uminus_ok by (unfold u64max; lia). cbn [bind]. do 2 f_equal; [|f_equal]; lia. }
  cbn [bind]. unfold range. cbn [Nat.sub seq for_each Nat.eqb bind]. rewrite (rd_at _ [n0; n1] 0) by (cbn; lia). cbn [bind].
  change ([n0; n1].[0]) with n0. rewrite distribute_ok by (auto; lia). cbn [bind]. rewrite !map_map.
  rewrite !(repeat_map _ p 0), !zip_set_map.
  rewrite !rd_at by (rewrite map_length, seq_length; auto). cbn [bind]. rewrite !at_map_seq by auto. unfold ydist. cbn [upd plus].
  rewrite !Nat2Z.id, to_nat_en by auto. do 2 f_equal; apply map_ext_in; intros q Hq; apply in_seq in Hq; rewrite ?Nat2Z.id, ?to_nat_en by (auto; lia); auto.
Qed.
Lemma decomp_new_ok : decomp_new bm p r [n0; n1] = Ok dcp.
Proof. unfold decomp_new. rewrite dist_new_x. cbn [bind]. rewrite dist_new_y. reflexivity. Qed.
End Closed.

(** ** Counts and displacements *)
Lemma lo_mul_mono n p m q : 1 <= p -> blk_lo n p q * m <= blk_lo n p (S q) * m.
Proof. intros. rewrite blk_lo_S by auto. apply Nat.mul_le_mono_r. lia. Qed.

Section Counts.
Variable bm : bmode.
Lemma iadd_ok a b : (-2147483648 <= a + b < 2147483648)%Z -> iadd bm a b = Ok (a + b)%Z.
Proof. intros H. unfold iadd. destruct (_ && _)%Z eqn:E; auto. exfalso. lia. Qed.

(** counts are the differences of [L], displacements its values *)
Definition counts_of (L : nat -> nat) p := map (fun q => Z.of_nat (L (S q) - L q)) (seq 0 p).
Definition displs_of (L : nat -> nat) p := map (fun q => Z.of_nat (L q)) (seq 0 p).

Lemma scan_ok (L : nat -> nat) (k : nat) : forall s : nat, (forall q, L q <= L (S q)) -> (Z.of_nat (L (s + k)%nat) < 2147483648)%Z ->
  scan_displs bm (Z.of_nat (L s)) (map (fun q => Z.of_nat (L (S q) - L q)) (seq s k)) = Ok (map (fun q => Z.of_nat (L q)) (seq s k)).
Proof.
  intros s M. revert s. assert (MM : forall a b, a <= b -> L a <= L b). { intros a b H. induction H; auto. specialize (M m). lia. }
  induction k as [|k IH]; cbn [seq map scan_displs]; intros s B; auto.
  pose proof (M s). pose proof (MM (S s) (s + S k) ltac:(lia)). rewrite iadd_ok by lia. cbn [bind].
  replace (Z.of_nat (L s) + Z.of_nat (L (S s) - L s))%Z with (Z.of_nat (L (S s))) by lia. rewrite IH. auto.
  replace (S s + k) with (s + S k) by lia. auto.
Qed.
Lemma mapM_ok {X Y} (f : X -> res Y) g l : (forall x, In x l -> f x = Ok (g x)) -> mapM f l = Ok (map g l).
Proof. induction l as [|x l IH]; cbn; intros H; auto. rewrite H by auto. cbn [bind]. rewrite IH by auto. auto. Qed.

Variables (n0 n1 p r : nat).
Hypothesis Hp : 1 <= p.
Hypothesis Hr : r < p.


Lemma counts_xy : (Z.of_nat (n0 * blk_len n1 p r) < 2147483648)%Z ->
  get_counts_all_to_all bm (xdist n0 n1 p r) (ydist n0 n1 p r) =
  Ok (counts_of (fun q => blk_lo n0 p q * blk_len n1 p r) p, displs_of (fun q => blk_lo n0 p q * blk_len n1 p r) p).
Proof.
  intros B. unfold get_counts_all_to_all, xdist, ydist. cbn [axis_contig d_sz sz_procs].
  rewrite (mapM_ok _ (fun x => Z.of_nat (x.[0] * blk_len n1 p r))).
  - cbn [bind]. rewrite map_map. cbv beta. fold (displs_of (fun q => blk_lo n0 p q * blk_len n1 p r) p).
    rewrite (map_ext _ (fun q => Z.of_nat (blk_lo n0 p (S q) * blk_len n1 p r - blk_lo n0 p q * blk_len n1 p r))).
    2:{ intros q. f_equal. change ([blk_len n0 p q; n1].[0]) with (blk_len n0 p q). rewrite blk_lo_S by auto. lia. }
    fold (counts_of (fun q => blk_lo n0 p q * blk_len n1 p r) p).
    pose proof (scan_ok (fun q => blk_lo n0 p q * blk_len n1 p r) p 0) as E. cbn beta in E. rewrite blk_lo_0 in E by auto. cbn [Nat.mul plus Z.of_nat] in E.
    unfold counts_of at 1. rewrite E. reflexivity. intros; apply lo_mul_mono; auto. rewrite blk_lo_p by auto. auto.
  - intros x Hx. apply in_map_iff in Hx. destruct Hx as (q & <- & Hq). apply in_seq in Hq. cbn [rd nth_error bind].
    change ([blk_len n0 p q; n1].[0]) with (blk_len n0 p q). f_equal. apply as_i32_id.
    pose proof (blk_len_le n0 p Hp q ltac:(lia)). nia.
Qed.
Lemma counts_yx : (Z.of_nat (blk_len n0 p r * n1) < 2147483648)%Z ->
  get_counts_all_to_all bm (ydist n0 n1 p r) (xdist n0 n1 p r) =
  Ok (counts_of (fun q => blk_lo n1 p q * blk_len n0 p r) p, displs_of (fun q => blk_lo n1 p q * blk_len n0 p r) p).
Proof.
  intros B. unfold get_counts_all_to_all, xdist, ydist. cbn [axis_contig d_sz sz_procs].
  rewrite (mapM_ok _ (fun x => Z.of_nat (x.[1] * blk_len n0 p r))).
  - cbn [bind]. rewrite map_map. cbv beta. fold (displs_of (fun q => blk_lo n1 p q * blk_len n0 p r) p).
    rewrite (map_ext _ (fun q => Z.of_nat (blk_lo n1 p (S q) * blk_len n0 p r - blk_lo n1 p q * blk_len n0 p r))).
    2:{ intros q. f_equal. change ([n0; blk_len n1 p q].[1]) with (blk_len n1 p q). rewrite blk_lo_S by auto. lia. }
    fold (counts_of (fun q => blk_lo n1 p q * blk_len n0 p r) p).
    pose proof (scan_ok (fun q => blk_lo n1 p q * blk_len n0 p r) p 0) as E. cbn beta in E. rewrite blk_lo_0 in E by auto. cbn [Nat.mul plus Z.of_nat] in E.
    unfold counts_of at 1. rewrite E. reflexivity. intros; apply lo_mul_mono; auto. rewrite blk_lo_p by auto. lia.
  - intros x Hx. apply in_map_iff in Hx. destruct Hx as (q & <- & Hq). apply in_seq in Hq. cbn [rd nth_error bind].
    change ([n0; blk_len n1 p q].[1]) with (blk_len n1 p q). f_equal. apply as_i32_id.
    pose proof (blk_len_le n1 p Hp q ltac:(lia)). nia.
Qed.
Lemma counts_x : (Z.of_nat (n0 * n1) < 2147483648)%Z ->
  get_counts_all_gather bm (xdist n0 n1 p r) = Ok (counts_of (fun q => blk_lo n1 p q * n0) p, displs_of (fun q => blk_lo n1 p q * n0) p).
Proof.
  intros B. unfold get_counts_all_gather, xdist. cbn [sz_procs]. rewrite map_map.
  rewrite (map_ext_in _ (fun q => Z.of_nat (blk_lo n1 p (S q) * n0 - blk_lo n1 p q * n0))).
  - pose proof (scan_ok (fun q => blk_lo n1 p q * n0) p 0) as E. cbn beta in E. rewrite blk_lo_0 in E by auto. cbn [Nat.mul plus Z.of_nat] in E.
    rewrite E. reflexivity. intros; apply lo_mul_mono; auto. rewrite blk_lo_p by auto. lia.
  - intros q Hq. apply in_seq in Hq. rewrite size2. pose proof (blk_len_le n1 p Hp q ltac:(lia)).
    rewrite as_i32_id by nia. f_equal. rewrite blk_lo_S by auto. lia.
Qed.
Lemma counts_y : (Z.of_nat (n0 * n1) < 2147483648)%Z ->
  get_counts_all_gather bm (ydist n0 n1 p r) = Ok (counts_of (fun q => blk_lo n0 p q * n1) p, displs_of (fun q => blk_lo n0 p q * n1) p).
Proof.
  intros B. unfold get_counts_all_gather, ydist. cbn [sz_procs]. rewrite map_map.
  rewrite (map_ext_in _ (fun q => Z.of_nat (blk_lo n0 p (S q) * n1 - blk_lo n0 p q * n1))).
  - pose proof (scan_ok (fun q => blk_lo n0 p q * n1) p 0) as E. cbn beta in E. rewrite blk_lo_0 in E by auto. cbn [Nat.mul plus Z.of_nat] in E.
    rewrite E. reflexivity. intros; apply lo_mul_mono; auto. rewrite blk_lo_p by auto. lia.
  - intros q Hq. apply in_seq in Hq. rewrite size2. pose proof (blk_len_le n0 p Hp q ltac:(lia)).
    rewrite as_i32_id by nia. f_equal. rewrite blk_lo_S by auto. lia.
Qed.

(** counts and displacements at one rank *)
Lemma counts_at L q : q < p -> nth_error (counts_of L p) q = Some (Z.of_nat (L (S q) - L q)).
Proof. intros H. unfold counts_of, displs_of. rewrite nth_error_map, (nth_error_nth' _ 0) by (rewrite seq_length; auto). rewrite seq_nth by auto. auto. Qed.
Lemma displs_at L q : q < p -> nth_error (displs_of L p) q = Some (Z.of_nat (L q)).
Proof. intros H. unfold counts_of, displs_of. rewrite nth_error_map, (nth_error_nth' _ 0) by (rewrite seq_length; auto). rewrite seq_nth by auto. auto. Qed.
End Counts.

Section Collect.
Context {T : Type} {dT : Dflt T}.
Lemma partition_ok (buf : list T) (L : nat -> nat) p : (forall q, L q <= L (S q)) -> length buf = L p -> (Z.of_nat (L p) < 2147483648)%Z ->
  partition buf (counts_of L p) (displs_of L p) = Ok tt.
Proof.
  intros M E B. assert (MM : forall a b, a <= b -> L a <= L b). { intros a b H. induction H; auto. specialize (M m). lia. }
  unfold partition, count_of. rewrite E. rewrite (proj2 (Z.ltb_lt _ _) B). cbn [assertb bind].
  assert (F : forall k s, s + k <= p -> forallb (fun '(c, d) => (c + d <=? Z.of_nat (L p))%Z)
    (combine (map (fun q => Z.of_nat (L (S q) - L q)) (seq s k)) (map (fun q => Z.of_nat (L q)) (seq s k))) = true).
  { induction k as [|k IH]; cbn [seq map combine forallb]; intros s Hs; auto. rewrite IH by lia.
    rewrite (proj2 (Z.leb_le _ _)); auto. pose proof (M s). pose proof (MM (S s) p ltac:(lia)). lia. }
  unfold counts_of, displs_of. rewrite F by lia. auto.
Qed.

(** consecutive blocks fill the receive buffer in rank order *)
Lemma collect_ok (src : nat -> option (list T)) (xs : nat -> list T) (L : nat -> nat) p rcv :
  (forall q, L q <= L (S q)) -> L 0 = 0 -> length rcv = L p ->
  (forall q, q < p -> src q = Some (xs q) /\ length (xs q) = L (S q) - L q) ->
  collect src (counts_of L p) (displs_of L p) (seq 0 p) rcv = Some (concat (map xs (seq 0 p))).
Proof.
  intros M L0 E S. assert (MM : forall a b, a <= b -> L a <= L b). { intros a b H. induction H; auto. specialize (M m). lia. }
  assert (G : forall k s done rcv, s + k = p -> length done = L s -> firstn (L s) rcv = done -> length rcv = L p ->
    collect src (counts_of L p) (displs_of L p) (seq s k) rcv = Some (done ++ concat (map xs (seq s k)))).
  { clear E rcv. induction k as [|k IH]; cbn [seq map concat collect]; intros s done rcv Hs Hd Hf E.
    - rewrite app_nil_r. f_equal. rewrite <- Hf, firstn_all2; auto. rewrite E. replace p with s by lia. auto.
    - destruct (S s ltac:(lia)) as [-> Ls]. cbn [obind]. rewrite counts_at, displs_at by lia. cbn [obind].
      rewrite Ls, Z.eqb_refl. pose proof (M s). pose proof (MM (Datatypes.S s) p ltac:(lia)).
      unfold paste. rewrite (proj2 (Z.leb_le _ _)) by lia. rewrite (proj2 (Z.leb_le _ _)) by lia. cbn [andb obind].
      rewrite Nat2Z.id, Hf. rewrite (IH (Datatypes.S s) (done ++ xs s)).
      + rewrite app_assoc. auto.
      + lia.
      + rewrite app_length. lia.
      + rewrite app_assoc, firstn_app, firstn_all2 by (rewrite app_length; lia).
        rewrite app_length. replace (L (Datatypes.S s) - _) with 0 by lia. cbn [firstn]. apply app_nil_r.
      + rewrite !app_length, skipn_length. lia. }
  apply (G p 0 []); auto. rewrite L0. auto.
Qed.
End Collect.
