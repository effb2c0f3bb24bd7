(** Row-major tables: the lists of elements the distributed code packs into
    buffers, and the parts a collective cuts out of them. *)
From Coq Require Import List Arith Lia Bool ZArith.
From Verif Require Import Base Num Cheb ChebGrad NdArray NdArrayFacts AxisFacts Space MpiSem MpiSpec Decomp.
Import ListNotations.
Local Open Scope nat_scope.

Section Tab.
Context {T : Type} {dT : Dflt T}.

Definition tab (n m : nat) (f : nat -> nat -> T) : list T :=
  flat_map (fun i => map (f i) (seq 0 m)) (seq 0 n).

Lemma flat_rows_length {X} (g : nat -> list X) m (l : list nat) : (forall i, In i l -> length (g i) = m) -> length (flat_map g l) = length l * m.
Proof. induction l as [|a l IH]; cbn; intros H; auto. rewrite app_length, IH, H; auto. Qed.
Lemma tab_length n m f : length (tab n m f) = n * m.
Proof. unfold tab. rewrite (flat_rows_length _ m). rewrite seq_length; auto. intros. rewrite map_length, seq_length; auto. Qed.

Lemma tab_S n m f : tab (S n) m f = map (f 0) (seq 0 m) ++ tab n m (fun i => f (S i)).
Proof. unfold tab. cbn [seq flat_map]. f_equal. rewrite <- seq_shift, !flat_map_concat_map, map_map. auto. Qed.

Lemma at_tab m : forall n f i j, i < n -> j < m -> (tab n m f).[i * m + j] = f i j.
Proof.
  induction n as [|n IH]; intros f i j Hi Hj. lia. rewrite tab_S. destruct i as [|i].
  - rewrite at_app_l by (rewrite map_length, seq_length; lia). rewrite at_map_seq by lia. auto.
  - rewrite at_app_r by (rewrite map_length, seq_length; lia). rewrite map_length, seq_length.
    replace (S i * m + j - m) with (i * m + j) by lia. apply (IH (fun i => f (S i))); lia.
Qed.
Lemma tab_ext n m f g : (forall i j, i < n -> j < m -> f i j = g i j) -> tab n m f = tab n m g.
Proof.
  intros H. unfold tab. rewrite !flat_map_concat_map. f_equal. apply map_ext_in. intros i Hi. apply in_seq in Hi.
  apply map_ext_in. intros j Hj. apply in_seq in Hj. apply H; lia.
Qed.
Lemma tab_app n1 n2 m f : tab (n1 + n2) m f = tab n1 m f ++ tab n2 m (fun i => f (n1 + i)).
Proof.
  unfold tab. rewrite seq_app, flat_map_app. f_equal. cbn [plus]. rewrite !flat_map_concat_map. f_equal.
  rewrite <- (Nat.add_0_r n1) at 1. replace (seq (n1 + 0) n2) with (map (fun i => n1 + i) (seq 0 n2)).
  rewrite map_map. auto. clear. generalize 0 as s. induction n2 as [|k IH]; cbn; intros s; auto. f_equal. rewrite IH. f_equal. lia.
Qed.
(** a list of the right length is a table *)
Lemma tab_of_list n m (l : list T) : length l = n * m -> l = tab n m (fun i j => l.[i * m + j]).
Proof.
  intros L. apply list_ext. rewrite tab_length; auto. intros k Hk. rewrite L in Hk.
  assert (m <> 0) by nia. rewrite (Nat.div_mod k m) at 2 by auto. rewrite (Nat.mul_comm m), at_tab.
  - f_equal. rewrite (Nat.div_mod k m) at 1 by auto. lia.
  - apply Nat.div_lt_upper_bound; auto. lia.
  - apply Nat.mod_upper_bound; auto.
Qed.

(** some rows of a table *)
Lemma tab_rows n m f lo len : lo + len <= n ->
  block (tab n m f) (Z.of_nat (lo * m)) (Z.of_nat (len * m)) = Some (tab len m (fun i => f (lo + i))).
Proof.
  intros H. unfold block. rewrite tab_length.
  replace (0 <=? Z.of_nat (lo * m))%Z with true by (symmetry; apply Z.leb_le; lia).
  replace (0 <=? Z.of_nat (len * m))%Z with true by (symmetry; apply Z.leb_le; lia).
  replace (_ + _ <=? _)%Z with true by (symmetry; apply Z.leb_le; nia). cbn [andb].
  rewrite !Nat2Z.id. f_equal. replace n with (lo + (len + (n - lo - len))) by lia. rewrite tab_app, (tab_app len).
  rewrite skipn_app, skipn_all2 by (rewrite tab_length; lia). cbn [app]. rewrite tab_length, Nat.sub_diag. cbn [skipn].
  rewrite firstn_app, firstn_all2 by (rewrite tab_length; lia). rewrite tab_length, Nat.sub_diag. cbn [firstn]. apply app_nil_r.
Qed.

(** a table cut into blocks of rows *)
Lemma tab_blocks n p m f : 1 <= p ->
  concat (map (fun q => tab (blk_len n p q) m (fun i => f (blk_lo n p q + i))) (seq 0 p)) = tab n m f.
Proof.
  intros Hp. transitivity (tab (blk_lo n p p) m f); [|rewrite blk_lo_p; auto].
  assert (G : forall k, concat (map (fun q => tab (blk_len n p q) m (fun i => f (blk_lo n p q + i))) (seq 0 k)) = tab (blk_lo n p k) m f).
  { induction k as [|k IH]. rewrite blk_lo_0 by auto. reflexivity.
    rewrite seq_S, map_app, concat_app, IH, blk_lo_S by auto. rewrite tab_app. cbn. rewrite app_nil_r. auto. }
  apply G.
Qed.

(** ** 2-D arrays *)
Lemma get2 (a : arr T) n0 n1 i j : shp a = [n0; n1] -> get a [i; j] = (dat a).[i * n1 + j].
Proof. intros H. unfold get. rewrite H. cbn [ravel]. rewrite size_cons. cbn [size fold_right]. f_equal. nia. Qed.
Lemma size2 n0 n1 : size [n0; n1] = n0 * n1.
Proof. cbn. lia. Qed.
Lemma dat_tab (a : arr T) n0 n1 : has_shape n0 n1 a -> dat a = tab n0 n1 (fun i j => get a [i; j]).
Proof.
  intros [H W]. unfold wf in W. rewrite H, size2 in W. rewrite (tab_of_list n0 n1) at 1 by auto.
  apply tab_ext. intros. symmetry. apply get2 with n0; auto.
Qed.
Lemma iter_rm_tab (a : arr T) n0 n1 : has_shape n0 n1 a -> iter_rm a = tab n0 n1 (fun i j => get a [i; j]).
Proof. apply dat_tab. Qed.
Lemma iter_sw_tab (a : arr T) n0 n1 : has_shape n0 n1 a -> iter_sw a = tab n1 n0 (fun j i => get a [i; j]).
Proof.
  intros [H W]. unfold iter_sw, swapped, tab. rewrite H. cbn [axlen nth].
  rewrite !flat_map_concat_map, concat_map, map_map. f_equal. apply map_ext. intros j. rewrite map_map. apply map_ext. intros i.
  symmetry. apply get2 with n0; auto.
Qed.
Lemma fill_full n (l : list T) : length l = n -> fill n l = l.
Proof. intros H. apply zip_write_full. rewrite repeat_length. auto. Qed.
Lemma store_rm_tab (a : arr T) n0 n1 f : has_shape n0 n1 a -> store_rm a (tab n0 n1 f) = mk_arr [n0; n1] (std a) (tab n0 n1 f).
Proof.
  intros [H W]. unfold store_rm. unfold wf in W. rewrite H, size2 in W. rewrite H. f_equal. apply zip_write_full. rewrite tab_length. auto.
Qed.

Lemma fold_upd_length ps : forall l : list T, length (fold_left (fun l '(p, x) => upd l p x) ps l) = length l.
Proof. induction ps as [|[p x] ps IH]; cbn; intros l; auto. rewrite IH, upd_length. auto. Qed.
Lemma fold_upd_at (V : nat -> T) ps : forall l, (forall p x, In (p, x) ps -> x = V p /\ p < length l) ->
  forall k, ((exists x, In (k, x) ps) -> (fold_left (fun l '(p, x) => upd l p x) ps l).[k] = V k) /\
    (l.[k] = V k -> (fold_left (fun l '(p, x) => upd l p x) ps l).[k] = V k).
Proof.
  induction ps as [|[p x] ps IH]; cbn [fold_left In]; intros l H k.
  - split; [intros [x []]|auto].
  - assert (H' : forall q y, In (q, y) ps -> y = V q /\ q < length (upd l p x)).
    { intros q y I. rewrite upd_length. apply H. auto. }
    destruct (IH _ H' k) as [A B]. destruct (H p x (or_introl eq_refl)) as [-> Lp].
    assert (C : l.[k] = V k \/ k = p -> (upd l p (V p)).[k] = V k).
    { intros [E|E]. destruct (Nat.eq_dec p k) as [->|]. apply at_upd_eq; auto. rewrite at_upd_ne; auto. subst. apply at_upd_eq; auto. }
    split.
    + intros [y [E|I]]. injection E as -> E. apply B, C. auto. apply A. eauto.
    + intros E. apply B, C. auto.
Qed.
Lemma store_sw_tab (a : arr T) n0 n1 f : has_shape n0 n1 a ->
  store_sw a (tab n1 n0 (fun j i => f i j)) = mk_arr [n0; n1] (std a) (tab n0 n1 f).
Proof.
  intros [H W]. unfold wf in W. rewrite H, size2 in W. unfold store_sw. rewrite H. cbn [axlen nth]. f_equal.
  set (V := fun p => f (p / n1) (p mod n1)).
  assert (E : tab n1 n0 (fun j i => f i j) = map V (swapped n0 n1)).
  { unfold swapped. rewrite flat_map_concat_map, concat_map, map_map. unfold tab. rewrite flat_map_concat_map. f_equal.
    apply map_ext_in. intros j Hj. apply in_seq in Hj. rewrite map_map. apply map_ext_in. intros i Hi. unfold V.
    rewrite Nat.div_add_l, (Nat.div_small j) by lia. rewrite (Nat.add_comm (_ * _)), Nat.mod_add, (Nat.mod_small j) by lia. f_equal. lia. }
  assert (Sw : forall k, In k (swapped n0 n1) <-> k < n0 * n1).
  { intros k. unfold swapped. rewrite in_flat_map. split.
    - intros (j & Hj & Hk). apply in_map_iff in Hk. destruct Hk as (i & <- & Hi). apply in_seq in Hi, Hj. nia.
    - intros Hk. assert (n1 <> 0) by nia. exists (k mod n1). pose proof (Nat.mod_upper_bound k n1 H0). rewrite in_seq. split; [lia|].
      apply in_map_iff. exists (k / n1). rewrite in_seq. rewrite Nat.mul_comm, <- Nat.div_mod by auto. split; auto.
      assert (k / n1 < n0) by (apply Nat.div_lt_upper_bound; lia). lia. }
  rewrite E.
  assert (C : forall (ps : list nat) p x, In (p, x) (combine ps (map V ps)) <-> In p ps /\ x = V p).
  { induction ps as [|q ps IH]; cbn; intros p x. tauto. rewrite IH. split.
    - intros [E'|[I E']]; [injection E' as -> <-|]; auto.
    - intros [[->| I] ->]; auto. }
  apply list_ext. rewrite fold_upd_length, tab_length; auto. rewrite fold_upd_length. intros k Hk.
  rewrite W in Hk. assert (n1 <> 0) by nia.
  transitivity (V k).
  - refine (proj1 (fold_upd_at V _ _ _ k) _).
    + intros p x I. apply C in I. destruct I as [I ->]. apply Sw in I. split; auto. lia.
    + exists (V k). apply C. split; auto. apply Sw; auto.
  - unfold V. rewrite (Nat.div_mod k n1) at 3 by auto. rewrite (Nat.mul_comm n1), at_tab; auto.
    apply Nat.div_lt_upper_bound; lia. apply Nat.mod_upper_bound; auto.
Qed.
Lemma get_tab n0 n1 f st i j : i < n0 -> j < n1 -> get (mk_arr [n0; n1] st (tab n0 n1 f)) [i; j] = f i j.
Proof. intros. rewrite (get2 _ n0 n1) by auto. cbn [dat]. apply at_tab; auto. Qed.
Lemma tab_shape n0 n1 f st : has_shape n0 n1 (mk_arr [n0; n1] st (tab n0 n1 f)).
Proof. split; auto. unfold wf. cbn [dat shp]. rewrite tab_length, size2. auto. Qed.
End Tab.
