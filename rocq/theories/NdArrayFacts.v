From Coq Require Import List Arith Lia Bool Permutation.
From Verif Require Import Base NdArray.
Import ListNotations.

(** ** Shapes and flat indices *)
Lemma size_app a b : size (a ++ b) = size a * size b.
Proof. induction a; cbn [app size fold_right] in *; unfold size in *; cbn; [lia|]. rewrite IHa. lia. Qed.
Lemma size_cons n a : size (n :: a) = n * size a. Proof. reflexivity. Qed.

Lemma shape_split sh ax : ax < length sh -> sh = firstn ax sh ++ axlen sh ax :: skipn (S ax) sh.
Proof.
  intros H. unfold axlen. revert ax H. induction sh as [|n sh IH]; intros ax H; [cbn in H; lia|].
  destruct ax; cbn; auto. f_equal. apply IH. cbn in H. lia.
Qed.
Lemma size_split sh ax : ax < length sh -> size sh = outer sh ax * axlen sh ax * inner sh ax.
Proof. intros H. rewrite (shape_split sh ax H) at 1. rewrite size_app, size_cons. unfold outer, inner. lia. Qed.

Lemma list_eqb_eq a : forall b, list_eqb a b = true <-> a = b.
Proof.
  induction a as [|x a IH]; intros [|y b]; cbn; try (split; [discriminate|discriminate]); [tauto|].
  rewrite andb_true_iff, Nat.eqb_eq, IH. split; [intros [-> ->]; auto|intros E; inversion E; auto].
Qed.

Lemma lidx_lt sh ax j k : ax < length sh -> j < nlanes sh ax -> k < axlen sh ax -> lidx sh ax j k < size sh.
Proof.
  intros H Hj Hk. rewrite (size_split sh ax H). unfold lidx, nlanes in *.
  set (I := inner sh ax) in *. set (O := outer sh ax) in *. set (L := axlen sh ax) in *.
  assert (I <> 0) by nia. pose proof (Nat.mod_upper_bound j I H0).
  assert (j / I < O) by (apply Nat.div_lt_upper_bound; lia).
  assert ((j / I * L + k) + 1 <= O * L) by nia. nia.
Qed.

Lemma lidx_inj sh ax j k j' k' : j < nlanes sh ax -> j' < nlanes sh ax ->
  k < axlen sh ax -> k' < axlen sh ax -> lidx sh ax j k = lidx sh ax j' k' -> j = j' /\ k = k'.
Proof.
  unfold lidx, nlanes. set (I := inner sh ax) in *. set (O := outer sh ax) in *. set (L := axlen sh ax) in *.
  intros Hj Hj' Hk Hk' E. assert (HI : I <> 0) by nia.
  pose proof (Nat.mod_upper_bound j I HI). pose proof (Nat.mod_upper_bound j' I HI).
  assert (E1 : j / I * L + k = j' / I * L + k' /\ j mod I = j' mod I).
  { destruct (Nat.div_mod_unique I (j / I * L + k) (j' / I * L + k') (j mod I) (j' mod I)); auto; lia. }
  destruct E1 as [E1 E2].
  destruct (Nat.div_mod_unique L (j / I) (j' / I) k k') as [X Y]; auto; try lia.
  split; auto. rewrite (Nat.div_mod j I HI), (Nat.div_mod j' I HI), E2, X. auto.
Qed.

Lemma lidx_surj sh ax i : ax < length sh -> i < size sh ->
  exists j k, j < nlanes sh ax /\ k < axlen sh ax /\ lidx sh ax j k = i.
Proof.
  intros H Hi. rewrite (size_split sh ax H) in Hi. unfold lidx, nlanes.
  set (I := inner sh ax) in *. set (O := outer sh ax) in *. set (L := axlen sh ax) in *.
  assert (HI : I <> 0) by (intro Z; rewrite Z in Hi; lia).
  assert (HL : L <> 0) by (intro Z; rewrite Z in Hi; lia).
  exists (i / I / L * I + i mod I), (i / I mod L).
  pose proof (Nat.mod_upper_bound i I HI). pose proof (Nat.mod_upper_bound (i / I) L HL).
  assert (Q : i / I / L < O) by (apply Nat.div_lt_upper_bound; auto; apply Nat.div_lt_upper_bound; auto; nia).
  repeat split; [nia|auto|].
  rewrite Nat.div_add_l, (Nat.div_small (i mod I)), Nat.add_0_r by lia.
  replace ((i / I / L * I + i mod I) mod I) with (i mod I).
  2:{ rewrite Nat.add_comm, Nat.mod_add, Nat.mod_mod; auto. }
  pose proof (Nat.div_mod i I HI). pose proof (Nat.div_mod (i / I) L HL).
  replace (i / I / L * L + (i / I) mod L) with (i / I) by lia. lia.
Qed.

(** ** Lanes *)
Section Lanes.
Context {T : Type} {d : Dflt T}.

Lemma lane_length sh ax (l : list T) j : length (lane sh ax l j) = axlen sh ax.
Proof. unfold lane. rewrite map_length, seq_length. auto. Qed.
Lemma lane_at sh ax (l : list T) j k : k < axlen sh ax -> (lane sh ax l j).[k] = l.[lidx sh ax j k].
Proof. intros. unfold lane. apply at_map_seq; auto. Qed.

Definition put (sh : list nat) ax j (l : list T) (ks : list (nat * T)) :=
  fold_left (fun l '(k, x) => upd l (lidx sh ax j k) x) ks l.
Lemma put_length sh ax j ks : forall l, length (put sh ax j l ks) = length l.
Proof. induction ks as [|[k x] ks IH]; intros l; cbn; auto. unfold put in IH. rewrite IH, upd_length. auto. Qed.
Lemma put_other sh ax j i ks : forall l, (forall k x, In (k, x) ks -> lidx sh ax j k <> i) -> (put sh ax j l ks).[i] = l.[i].
Proof.
  induction ks as [|[k x] ks IH]; intros l H; auto. change (put sh ax j l ((k, x) :: ks)) with (put sh ax j (upd l (lidx sh ax j k) x) ks).
  rewrite IH by (intros; eapply H; right; eauto). rewrite at_upd_ne; auto. intro E. apply (H k x); auto. left; auto.
Qed.

Lemma put_lane_length sh ax (l : list T) j s : length (put_lane sh ax l j s) = length l.
Proof. apply put_length. Qed.

Lemma put_at sh ax j (l : list T) : forall s n0 k, (forall k k', n0 <= k < n0 + length s -> n0 <= k' < n0 + length s ->
     lidx sh ax j k = lidx sh ax j k' -> k = k') ->
  (forall k, n0 <= k < n0 + length s -> lidx sh ax j k < length l) ->
  k < length s -> (put sh ax j l (combine (seq n0 (length s)) s)).[lidx sh ax j (n0 + k)] = s.[k].
Proof.
  intros s. revert l. induction s as [|x s IH]; intros l n0 k Inj B Hk; [cbn in Hk; lia|].
  change (put sh ax j l (combine (seq n0 (length (x :: s))) (x :: s))) with
    (put sh ax j (upd l (lidx sh ax j n0) x) (combine (seq (S n0) (length s)) s)).
  destruct k.
  - rewrite put_other. rewrite Nat.add_0_r. rewrite at_upd_eq; auto. apply B. cbn; lia.
    intros k y Hin E. apply in_combine_l, in_seq in Hin. rewrite Nat.add_0_r in E.
    apply Inj in E; cbn [length] in *; lia.
  - replace (n0 + S k) with (S n0 + k) by lia. rewrite IH; auto.
    + intros. apply Inj; cbn [length]; auto; lia.
    + intros. rewrite upd_length. apply B. cbn [length]; lia.
    + cbn [length] in Hk. lia.
Qed.

Lemma put_lane_at sh ax (l : list T) j s j' k : ax < length sh -> length l = size sh -> length s = axlen sh ax ->
  j < nlanes sh ax -> j' < nlanes sh ax -> k < axlen sh ax ->
  (put_lane sh ax l j s).[lidx sh ax j' k] = if j =? j' then s.[k] else l.[lidx sh ax j' k].
Proof.
  intros Hax Hl Hs Hj Hj' Hk. change (put_lane sh ax l j s) with (put sh ax j l (combine (seq 0 (axlen sh ax)) s)).
  destruct (Nat.eqb_spec j j') as [<-|N].
  - rewrite <- Hs. change k with (0 + k) at 1. apply put_at; try lia.
    + intros. eapply lidx_inj; [| | | |eauto]; auto; lia.
    + intros. rewrite Hl. apply lidx_lt; auto; lia.
  - apply put_other. intros k' x Hin E. apply in_combine_l, in_seq in Hin.
    apply N. eapply lidx_inj in E; [tauto|auto|auto|lia|auto].
Qed.

Lemma put_lane_lane sh ax (l : list T) j s j' : ax < length sh -> length l = size sh -> length s = axlen sh ax ->
  j < nlanes sh ax -> j' < nlanes sh ax ->
  lane sh ax (put_lane sh ax l j s) j' = if j =? j' then s else lane sh ax l j'.
Proof.
  intros Hax Hl Hs Hj Hj'.
  apply list_ext. rewrite lane_length. destruct (j =? j'); auto. rewrite lane_length; auto.
  intros k Hk. rewrite lane_length in Hk. rewrite lane_at by auto. rewrite put_lane_at by auto.
  destruct (j =? j'); auto. rewrite lane_at; auto.
Qed.

(** Two buffers with the same lanes are equal. *)
Lemma lanes_ext sh ax (l l' : list T) : ax < length sh -> length l = size sh -> length l' = size sh ->
  (forall j, j < nlanes sh ax -> lane sh ax l j = lane sh ax l' j) -> l = l'.
Proof.
  intros Hax Hl Hl' H. apply list_ext. congruence. intros i Hi. rewrite Hl in Hi.
  destruct (lidx_surj sh ax i Hax Hi) as (j & k & Hj & Hk & <-).
  rewrite <- !lane_at by auto. rewrite H; auto.
Qed.
End Lanes.

(** Multi-indices: [ravel sh idx] is the row-major position of [idx]. *)
Fixpoint ravel (sh idx : list nat) : nat :=
  match sh, idx with
  | _ :: sh, i :: idx => i * size sh + ravel sh idx
  | _, _ => 0
  end.
Definition valid (sh idx : list nat) : Prop := Forall2 (fun i n => i < n) idx sh.

Lemma ravel_lt sh : forall idx, valid sh idx -> ravel sh idx < size sh.
Proof.
  induction sh as [|n sh IH]; intros idx V; inversion V; subst; cbn. lia.
  specialize (IH _ H3). fold (size sh). nia.
Qed.
Lemma ravel_app s1 s2 i1 : forall i2, length i1 = length s1 -> ravel (s1 ++ s2) (i1 ++ i2) = ravel s1 i1 * size s2 + ravel s2 i2.
Proof.
  revert i1. induction s1 as [|n s1 IH]; intros [|i i1] i2 H; cbn in H; try lia; cbn; auto.
  rewrite IH by lia. rewrite size_app. lia.
Qed.
Lemma valid_app s1 s2 i1 i2 : valid s1 i1 -> valid s2 i2 -> valid (s1 ++ s2) (i1 ++ i2).
Proof. apply Forall2_app. Qed.
Lemma valid_len sh idx : valid sh idx -> length idx = length sh.
Proof. intros V. induction V; cbn; auto. Qed.

Lemma valid_split s1 n s2 i1 k i2 : length i1 = length s1 -> valid (s1 ++ n :: s2) (i1 ++ k :: i2) -> valid s1 i1 /\ k < n /\ valid s2 i2.
Proof.
  revert i1. induction s1 as [|m s1 IH]; intros [|i i1] L V; cbn in L; try lia; inversion V; subst.
  - repeat split; auto. constructor.
  - destruct (IH i1) as (A & B & C); auto. repeat split; auto. constructor; auto.
Qed.

(** Lane coordinates of a multi-index. *)
Lemma ravel_lidx sh ax pre k post : ax < length sh -> length pre = ax -> valid sh (pre ++ k :: post) ->
  ravel sh (pre ++ k :: post) = lidx sh ax (ravel (rm_axis sh ax) (pre ++ post)) k /\
  ravel (rm_axis sh ax) (pre ++ post) < nlanes sh ax /\ k < axlen sh ax.
Proof.
  intros Hax Hp V. pose proof (shape_split sh ax Hax) as E.
  assert (L1 : length (firstn ax sh) = ax) by (apply firstn_length_le; lia).
  rewrite E in V. apply valid_split in V as (V1 & Hk & V2); [|congruence].
  assert (Q : ravel (rm_axis sh ax) (pre ++ post) = ravel (firstn ax sh) pre * inner sh ax + ravel (skipn (S ax) sh) post).
  { unfold rm_axis. rewrite ravel_app by congruence. reflexivity. }
  pose proof (ravel_lt _ _ V1) as B1. pose proof (ravel_lt _ _ V2) as B2. fold (outer sh ax) in B1. fold (inner sh ax) in B2.
  split; [|split; auto].
  - rewrite E at 1. rewrite ravel_app by congruence. cbn [ravel]. rewrite size_cons. fold (inner sh ax).
    unfold lidx. rewrite Q. rewrite Nat.div_add_l by lia. rewrite (Nat.div_small (ravel (skipn (S ax) sh) post)) by auto.
    replace ((ravel (firstn ax sh) pre * inner sh ax + ravel (skipn (S ax) sh) post) mod inner sh ax)
      with (ravel (skipn (S ax) sh) post) by (rewrite Nat.add_comm, Nat.mod_add, Nat.mod_small by lia; auto). lia.
  - rewrite Q. unfold nlanes. nia.
Qed.

(** ** The serial loop *)
Section Serial.
Context {T1 T2 : Type} {d1 : Dflt T1} {d2 : Dflt T2}.
Notation slicefn := (list T1 -> list T2 -> res (list T2)).

(** On slices of the right lengths, [f] is the function [h] of its input alone
    and keeps the output length. *)
Definition acts_as (f : slicefn) (l1 l2 : nat) (h : list T1 -> res (list T2)) : Prop :=
  forall x y, length x = l1 -> length y = l2 -> f x y = h x /\ forall z, h x = Ok z -> length z = l2.

(** What an axis-wise call must return. *)
Definition lanewise (h : list T1 -> res (list T2)) (si so : list nat) (ax : nat) (din : list T1) (r : res (list T2)) : Prop :=
  match r with
  | Ok out => length out = size so /\ forall j, j < nlanes so ax -> h (lane si ax din j) = Ok (lane so ax out j)
  | Panic => exists j, j < nlanes so ax /\ h (lane si ax din j) = Panic
  | UB => exists j, j < nlanes so ax /\ h (lane si ax din j) = UB
  end.

Lemma order_in n order : Permutation order (seq 0 n) -> (forall j, In j order <-> j < n) /\ NoDup order.
Proof.
  intros P. split.
  - intros j. split; intros H. apply (Permutation_in _ P), in_seq in H. lia.
    apply (Permutation_in _ (Permutation_sym P)), in_seq. lia.
  - eapply Permutation_NoDup. apply Permutation_sym; eauto. apply seq_NoDup.
Qed.

Variables (f : slicefn) (h : list T1 -> res (list T2)) (l2 : nat).
Variables (si so : list nat) (ax : nat) (din : list T1).
Hypothesis Hf : acts_as f (axlen si ax) (axlen so ax) h.
Hypothesis Hax : ax < length so.

Lemma serial_direct order : (forall j, In j order -> j < nlanes so ax) -> NoDup order ->
  forall l, length l = size so ->
  match for_each order (fun j out => let* y := f (lane si ax din j) (lane so ax out j) in
        Ok (put_lane so ax out j y)) l with
  | Ok out => length out = size so /\ (forall j, In j order -> h (lane si ax din j) = Ok (lane so ax out j)) /\
       (forall j, j < nlanes so ax -> ~ In j order -> lane so ax out j = lane so ax l j)
  | Panic => exists j, In j order /\ h (lane si ax din j) = Panic
  | UB => exists j, In j order /\ h (lane si ax din j) = UB
  end.
Proof.
  induction order as [|j order IH]; intros Hin ND l Hl; cbn [for_each]. repeat split; auto; intros; contradiction.
  inversion ND; subst.
  destruct (Hf (lane si ax din j) (lane so ax l j)) as [E1 E2]; try apply lane_length.
  rewrite E1. destruct (h (lane si ax din j)) as [y| |] eqn:Eh; cbn [bind].
  - specialize (E2 _ eq_refl). assert (Hj : j < nlanes so ax) by (apply Hin; left; auto).
    assert (HL : length (put_lane so ax l j y) = size so) by (rewrite put_lane_length; auto).
    specialize (IH (fun i Hi => Hin i (or_intror Hi)) H2 _ HL).
    destruct (for_each order _ _) as [out| |].
    + destruct IH as (A & B & C). split; auto. split.
      * intros i [<-|Hi]; auto. rewrite Eh, C by auto. rewrite put_lane_lane, Nat.eqb_refl; auto.
      * intros i Hi N. rewrite C; auto. rewrite put_lane_lane; auto.
        destruct (Nat.eqb_spec j i); auto. exfalso. apply N. left; auto. intro. apply N. right; auto.
    + destruct IH as (i & Hi & Ei). exists i. split; auto. right; auto.
    + destruct IH as (i & Hi & Ei). exists i. split; auto. right; auto.
  - exists j. split; auto. left; auto.
  - exists j. split; auto. left; auto.
Qed.

Lemma serial_scratch order : (forall j, In j order -> j < nlanes so ax) -> NoDup order ->
  forall l scr, length l = size so -> length scr = axlen so ax ->
  match for_each order (fun j '(out, scratch) => let* scratch := f (lane si ax din j) scratch in
        Ok (put_lane so ax out j scratch, scratch)) (l, scr) with
  | Ok (out, _) => length out = size so /\ (forall j, In j order -> h (lane si ax din j) = Ok (lane so ax out j)) /\
       (forall j, j < nlanes so ax -> ~ In j order -> lane so ax out j = lane so ax l j)
  | Panic => exists j, In j order /\ h (lane si ax din j) = Panic
  | UB => exists j, In j order /\ h (lane si ax din j) = UB
  end.
Proof.
  induction order as [|j order IH]; intros Hin ND l scr Hl Hscr; cbn [for_each]. repeat split; auto; intros; contradiction.
  inversion ND; subst.
  destruct (Hf (lane si ax din j) scr) as [E1 E2]; auto; try apply lane_length.
  rewrite E1. destruct (h (lane si ax din j)) as [y| |] eqn:Eh; cbn [bind].
  - specialize (E2 _ eq_refl). assert (Hj : j < nlanes so ax) by (apply Hin; left; auto).
    assert (HL : length (put_lane so ax l j y) = size so) by (rewrite put_lane_length; auto).
    specialize (IH (fun i Hi => Hin i (or_intror Hi)) H2 _ _ HL E2).
    destruct (for_each order _ _) as [[out s']| |].
    + destruct IH as (A & B & C). split; auto. split.
      * intros i [<-|Hi]; auto. rewrite Eh, C by auto. rewrite put_lane_lane, Nat.eqb_refl; auto.
      * intros i Hi N. rewrite C; auto. rewrite put_lane_lane; auto.
        destruct (Nat.eqb_spec j i); auto. exfalso. apply N. left; auto. intro. apply N. right; auto.
    + destruct IH as (i & Hi & Ei). exists i. split; auto. right; auto.
    + destruct IH as (i & Hi & Ei). exists i. split; auto. right; auto.
  - exists j. split; auto. left; auto.
  - exists j. split; auto. left; auto.
Qed.
End Serial.

(** ** Interleavings *)
Section Interleave.
Context {T : Type} {d : Dflt T}.
Variables (sh : list nat) (ax : nat).
Hypothesis Hax : ax < length sh.

Lemma lane_upd (l : list T) j k v : length l = size sh -> j < nlanes sh ax -> k < axlen sh ax ->
  (forall j', j' < nlanes sh ax -> j' <> j -> lane sh ax (upd l (lidx sh ax j k) v) j' = lane sh ax l j') /\
  lane sh ax (upd l (lidx sh ax j k) v) j = upd (lane sh ax l j) k v.
Proof.
  intros Hl Hj Hk. split.
  - intros j' Hj' N. apply list_ext; rewrite ?lane_length; auto. intros i Hi. rewrite !lane_at by auto.
    rewrite at_upd_ne; auto. intro E. destruct (lidx_inj sh ax j k j' i); auto.
  - apply list_ext; rewrite ?upd_length, ?lane_length; auto. intros i Hi. rewrite !lane_at by auto.
    destruct (Nat.eq_dec i k) as [->|N].
    + rewrite !at_upd_eq; auto. rewrite lane_length; auto. rewrite Hl. apply lidx_lt; auto.
    + rewrite !at_upd_ne; auto. rewrite lane_at; auto. intro E. destruct (lidx_inj sh ax j k j i); auto.
Qed.

Lemma nth_error_at (l : list T) i : i < length l -> nth_error l i = Some l.[i].
Proof. intros. unfold at_. apply nth_error_nth'. auto. Qed.

Lemma pact_prun j (p : prog T) l : length l = size sh -> j < nlanes sh ax ->
  match pact sh ax j p l with
  | None => p = PRet
  | Some (Ok (p', l')) => length l' = size sh /\ prun p' (lane sh ax l' j) = prun p (lane sh ax l j) /\
      forall j', j' < nlanes sh ax -> j' <> j -> lane sh ax l' j' = lane sh ax l j'
  | Some Panic => prun p (lane sh ax l j) = Panic
  | Some UB => prun p (lane sh ax l j) = UB
  end.
Proof.
  intros Hl Hj. destruct p as [|e|k c|k v p]; cbn [pact prun]; auto.
  - destruct e; cbn; auto.
  - destruct (Nat.ltb_spec k (axlen sh ax)).
    + rewrite nth_error_at by (rewrite Hl; apply lidx_lt; auto). rewrite nth_error_at by (rewrite lane_length; auto).
      rewrite lane_at by auto. auto.
    + replace (nth_error (lane sh ax l j) k) with (@None T). auto. symmetry. apply nth_error_None. rewrite lane_length; auto.
  - rewrite lane_length. destruct (Nat.ltb_spec k (axlen sh ax)); auto.
    destruct (lane_upd l j k v Hl Hj H) as [A B]. split. rewrite upd_length; auto. rewrite B. auto.
Qed.

Lemma nth_error_upd_eq {X} (l : list X) : forall i x, i < length l -> nth_error (upd l i x) i = Some x.
Proof. induction l; intros [|i] x H; cbn in *; auto; try lia. apply IHl. lia. Qed.
Lemma nth_error_upd_ne {X} (l : list X) : forall i j x, i <> j -> nth_error (upd l i x) j = nth_error l j.
Proof. induction l; intros [|i] [|j] x H; cbn in *; auto; try lia. Qed.

(** Whatever the schedule, the outcome is that of running every task alone on
    its own lane. *)
Lemma par_exec_lanes (s : list (prog T) * list T) r : par_exec sh ax s r ->
  length (fst s) = nlanes sh ax -> length (snd s) = size sh ->
  forall R : nat -> res (list T),
  (forall j p, nth_error (fst s) j = Some p -> prun p (lane sh ax (snd s) j) = R j) ->
  match r with
  | Ok out => length out = size sh /\ forall j, j < nlanes sh ax -> R j = Ok (lane sh ax out j)
  | Panic => exists j, j < nlanes sh ax /\ R j = Panic
  | UB => exists j, j < nlanes sh ax /\ R j = UB
  end.
Proof.
  induction 1 as [ts l D|ts l j p p' l' r Hn Hp He IH|ts l j p Hn Hp|ts l j p Hn Hp]; cbn [fst snd] in *; intros Lt Ll R HR.
  - split; auto. intros j Hj. rewrite <- Lt in Hj. destruct (nth_error ts j) as [p|] eqn:E.
    + rewrite <- (HR _ _ E), (D _ _ E). auto.
    + apply nth_error_None in E. lia.
  - assert (Hj : j < nlanes sh ax) by (rewrite <- Lt; apply nth_error_Some; congruence).
    pose proof (pact_prun j p l Ll Hj) as P. rewrite Hp in P. destruct P as (P1 & P2 & P3).
    apply IH; auto. rewrite upd_length; auto.
    intros i q Hi. destruct (Nat.eq_dec i j) as [->|N].
    + rewrite nth_error_upd_eq in Hi by lia. inversion Hi; subst. rewrite P2. apply HR; auto.
    + rewrite nth_error_upd_ne in Hi by auto. rewrite P3; auto. rewrite <- Lt. apply nth_error_Some. congruence.
  - assert (Hj : j < nlanes sh ax) by (rewrite <- Lt; apply nth_error_Some; congruence).
    pose proof (pact_prun j p l Ll Hj) as P. rewrite Hp in P. exists j. split; auto. rewrite <- (HR _ _ Hn); auto.
  - assert (Hj : j < nlanes sh ax) by (rewrite <- Lt; apply nth_error_Some; congruence).
    pose proof (pact_prun j p l Ll Hj) as P. rewrite Hp in P. exists j. split; auto. rewrite <- (HR _ _ Hn); auto.
Qed.

(** Every schedule ends. *)
Inductive psub : prog T -> prog T -> Prop :=
| psub_rd k c v : psub (c v) (PRd k c)
| psub_wr k v p : psub p (PWr k v p).
Lemma psub_wf p : Acc psub p.
Proof. induction p; constructor; intros q H'; inversion H'; subst; auto. Qed.
Definition psubs (ts' ts : list (prog T)) := exists j p p', nth_error ts j = Some p /\ psub p' p /\ ts' = upd ts j p'.
Lemma psubs_wf ts : Acc psubs ts.
Proof.
  induction ts as [|p ts IH].
  - constructor. intros ts' (j & p & p' & H & _). destruct j; discriminate.
  - revert p. induction IH as [ts _ IHt]. intros p. induction (psub_wf p) as [p _ IHp].
    constructor. intros ts' (j & q & q' & H & Hs & ->). destruct j; cbn in *.
    + inversion H; subst. apply IHp. auto.
    + apply IHt. exists j, q, q'. auto.
Qed.
Lemma par_step_wf (s : list (prog T) * list T) : Acc (fun s' s => par_step sh ax s s') s.
Proof.
  destruct s as [ts l]. revert l. induction (psubs_wf ts) as [ts _ IH]. intros l. constructor.
  intros [ts' l'] (j & p & p' & H & Hp & E). cbn in *. apply IH. exists j, p, p'. split; auto. split; auto.
  destruct p as [|e|k c|k v p]; cbn [pact] in Hp; try discriminate.
  - destruct e; discriminate.
  - destruct (_ <? _); [destruct (nth_error l _)|]; inversion Hp; subst. constructor.
  - destruct (_ <? _); inversion Hp; subst. constructor.
Qed.
Lemma all_done_dec (ts : list (prog T)) :
  (forall j p, nth_error ts j = Some p -> p = PRet) \/ exists j p, nth_error ts j = Some p /\ p <> PRet.
Proof.
  induction ts as [|p ts IH]. left. intros [|j]; discriminate.
  destruct p as [|e|k c|k v p].
  - destruct IH as [A|(j & q & A & B)].
    + left. intros [|j] q; cbn; intros E. inversion E; auto. eauto.
    + right. exists (S j), q. auto.
  - right. exists 0, (PFail e). split; auto; discriminate.
  - right. exists 0, (PRd k c). split; auto; discriminate.
  - right. exists 0, (PWr k v p). split; auto; discriminate.
Qed.
Lemma par_exec_total (s : list (prog T) * list T) : exists r, par_exec sh ax s r.
Proof.
  induction (par_step_wf s) as [[ts l] _ IH].
  destruct (all_done_dec ts) as [D|(j & p & Hn & Np)]. exists (Ok l). constructor; auto.
  destruct (pact sh ax j p l) as [[[p' l']| |]|] eqn:E.
  - destruct (IH (upd ts j p', l')) as [r Hr]. { exists j, p, p'. auto. }
    exists r. eapply pe_step; eauto.
  - exists Panic. eapply pe_panic; eauto.
  - exists UB. eapply pe_ub; eauto.
  - destruct p; cbn in E; try discriminate. congruence.
Qed.

End Interleave.

Section Copy.
Context {T : Type} {d : Dflt T}.
Lemma copy_prog_run (s : list T) : forall k y, k + length s <= length y ->
  prun (copy_prog k s) y = Ok (firstn k y ++ s ++ skipn (k + length s) y).
Proof.
  induction s as [|x s IH]; intros k y H; cbn [copy_prog prun length] in *.
  - rewrite Nat.add_0_r. cbn. rewrite firstn_skipn. auto.
  - destruct (Nat.ltb_spec k (length y)); [|lia]. rewrite IH by (rewrite upd_length; lia).
    f_equal.
    apply list_ext.
    { rewrite !app_length, !firstn_length, !skipn_length, !upd_length. cbn [length]. lia. }
    intros i Hi.
    assert (F : forall (z : list T) n m, n <= length z -> (firstn n z).[m] = if m <? n then z.[m] else dflt).
    { intros z n m Hn. unfold at_. destruct (Nat.ltb_spec m n).
      - rewrite <- (firstn_skipn n z) at 2. rewrite app_nth1; auto. rewrite firstn_length. lia.
      - apply nth_overflow. rewrite firstn_length. lia. }
    assert (A : forall (u v : list T) m, (u ++ v).[m] = if m <? length u then u.[m] else v.[m - length u]).
    { intros. unfold at_. destruct (Nat.ltb_spec m (length u)). apply app_nth1; auto. apply app_nth2; auto. }
    assert (K : forall (z : list T) n m, (skipn n z).[m] = z.[n + m]).
    { intros z n m. unfold at_. destruct (le_lt_dec n (length z)).
      - rewrite <- (firstn_skipn n z) at 2. rewrite app_nth2; rewrite firstn_length, ?Nat.min_l; auto; try lia.
        f_equal. lia.
      - rewrite !nth_overflow; auto. lia. rewrite skipn_length. lia. }
    rewrite !A, !F, !K by (rewrite ?upd_length; lia).
    rewrite !firstn_length, !upd_length, !Nat.min_l by lia.
    cbn [length].
    destruct (Nat.ltb_spec i k); destruct (Nat.ltb_spec i (S k)); try lia.
    + rewrite at_upd_ne by lia. auto.
    + assert (i = k) by lia. subst. rewrite Nat.sub_diag. cbn. rewrite at_upd_eq; auto.
    + replace (i - k) with (S (i - S k)) by lia. 
      destruct (Nat.ltb_spec (i - S k) (length s)); destruct (Nat.ltb_spec (S (i - S k)) (S (length s))); try lia.
      * cbn. auto.
      * rewrite at_upd_ne by lia. f_equal. lia.
Qed.
Lemma copy_prog_full (s y : list T) : length s = length y -> prun (copy_prog 0 s) y = Ok s.
Proof. intros H. rewrite copy_prog_run by lia. cbn. rewrite H, skipn_all, app_nil_r. auto. Qed.
End Copy.
