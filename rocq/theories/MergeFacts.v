(** The unpacking loops of the transposes (space_mpi/decomp2d/mod.rs merge_xy,
    merge_yx). *)
From Coq Require Import List Arith Lia Bool ZArith.
From Verif Require Import Base Num Cheb ChebMat ChebGrad NdArray NdArrayFacts AxisFacts Space MpiSem MpiSpec Decomp DistFacts TabFacts DecompFacts.
Import ListNotations.
Local Open Scope nat_scope.

Section Merge.
Context {T : Type} {dT : Dflt T}.
Variables (na nb p : nat) (put : nat -> nat -> list T -> T -> res (list T)) (idx : nat -> nat -> nat) (F : nat -> nat -> T) (buf : list T).
Hypothesis Hp : 1 <= p.
Hypothesis Hb : p <= nb.
Hypothesis Hput : forall a b l x, a < na -> b < nb -> length l = na * nb -> put a b l x = Ok (upd l (idx a b) x).
Hypothesis Hidx : forall a b, a < na -> b < nb -> idx a b < na * nb.
Hypothesis Hinj : forall a b a' b', a < na -> b < nb -> a' < na -> b' < nb -> idx a b = idx a' b' -> a = a' /\ b = b'.
Hypothesis Lbuf : length buf = nb * na.
Hypothesis Hbuf : forall q a b, q < p -> a < na -> b < blk_len nb p q -> buf.[blk_lo nb p q * na + a * blk_len nb p q + b] = F a (blk_lo nb p q + b).

Definition merged q a b (s : list T * nat) : Prop :=
  length (fst s) = na * nb /\
  forall a' b', a' < na -> b' < nb ->
    b' < blk_lo nb p q \/ (b' < blk_lo nb p (S q) /\ a' < a) \/ (a' = a /\ b' < b) -> (fst s).[idx a' b'] = F a' b'.

Definition merge_loop (lo hi : nat -> nat) (l : list T) : res (list T * nat) :=
  for_each (range 0 p) (fun q '(l, pos) =>
    for_each (range 0 na) (fun a st =>
      for_each (range (lo q) (S (hi q))) (fun b '(l, pos) =>
        let* x := rd Checked buf pos in
        let* l := put a b l x in
        Ok (l, S pos)) st) (l, pos)) (l, 0).

Lemma merge_loop_ok lo hi l : (forall q, q < p -> lo q = blk_lo nb p q /\ S (hi q) = blk_lo nb p (S q)) -> length l = na * nb ->
  wp (merge_loop lo hi l) (fun s => length (fst s) = na * nb /\ forall a b, a < na -> b < nb -> (fst s).[idx a b] = F a b).
Proof.
  intros Hlo Ll. unfold merge_loop.
  apply (wp_for_each_range _ _ _ (fun q s => merged q 0 0 s /\ snd s = blk_lo nb p q * na)).
  - lia.
  - cbn [snd]. rewrite blk_lo_0 by auto. split; [|auto]. split; auto. rewrite blk_lo_0 by auto. intros a b Ha Hb' H. exfalso. lia.
  - intros q [l1 pos1] Hq [M P]. cbn [snd] in P. subst pos1. destruct (Hlo q ltac:(lia)) as [-> ->].
    pose proof (blk_lo_S nb p Hp q) as Sq. pose proof (blk_end_le nb p Hp q ltac:(lia)) as Eq.
    apply (wp_for_each_range _ _ _ (fun a s => merged q a 0 s /\ snd s = blk_lo nb p q * na + a * blk_len nb p q)).
    + lia.
    + split; [exact M|cbn; lia].
    + intros a [l2 pos2] Ha [M2 P2]. cbn [snd] in P2. subst pos2.
      apply (wp_for_each_range _ _ _ (fun b s => merged q a b s /\ snd s = blk_lo nb p q * na + a * blk_len nb p q + (b - blk_lo nb p q))).
      * lia.
      * split; [|cbn; lia]. destruct M2 as [L2 M2]. split; auto. intros a' b' Ha' Hb' H. apply M2; auto. lia.
      * intros b [l3 pos3] Hbb [[L3 M3] P3]. cbn [fst snd] in *. subst pos3.
        assert (blk_lo nb p q * na + a * blk_len nb p q + (b - blk_lo nb p q) < length buf) by (rewrite Lbuf; nia).
        rewrite rd_at by auto. cbn [bind]. rewrite Hbuf by lia. rewrite Hput by (auto; lia). cbn [bind wp snd fst].
        split; [|lia]. split. cbn. rewrite upd_length. auto. cbn [fst]. intros a' b' Ha' Hb' H'.
        destruct (Nat.eq_dec (idx a b) (idx a' b')) as [E|E].
        -- apply Hinj in E; [|lia|lia|lia|lia]. destruct E; subst a' b'. rewrite at_upd_eq by (rewrite L3; apply Hidx; auto; lia). f_equal. lia.
        -- rewrite at_upd_ne by auto. apply M3; auto. assert (a <> a' \/ b <> b') by (destruct (Nat.eq_dec a a'); auto; right; congruence).
           lia.
      * intros [l3 pos3] [[L3 M3] P3]. cbn [fst snd] in *. split; [|cbn [snd]; lia]. split; auto. cbn [fst]. intros a' b' Ha' Hb' H'. apply M3; auto.
        destruct (Nat.eq_dec a' a); lia.
    + intros [l2 pos2] [[L2 M2] P2]. cbn [fst snd] in *. replace (q + 1) with (S q) by lia. split; [|cbn [snd]; rewrite P2, Sq; nia].
      split; auto. cbn [fst]. intros a' b' Ha' Hb' H'. apply M2; auto. lia.
  - intros [l1 pos1] [[L1 M1] P1]. cbn [fst snd] in *. split; auto. intros a b Ha Hb'. apply M1; auto. rewrite blk_lo_p; auto.
Qed.
End Merge.

Lemma for_each_ext {I S} (f g : I -> S -> res S) l : (forall i s, In i l -> f i s = g i s) -> forall s, for_each l f s = for_each l g s.
Proof. induction l as [|i l IH]; cbn; intros H s; auto. rewrite H by auto. destruct (g i s); cbn; auto. Qed.

Lemma idx_lt a b m n : a < m -> b < n -> a * n + b < m * n. Proof. nia. Qed.
Lemma idx_inj a b a' b' n : b < n -> b' < n -> a * n + b = a' * n + b' -> a = a' /\ b = b'.
Proof. intros H H' E. assert (a = a') by nia. subst. lia. Qed.

Section MergeXY.
Context {T : Type} {dT : Dflt T}.
Variables (n0 n1 p r : nat).
Hypothesis Hp : 1 <= p.
Hypothesis Hr : r < p.

(** blocks received in rank order, unpacked into the y-pencil *)
Lemma merge_xy_ok (data : arr T) (F : nat -> nat -> T) : p <= n1 -> has_shape (blk_len n0 p r) n1 data ->
  merge_xy (dcp n0 n1 p r) data (concat (map (fun q => tab (blk_len n0 p r) (blk_len n1 p q) (fun i j => F i (blk_lo n1 p q + j))) (seq 0 p)))
  = Ok (mk_arr [blk_len n0 p r; n1] (std data) (tab (blk_len n0 p r) n1 F)).
Proof.
  intros H1 [Hs Hw]. unfold wf in Hw. rewrite Hs, size2 in Hw. set (m0 := blk_len n0 p r) in *. set (buf := concat _).
  assert (Pre : forall k, length (concat (map (fun q => tab m0 (blk_len n1 p q) (fun i j => F i (blk_lo n1 p q + j))) (seq 0 k))) = blk_lo n1 p k * m0).
  { induction k as [|k IH]. rewrite blk_lo_0 by auto. auto. rewrite seq_S, map_app, concat_app, app_length, IH, blk_lo_S by auto.
    cbn. rewrite app_nil_r, tab_length. lia. }
  assert (Lb : length buf = n1 * m0) by (unfold buf; rewrite Pre, blk_lo_p; auto).
  assert (Hb : forall q a b, q < p -> a < m0 -> b < blk_len n1 p q -> buf.[blk_lo n1 p q * m0 + a * blk_len n1 p q + b] = F a (blk_lo n1 p q + b)).
  { intros q a b Hq Ha Hb. unfold buf. replace p with (q + (S (p - q - 1))) at 1 by lia. rewrite seq_app, map_app, concat_app.
    rewrite at_app_r by (rewrite Pre; lia). rewrite Pre. cbn [seq map concat plus].
    rewrite at_app_l by (rewrite tab_length; nia). replace (blk_lo n1 p q * m0 + a * blk_len n1 p q + b - _) with (a * blk_len n1 p q + b) by lia. exact (at_tab (blk_len n1 p q) m0 (fun i j => F i (blk_lo n1 p q + j)) a b Ha Hb). }
  pose proof (merge_loop_ok m0 n1 p (fun i j l x => set2 (shp data) l i j x) (fun i j => i * n1 + j) F buf Hp H1) as W.
  specialize (W ltac:(intros a b l x Ha Hb' Hl; unfold set2; rewrite Hs; cbn [rd nth_error bind];
    rewrite (proj2 (Nat.ltb_lt _ _) Ha), (proj2 (Nat.ltb_lt _ _) Hb'); cbn [andb assertb bind]; apply wr_at; rewrite Hl; apply idx_lt; auto)).
  specialize (W ltac:(intros; apply idx_lt; auto)).
  specialize (W ltac:(intros a b a' b' Ha Hb1 Ha' Hb2 E; apply (idx_inj _ _ _ _ n1); auto)).
  specialize (W Lb Hb (fun q => blk_lo n1 p q) (fun q => blk_lo n1 p q + blk_len n1 p q - 1) (dat data)).
  specialize (W ltac:(intros q Hq; split; auto; rewrite blk_lo_S by auto; pose proof (blk_len_pos n1 p Hp q H1); lia)).
  specialize (W Hw). apply wp_Ok in W. destruct W as ([l pos] & E & Ll & Hl). cbn [fst] in *.
  unfold merge_xy. unfold merge_loop in E. fold buf.
  replace (for_each (range 0 (dc_nprocs (dcp n0 n1 p r))) _ _) with (Ok (l, pos)).
  - cbn [bind]. rewrite Hs. do 2 f_equal. apply list_ext. rewrite tab_length; auto. intros k Hk. rewrite Ll in Hk.
    assert (n1 <> 0) by nia. rewrite (Nat.div_mod k n1) by auto. rewrite (Nat.mul_comm n1), at_tab, Hl; auto.
    apply Nat.div_lt_upper_bound; lia. apply Nat.mod_upper_bound; auto. apply Nat.div_lt_upper_bound; lia. apply Nat.mod_upper_bound; auto.
  - rewrite <- E. cbn [dcp dc_nprocs x_pencil y_pencil xdist ydist st_procs en_procs d_sz].
    apply for_each_ext. intros q [l' pos'] Hq. unfold range in Hq. apply in_seq in Hq.
    unfold rd at 2 4. rewrite !nth_error_map, !(nth_error_nth' (seq 0 p) 0) by (rewrite seq_length; lia). rewrite seq_nth by lia. cbn [plus option_map bind rd nth_error].
    reflexivity.
Qed.
Lemma merge_yx_ok (data : arr T) (F : nat -> nat -> T) : p <= n0 -> has_shape n0 (blk_len n1 p r) data ->
  merge_yx (dcp n0 n1 p r) data (concat (map (fun q => tab (blk_len n1 p r) (blk_len n0 p q) (fun j i => F (blk_lo n0 p q + i) j)) (seq 0 p)))
  = Ok (mk_arr [n0; blk_len n1 p r] (std data) (tab n0 (blk_len n1 p r) F)).
Proof.
  intros H1 [Hs Hw]. unfold wf in Hw. rewrite Hs, size2 in Hw. set (m1 := blk_len n1 p r) in *. set (buf := concat _).
  assert (Pre : forall k, length (concat (map (fun q => tab m1 (blk_len n0 p q) (fun j i => F (blk_lo n0 p q + i) j)) (seq 0 k))) = blk_lo n0 p k * m1).
  { induction k as [|k IH]. rewrite blk_lo_0 by auto. auto. rewrite seq_S, map_app, concat_app, app_length, IH, blk_lo_S by auto.
    cbn. rewrite app_nil_r, tab_length. lia. }
  assert (Lb : length buf = n0 * m1) by (unfold buf; rewrite Pre, blk_lo_p; auto).
  assert (Hb : forall q a b, q < p -> a < m1 -> b < blk_len n0 p q -> buf.[blk_lo n0 p q * m1 + a * blk_len n0 p q + b] = F (blk_lo n0 p q + b) a).
  { intros q a b Hq Ha Hb. unfold buf. replace p with (q + (S (p - q - 1))) at 1 by lia. rewrite seq_app, map_app, concat_app.
    rewrite at_app_r by (rewrite Pre; lia). rewrite Pre. cbn [seq map concat plus].
    rewrite at_app_l by (rewrite tab_length; nia). replace (blk_lo n0 p q * m1 + a * blk_len n0 p q + b - _) with (a * blk_len n0 p q + b) by lia.
    exact (at_tab (blk_len n0 p q) m1 (fun j i => F (blk_lo n0 p q + i) j) a b Ha Hb). }
  pose proof (merge_loop_ok m1 n0 p (fun j i l x => set2 (shp data) l i j x) (fun j i => i * m1 + j) (fun j i => F i j) buf Hp H1) as W.
  specialize (W ltac:(intros a b l x Ha Hb' Hl; unfold set2; rewrite Hs; cbn [rd nth_error bind];
    rewrite (proj2 (Nat.ltb_lt _ _) Ha), (proj2 (Nat.ltb_lt _ _) Hb'); cbn [andb assertb bind]; apply wr_at; rewrite Hl, (Nat.mul_comm m1 n0); apply idx_lt; auto)).
  specialize (W ltac:(intros; rewrite (Nat.mul_comm m1); apply idx_lt; auto)).
  specialize (W ltac:(intros a b a' b' Ha Hb1 Ha' Hb2 E; apply and_comm; apply (idx_inj _ _ _ _ m1); auto)).
  specialize (W Lb Hb (fun q => blk_lo n0 p q) (fun q => blk_lo n0 p q + blk_len n0 p q - 1) (dat data)).
  specialize (W ltac:(intros q Hq; split; auto; rewrite blk_lo_S by auto; pose proof (blk_len_pos n0 p Hp q H1); lia)).
  specialize (W ltac:(lia)). apply wp_Ok in W. destruct W as ([l pos] & E & Ll & Hl). cbn [fst] in *.
  unfold merge_yx. unfold merge_loop in E. fold buf.
  replace (for_each (range 0 (dc_nprocs (dcp n0 n1 p r))) _ _) with (Ok (l, pos)).
  - cbn [bind]. rewrite Hs. do 2 f_equal. apply list_ext. rewrite tab_length; lia. intros k Hk. rewrite Ll in Hk.
    assert (m1 <> 0) by nia. rewrite (Nat.div_mod k m1) by auto. rewrite (Nat.mul_comm m1), at_tab, Hl; auto.
    apply Nat.mod_upper_bound; auto. apply Nat.div_lt_upper_bound; lia. apply Nat.div_lt_upper_bound; lia. apply Nat.mod_upper_bound; auto.
  - rewrite <- E. cbn [dcp dc_nprocs x_pencil y_pencil xdist ydist st_procs en_procs d_sz].
    apply for_each_ext. intros q [l' pos'] Hq. unfold range in Hq. apply in_seq in Hq.
    unfold rd at 2 4. rewrite !nth_error_map, !(nth_error_nth' (seq 0 p) 0) by (rewrite seq_length; lia). rewrite seq_nth by lia. cbn [plus option_map bind rd nth_error].
    reflexivity.
Qed.
End MergeXY.
