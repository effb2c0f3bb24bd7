(** [Distribution::new] for any number of axes. *)
From Coq Require Import List Arith Lia Bool ZArith.
From Verif Require Import Base Num Cheb ChebMat NdArray NdArrayFacts AxisFacts Space MpiSem MpiSpec Decomp DistFacts TabFacts DecompFacts.
Import ListNotations.
Local Open Scope nat_scope.

Section New.
Variables (bm : bmode) (ng : list nat) (p r contig : nat).
Hypothesis Hp : 1 <= p.
Hypothesis Hr : r < p.
Hypothesis Hc : contig <= 1.
Hypothesis Hpb : (Z.of_nat p < u64max)%Z.
Hypothesis Hb : forall ax, ax < length ng -> (Z.of_nat (ng.[ax]) + 1 < u64max)%Z.
Hypothesis Hn : (forall ax, ax < length ng -> 1 <= ng.[ax] /\ (ax <> contig -> p <= ng.[ax])) \/ bm = Release.

Definition row (full : nat -> nat) (part : nat -> nat) (k : nat) : list nat :=
  map (fun ax => if (ax <? k) && negb (ax =? contig) then part ax else full ax) (seq 0 (length ng)).

Lemma row_upd full part k : k < length ng -> k <> contig -> upd (row full part k) k (part k) = row full part (S k).
Proof.
  intros Hk Nc. assert (L : length (row full part k) = length ng) by (unfold row; rewrite map_length, seq_length; auto).
  apply list_ext. rewrite upd_length. unfold row. rewrite !map_length. auto.
  intros i Hi. rewrite upd_length, L in Hi. unfold row at 2. rewrite at_map_seq by auto. cbn [plus].
  destruct (Nat.eq_dec i k) as [->|Ni].
  - rewrite at_upd_eq by lia. rewrite (proj2 (Nat.ltb_lt k (S k))) by lia. rewrite (proj2 (Nat.eqb_neq _ _) Nc). auto.
  - rewrite at_upd_ne by auto. unfold row. rewrite at_map_seq by auto. cbn [plus].
    replace (i <? S k) with (i <? k); auto. destruct (Nat.ltb_spec i k), (Nat.ltb_spec i (S k)); auto; lia.
Qed.
Lemma row_skip full part : row full part contig = row full part (S contig).
Proof.
  unfold row. apply map_ext. intros ax. destruct (Nat.eqb_spec ax contig). rewrite !andb_false_r. auto.
  rewrite !andb_true_r. replace (ax <? S contig) with (ax <? contig); auto. destruct (Nat.ltb_spec ax contig), (Nat.ltb_spec ax (S contig)); auto; lia.
Qed.

(** extent of one axis minus one, as the code computes it *)
Definition en_full (ax : nat) : nat := Z.to_nat ((Z.of_nat ng.[ax] - 1) mod u64max).
Definition dist_of (r : nat) : dist :=
  let N := length ng in
  let sz q := row (fun ax => ng.[ax]) (fun ax => blk_len ng.[ax] p q) N in
  let st q := row (fun _ => 0) (fun ax => blk_lo ng.[ax] p q) N in
  let en q := row en_full (fun ax => Z.to_nat (blk_en ng.[ax] p q)) N in
  mk_dist (sz r) (st r) (en r) (map sz (seq 0 p)) (map st (seq 0 p)) (map en (seq 0 p)) p r contig.

Lemma row_0 full part : row full part 0 = map full (seq 0 (length ng)).
Proof. unfold row. apply map_ext. auto. Qed.
Lemma map_at : map (fun ax => ng.[ax]) (seq 0 (length ng)) = ng.
Proof. apply list_ext. rewrite map_length, seq_length; auto. intros i Hi. rewrite map_length, seq_length in Hi. rewrite at_map_seq by auto. auto. Qed.

Lemma dist_new_ok : dist_new bm ng p r contig = Ok (dist_of r).
Proof.
  unfold dist_new. rewrite (proj2 (Nat.leb_le _ _) Hc). cbn [assertb bind].
  rewrite (mapM_repeat _ _ (row en_full (fun _ => 0) 0)).
  2:{ rewrite (mapM_ok _ (fun e => Z.to_nat ((Z.of_nat e - 1) mod u64max))).
      - rewrite row_0. unfold en_full. rewrite <- (map_map (fun ax => ng.[ax]) (fun e => Z.to_nat ((Z.of_nat e - 1) mod u64max))), map_at. auto.
      - intros e He. apply (In_nth _ _ 0) in He. destruct He as (ax & Hax & He). change (nth ax ng 0) with (ng.[ax]) in He. subst e.
        unfold uminus. cbn [bind]. rewrite uwrap_mod. auto. destruct Hn as [H|H]; auto. left. destruct (H ax Hax). specialize (Hb ax Hax). lia. }
  cbn [bind].
  set (szr := fun k q => row (fun ax => ng.[ax]) (fun ax => blk_len ng.[ax] p q) k).
  set (str := fun k q => row (fun _ => 0) (fun ax => blk_lo ng.[ax] p q) k).
  set (enr := fun k q => row en_full (fun ax => Z.to_nat (blk_en ng.[ax] p q)) k).
  assert (W : wp (for_each (range 0 (length ng)) (fun axis '(st, en, sz) =>
      if axis =? contig then Ok (st, en, sz) else
      let* ng := rd Checked ng axis in
      let* (st_split, en_split, sz_split) := distribute bm ng p in
      Ok (zip_set axis st (map Z.to_nat st_split), zip_set axis en (map Z.to_nat en_split),
          zip_set axis sz (map Z.to_nat sz_split))) (repeat (repeat 0 (length ng)) p, repeat (row en_full (fun _ => 0) 0) p, repeat ng p))
      (fun s => s = (map (str (length ng)) (seq 0 p), map (enr (length ng)) (seq 0 p), map (szr (length ng)) (seq 0 p)))).
  { apply (wp_for_each_range _ _ _ (fun k s => s = (map (str k) (seq 0 p), map (enr k) (seq 0 p), map (szr k) (seq 0 p)))).
    - lia.
    - rewrite !(repeat_map _ p 0). f_equal; [f_equal|].
      + apply map_ext. intros q. unfold str. rewrite row_0, (repeat_map 0 _ 0). auto.
      + apply map_ext. intros q. unfold szr. rewrite row_0, map_at. auto.
    - intros k s Hk ->. replace (k + 1) with (S k) by lia. destruct (Nat.eqb_spec k contig) as [Ek|Nk].
      + cbn [wp]. subst k. unfold str, enr, szr. f_equal; [f_equal|]; apply map_ext; intros q; apply row_skip.
      + rewrite rd_at by lia. cbn [bind]. rewrite distribute_ok; auto; cycle 1.
        { apply Hb; lia. } { destruct Hn as [H|H]; auto. left. apply H; auto. lia. }
        cbn [bind wp]. rewrite !map_map, !zip_set_map. f_equal; [f_equal|]; apply map_ext; intros q.
        * rewrite Nat2Z.id. apply (row_upd _ (fun ax => blk_lo ng.[ax] p q)); auto. lia.
        * apply (row_upd _ (fun ax => Z.to_nat (blk_en ng.[ax] p q))); auto. lia.
        * rewrite Nat2Z.id. apply (row_upd _ (fun ax => blk_len ng.[ax] p q)); auto. lia.
    - auto. }
  apply wp_Ok in W. destruct W as (s & -> & ->). cbn [bind].
  rewrite !rd_at by (rewrite map_length, seq_length; auto). cbn [bind]. rewrite !at_map_seq by auto. reflexivity.
Qed.
End New.

(** A debug build panics as soon as one distributed axis has fewer points than
    there are ranks (or the other axis is empty). *)
Lemma dist_new_panic ng p r contig ax : 1 <= p -> ax < length ng -> (ng.[ax] = 0 \/ (ax <> contig /\ ng.[ax] < p)) ->
  (forall ax, ax < length ng -> (Z.of_nat (ng.[ax]) + 1 < u64max)%Z) -> (Z.of_nat p < u64max)%Z ->
  dist_new Debug ng p r contig = Panic.
Proof.
  intros Hp Hax Hz Hb Hpb. unfold dist_new. destruct (contig <=? 1) eqn:Ec; auto. cbn [assertb bind].
  destruct (forallb (fun e => 1 <=? e) ng) eqn:Ef.
  - rewrite forallb_forall in Ef.
    assert (Pos : forall e, In e ng -> 1 <= e < 2 ^ 64 /\ (Z.of_nat e < u64max)%Z).
    { intros e He. pose proof (Ef e He) as E. apply Nat.leb_le in E. apply (In_nth _ _ 0) in He. destruct He as (k & Hk & <-).
      pose proof (Hb k Hk). change (nth k ng 0) with ng.[k] in *. split; [|lia]. split; auto. apply Nat2Z.inj_lt. rewrite Nat2Z.inj_pow.
      change (Z.of_nat 2 ^ Z.of_nat 64)%Z with u64max. lia. }
    assert (Nz : ax <> contig /\ ng.[ax] < p).
    { destruct Hz as [Hz|Hz]; auto. exfalso. assert (I : In ng.[ax] ng) by (apply nth_In; auto). apply Pos in I. lia. }
    destruct Nz as [Nc Lt]. clear Hz.
    rewrite (mapM_repeat _ _ (map (fun e => e - 1) ng)).
    2:{ apply mapM_ok. intros e He. apply Pos in He. rewrite uminus_ok by lia. cbn [bind]. f_equal. lia. }
    cbn [bind].
    assert (F : forall axs s, In ax axs -> for_each axs (fun axis '(st, en, sz) =>
      if axis =? contig then Ok (st, en, sz) else
      let* ng := rd Checked ng axis in
      let* (st_split, en_split, sz_split) := distribute Debug ng p in
      Ok (zip_set axis st (map Z.to_nat st_split), zip_set axis en (map Z.to_nat en_split),
          zip_set axis sz (map Z.to_nat sz_split))) s = Panic \/ exists k, In k axs /\ length ng <= k).
    { induction axs as [|k axs IH]; intros [[st en] sz] I; [destruct I|]. cbn [for_each].
      destruct (Nat.eqb_spec k contig) as [Ek|Nk].
      - cbn [bind]. destruct I as [I|I]; [congruence|]. destruct (IH (st, en, sz) I) as [E|(k' & I' & L)]; auto. right. exists k'. cbn; auto.
      - destruct (le_lt_dec (length ng) k) as [Lk|Lk]. right. exists k. cbn; auto.
        rewrite rd_at by auto. cbn [bind]. destruct (le_lt_dec p ng.[k]) as [Hpk|Hpk].
        + rewrite distribute_ok by (auto; try apply Hb; auto). cbn [bind]. destruct I as [I|I]; [subst; lia|].
          match goal with |- for_each axs _ ?s = _ \/ _ => destruct (IH s I) as [E|(k' & I' & L)] end. left. exact E. right. exists k'. cbn; auto.
        + rewrite distribute_panic by auto. auto. }
    destruct (F (range 0 (length ng)) (repeat (repeat 0 (length ng)) p, repeat (map (fun e => e - 1) ng) p, repeat ng p)) as [E|(k & I & L)].
    + unfold range. apply in_seq. lia.
    + rewrite E. auto.
    + exfalso. unfold range in I. apply in_seq in I. lia.
  - assert (G : mapM (fun e => let* z := uminus Debug (Ok (Z.of_nat e)) (Ok 1%Z) in Ok (Z.to_nat z)) ng = Panic).
    { clear Hz Hax. assert (Pos : forall e, In e ng -> (Z.of_nat e < u64max)%Z).
      { intros e He. apply (In_nth _ _ 0) in He. destruct He as (k & Hk & <-). pose proof (Hb k Hk). change (nth k ng 0) with ng.[k] in *. lia. }
      clear Hb. induction ng as [|e l IH]; cbn [forallb mapM] in *. discriminate.
      destruct (Nat.leb_spec 1 e).
      - rewrite uminus_ok by (pose proof (Pos e (or_introl eq_refl)); lia). cbn [bind]. cbn in Ef. rewrite IH; auto. intros; apply Pos; cbn; auto.
      - assert (e = 0) by lia. subst e. reflexivity. }
    destruct p as [|p']; [lia|]. cbn [repeat mapM]. rewrite G. auto.
Qed.
