(** Proofs about distribute.rs. *)
From Coq Require Import List Arith Lia Bool ZArith.
From Verif Require Import Base Num Cheb ChebMat NdArray NdArrayFacts AxisFacts Space MpiSem MpiSpec Decomp.
Import ListNotations.
Local Open Scope nat_scope.
#[export] Instance dflt_Z : Dflt Z := 0%Z.
#[export] Instance dflt_nat0 : Dflt nat := 0.

Lemma uwrap_mod bm z : (0 <= z < u64max)%Z \/ bm = Release -> uwrap bm z = Ok (z mod u64max)%Z.
Proof.
  intros [H| ->].
  - rewrite uwrap_ok by auto. rewrite Z.mod_small; auto.
  - unfold uwrap. destruct (_ && _)%Z eqn:E; auto. f_equal. symmetry. apply Z.mod_small. lia.
Qed.

Section Dist.
Variables (bm : bmode) (n p : nat).
Hypothesis Hp : 1 <= p.
Hypothesis Hbn : (Z.of_nat n + 1 < u64max)%Z.
Hypothesis Hbp : (Z.of_nat p < u64max)%Z.
Hypothesis Hmode : p <= n \/ bm = Release.

(** index of the last point of a block; wraps for an empty first block *)
Definition blk_en (r : nat) : Z := ((Z.of_nat (blk_lo n p r + blk_len n p r) - 1) mod u64max)%Z.

Lemma blk_end_lt r : r < p -> (Z.of_nat (blk_lo n p r + blk_len n p r) < u64max)%Z.
Proof. intros H. pose proof (blk_end_le n p Hp r H). lia. Qed.

Lemma en_add r x : r < p -> (0 <= x)%Z -> (Z.of_nat (blk_lo n p r + blk_len n p r) - 1 + x < u64max)%Z ->
  uadd bm (Ok (blk_en r)) (Ok x) = Ok ((Z.of_nat (blk_lo n p r + blk_len n p r) - 1 + x) mod u64max)%Z.
Proof.
  intros Hr Hx Hb. unfold uadd. cbn [bind]. rewrite uwrap_mod.
  - f_equal. unfold blk_en. rewrite Zplus_mod_idemp_l. auto.
  - destruct Hmode as [H|H]; [left|right; auto]. unfold blk_en. pose proof (blk_len_pos n p Hp r H).
    rewrite Z.mod_small; pose proof (blk_end_lt r Hr); lia.
Qed.

Definition tab_ok (i : nat) (s : list Z * list Z * list Z) : Prop :=
  let '(st, en, sz) := s in
  length st = p /\ length en = p /\ length sz = p /\
  forall k, k < i -> k < p -> st.[k] = Z.of_nat (blk_lo n p k) /\ en.[k] = blk_en k /\ sz.[k] = Z.of_nat (blk_len n p k).

Lemma distribute_ok : distribute bm n p =
  Ok (map (fun r => Z.of_nat (blk_lo n p r)) (seq 0 p), map blk_en (seq 0 p), map (fun r => Z.of_nat (blk_len n p r)) (seq 0 p)).
Proof.
  pose proof (mod_lt n p Hp) as Hm. pose proof (div_eq n p Hp) as Hd.
  assert (Hq2 : (Z.of_nat (n / p) * Z.of_nat p = Z.of_nat n - Z.of_nat (n mod p))%Z).
  { assert (Z.of_nat n = Z.of_nat (p * (n / p) + n mod p)) by congruence. rewrite Nat2Z.inj_add, Nat2Z.inj_mul in H. lia. }
  assert (Hqn : n / p <= n) by (apply Nat.div_le_upper_bound; nia).
  cut (wp (distribute bm n p) (fun s => tab_ok p s)).
  { intros W. apply wp_Ok in W. destruct W as ([[st en] sz] & -> & L1 & L2 & L3 & H). f_equal. f_equal; [f_equal|].
    - apply list_ext. rewrite map_length, seq_length; auto. intros k Hk. rewrite at_map_seq by lia. apply H; lia.
    - apply list_ext. rewrite map_length, seq_length; auto. intros k Hk. rewrite at_map_seq by lia. apply H; lia.
    - apply list_ext. rewrite map_length, seq_length; auto. intros k Hk. rewrite at_map_seq by lia. apply H; lia. }
  unfold distribute. destruct (Nat.eqb_spec p 0); [lia|]. cbn [negb assertb bind].
  rewrite !wr_at by (rewrite repeat_length; lia). cbn [bind].
  unfold uminus at 1. cbn [bind]. rewrite uwrap_mod by (destruct Hmode as [H|H]; auto; left; assert (1 <= n / p) by (apply Nat.div_le_lower_bound; lia); lia).
  cbn [bind]. rewrite wr_at by (rewrite repeat_length; lia). cbn [bind].
  rewrite umul_ok by (rewrite Hq2; lia). rewrite Hq2. rewrite uminus_ok by lia. cbn [bind]. rewrite uminus_ok by lia. cbn [bind].
  replace (Z.to_nat (Z.of_nat p - (Z.of_nat n - (Z.of_nat n - Z.of_nat (n mod p))))) with (p - n mod p) by lia.
  set (nl := p - n mod p) in *. apply wp_bind.
  apply (wp_for_each_range _ _ _ (fun i s => tab_ok i s)); [lia| | |].
  - split; [rewrite upd_length, repeat_length; auto|]. split; [rewrite upd_length, repeat_length; auto|].
    split; [rewrite upd_length, repeat_length; auto|]. intros k Hk Hk'. assert (k = 0) by lia. subst k.
    rewrite !at_upd_eq by (rewrite repeat_length; lia). rewrite blk_lo_0 by auto. unfold blk_en. rewrite blk_lo_0 by auto.
    unfold blk_len. fold nl. destruct (Nat.leb_spec nl 0); [lia|]. rewrite Nat.add_0_r, Nat.add_0_l. auto.
  - intros i [[st en] sz] Hi (L1 & L2 & L3 & H).
    unfold usub. destruct (Nat.leb_spec 1 i); [|lia]. cbn [bind].
    rewrite (rd_at _ st), (rd_at _ en) by lia. destruct (H (i - 1) ltac:(lia) ltac:(lia)) as (-> & -> & _).
    assert (Li : blk_lo n p i = blk_lo n p (i - 1) + n / p).
    { replace i with (S (i - 1)) at 1 by lia. rewrite blk_lo_S by auto. unfold blk_len. fold nl. destruct (Nat.leb_spec nl (i - 1)); lia. }
    assert (Li' : blk_len n p i = n / p) by (unfold blk_len; fold nl; destruct (Nat.leb_spec nl i); lia).
    pose proof (blk_end_lt i ltac:(lia)) as He. rewrite Li' in He.
    rewrite uadd_ok by lia. cbn [bind]. rewrite !wr_at by lia. cbn [bind]. rewrite en_add; [|lia|lia|].
    2:{ pose proof (blk_lo_S n p Hp (i - 1)). replace (S (i - 1)) with i in * by lia. lia. }
    cbn [bind]. rewrite wr_at by lia. cbn [bind wp]. unfold tab_ok. rewrite !upd_length. split; auto. split; auto. split; auto.
    intros k Hk Hk'. destruct (Nat.eq_dec k i) as [->|].
    + rewrite !at_upd_eq by lia. rewrite Li, Li'. split; [lia|]. split; auto. unfold blk_en. rewrite Li'.
      f_equal. pose proof (blk_lo_S n p Hp (i - 1)). replace (S (i - 1)) with i in * by lia. lia.
    + rewrite !at_upd_ne by lia. apply H; lia.
  - intros [[st en] sz] (L1 & L2 & L3 & H).
    rewrite uadd_ok by lia. cbn [bind]. apply wp_bind.
    apply (wp_for_each_range _ _ _ (fun i s => tab_ok i s)); [lia| | |].
    + repeat (split; [assumption|]). exact H. 
    + intros i [[st' en'] sz'] Hi (L1' & L2' & L3' & H').
      unfold usub. destruct (Nat.leb_spec 1 i); [|lia]. cbn [bind].
      rewrite (rd_at _ en') by lia. destruct (H' (i - 1) ltac:(lia) ltac:(lia)) as (_ & -> & _).
      assert (Li : blk_lo n p i = blk_lo n p (i - 1) + blk_len n p (i - 1)).
      { replace i with (S (i - 1)) at 1 by lia. apply blk_lo_S; auto. }
      assert (Li' : blk_len n p i = n / p + 1) by (unfold blk_len; fold nl; destruct (Nat.leb_spec nl i); lia).
      pose proof (blk_end_lt i ltac:(lia)) as He. rewrite Li' in He.
      rewrite en_add by lia. cbn [bind]. rewrite !wr_at by lia. cbn [bind]. rewrite en_add by lia.
      cbn [bind]. rewrite wr_at by lia. cbn [bind wp]. unfold tab_ok. rewrite !upd_length. split; auto. split; auto. split; auto.
      intros k Hk Hk'. destruct (Nat.eq_dec k i) as [->|].
      * rewrite !at_upd_eq by lia. rewrite Li'. split.
        { rewrite Z.mod_small; lia. } split; [|lia]. unfold blk_en. rewrite Li'. f_equal. lia.
      * rewrite !at_upd_ne by lia. apply H'; lia.
    + intros [[st' en'] sz'] (L1' & L2' & L3' & H').
      assert (H2 : forall k, k < p -> st'.[k] = Z.of_nat (blk_lo n p k) /\ en'.[k] = blk_en k /\ sz'.[k] = Z.of_nat (blk_len n p k)).
      { intros; apply H'; lia. } clear H'.
      unfold usub. destruct (Nat.leb_spec 1 p); [|lia]. cbn [bind].
      unfold uminus at 1. cbn [bind]. rewrite uwrap_mod by (destruct Hmode; auto; left; lia). cbn [bind].
      rewrite wr_at by lia. cbn [bind]. rewrite (rd_at _ (upd _ _ _)) by (rewrite upd_length; lia). rewrite at_upd_eq by lia.
      rewrite (rd_at _ st') by lia. destruct (H2 (p - 1) ltac:(lia)) as (-> & _).
      assert (Hl : blk_lo n p (p - 1) + blk_len n p (p - 1) = n).
      { rewrite <- blk_lo_S by auto. replace (S (p - 1)) with p by lia. apply blk_lo_p; auto. }
      assert (Hz : uadd bm (uminus bm (Ok ((Z.of_nat n - 1) mod u64max)%Z) (Ok (Z.of_nat (blk_lo n p (p - 1))))) (Ok 1%Z) = Ok (Z.of_nat (blk_len n p (p - 1)))).
      { destruct Hmode as [Hn|Hr].
        - pose proof (blk_len_pos n p Hp (p - 1) Hn). rewrite Z.mod_small by lia. rewrite uminus_ok by lia. rewrite uadd_ok by lia. f_equal. lia.
        - unfold uminus, uadd. cbn [bind]. rewrite uwrap_mod by auto. cbn [bind]. rewrite uwrap_mod by auto. f_equal.
          rewrite Zplus_mod_idemp_l, <- Zplus_mod_idemp_l, Zminus_mod_idemp_l, Zplus_mod_idemp_l.
          rewrite Z.mod_small; lia. }
      rewrite Hz. cbn [bind]. rewrite wr_at by lia. cbn [bind wp]. unfold tab_ok. rewrite !upd_length. split; auto. split; auto. split; auto.
      intros k _ Hk. destruct (H2 k Hk) as (E1 & E2 & E3). split; auto. split.
      * destruct (Nat.eq_dec k (p - 1)) as [->|]; [|rewrite at_upd_ne by lia; auto]. rewrite at_upd_eq by lia. unfold blk_en. rewrite Hl. auto.
      * destruct (Nat.eq_dec k (p - 1)) as [->|]; [|rewrite at_upd_ne by lia; auto]. rewrite at_upd_eq by lia. auto.
Qed.
End Dist.

(** In a debug build fewer points than ranks panic. *)
Lemma distribute_panic n p : 1 <= p -> n < p -> distribute Debug n p = Panic.
Proof.
  intros Hp H. unfold distribute. destruct (Nat.eqb_spec p 0); [lia|]. cbn [negb assertb bind].
  rewrite !wr_at by (rewrite repeat_length; lia). cbn [bind]. rewrite Nat.div_small by auto. reflexivity.
Qed.
