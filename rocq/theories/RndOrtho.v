(** C60: `to_ortho` and `from_ortho` of one base in f64, against OrthoSpec.v. *)
From Coq Require Import List Arith ZArith Reals Bool Lra Lia.
From Flocq Require Import Core BinarySingleNaN.
From Verif Require Import Base Num Linalg Stencils StencilProofs Cheb ChebGrad Compo CompoProofs Fourier FourierF64 FourierFacts FourierProofs AnyArith ArithSteps Rounding RndTdma RndDirichlet RndNeumann RndGrad RndFinite RndFinite2 RndFourier RndFft RndCompo PropRound PropRound2 PropRound4 PropTrans2 SpaceBases Bases ExtLib AnyBase PropAny PropAny2
  RndAxis RndOps RndOps2 RndDN RndDN2 SpaceAcc RndSpace SpaceVal RndVal RndVal2 RndGrad2 GradSpec GradOp RndGrad3 RndGrad4 RndGrad5 RndGrad6 OrthoSpec.
Import ListNotations.
Local Open Scope R_scope.
Local Notation u64 := (bpow radix2 (-53)).
Local Notation eta64 := (bpow radix2 (-1075)).
Local Notation FA := f64_float_arith.

(** ** Copies *)
Lemma copy_near {T} (f : list T -> list T -> res (list T)) l (e : fel T) Rg al be : (forall x o, length x = l -> length o = l -> f x o = Ok x) -> 0 <= al -> 0 <= be -> near f l l e e unchanged Rg al be.
Proof.
  intros Hf Ha Hb d1 d2 x o Lx Lo Fx Sx. exists x. split; [apply Hf; auto|]. split; auto. intros k Hk. rewrite (at_dflt d2 d1) by lia. split; auto. unfold unchanged. rewrite cn_csub_self.
  apply Rplus_le_le_0_compat; auto. apply Rmult_le_pos; auto. apply rsum_pos. intros; apply cn_pos.
Qed.
Lemma copy_bounded l : bounded unchanged l l 1.
Proof. split. reflexivity. intros g k Hk. rewrite Rmult_1_l. unfold unchanged. apply (rsum_pick l (fun j => cn (g j)) k); auto. intros; apply cn_pos. Qed.
Lemma copy_acc {T} (f : list T -> list T -> res (list T)) l q (e : fel T) L : (forall x o, length x = l -> length o = l -> f x o = Ok x) -> 4 <= L -> (1 <= l <= q)%nat -> (Z.of_nat q <= 2 ^ 20)%Z ->
  acc_op f l l q e e unchanged 1 L u64 eta64.
Proof.
  intros Hf HL Hl Hq. pose proof (bpow_gt_0 radix2 (-53)). pose proof (bpow_gt_0 radix2 (-1075)). pose proof (pos_INR q). split; auto; try lra.
  - apply copy_near; auto. rewrite Rmult_1_r. apply Rmult_le_pos; lra. apply Rmult_le_pos; [|lra]. apply Rmult_le_pos; lra.
  - apply copy_bounded.
Qed.

(** ** To the Chebyshev basis *)
Lemma two_picks m (g : nat -> R) i j : (forall k, 0 <= g k) -> i <> j -> (if (i <? m)%nat then g i else 0) + (if (j <? m)%nat then g j else 0) <= rsum m g.
Proof.
  intros Hg Hij. rewrite <- (rsum_ind m i (g i)), <- (rsum_ind m j (g j)), <- rsum_add. apply rsum_le. intros k Hk. specialize (Hg k). destruct (Nat.eqb_spec k i), (Nat.eqb_spec k j); subst; try lia; lra.
Qed.
Lemma compo_a_max n q g k : (2 <= n)%nat -> (forall j, 0 <= q j <= 1) -> (k < n)%nat -> Rabs (compo_a n q g k) <= 1 * rsum (n - 2) (fun j => Rabs (g j)).
Proof.
  intros Hn Hq Hk. rewrite Rmult_1_l. unfold compo_a. set (G := fun j => Rabs (g j)). assert (G0 : forall j, 0 <= G j) by (intros; apply Rabs_pos).
  assert (QB : forall j, Rabs (q j * g j) <= G j). { intros j. rewrite Rabs_mult, (Rabs_pos_eq (q j)) by apply Hq. destruct (Hq j). rewrite <- (Rmult_1_l (G j)). apply Rmult_le_compat_r; auto. }
  destruct (Nat.ltb_spec k 2).
  - rewrite Rminus_0_r. destruct (Nat.ltb_spec k (n - 2)). apply (rsum_pick (n - 2) G); auto. rewrite Rabs_R0. apply rsum_pos; auto.
  - pose proof (two_picks (n - 2) G k (k - 2) G0 ltac:(lia)) as T. destruct (Nat.ltb_spec (k - 2) (n - 2)); [|lia]. eapply Rle_trans; [|exact T]. unfold Rminus. eapply Rle_trans; [apply Rabs_triang|]. rewrite Rabs_Ropp. apply Rplus_le_compat; auto.
    destruct (k <? n - 2)%nat. apply Rle_refl. rewrite Rabs_R0; lra.
Qed.
Lemma compo_a_sub n q g h k : compo_a n q (fun j => g j - h j) k = compo_a n q g k - compo_a n q h k.
Proof. unfold compo_a. destruct (k <? n - 2)%nat, (k <? 2)%nat; ring. Qed.
Lemma compo_a_rbounded n q : (2 <= n)%nat -> (forall j, 0 <= q j <= 1) -> rbounded (compo_a n q) (n - 2) n 1.
Proof. intros Hn Hq. split. intros; apply compo_a_sub. intros; apply compo_a_max; auto. Qed.
Lemma dir_q_range j : 0 <= dir_q j <= 1.
Proof. unfold dir_q. lra. Qed.
Lemma neu_q_range j : 0 <= neu_q j <= 1.
Proof. rewrite neu_q_eq. destruct (nq_range j). lra. Qed.

Lemma dir_a_eq n g k : dir_coef n g k = compo_a n dir_q g k.
Proof. unfold compo_a, dir_coef, dir_q. destruct (k <? n - 2)%nat, (k <? 2)%nat; ring. Qed.
Lemma neu_a_eq n g k : neu_coef n g k = compo_a n neu_q g k.
Proof. unfold compo_a, neu_coef. rewrite neu_q_eq. reflexivity. Qed.
Lemma rbounded_eq C C' l1 l2 K : (forall g k, C g k = C' g k) -> rbounded C' l1 l2 K -> rbounded C l1 l2 K.
Proof. intros HE [H1 H2]. split; intros; rewrite !HE; auto. Qed.
Lemma three_picks m (g : nat -> R) i j l : (forall k, 0 <= g k) -> i <> j -> i <> l -> j <> l ->
  (if (i <? m)%nat then g i else 0) + (if (j <? m)%nat then g j else 0) + (if (l <? m)%nat then g l else 0) <= rsum m g.
Proof.
  intros Hg Hij Hil Hjl. rewrite <- (rsum_ind m i (g i)), <- (rsum_ind m j (g j)), <- (rsum_ind m l (g l)), <- !rsum_add. apply rsum_le. intros k Hk. specialize (Hg k). destruct (Nat.eqb_spec k i), (Nat.eqb_spec k j), (Nat.eqb_spec k l); subst; try lia; lra.
Qed.
Lemma dn_rbounded n : (4 <= n)%nat -> rbounded (dn_coef n) (n - 2) n 1.
Proof.
  intros Hn. split. intros; apply dn_coef_sub. intros g k Hk. rewrite Rmult_1_l. eapply Rle_trans; [apply dn_parts|].
  set (w := fun j => Rabs (g j)). assert (W0 : forall j, 0 <= w j) by (intros; apply Rabs_pos). pose proof (dr_range (k - 1)) as B1. pose proof (ds_range (k - 2)) as B2.
  change (Rabs (g k)) with (w k). change (Rabs (g (k - 1)%nat)) with (w (k - 1)%nat). change (Rabs (g (k - 2)%nat)) with (w (k - 2)%nat).
  assert (M1 : dr (k - 1) * w (k - 1)%nat <= 1 * w (k - 1)%nat) by (apply Rmult_le_compat_r; auto; lra). assert (M2 : ds (k - 2) * w (k - 2)%nat <= 1 * w (k - 2)%nat) by (apply Rmult_le_compat_r; auto; lra).
  assert (k = 0 \/ k = 1 \/ 2 <= k)%nat as [E|[E|E]] by lia.
  - rewrite E in *. assert (P : w 0%nat <= rsum (n - 2) w) by (apply rsum_pick; auto; lia). destruct (Nat.ltb_spec 0 (n - 2)); [|lia]. cbn [Nat.ltb Nat.leb andb Nat.sub]. lra.
  - rewrite E in *. pose proof (two_picks (n - 2) w 1 0 W0 ltac:(lia)) as P. cbn [Nat.sub] in *. destruct (Nat.ltb_spec 0 (n - 2)), (Nat.ltb_spec 1 (n - 2)), (Nat.ltb_spec 1 (n - 1)); try lia. cbn [Nat.ltb Nat.leb andb] in *. lra.
  - pose proof (three_picks (n - 2) w k (k - 1) (k - 2) W0 ltac:(lia) ltac:(lia) ltac:(lia)) as P.
    destruct (Nat.ltb_spec k (n - 2)), (Nat.ltb_spec (k - 1) (n - 2)), (Nat.ltb_spec (k - 2) (n - 2)), (Nat.ltb_spec 0 k), (Nat.ltb_spec k (n - 1)), (Nat.ltb_spec k 2); cbn [andb]; try lia; lra.
Qed.
Lemma R900_910 : R900 <= bpow radix2 910.
Proof. apply bpow_le. lia. Qed.
Section Compo.
Context {T : Type} {V : Vec f64 T} {VC : VecC num_f64 T V} (e : fel T) (HV : view e (cp (VecC := VC))).
Notation Xv := (gX f64_val (cp (VecC := VC))).
Lemma to_acc n c C O : (5 <= n)%nat -> (Z.of_nat n <= 2 ^ 20)%Z -> rbounded C (n - 2) n 1 -> (forall g k, O g k = both C g k) ->
  (forall a o Rg, length a = (n - 2)%nat -> length o = n -> 0 <= Rg -> Rg <= bpow radix2 910 -> (forall p j, (j < n - 2)%nat -> f64_fin (cp p a.[j])) -> (forall p, rsum (n - 2) (fun j => Rabs (Xv p a j)) <= Rg) ->
     exists z, compo_to_ortho c a o = Ok z /\ length z = n /\ forall p, (forall k, (k < n)%nat -> f64_fin (cp p z.[k])) /\
     rsum n (fun k => Rabs (Xv p z k - C (Xv p a) k)) <= 6 * u64 * rsum (n - 2) (fun j => Rabs (Xv p a j)) + 3 * INR n * eta64) ->
  acc_op (compo_to_ortho c) (n - 2) n n e e O 1 6 u64 eta64.
Proof.
  intros Hn Hz Hq HC H. pose proof (bpow_gt_0 radix2 (-53)) as U. pose proof (bpow_gt_0 radix2 (-1075)) as E. pose proof (pos_INR n) as N0. assert (0 <= INR n * eta64) by (apply Rmult_le_pos; lra). split; try lra; try lia.
  - eapply near_weak; [apply (near_comps e cp _ (n - 2) n C 1 R900 (6 * u64 * 1) (3 * INR n * eta64) HV Hq)|lra| |intros; apply HC].
    + lra.
    + intros x o Lx Lo Hf HS. destruct (H x o R900 Lx Lo (bpow_ge_0 _ _) R900_910 Hf HS) as (z & Ez & Lz & Hz'). exists z. split; auto. split; auto. intros p k Hk. destruct (Hz' p) as [F1 F2]. split; auto. rewrite Rmult_1_r. eapply Rle_trans; [|exact F2].
      apply (rsum_pick n (fun k => Rabs (Xv p z k - C (Xv p x) k))); auto. intros; apply Rabs_pos.
    + lra.
  - eapply bounded_same; [apply (both_bounded C), Hq|intros; apply HC].
Qed.

(** ** Back *)
Lemma fix_err kap S Xm Ym E0 : 1 <= kap -> 5 * kap * (u64 + eta64) <= / 100 -> 0 <= S -> 0 <= Xm -> 0 <= Ym <= kap * S -> Xm <= Ym + E0 -> E0 <= kap * ((u64 + eta64) * S + 3 * eta64 + 5 * (u64 + eta64) * Xm) ->
  E0 <= 8 * kap * u64 * kap * S + 4 * kap * eta64.
Proof.
  intros HK Hs S0 X0 HY HX HE. pose proof (bpow_gt_0 radix2 (-53)) as U. pose proof (bpow_gt_0 radix2 (-1075)) as E. assert (EU : eta64 <= / 100 * u64). { replace u64 with (bpow radix2 20 * bpow radix2 (-73)) by (rewrite <- bpow_plus; reflexivity). apply Rle_trans with (bpow radix2 (-73)). apply bpow_le; lia. change (bpow radix2 20) with 1048576. pose proof (bpow_gt_0 radix2 (-73)). lra. }
  set (kk := 5 * kap * (u64 + eta64)) in *. assert (kk0 : 0 <= kk) by (unfold kk; apply Rmult_le_pos; lra).
  assert (A : kap * (5 * (u64 + eta64) * Xm) <= kk * (kap * S) + / 100 * E0 \/ E0 <= 0).
  { destruct (Rle_dec E0 0); [right; auto|left]. replace (kap * (5 * (u64 + eta64) * Xm)) with (kk * Xm) by (unfold kk; ring). apply Rle_trans with (kk * (kap * S + E0)). apply Rmult_le_compat_l; lra. rewrite Rmult_plus_distr_l. apply Rplus_le_compat_l. apply Rmult_le_compat_r; lra. }
  assert (KS : S <= kap * S) by (rewrite <- (Rmult_1_l S) at 1; apply Rmult_le_compat_r; lra). assert (KE : 0 <= kap * eta64) by (apply Rmult_le_pos; lra). assert (UK : 0 <= u64 * kap * (kap * S)). { apply Rmult_le_pos; [apply Rmult_le_pos|]; lra. }
  assert (B1 : kap * ((u64 + eta64) * S) <= 101 / 100 * (u64 * kap * (kap * S))). { apply Rle_trans with (101 / 100 * u64 * kap * (kap * S)); [|lra]. replace (kap * ((u64 + eta64) * S)) with ((u64 + eta64) * kap * S) by ring. apply Rmult_le_compat; try lra. apply Rmult_le_pos; lra. apply Rmult_le_compat_r; lra. }
  assert (B2 : kk * (kap * S) <= 505 / 100 * (u64 * kap * (kap * S))). { unfold kk. apply Rle_trans with (505 / 100 * u64 * kap * (kap * S)); [|lra]. apply Rmult_le_compat_r; [lra|]. replace (5 * kap * (u64 + eta64)) with (5 * (u64 + eta64) * kap) by ring. apply Rmult_le_compat_r; lra. }
  replace (8 * kap * u64 * kap * S) with (8 * (u64 * kap * (kap * S))) by ring. destruct A as [A|A]; lra.
Qed.
Lemma kap_small n : (Z.of_nat n <= 2 ^ 20)%Z -> 1 <= (INR n + 1) * (INR n + 1) /\ 5 * ((INR n + 1) * (INR n + 1)) * (u64 + eta64) <= / 100 /\ 8 * ((INR n + 1) * (INR n + 1)) * u64 <= / 100.
Proof.
  intros H. apply q20 in H. pose proof (pos_INR n) as N0. assert (N1 : INR n + 1 <= bpow radix2 21). { change (bpow radix2 20) with 1048576 in H. change (bpow radix2 21) with 2097152. lra. }
  assert (K : (INR n + 1) * (INR n + 1) <= 1099513724929). { change (bpow radix2 20) with 1048576 in H. replace 1099513724929 with ((1048576 + 1) * (1048576 + 1)) by lra. apply Rmult_le_compat; lra. }
  assert (K1 : 1 <= (INR n + 1) * (INR n + 1)). { replace 1 with (1 * 1) at 1 by ring. apply Rmult_le_compat; lra. } split; auto.
  assert (E : eta64 <= / 1000 * u64). { replace u64 with (bpow radix2 20 * bpow radix2 (-73)) by (rewrite <- bpow_plus; reflexivity). apply Rle_trans with (bpow radix2 (-73)). apply bpow_le; lia. change (bpow radix2 20) with 1048576. pose proof (bpow_gt_0 radix2 (-73)). lra. }
  set (kap := (INR n + 1) * (INR n + 1)) in *. pose proof (bpow_gt_0 radix2 (-53)) as U. pose proof (bpow_gt_0 radix2 (-1075)) as E0.
  assert (KU : kap * u64 <= 1099513724929 * u64) by (apply Rmult_le_compat_r; lra).
  assert (KV : 1099513724929 * u64 <= / 8000) by (change u64 with (/ IZR (2 ^ 53)); cbv [Z.pow Z.pow_pos Pos.iter Z.mul Pos.mul]; lra).
  split; [|lra]. apply Rle_trans with (5 * kap * (2 * u64)); [|lra]. apply Rmult_le_compat_l; lra.
Qed.
Lemma from_acc n c (cx : compo R) q F (RW : (nat -> R) -> (nat -> R) -> Prop) : (5 <= n)%nat -> (Z.of_nat n <= 2 ^ 20)%Z -> fits_coefs n q F ->
  (forall a c, least_squares n q a c -> RW a c) -> (forall g, RW g (sol cx n g)) ->
  RW (fun _ => 0) (fun _ => 0) -> (forall g h c d, RW g c -> RW h d -> RW (fun j => g j - h j) (fun j => c j - d j)) ->
  (forall g h c d G, RW g c -> RW h d -> (forall j, (j < n)%nat -> Rabs (g j - h j) <= G) -> forall k, (k < n - 2)%nat -> Rabs (c k - d k) <= (INR n + 1) * (INR n + 1) * G) ->
  (forall a, length a = n -> exists y, compo_from_ortho (V := vec_self) cx a (repeat 0 (n - 2)) = Ok y) ->
  (forall a o Am, length a = n -> length o = (n - 2)%nat -> 0 <= Am <= R900 -> (forall p k, (k < n)%nat -> f64_fin (cp p a.[k]) /\ Rabs (Xv p a k) <= Am) ->
     exists x, compo_from_ortho c a o = Ok x /\ length x = (n - 2)%nat /\ (forall p k, (k < n - 2)%nat -> f64_fin (cp p x.[k])) /\
       forall p y Am Xm, (forall k, (k < n)%nat -> Rabs (Xv p a k) <= Am) -> compo_from_ortho (V := vec_self) cx (map (fun z => f64_val (cp p z)) a) (repeat 0 (n - 2)) = Ok y -> (forall k, (k < n - 2)%nat -> Rabs (Xv p x k) <= Xm) ->
         forall k, (k < n - 2)%nat -> Rabs (Xv p x k - y.[k]) <= (INR n + 1) * (INR n + 1) * ((u64 + eta64) * Am + 3 * eta64 + 5 * (u64 + eta64) * Xm)) ->
  acc_op (compo_from_ortho c) n (n - 2) n e e F ((INR n + 1) * (INR n + 1)) (8 * ((INR n + 1) * (INR n + 1))) u64 eta64.
Proof.
  intros Hn Hz HF HL HS Z0 ZS HU HX HP. destruct (kap_small n Hz) as (K1 & K2 & _). set (kap := (INR n + 1) * (INR n + 1)) in *. pose proof (bpow_gt_0 radix2 (-53)) as U. pose proof (bpow_gt_0 radix2 (-1075)) as E. pose proof (pos_INR n) as N0.
  assert (N1 : 1 <= INR n) by (change 1 with (INR 1); apply le_INR; lia).
  assert (RB : rbounded (sol cx n) n (n - 2) kap).
  { split.
    - intros g h k Hk. apply Rminus_diag_uniq, Rabs_le0. rewrite <- (Rmult_0_r kap). apply (HU (fun j => g j - h j) (fun j => g j - h j) (sol cx n (fun j => g j - h j)) (fun k => sol cx n g k - sol cx n h k) 0); auto.
      intros j Hj. rewrite Rminus_eq_0, Rabs_R0. lra.
    - intros g k Hk. rewrite <- (Rminus_0_r (sol cx n g k)). apply (HU g (fun _ => 0) (sol cx n g) (fun _ => 0) _ (HS g) Z0); auto. intros j Hj. rewrite Rminus_0_r. apply (rsum_pick n (fun j => Rabs (g j))); auto. intros; apply Rabs_pos. }
  assert (FE : forall g k, (k < n - 2)%nat -> F g k = both (sol cx n) g k).
  { intros g k Hk. destruct (HF g) as [F1 F2]. unfold both. rewrite (surjective_pairing (F g k)). f_equal; apply Rminus_diag_uniq, Rabs_le0; rewrite <- (Rmult_0_r kap);
    [apply (HU _ _ _ _ 0 (HL _ _ F1) (HS (fun j => fst (g j))))|apply (HU _ _ _ _ 0 (HL _ _ F2) (HS (fun j => snd (g j))))]; auto; intros j Hj; rewrite Rminus_eq_0, Rabs_R0; lra. }
  split; try lra; try lia.
  - eapply near_weak; [apply (near_comps e cp _ n (n - 2) (sol cx n) kap R900 (8 * kap * u64 * kap) (4 * kap * eta64) HV RB)|lra| |exact FE].
    + apply Rmult_le_pos; lra.
    + intros a o La Lo Hf HSum.
      destruct (HP a o R900 La Lo) as (x & Ex & Lx & Fx & HE). { split; [apply bpow_ge_0|lra]. } { intros p k Hk. split; auto. eapply Rle_trans; [|apply (HSum p)]. apply (rsum_pick n (fun j => Rabs (Xv p a j))); auto. intros; apply Rabs_pos. }
      exists x. split; auto. split; auto. intros p k Hk. split; auto. set (S := rsum n (fun j => Rabs (Xv p a j))). assert (S0 : 0 <= S) by (apply rsum_pos; intros; apply Rabs_pos).
      destruct (HX (map (fun z => f64_val (cp p z)) a)) as [y Ey]. rewrite map_length; auto.
      assert (SE : forall k, sol cx n (Xv p a) k = y.[k]).
      { intros i. unfold sol. replace (map (Xv p a) (seq 0 n)) with (map (fun z => f64_val (cp p z)) a). rewrite Ey; auto. apply (list_ext (d := dflt_num)). rewrite !map_length, seq_length; auto. intros j Hj. rewrite map_length in Hj. rewrite at_map_seq by lia.
        rewrite (at_map (fun z => f64_val (cp p z)) a j) by auto. unfold gX. reflexivity. }
      destruct (bounded_max (n - 2) (Xv p x)) as (Xm & X0 & HXm & HXe).
      assert (G : forall k, (k < n - 2)%nat -> Rabs (Xv p x k - y.[k]) <= kap * ((u64 + eta64) * S + 3 * eta64 + 5 * (u64 + eta64) * Xm)).
      { apply (HE p y S Xm); auto. intros j Hj. apply (rsum_pick n (fun j => Rabs (Xv p a j))); auto. intros; apply Rabs_pos. }
      rewrite SE. set (E0 := kap * ((u64 + eta64) * S + 3 * eta64 + 5 * (u64 + eta64) * Xm)) in *. assert (E0p : 0 <= E0) by (eapply Rle_trans; [apply Rabs_pos|apply (G k Hk)]). eapply Rle_trans; [apply G; auto|]. assert (KS : 0 <= kap * S) by (apply Rmult_le_pos; lra).
      apply (fix_err kap S Xm (kap * S)); auto; try lra.
      destruct HXe as [->|(j & Hj & ->)]. lra.
      replace (Xv p x j) with (sol cx n (Xv p a) j + (Xv p x j - y.[j])) by (rewrite SE; ring).
      eapply Rle_trans; [apply Rabs_triang|]. apply Rplus_le_compat; auto. apply RB; auto. apply Rle_refl.
    + assert (0 <= kap * eta64) by (apply Rmult_le_pos; lra). assert (1 * (kap * eta64) <= INR n * (kap * eta64)) by (apply Rmult_le_compat_r; auto; apply Rmult_le_pos; lra). lra.
  - eapply bounded_same; [apply both_bounded, RB|exact FE].
Qed.
End Compo.

(** ** The bases *)
Lemma to_usable E P S T b e F : f64_to_ortho E P S T b e F -> any_usable E P S T b.
Proof. intros []; [eapply aus_chebyshev|eapply aus_composite|eapply aus_composite|eapply aus_composite|eapply aus_r2c|eapply aus_c2c]; eauto; cbn [ssolve]; lia. Qed.
Lemma from_usable E K L P S T b e F : f64_from_ortho E K L P S T b e F -> any_usable E P S T b.
Proof. intros []; [eapply aus_chebyshev|eapply aus_composite|eapply aus_composite|eapply aus_r2c|eapply aus_c2c]; eauto; cbn [ssolve]; lia. Qed.
Lemma half_len n : (1 <= n)%nat -> (1 <= n / 2 + 1 <= n)%nat.
Proof. intros H. destruct n as [|[|n]]; [lia|cbn; lia|]. assert (Datatypes.S (Datatypes.S n) / 2 < Datatypes.S (Datatypes.S n))%nat by (apply Nat.div_lt; lia). lia. Qed.
Lemma to_ortho_acc E P S T b e F : f64_to_ortho E P S T b e F -> acc_op (to_ortho_slice b) (len_spec b) (len_orth b) (len_phys b) e e F 1 6 u64 eta64.
Proof.
  intros H. destruct H as [T V e n b H Hz|T V e n b Hs H Hn Hz|T V e n b Hs H Hn Hz|T V e n b Hs H Hn Hz|e n f H Hz|e n f H Hz].
  - apply new_chebyshev_inv in H as [H2 ->]. apply copy_acc; [|lra|cbn; lia|exact Hz]. intros x o Lx Lo. cbn. unfold cheb_to_ortho. rewrite zip_write_full by congruence. reflexivity.
  - destruct (scalar_view _ _ _ Hs) as [VC HV]. unfold new_composite in H. destruct (compo_new KDirichlet n) as [c| |] eqn:Ec; cbn [bind] in H; try discriminate. injection H as <-. destruct (dir_inv n c Ec) as [_ ->].
    apply (to_acc e HV n (dirc n) (dir_coef n) (compo_ortho n dir_q) Hn Hz (rbounded_eq _ _ _ _ _ (dir_a_eq n) (compo_a_rbounded n dir_q ltac:(lia) dir_q_range))).
    + intros g k. unfold compo_ortho, both. rewrite !dir_a_eq. reflexivity.
    + intros a o Rg La Lo R0 HR HF HS. apply (dir_ortho_comp n a o Rg); auto.
  - destruct (scalar_view _ _ _ Hs) as [VC HV]. unfold new_composite in H. destruct (compo_new KNeumann n) as [c| |] eqn:Ec; cbn [bind] in H; try discriminate. injection H as <-. destruct (neu_inv n c Ec) as [_ ->].
    apply (to_acc e HV n (neuc n) (neu_coef n) (compo_ortho n neu_q) Hn Hz (rbounded_eq _ _ _ _ _ (neu_a_eq n) (compo_a_rbounded n neu_q ltac:(lia) neu_q_range))).
    + intros g k. unfold compo_ortho, both. rewrite !neu_a_eq. reflexivity.
    + intros a o Rg La Lo R0 HR HF HS. apply (neu_ortho_comp n a o Rg); auto. apply f64_n24. lia.
  - destruct (scalar_view _ _ _ Hs) as [VC HV]. unfold new_composite in H. destruct (compo_new KDirichletNeumann n) as [c| |] eqn:Ec; cbn [bind] in H; try discriminate. injection H as <-. destruct (dn_inv n c Ec) as (_ & st & -> & HD).
    apply (to_acc e HV n (dnc n st) (dn_coef n) (dn_ortho n) ltac:(lia) Hz (dn_rbounded n ltac:(lia))).
    + intros g k. apply dn_ortho_eq.
    + intros a o Rg La Lo R0 HR HF HS. apply (dn_ortho_comp n st a o Rg); auto. apply f64_dn20; auto.
  - apply r2c_new_inv in H as [H2 ->]. apply copy_acc; [|lra|cbn; apply half_len; auto|exact Hz]. intros x o Lx Lo. cbn. unfold f_to_ortho. rewrite zip_write_full by congruence. reflexivity.
  - apply c2c_new_inv in H as [H2 ->]. apply copy_acc; [|lra|cbn; lia|exact Hz]. intros x o Lx Lo. cbn. unfold f_to_ortho. rewrite zip_write_full by congruence. reflexivity.
Qed.
Lemma from_range n Am : (5 <= n)%nat -> (Z.of_nat n <= 2 ^ 20)%Z -> 0 <= Am <= R900 -> ieee_inr 1024 (27 * INR n * INR n * Am).
Proof.
  intros Hn Hz HA. pose proof (crange 0 ltac:(lra) n Hn Hz) as C. eapply (inr_down FA); [|exact C]. pose proof (pos_INR n) as N0. pose proof eta1. assert (0 <= INR n * eta64) by (apply Rmult_le_pos; lra).
  assert (0 <= 27 * INR n * INR n) by (apply Rmult_le_pos; lra). split. apply Rmult_le_pos; lra. apply Rmult_le_compat_l; lra.
Qed.
Lemma sq_le a b : 0 <= a <= b -> a * a <= b * b.
Proof. intros. apply Rmult_le_compat; lra. Qed.
Lemma from_ortho_acc E K L P S T b e F : f64_from_ortho E K L P S T b e F -> acc_op (from_ortho_slice b) (len_orth b) (len_spec b) (len_phys b) e e F K L u64 eta64.
Proof.
  intros H. pose proof (bpow_gt_0 radix2 (-53)) as U. pose proof (bpow_gt_0 radix2 (-1075)) as EE. destruct H as [T V e n b H Hz|T V e n b F Hs H Hn Hz HF|T V e n b F Hs H Hn Hz HF|e n f H Hz|e n f H Hz].
  - apply new_chebyshev_inv in H as [H2 ->]. apply copy_acc; [|lra|cbn; lia|exact Hz]. intros x o Lx Lo. cbn. unfold cheb_from_ortho. rewrite zip_write_full by congruence. reflexivity.
  - destruct (scalar_view _ _ _ Hs) as [VC HV]. unfold new_composite in H. destruct (compo_new KDirichlet n) as [c| |] eqn:Ec; cbn [bind] in H; try discriminate. injection H as <-. destruct (dir_inv n c Ec) as [_ ->].
    assert (K2 : (INR n + 1) ^ 2 = (INR n + 1) * (INR n + 1)) by ring. rewrite K2. destruct (f64_n25 n ltac:(lia)) as [A1 A2]. pose proof (pos_INR n) as N0.
    apply (from_acc e HV n (dirc n) (dirc n) dir_q F (dir_rows n) Hn Hz HF).
    + apply ls_dir.
    + intros; apply dir_sol_rows; auto.
    + intros j Hj. unfold zprev, znext. destruct (j <? 2)%nat, (j + 2 <? n - 2)%nat; ring.
    + intros g h' c d Hc Hd' j Hj. specialize (Hc j Hj). specialize (Hd' j Hj). unfold zprev, znext in *. destruct (j <? 2)%nat, (j + 2 <? n - 2)%nat; lra.
    + intros g h c d G G1 G2 G3 k Hk. eapply dir_unique; eauto.
    + intros a' La'. destruct (bounded_max n (XR a')) as (G & G0 & HG & _).
      destruct (dir_from_ortho_fin (exact_float_arith 1024 ltac:(lia)) (VC := vecC_self num_R) n a' (repeat 0 (n - 2)) G Hn La' (repeat_length _ _) ltac:(lra) G0) as (y & Ey & _). { intros [] i Hi. split. exact I. auto. } { exact I. } exists y; auto.
    + intros a o Am La Lo HA Ha. destruct (dir_from_ortho_fin FA n a o Am Hn La Lo A1 (proj1 HA) Ha (from_range n Am Hn Hz HA)) as (x & Ex & Lx & Hx). exists x. split; [exact Ex|]. split; auto. split. intros; apply Hx; auto.
      intros p y Am' Xm HA' Ey HX k Hk. assert (NX : compo_new (N := num_R) KDirichlet n = Ok (dirc n)). { destruct (compo_new_ok KDirichlet n ltac:(cbn [smin]; lia)) as (cx & Hcx). destruct (dir_inv (N := num_R) n cx Hcx) as [_ ->]. auto. }
      destruct (C54_dirichlet_from_ortho _ _ _ _ _ _ _ _ _ FA T V VC n (dirc n) (dirc n) a o x Hn Ec NX La Lo Ex (fun p j Hj => proj1 (Hx p j Hj)) p (repeat 0 (n - 2)) y (repeat_length _ _) Ey Am' Xm HA' HX) as [_ HE].
      eapply Rle_trans; [exact (HE k Hk)|]. rewrite K2. assert (Am0 : 0 <= Am') by (eapply Rle_trans; [apply Rabs_pos|apply (HA' 0%nat); lia]). assert (Xm0 : 0 <= Xm) by (eapply Rle_trans; [apply Rabs_pos|apply (HX 0%nat); lia]).
      apply Rmult_le_compat_l. apply Rmult_le_pos; lra. assert (0 <= u64 * Xm) by (apply Rmult_le_pos; lra). assert (0 <= eta64 * Xm) by (apply Rmult_le_pos; lra). assert (0 <= eta64 * Am') by (apply Rmult_le_pos; lra). lra.
  - destruct (scalar_view _ _ _ Hs) as [VC HV]. unfold new_composite in H. destruct (compo_new KNeumann n) as [c| |] eqn:Ec; cbn [bind] in H; try discriminate. injection H as <-. destruct (neu_inv n c Ec) as [_ ->].
    assert (K2 : (INR n + 1) ^ 2 = (INR n + 1) * (INR n + 1)) by ring. rewrite K2. destruct (f64_n24 n ltac:(lia)) as [A1 A2]. pose proof (pos_INR n) as N0. assert (N2 : INR n ^ 2 = INR n * INR n) by ring. rewrite N2 in A2.
    apply (from_acc e HV n (neuc n) (neuc n) neu_q F (neu_rows n) Hn Hz HF).
    + apply ls_neu.
    + intros; apply neu_sol_rows; auto.
    + intros j Hj. unfold neu_row. ring.
    + intros g h' c d Hc Hd' j Hj. specialize (Hc j Hj). specialize (Hd' j Hj). unfold neu_row in *. lra.
    + intros g h c d G G1 G2 G3 k Hk. eapply neu_unique; eauto.
    + intros a' La'. destruct (bounded_max n (XR a')) as (G & G0 & HG & _).
      destruct (neu_from_ortho_fin (exact_float_arith (Z.max 1024 (Z.of_nat n * Z.of_nat n)) ltac:(lia)) (VC := vecC_self num_R) n a' (repeat 0 (n - 2)) G Hn ltac:(lia) ltac:(lra) La' (repeat_length _ _) G0) as (y & Ey & _). { intros [] i Hi. split. exact I. auto. } { exact I. } exists y; auto.
    + intros a o Am La Lo HA Ha. destruct (neu_from_ortho_fin FA n a o Am Hn A1 A2 La Lo (proj1 HA) Ha (from_range n Am Hn Hz HA)) as (x & Ex & Lx & Hx). exists x. split; [exact Ex|]. split; auto. split. intros; apply Hx; auto.
      intros p y Am' Xm HA' Ey HX k Hk. assert (NX : compo_new (N := num_R) KNeumann n = Ok (neuc n)). { destruct (compo_new_ok KNeumann n ltac:(cbn [smin]; lia)) as (cx & Hcx). destruct (neu_inv (N := num_R) n cx Hcx) as [_ ->]. auto. }
      assert (A3 : INR n ^ 2 * (u64 + eta64) <= 1). { rewrite N2. assert (0 <= INR n * INR n * (u64 + eta64)) by (apply Rmult_le_pos; [apply Rmult_le_pos|]; lra). lra. }
      destruct (C54_neumann_from_ortho _ _ _ _ _ _ _ _ _ FA T V VC n (neuc n) (neuc n) a o x Hn A1 A3 Ec NX La Lo Ex (fun p j Hj => proj1 (Hx p j Hj)) p (repeat 0 (n - 2)) y (repeat_length _ _) Ey Am' Xm HA' HX) as [_ HE].
      eapply Rle_trans; [exact (HE k Hk)|]. rewrite N2. assert (Am0 : 0 <= Am') by (eapply Rle_trans; [apply Rabs_pos|apply (HA' 0%nat); lia]). assert (Xm0 : 0 <= Xm) by (eapply Rle_trans; [apply Rabs_pos|apply (HX 0%nat); lia]).
      assert (0 <= u64 * Xm) by (apply Rmult_le_pos; lra). assert (0 <= eta64 * Xm) by (apply Rmult_le_pos; lra). assert (0 <= u64 * Am') by (apply Rmult_le_pos; lra). assert (0 <= eta64 * Am') by (apply Rmult_le_pos; lra).
      apply Rmult_le_compat; try lra. apply Rmult_le_pos; lra.
  - apply r2c_new_inv in H as [H2 ->]. apply copy_acc; [|lra|cbn; apply half_len; auto|exact Hz]. intros x o Lx Lo. cbn. unfold f_from_ortho. rewrite zip_write_full by congruence. reflexivity.
  - apply c2c_new_inv in H as [H2 ->]. apply copy_acc; [|lra|cbn; lia|exact Hz]. intros x o Lx Lo. cbn. unfold f_from_ortho. rewrite zip_write_full by congruence. reflexivity.
Qed.
Lemma from_L_small E K L P S T b e F : f64_from_ortho E K L P S T b e F -> L * u64 <= / 100.
Proof.
  assert (U : 4 * u64 <= / 100) by (change u64 with (/ IZR (2 ^ 53)); cbv [Z.pow Z.pow_pos Pos.iter Z.mul Pos.mul]; lra).
  intros []; auto; (destruct (kap_small n ltac:(assumption)) as (_ & _ & K3); replace ((INR n + 1) ^ 2) with ((INR n + 1) * (INR n + 1)) by ring; exact K3).
Qed.
