(** C68: `to_ortho` and `from_ortho` of one base in f32 (RndOrtho.v with
    u = 2^-24, eta = 2^-150; the least-squares solve up to 2^7 points). *)
From Coq Require Import List Arith ZArith Reals Bool Lra Lia.
From Flocq Require Import Core BinarySingleNaN.
From Verif Require Import Base Num Linalg Stencils StencilProofs Cheb ChebGrad Compo CompoProofs Fourier FourierF64 FourierFacts FourierProofs AnyArith ArithSteps Rounding RndTdma RndDirichlet RndNeumann RndGrad RndFinite RndFinite2 RndFourier RndFft RndCompo PropRound PropRound2 PropRound4 PropTrans2 SpaceBases Bases ExtLib AnyBase PropAny PropAny2
  RndAxis RndOps RndOps2 RndDN RndDN2 SpaceAcc RndSpace SpaceVal RndVal RndVal2 RndGrad2 GradSpec GradOp RndGrad3 RndGrad4 RndGrad5 RndGrad6 OrthoSpec RndOrtho PropTrans6 SpaceVal32 RndVal32 GradSpec32 RndGrad32.
Import ListNotations.
Local Open Scope R_scope.
Local Notation u32 := (bpow radix2 (-24)).
Local Notation eta32 := (bpow radix2 (-150)).
Local Notation FA := f32_float_arith.

(** ** Copies *)
Lemma copy_acc {T} (f : list T -> list T -> res (list T)) l q (e : fel T) L : (forall x o, length x = l -> length o = l -> f x o = Ok x) -> 4 <= L -> (1 <= l <= q)%nat -> (Z.of_nat q <= 2 ^ 10)%Z ->
  acc_op f l l q e e unchanged 1 L u32 eta32.
Proof.
  intros Hf HL Hl Hq. pose proof (bpow_gt_0 radix2 (-24)). pose proof (bpow_gt_0 radix2 (-150)). pose proof (pos_INR q). split; auto; try lra.
  - apply copy_near; auto. rewrite Rmult_1_r. apply Rmult_le_pos; lra. apply Rmult_le_pos; [|lra]. apply Rmult_le_pos; lra.
  - apply copy_bounded.
Qed.

(** ** To the Chebyshev basis *)

Lemma R100_100 : R100 <= bpow radix2 100.
Proof. apply bpow_le. lia. Qed.
Section Compo.
Context {T : Type} {V : Vec f32 T} {VC : VecC num_f32 T V} (e : fel T) (HV : view e (cp (VecC := VC))).
Notation Xv := (gX f32_val (cp (VecC := VC))).
Lemma to_acc n c C O : (5 <= n)%nat -> (Z.of_nat n <= 2 ^ 10)%Z -> rbounded C (n - 2) n 1 -> (forall g k, O g k = both C g k) ->
  (forall a o Rg, length a = (n - 2)%nat -> length o = n -> 0 <= Rg -> Rg <= bpow radix2 100 -> (forall p j, (j < n - 2)%nat -> f32_fin (cp p a.[j])) -> (forall p, rsum (n - 2) (fun j => Rabs (Xv p a j)) <= Rg) ->
     exists z, compo_to_ortho c a o = Ok z /\ length z = n /\ forall p, (forall k, (k < n)%nat -> f32_fin (cp p z.[k])) /\
     rsum n (fun k => Rabs (Xv p z k - C (Xv p a) k)) <= 6 * u32 * rsum (n - 2) (fun j => Rabs (Xv p a j)) + 3 * INR n * eta32) ->
  acc_op (compo_to_ortho c) (n - 2) n n e e O 1 6 u32 eta32.
Proof.
  intros Hn Hz Hq HC H. pose proof (bpow_gt_0 radix2 (-24)) as U. pose proof (bpow_gt_0 radix2 (-150)) as E. pose proof (pos_INR n) as N0. assert (0 <= INR n * eta32) by (apply Rmult_le_pos; lra). split; try lra; try lia.
  - eapply near_weak; [apply (near_comps e cp _ (n - 2) n C 1 R100 (6 * u32 * 1) (3 * INR n * eta32) HV Hq)|lra| |intros; apply HC].
    + lra.
    + intros x o Lx Lo Hf HS. destruct (H x o R100 Lx Lo (bpow_ge_0 _ _) R100_100 Hf HS) as (z & Ez & Lz & Hz'). exists z. split; auto. split; auto. intros p k Hk. destruct (Hz' p) as [F1 F2]. split; auto. rewrite Rmult_1_r. eapply Rle_trans; [|exact F2].
      apply (rsum_pick n (fun k => Rabs (Xv p z k - C (Xv p x) k))); auto. intros; apply Rabs_pos.
    + lra.
  - eapply bounded_same; [apply (both_bounded C), Hq|intros; apply HC].
Qed.

(** ** Back *)
Lemma fix_err kap S Xm Ym E0 : 1 <= kap -> 5 * kap * (u32 + eta32) <= / 100 -> 0 <= S -> 0 <= Xm -> 0 <= Ym <= kap * S -> Xm <= Ym + E0 -> E0 <= kap * ((u32 + eta32) * S + 3 * eta32 + 5 * (u32 + eta32) * Xm) ->
  E0 <= 8 * kap * u32 * kap * S + 4 * kap * eta32.
Proof.
  intros HK Hs S0 X0 HY HX HE. pose proof (bpow_gt_0 radix2 (-24)) as U. pose proof (bpow_gt_0 radix2 (-150)) as E. assert (EU : eta32 <= / 100 * u32). { replace u32 with (bpow radix2 20 * bpow radix2 (-44)) by (rewrite <- bpow_plus; reflexivity). apply Rle_trans with (bpow radix2 (-44)). apply bpow_le; lia. change (bpow radix2 20) with 1048576. pose proof (bpow_gt_0 radix2 (-44)). lra. }
  set (kk := 5 * kap * (u32 + eta32)) in *. assert (kk0 : 0 <= kk) by (unfold kk; apply Rmult_le_pos; lra).
  assert (A : kap * (5 * (u32 + eta32) * Xm) <= kk * (kap * S) + / 100 * E0 \/ E0 <= 0).
  { destruct (Rle_dec E0 0); [right; auto|left]. replace (kap * (5 * (u32 + eta32) * Xm)) with (kk * Xm) by (unfold kk; ring). apply Rle_trans with (kk * (kap * S + E0)). apply Rmult_le_compat_l; lra. rewrite Rmult_plus_distr_l. apply Rplus_le_compat_l. apply Rmult_le_compat_r; lra. }
  assert (KS : S <= kap * S) by (rewrite <- (Rmult_1_l S) at 1; apply Rmult_le_compat_r; lra). assert (KE : 0 <= kap * eta32) by (apply Rmult_le_pos; lra). assert (UK : 0 <= u32 * kap * (kap * S)). { apply Rmult_le_pos; [apply Rmult_le_pos|]; lra. }
  assert (B1 : kap * ((u32 + eta32) * S) <= 101 / 100 * (u32 * kap * (kap * S))). { apply Rle_trans with (101 / 100 * u32 * kap * (kap * S)); [|lra]. replace (kap * ((u32 + eta32) * S)) with ((u32 + eta32) * kap * S) by ring. apply Rmult_le_compat; try lra. apply Rmult_le_pos; lra. apply Rmult_le_compat_r; lra. }
  assert (B2 : kk * (kap * S) <= 505 / 100 * (u32 * kap * (kap * S))). { unfold kk. apply Rle_trans with (505 / 100 * u32 * kap * (kap * S)); [|lra]. apply Rmult_le_compat_r; [lra|]. replace (5 * kap * (u32 + eta32)) with (5 * (u32 + eta32) * kap) by ring. apply Rmult_le_compat_r; lra. }
  replace (8 * kap * u32 * kap * S) with (8 * (u32 * kap * (kap * S))) by ring. destruct A as [A|A]; lra.
Qed.
Lemma kap_small n : (Z.of_nat n <= 2 ^ 7)%Z -> 1 <= (INR n + 1) * (INR n + 1) /\ 5 * ((INR n + 1) * (INR n + 1)) * (u32 + eta32) <= / 100 /\ 8 * ((INR n + 1) * (INR n + 1)) * u32 <= / 100.
Proof.
  intros H. pose proof (n_bounds _ _ H) as HN. change (2 ^ 7)%Z with 128%Z in HN. pose proof (pos_INR n) as N0.
  assert (K : (INR n + 1) * (INR n + 1) <= 129 * 129) by (apply Rmult_le_compat; lra).
  assert (K1 : 1 <= (INR n + 1) * (INR n + 1)). { replace 1 with (1 * 1) at 1 by ring. apply Rmult_le_compat; lra. } split; auto.
  assert (E : eta32 <= / 1000 * u32). { replace u32 with (bpow radix2 20 * bpow radix2 (-44)) by (rewrite <- bpow_plus; reflexivity). apply Rle_trans with (bpow radix2 (-44)). apply bpow_le; lia. change (bpow radix2 20) with 1048576. pose proof (bpow_gt_0 radix2 (-44)). lra. }
  set (kap := (INR n + 1) * (INR n + 1)) in *. pose proof (bpow_gt_0 radix2 (-24)) as U. pose proof (bpow_gt_0 radix2 (-150)) as E0.
  assert (KU : kap * u32 <= 129 * 129 * u32) by (apply Rmult_le_compat_r; lra).
  assert (KV : 129 * 129 * u32 <= / 1000) by (change u32 with (/ IZR (2 ^ 24)); cbv [Z.pow Z.pow_pos Pos.iter Z.mul Pos.mul]; lra).
  split; [|lra]. apply Rle_trans with (5 * kap * (2 * u32)); [|lra]. apply Rmult_le_compat_l; lra.
Qed.
Lemma from_acc n c (cx : compo R) q F (RW : (nat -> R) -> (nat -> R) -> Prop) : (5 <= n)%nat -> (Z.of_nat n <= 2 ^ 7)%Z -> fits_coefs n q F ->
  (forall a c, least_squares n q a c -> RW a c) -> (forall g, RW g (sol cx n g)) ->
  RW (fun _ => 0) (fun _ => 0) -> (forall g h c d, RW g c -> RW h d -> RW (fun j => g j - h j) (fun j => c j - d j)) ->
  (forall g h c d G, RW g c -> RW h d -> (forall j, (j < n)%nat -> Rabs (g j - h j) <= G) -> forall k, (k < n - 2)%nat -> Rabs (c k - d k) <= (INR n + 1) * (INR n + 1) * G) ->
  (forall a, length a = n -> exists y, compo_from_ortho (V := vec_self) cx a (repeat 0 (n - 2)) = Ok y) ->
  (forall a o Am, length a = n -> length o = (n - 2)%nat -> 0 <= Am <= R100 -> (forall p k, (k < n)%nat -> f32_fin (cp p a.[k]) /\ Rabs (Xv p a k) <= Am) ->
     exists x, compo_from_ortho c a o = Ok x /\ length x = (n - 2)%nat /\ (forall p k, (k < n - 2)%nat -> f32_fin (cp p x.[k])) /\
       forall p y Am Xm, (forall k, (k < n)%nat -> Rabs (Xv p a k) <= Am) -> compo_from_ortho (V := vec_self) cx (map (fun z => f32_val (cp p z)) a) (repeat 0 (n - 2)) = Ok y -> (forall k, (k < n - 2)%nat -> Rabs (Xv p x k) <= Xm) ->
         forall k, (k < n - 2)%nat -> Rabs (Xv p x k - y.[k]) <= (INR n + 1) * (INR n + 1) * ((u32 + eta32) * Am + 3 * eta32 + 5 * (u32 + eta32) * Xm)) ->
  acc_op (compo_from_ortho c) n (n - 2) n e e F ((INR n + 1) * (INR n + 1)) (8 * ((INR n + 1) * (INR n + 1))) u32 eta32.
Proof.
  intros Hn Hz HF HL HS Z0 ZS HU HX HP. destruct (kap_small n Hz) as (K1 & K2 & _). set (kap := (INR n + 1) * (INR n + 1)) in *. pose proof (bpow_gt_0 radix2 (-24)) as U. pose proof (bpow_gt_0 radix2 (-150)) as E. pose proof (pos_INR n) as N0.
  assert (N1 : 1 <= INR n) by (change 1 with (INR 1); apply le_INR; lia).
  assert (RB : rbounded (sol cx n) n (n - 2) kap).
  { split.
    - intros g h k Hk. apply Rminus_diag_uniq, Rabs_le0. rewrite <- (Rmult_0_r kap). apply (HU (fun j => g j - h j) (fun j => g j - h j) (sol cx n (fun j => g j - h j)) (fun k => sol cx n g k - sol cx n h k) 0); auto.
      intros j Hj. rewrite Rminus_eq_0, Rabs_R0. lra.
    - intros g k Hk. rewrite <- (Rminus_0_r (sol cx n g k)). apply (HU g (fun _ => 0) (sol cx n g) (fun _ => 0) _ (HS g) Z0); auto. intros j Hj. rewrite Rminus_0_r. apply (rsum_pick n (fun j => Rabs (g j))); auto. intros; apply Rabs_pos. }
  assert (FE : forall g k, (k < n - 2)%nat -> F g k = both (sol cx n) g k).
  { intros g k Hk. destruct (HF g) as [F1 F2]. unfold both. rewrite (surjective_pairing (F g k)). f_equal; apply Rminus_diag_uniq, Rabs_le0; rewrite <- (Rmult_0_r kap);
    [apply (HU _ _ _ _ 0 (HL _ _ F1) (HS (fun j => fst (g j))))|apply (HU _ _ _ _ 0 (HL _ _ F2) (HS (fun j => snd (g j))))]; auto; intros j Hj; rewrite Rminus_eq_0, Rabs_R0; lra. }
  split; try lra; try lia.
  - eapply near_weak; [apply (near_comps e cp _ n (n - 2) (sol cx n) kap R100 (8 * kap * u32 * kap) (4 * kap * eta32) HV RB)|lra| |exact FE].
    + apply Rmult_le_pos; lra.
    + intros a o La Lo Hf HSum.
      destruct (HP a o R100 La Lo) as (x & Ex & Lx & Fx & HE). { split; [apply bpow_ge_0|lra]. } { intros p k Hk. split; auto. eapply Rle_trans; [|apply (HSum p)]. apply (rsum_pick n (fun j => Rabs (Xv p a j))); auto. intros; apply Rabs_pos. }
      exists x. split; auto. split; auto. intros p k Hk. split; auto. set (S := rsum n (fun j => Rabs (Xv p a j))). assert (S0 : 0 <= S) by (apply rsum_pos; intros; apply Rabs_pos).
      destruct (HX (map (fun z => f32_val (cp p z)) a)) as [y Ey]. rewrite map_length; auto.
      assert (SE : forall k, sol cx n (Xv p a) k = y.[k]).
      { intros i. unfold sol. replace (map (Xv p a) (seq 0 n)) with (map (fun z => f32_val (cp p z)) a). rewrite Ey; auto. apply (list_ext (d := dflt_num)). rewrite !map_length, seq_length; auto. intros j Hj. rewrite map_length in Hj. rewrite at_map_seq by lia.
        rewrite (at_map (fun z => f32_val (cp p z)) a j) by auto. unfold gX. reflexivity. }
      destruct (bounded_max (n - 2) (Xv p x)) as (Xm & X0 & HXm & HXe).
      assert (G : forall k, (k < n - 2)%nat -> Rabs (Xv p x k - y.[k]) <= kap * ((u32 + eta32) * S + 3 * eta32 + 5 * (u32 + eta32) * Xm)).
      { apply (HE p y S Xm); auto. intros j Hj. apply (rsum_pick n (fun j => Rabs (Xv p a j))); auto. intros; apply Rabs_pos. }
      rewrite SE. set (E0 := kap * ((u32 + eta32) * S + 3 * eta32 + 5 * (u32 + eta32) * Xm)) in *. assert (E0p : 0 <= E0) by (eapply Rle_trans; [apply Rabs_pos|apply (G k Hk)]). eapply Rle_trans; [apply G; auto|]. assert (KS : 0 <= kap * S) by (apply Rmult_le_pos; lra).
      apply (fix_err kap S Xm (kap * S)); auto; try lra.
      destruct HXe as [->|(j & Hj & ->)]. lra.
      replace (Xv p x j) with (sol cx n (Xv p a) j + (Xv p x j - y.[j])) by (rewrite SE; ring).
      eapply Rle_trans; [apply Rabs_triang|]. apply Rplus_le_compat; auto. apply RB; auto. apply Rle_refl.
    + assert (0 <= kap * eta32) by (apply Rmult_le_pos; lra). assert (1 * (kap * eta32) <= INR n * (kap * eta32)) by (apply Rmult_le_compat_r; auto; apply Rmult_le_pos; lra). lra.
  - eapply bounded_same; [apply both_bounded, RB|exact FE].
Qed.
End Compo.

(** ** The bases *)
Lemma to_usable E P S T b e F : f32_to_ortho E P S T b e F -> any_usable E P S T b.
Proof. intros []; [eapply aus_chebyshev|eapply aus_composite|eapply aus_composite|eapply aus_composite|eapply aus_r2c|eapply aus_c2c]; eauto; cbn [ssolve]; lia. Qed.
Lemma from_usable E K L P S T b e F : f32_from_ortho E K L P S T b e F -> any_usable E P S T b.
Proof. intros []; [eapply aus_chebyshev|eapply aus_composite|eapply aus_composite|eapply aus_r2c|eapply aus_c2c]; eauto; cbn [ssolve]; lia. Qed.
Lemma to_ortho_acc E P S T b e F : f32_to_ortho E P S T b e F -> acc_op (to_ortho_slice b) (len_spec b) (len_orth b) (len_phys b) e e F 1 6 u32 eta32.
Proof.
  intros H. destruct H as [T V e n b H Hz|T V e n b Hs H Hn Hz|T V e n b Hs H Hn Hz|T V e n b Hs H Hn Hz|e n f H Hz|e n f H Hz].
  - apply new_chebyshev_inv in H as [H2 ->]. apply copy_acc; [|lra|cbn; lia|exact Hz]. intros x o Lx Lo. cbn. unfold cheb_to_ortho. rewrite zip_write_full by congruence. reflexivity.
  - destruct (scalar_view _ _ _ Hs) as [VC HV]. unfold new_composite in H. destruct (compo_new KDirichlet n) as [c| |] eqn:Ec; cbn [bind] in H; try discriminate. injection H as <-. destruct (dir_inv n c Ec) as [_ ->].
    apply (to_acc e HV n (dirc n) (dir_coef n) (compo_ortho n dir_q) Hn Hz (rbounded_eq _ _ _ _ _ (dir_a_eq n) (compo_a_rbounded n dir_q ltac:(lia) dir_q_range))).
    + intros g k. unfold compo_ortho, both. rewrite !dir_a_eq. reflexivity.
    + intros a o Rg La Lo R0 HR HF HS. apply (dir_ortho_comp n a o Rg); auto.
  - destruct (scalar_view _ _ _ Hs) as [VC HV]. unfold new_composite in H. destruct (compo_new KNeumann n) as [c| |] eqn:Ec; cbn [bind] in H; try discriminate. injection H as <-. destruct (neu_inv n c Ec) as [_ ->].
    apply (to_acc e HV n (neuc n) (neu_coef n) (compo_ortho n neu_q) Hn Hz (rbounded_eq _ _ _ _ _ (neu_a_eq n) (compo_a_rbounded n neu_q ltac:(lia) neu_q_range))).
    + intros g k. unfold compo_ortho, both. rewrite !neu_a_eq. reflexivity.
    + intros a o Rg La Lo R0 HR HF HS. apply (neu_ortho_comp n a o Rg); auto. apply f32_n10. lia.
  - destruct (scalar_view _ _ _ Hs) as [VC HV]. unfold new_composite in H. destruct (compo_new KDirichletNeumann n) as [c| |] eqn:Ec; cbn [bind] in H; try discriminate. injection H as <-. destruct (dn_inv n c Ec) as (_ & st & -> & HD).
    apply (to_acc e HV n (dnc n st) (dn_coef n) (dn_ortho n) ltac:(lia) Hz (dn_rbounded n ltac:(lia))).
    + intros g k. apply dn_ortho_eq.
    + intros a o Rg La Lo R0 HR HF HS. apply (dn_ortho_comp n st a o Rg); auto. apply f32_dn10; auto.
  - apply r2c_new_inv in H as [H2 ->]. apply copy_acc; [|lra|cbn; apply half_len; auto|exact Hz]. intros x o Lx Lo. cbn. unfold f_to_ortho. rewrite zip_write_full by congruence. reflexivity.
  - apply c2c_new_inv in H as [H2 ->]. apply copy_acc; [|lra|cbn; lia|exact Hz]. intros x o Lx Lo. cbn. unfold f_to_ortho. rewrite zip_write_full by congruence. reflexivity.
Qed.
Lemma from_range n Am : (5 <= n)%nat -> (Z.of_nat n <= 2 ^ 10)%Z -> 0 <= Am <= R100 -> ieee_inr 128 (27 * INR n * INR n * Am).
Proof.
  intros Hn Hz HA. pose proof (crange 0 ltac:(lra) n Hn Hz) as C. eapply (inr_down FA); [|exact C]. pose proof (pos_INR n) as N0. pose proof eta1. assert (0 <= INR n * eta32) by (apply Rmult_le_pos; lra).
  assert (0 <= 27 * INR n * INR n) by (apply Rmult_le_pos; lra). split. apply Rmult_le_pos; lra. apply Rmult_le_compat_l; lra.
Qed.
Lemma from_ortho_acc E K L P S T b e F : f32_from_ortho E K L P S T b e F -> acc_op (from_ortho_slice b) (len_orth b) (len_spec b) (len_phys b) e e F K L u32 eta32.
Proof.
  intros H. pose proof (bpow_gt_0 radix2 (-24)) as U. pose proof (bpow_gt_0 radix2 (-150)) as EE. destruct H as [T V e n b H Hz|T V e n b F Hs H Hn Hz HF|T V e n b F Hs H Hn Hz HF|e n f H Hz|e n f H Hz].
  - apply new_chebyshev_inv in H as [H2 ->]. apply copy_acc; [|lra|cbn; lia|exact Hz]. intros x o Lx Lo. cbn. unfold cheb_from_ortho. rewrite zip_write_full by congruence. reflexivity.
  - destruct (scalar_view _ _ _ Hs) as [VC HV]. unfold new_composite in H. destruct (compo_new KDirichlet n) as [c| |] eqn:Ec; cbn [bind] in H; try discriminate. injection H as <-. destruct (dir_inv n c Ec) as [_ ->].
    assert (K2 : (INR n + 1) ^ 2 = (INR n + 1) * (INR n + 1)) by ring. rewrite K2. destruct (f32_n11 n ltac:(lia)) as [A1 A2]. pose proof (pos_INR n) as N0.
    apply (from_acc e HV n (dirc n) (dirc n) dir_q F (dir_rows n) Hn Hz HF).
    + apply ls_dir.
    + intros; apply dir_sol_rows; auto.
    + intros j Hj. unfold zprev, znext. destruct (j <? 2)%nat, (j + 2 <? n - 2)%nat; ring.
    + intros g h' c d Hc Hd' j Hj. specialize (Hc j Hj). specialize (Hd' j Hj). unfold zprev, znext in *. destruct (j <? 2)%nat, (j + 2 <? n - 2)%nat; lra.
    + intros g h c d G G1 G2 G3 k Hk. eapply dir_unique; eauto.
    + intros a' La'. destruct (bounded_max n (XR a')) as (G & G0 & HG & _).
      destruct (dir_from_ortho_fin (exact_float_arith 1024 ltac:(lia)) (VC := vecC_self num_R) n a' (repeat 0 (n - 2)) G Hn La' (repeat_length _ _) ltac:(lra) G0) as (y & Ey & _). { intros [] i Hi. split. exact I. auto. } { exact I. } exists y; auto.
    + intros a o Am La Lo HA Ha. destruct (dir_from_ortho_fin FA n a o Am Hn La Lo A1 (proj1 HA) Ha (from_range n Am Hn ltac:(lia) HA)) as (x & Ex & Lx & Hx). exists x. split; [exact Ex|]. split; auto. split. intros; apply Hx; auto.
      intros p y Am' Xm HA' Ey HX k Hk. assert (NX : compo_new (N := num_R) KDirichlet n = Ok (dirc n)). { destruct (compo_new_ok KDirichlet n ltac:(cbn [smin]; lia)) as (cx & Hcx). destruct (dir_inv (N := num_R) n cx Hcx) as [_ ->]. auto. }
      destruct (C54_dirichlet_from_ortho _ _ _ _ _ _ _ _ _ FA T V VC n (dirc n) (dirc n) a o x Hn Ec NX La Lo Ex (fun p j Hj => proj1 (Hx p j Hj)) p (repeat 0 (n - 2)) y (repeat_length _ _) Ey Am' Xm HA' HX) as [_ HE].
      eapply Rle_trans; [exact (HE k Hk)|]. rewrite K2. assert (Am0 : 0 <= Am') by (eapply Rle_trans; [apply Rabs_pos|apply (HA' 0%nat); lia]). assert (Xm0 : 0 <= Xm) by (eapply Rle_trans; [apply Rabs_pos|apply (HX 0%nat); lia]).
      apply Rmult_le_compat_l. apply Rmult_le_pos; lra. assert (0 <= u32 * Xm) by (apply Rmult_le_pos; lra). assert (0 <= eta32 * Xm) by (apply Rmult_le_pos; lra). assert (0 <= eta32 * Am') by (apply Rmult_le_pos; lra). lra.
  - destruct (scalar_view _ _ _ Hs) as [VC HV]. unfold new_composite in H. destruct (compo_new KNeumann n) as [c| |] eqn:Ec; cbn [bind] in H; try discriminate. injection H as <-. destruct (neu_inv n c Ec) as [_ ->].
    assert (K2 : (INR n + 1) ^ 2 = (INR n + 1) * (INR n + 1)) by ring. rewrite K2. destruct (f32_n10 n ltac:(lia)) as [A1 A2]. pose proof (pos_INR n) as N0. assert (N2 : INR n ^ 2 = INR n * INR n) by ring. rewrite N2 in A2.
    apply (from_acc e HV n (neuc n) (neuc n) neu_q F (neu_rows n) Hn Hz HF).
    + apply ls_neu.
    + intros; apply neu_sol_rows; auto.
    + intros j Hj. unfold neu_row. ring.
    + intros g h' c d Hc Hd' j Hj. specialize (Hc j Hj). specialize (Hd' j Hj). unfold neu_row in *. lra.
    + intros g h c d G G1 G2 G3 k Hk. eapply neu_unique; eauto.
    + intros a' La'. destruct (bounded_max n (XR a')) as (G & G0 & HG & _).
      destruct (neu_from_ortho_fin (exact_float_arith (Z.max 1024 (Z.of_nat n * Z.of_nat n)) ltac:(lia)) (VC := vecC_self num_R) n a' (repeat 0 (n - 2)) G Hn ltac:(lia) ltac:(lra) La' (repeat_length _ _) G0) as (y & Ey & _). { intros [] i Hi. split. exact I. auto. } { exact I. } exists y; auto.
    + intros a o Am La Lo HA Ha. destruct (neu_from_ortho_fin FA n a o Am Hn A1 A2 La Lo (proj1 HA) Ha (from_range n Am Hn ltac:(lia) HA)) as (x & Ex & Lx & Hx). exists x. split; [exact Ex|]. split; auto. split. intros; apply Hx; auto.
      intros p y Am' Xm HA' Ey HX k Hk. assert (NX : compo_new (N := num_R) KNeumann n = Ok (neuc n)). { destruct (compo_new_ok KNeumann n ltac:(cbn [smin]; lia)) as (cx & Hcx). destruct (neu_inv (N := num_R) n cx Hcx) as [_ ->]. auto. }
      assert (A3 : INR n ^ 2 * (u32 + eta32) <= 1). { rewrite N2. assert (0 <= INR n * INR n * (u32 + eta32)) by (apply Rmult_le_pos; [apply Rmult_le_pos|]; lra). lra. }
      destruct (C54_neumann_from_ortho _ _ _ _ _ _ _ _ _ FA T V VC n (neuc n) (neuc n) a o x Hn A1 A3 Ec NX La Lo Ex (fun p j Hj => proj1 (Hx p j Hj)) p (repeat 0 (n - 2)) y (repeat_length _ _) Ey Am' Xm HA' HX) as [_ HE].
      eapply Rle_trans; [exact (HE k Hk)|]. rewrite N2. assert (Am0 : 0 <= Am') by (eapply Rle_trans; [apply Rabs_pos|apply (HA' 0%nat); lia]). assert (Xm0 : 0 <= Xm) by (eapply Rle_trans; [apply Rabs_pos|apply (HX 0%nat); lia]).
      assert (0 <= u32 * Xm) by (apply Rmult_le_pos; lra). assert (0 <= eta32 * Xm) by (apply Rmult_le_pos; lra). assert (0 <= u32 * Am') by (apply Rmult_le_pos; lra). assert (0 <= eta32 * Am') by (apply Rmult_le_pos; lra).
      apply Rmult_le_compat; try lra. apply Rmult_le_pos; lra.
  - apply r2c_new_inv in H as [H2 ->]. apply copy_acc; [|lra|cbn; apply half_len; auto|exact Hz]. intros x o Lx Lo. cbn. unfold f_from_ortho. rewrite zip_write_full by congruence. reflexivity.
  - apply c2c_new_inv in H as [H2 ->]. apply copy_acc; [|lra|cbn; lia|exact Hz]. intros x o Lx Lo. cbn. unfold f_from_ortho. rewrite zip_write_full by congruence. reflexivity.
Qed.
Lemma from_L_small E K L P S T b e F : f32_from_ortho E K L P S T b e F -> L * u32 <= / 100.
Proof.
  assert (U : 4 * u32 <= / 100) by (change u32 with (/ IZR (2 ^ 24)); cbv [Z.pow Z.pow_pos Pos.iter Z.mul Pos.mul]; lra).
  intros []; auto; (destruct (kap_small n ltac:(assumption)) as (_ & _ & K3); replace ((INR n + 1) ^ 2) with ((INR n + 1) * (INR n + 1)) by ring; exact K3).
Qed.
