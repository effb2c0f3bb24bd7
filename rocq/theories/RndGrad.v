(** Rounding errors of the Chebyshev derivative, any order (C54). *)
From Coq Require Import List Arith ZArith Reals Bool Lra Lia.
From Verif Require Import Base Num Linalg StencilProofs Cheb ChebGrad ArithSteps Rounding RndTdma.
Import ListNotations.
Local Open Scope R_scope.

(** ** The exact derivative as a sum *)
Fixpoint gs (a : nat -> R) (t k : nat) : R :=
  match t with O => 0 | S t => 2 * INR (k + 1) * a (k + 1)%nat + gs a t (k + 2) end.
Definition Gop (m : nat) (a : nat -> R) (k : nat) : R :=
  if k =? 0 then a 1%nat + gs a ((m - 2) / 2) 2 / 2 else gs a ((m - k) / 2) k.
Definition used (m k j : nat) : Prop := (k < j < m)%nat /\ Nat.odd (j - k) = true.

Lemma used_next m k j : (used m (k + 2) j -> used m k j)%nat.
Proof. unfold used. intros [H O]. split. lia. replace (j - k)%nat with (j - (k + 2) + 2)%nat by lia. rewrite Nat.odd_add. cbn. rewrite O. auto. Qed.
Lemma used_1 m k : (k + 1 < m)%nat -> used m k (k + 1).
Proof. intros. split. lia. replace (k + 1 - k)%nat with 1%nat by lia. auto. Qed.
Lemma half_2 x : ((x + 2) / 2 = S (x / 2))%nat.
Proof. replace (x + 2)%nat with (x + 1 * 2)%nat by lia. rewrite Nat.div_add; lia. Qed.
Lemma div2_lo x : (x < 2 -> x / 2 = 0)%nat.
Proof. intros. apply Nat.div_small. auto. Qed.

Lemma gs_rel m (f g : nat -> R) (Q : R -> R -> Prop) : Q 0 0 -> (forall k x y, Q x y -> (1 <= k)%nat -> Q (f k) (g k) -> Q (2 * INR k * f k + x) (2 * INR k * g k + y)) ->
  forall t k, (t <= (m - k) / 2)%nat -> (k < m)%nat -> (forall j, used m k j -> Q (f j) (g j)) -> Q (gs f t k) (gs g t k).
Proof.
  intros Q0 QS t. induction t as [|t IH]; intros k Ht Hk HU; cbn [gs]; auto.
  destruct (lt_dec (m - k) 2). { rewrite div2_lo in Ht; lia. }
  replace (m - k)%nat with (m - (k + 2) + 2)%nat in Ht by lia. rewrite half_2 in Ht.
  apply QS; auto; try lia.
  - destruct (lt_dec (k + 2) m).
    + apply IH; try lia. intros j Hj. apply HU. apply used_next; auto.
    + rewrite div2_lo in Ht by lia. assert (t = O) as -> by lia. auto.
  - apply HU. apply used_1; lia.
Qed.
Lemma Gop_le m f g k : (3 <= m)%nat -> (k < m)%nat -> (forall j, used m k j -> f j <= g j) -> Gop m f k <= Gop m g k.
Proof.
  intros Hm Hk HU. assert (QS : forall k x y, x <= y -> (1 <= k)%nat -> f k <= g k -> 2 * INR k * f k + x <= 2 * INR k * g k + y).
  { intros i x y Hx _ Hy. pose proof (pos_INR i). pose proof (Rmult_le_compat_l (2 * INR i) _ _ ltac:(lra) Hy). lra. }
  unfold Gop. destruct (Nat.eqb_spec k 0) as [->|].
  - pose proof (gs_rel m f g Rle ltac:(lra) QS ((m - 2) / 2) 2 ltac:(lia) ltac:(lia)) as G. specialize (G ltac:(intros; apply HU; apply (used_next m 0); auto)).
    pose proof (HU 1%nat ltac:(apply (used_1 m 0); lia)). lra.
  - apply (gs_rel m f g Rle); auto. lra.
Qed.
Lemma gs_lin c f g t k : gs (fun j => c * f j + g j) t k = c * gs f t k + gs g t k.
Proof. revert k. induction t; intros; cbn [gs]. ring. rewrite IHt. ring. Qed.
Lemma Gop_lin m c f g k : Gop m (fun j => c * f j + g j) k = c * Gop m f k + Gop m g k.
Proof. unfold Gop. destruct (k =? 0); rewrite gs_lin; field. Qed.
Lemma gs_opp f t k : gs (fun j => - f j) t k = - gs f t k.
Proof. revert k. induction t; intros; cbn [gs]. ring. rewrite IHt. ring. Qed.
Lemma Gop_opp m f k : Gop m (fun j => - f j) k = - Gop m f k.
Proof. unfold Gop. destruct (k =? 0); rewrite gs_opp; field. Qed.
Lemma Gop_abs m f g k : (3 <= m)%nat -> (k < m)%nat -> (forall j, used m k j -> Rabs (f j) <= g j) -> Rabs (Gop m f k) <= Gop m g k.
Proof.
  intros Hm Hk HU. apply Rabs_le. split.
  - rewrite <- (Ropp_involutive (Gop m f k)). apply Ropp_le_contravar. rewrite <- Gop_opp. apply Gop_le; auto. intros j Hj. specialize (HU j Hj).
    pose proof (Rle_abs (- f j)). rewrite Rabs_Ropp in H. lra.
  - apply Gop_le; auto. intros j Hj. specialize (HU j Hj). pose proof (Rle_abs (f j)). lra.
Qed.
Lemma Gop_ext m f g k : (3 <= m)%nat -> (k < m)%nat -> (forall j, used m k j -> f j = g j) -> Gop m f k = Gop m g k.
Proof. intros. apply Rle_antisym; apply Gop_le; auto; intros j Hj; rewrite H1 by auto; lra. Qed.
Lemma gs_const c t k : 0 <= c -> gs (fun _ => c) t k <= 2 * INR t * INR (k + 2 * t) * c.
Proof.
  intros Hc. revert k. induction t; intros k; cbn [gs]. cbn. lra. specialize (IHt (k + 2)%nat).
  replace (k + 2 * S t)%nat with (k + 2 + 2 * t)%nat by lia. rewrite (S_INR t).
  assert (INR (k + 1) <= INR (k + 2 + 2 * t)) by (apply le_INR; lia). pose proof (pos_INR (k + 1)).
  assert (2 * INR (k + 1) * c <= 2 * INR (k + 2 + 2 * t) * c). { apply Rmult_le_compat_r; auto. lra. }
  replace (2 * (INR t + 1) * INR (k + 2 + 2 * t) * c) with (2 * INR t * INR (k + 2 + 2 * t) * c + 2 * INR (k + 2 + 2 * t) * c) by ring. lra.
Qed.
Lemma half_le x : (2 * (x / 2) <= x)%nat.
Proof. apply Nat.mul_div_le. lia. Qed.
Lemma Gop_const m c k : (3 <= m)%nat -> (k < m)%nat -> 0 <= c -> Gop m (fun _ => c) k <= INR m * INR m * c.
Proof.
  intros Hm Hk Hc. assert (B : forall i, (i < m)%nat -> (1 <= i)%nat -> gs (fun _ => c) ((m - i) / 2) i <= INR (m - 1) * INR m * c).
  { intros i Hi Hi1. eapply Rle_trans; [apply gs_const; auto|]. apply Rmult_le_compat_r; auto. pose proof (half_le (m - i)) as H. 
    replace (2 * INR ((m - i) / 2)) with (INR (2 * ((m - i) / 2))) by (rewrite mult_INR; cbn; ring). rewrite <- !mult_INR. apply le_INR.
    set (q := ((m - i) / 2)%nat) in *. nia. }
  assert (M1 : INR (m - 1) = INR m - 1) by (rewrite minus_INR by lia; cbn; ring).
  assert (M3 : 3 <= INR m). { apply le_INR in Hm. replace (INR 3) with 3 in Hm by (cbn; ring). auto. }
  assert (0 <= INR m * c) by (apply Rmult_le_pos; lra).
  unfold Gop. destruct (Nat.eqb_spec k 0).
  - specialize (B 2%nat ltac:(lia) ltac:(lia)). rewrite M1 in B.
    assert (3 * (INR m * c) <= INR m * (INR m * c)) by (apply Rmult_le_compat_r; auto). assert (3 * c <= INR m * c) by (apply Rmult_le_compat_r; auto). lra.
  - specialize (B k Hk ltac:(lia)). rewrite M1 in B. lra.
Qed.
Lemma Gop_pos m f k : (3 <= m)%nat -> (k < m)%nat -> (forall j, 0 <= f j) -> 0 <= Gop m f k.
Proof.
  intros Hm Hk Hf. replace 0 with (Gop m (fun _ => 0) k). apply Gop_le; auto.
  assert (Z : forall t i, gs (fun _ => 0) t i = 0). { induction t; intros; cbn [gs]; auto. rewrite IHt. ring. }
  unfold Gop. destruct (k =? 0); rewrite Z; lra.
Qed.

(** ** Powers of 1 + u *)
Lemma pow_1u u m : 0 <= u -> INR m * u <= 1 -> (1 + u) ^ m <= 1 + INR m * u * (1 + INR m * u).
Proof.
  intros Hu. induction m as [|m IH]; intros Hm. cbn. lra. rewrite S_INR in *. specialize (IH ltac:(lra)). cbn [pow].
  pose proof (pos_INR m). set (x := INR m * u) in *.
  assert ((1 + u) * (1 + u) ^ m <= (1 + u) * (1 + x * (1 + x))) by (apply Rmult_le_compat_l; lra).
  replace ((INR m + 1) * u) with (x + u) in * by (unfold x; ring). assert (0 <= x) by (unfold x; apply Rmult_le_pos; auto).
  assert (x * (u * x) <= 1 * (u * x)). { apply Rmult_le_compat_r. apply Rmult_le_pos; auto. lra. }
  pose proof (Rmult_le_pos u u Hu Hu). pose proof (Rmult_le_pos u x Hu H1).
  replace ((1 + u) * (1 + x * (1 + x))) with (1 + x + x * x + u + u * x + x * (u * x)) in H0 by ring.
  lra.
Qed.
Lemma pow_2u u m : 0 <= u -> INR m * u <= 1 -> (1 + u) ^ m - 1 <= 2 * INR m * u /\ (1 + u) ^ m <= 3.
Proof.
  intros Hu Hm. pose proof (pow_1u u m Hu Hm). pose proof (pos_INR m). assert (0 <= INR m * u) by (apply Rmult_le_pos; auto).
  assert ((INR m * u) * (INR m * u) <= 1 * (INR m * u)) by (apply Rmult_le_compat_r; auto). lra.
Qed.

(** What the derivative uses of the element type: each coordinate (the number
    itself, the real or the imaginary part) of a sum, of a multiple and of a half
    is the correctly rounded one. *)
Record grad_elem {A} {N : Num A} {T} {V : Vec A T} (fin : A -> Prop) (val : A -> R) (rnd : R -> R) {I : Type} (cp : I -> T -> A) : Prop := {
  ge_0 : forall p, val (cp p v0) = 0;
  ge_add : forall p x y, fin (cp p (vadd x y)) -> fin (cp p x) /\ fin (cp p y) /\ val (cp p (vadd x y)) = rnd (val (cp p x) + val (cp p y));
  ge_mul : forall p x a, fin (cp p (vmul x a)) -> fin (cp p x) /\ val (cp p (vmul x a)) = rnd (val (cp p x) * val a);
  ge_half : forall p x, fin (cp p (vdiv x (nadd n1 n1))) -> fin (cp p x) /\ val (cp p (vdiv x (nadd n1 n1))) = rnd (val (cp p x) / 2)
}.
Definition gX {A T I} {N : Num A} {V : Vec A T} (val : A -> R) (cp : I -> T -> A) (p : I) (x : list T) (j : nat) : R := val (cp p x.[j]).

(** ** One differentiation *)
Section Fl.
Context {A : Type} {N : Num A} {u eta : R} {rnd : R -> R} {zmax : Z} {inr : R -> Prop} {fin : A -> Prop} {val : A -> R}
  (FA : float_arith N u eta rnd zmax inr fin val) {T : Type} {V : Vec A T} {I : Type} {cp : I -> T -> A} (GE : grad_elem fin val rnd cp).
Let RN := fa_rnd _ _ _ _ _ _ _ _ FA.
Let FF := fa_float _ _ _ _ _ _ _ _ FA.
Notation Xv := (gX val cp).

Lemma two_ok : fin (nadd n1 n1) /\ val (nadd n1 n1) = 2.
Proof.
  destruct (fa_1 _ _ _ _ _ _ _ _ FA) as [F E]. pose proof (fa_zmax _ _ _ _ _ _ _ _ FA) as Z.
  assert (R2 : rnd 2 = 2). { destruct (fa_int _ _ _ _ _ _ _ _ FA 2) as [F2 E2]. cbn; lia. rewrite <- E2. auto. }
  assert (E2 : val n1 + val n1 = 2) by (rewrite E; ring).
  assert (G : fin (nadd n1 n1)). { apply (fa_addF _ _ _ _ _ _ _ _ FA); auto. rewrite E2, R2. apply (fa_inrz _ _ _ _ _ _ _ _ FA 2). cbn; lia. }
  split; auto. destruct (fa_add _ _ _ _ _ _ _ _ FA _ _ G) as (_ & _ & ->). rewrite E2. auto.
Qed.
Lemma fac_ok k : (2 * Z.of_nat k <= zmax)%Z -> fin (nmul (nadd n1 n1) (nofN k)) /\ val (nmul (nadd n1 n1) (nofN k)) = 2 * INR k.
Proof.
  intros Hk. destruct two_ok as [F2 E2]. destruct (fa_int _ _ _ _ _ _ _ _ FA (Z.of_nat k)) as [Fk Ek]. lia.
  destruct (fa_int _ _ _ _ _ _ _ _ FA (2 * Z.of_nat k)) as [Fp Ep]. lia.
  assert (EE : val (nadd n1 n1) * val (nofN k) = IZR (2 * Z.of_nat k)). { unfold nofN. rewrite E2, Ek, mult_IZR. auto. }
  assert (RP : rnd (IZR (2 * Z.of_nat k)) = IZR (2 * Z.of_nat k)). { rewrite <- Ep. auto. }
  assert (G : fin (nmul (nadd n1 n1) (nofN k))). { apply (fa_mulF _ _ _ _ _ _ _ _ FA); auto. rewrite EE, RP. apply (fa_inrz _ _ _ _ _ _ _ _ FA). lia. }
  split; auto. destruct (fa_mul _ _ _ _ _ _ _ _ FA _ _ G) as (_ & _ & ->). rewrite EE, RP, mult_IZR, INR_IZR_INZ. auto.
Qed.

Lemma term_err p (a : list T) k : (2 * Z.of_nat (k + 1) <= zmax)%Z -> fin (cp p (grad_term a k)) ->
  fin (cp p a.[k + 1]) /\ Rabs (val (cp p (grad_term a k)) - 2 * INR (k + 1) * Xv p a (k + 1)) <= u * (2 * INR (k + 1) * Rabs (Xv p a (k + 1))) + eta.
Proof.
  intros Hk F. unfold grad_term in *. destruct (ge_mul _ _ _ _ GE _ _ _ F) as (Fa & ->). split; auto.
  rewrite (proj2 (fac_ok (k + 1) Hk)). change (val (cp p a.[k + 1])) with (Xv p a (k + 1)).
  replace (2 * INR (k + 1) * Xv p a (k + 1)) with (Xv p a (k + 1) * (2 * INR (k + 1))) by ring.
  eapply Rle_trans; [apply (rn_err _ _ _ RN)|]. rewrite Rabs_mult, (Rabs_pos_eq (2 * INR (k + 1))). lra. pose proof (pos_INR (k + 1)). lra.
Qed.

Definition eb (q : nat) (s : R) : R := ((1 + u) ^ q - 1) * s + INR q * (1 + u) ^ q * eta.
Lemma gs_abs_le a t k : Rabs (gs a t k) <= gs (fun j => Rabs (a j)) t k.
Proof.
  revert k. induction t; intros; cbn [gs]. rewrite Rabs_R0. lra. eapply Rle_trans; [apply Rabs_triang|]. specialize (IHt (k + 2)%nat).
  rewrite Rabs_mult, (Rabs_pos_eq (2 * INR (k + 1))). lra. pose proof (pos_INR (k + 1)). lra.
Qed.
Lemma pow_ge1 q : 1 <= (1 + u) ^ q.
Proof. pose proof (rn_u _ _ _ RN) as [U _]. apply pow_R1_Rle. lra. Qed.
Lemma pow_up q r : (q <= r)%nat -> (1 + u) ^ q <= (1 + u) ^ r.
Proof. intros. pose proof (rn_u _ _ _ RN) as [U _]. apply Rle_pow; auto. lra. Qed.

Lemma sum_step x T0 y B' e' S' q : rnd x = x -> rnd y = y -> Rabs (x - T0) <= u * Rabs T0 + eta -> Rabs (y - B') <= e' -> Rabs B' <= S' -> 0 <= S' -> e' <= eb q S' ->
  Rabs (rnd (x + y) - (T0 + B')) <= eb (q + 2) (Rabs T0 + S').
Proof.
  intros Rx Ry H1 H2 H3 S0 H4. pose proof (rn_u _ _ _ RN) as [U _]. pose proof (rn_eta _ _ _ RN) as E0.
  pose proof (rn_sum _ _ _ RN x y Rx Ry) as H5.
  assert (H6 : Rabs (x + y) <= Rabs T0 + S' + (u * Rabs T0 + eta) + e').
  { replace (x + y) with ((T0 + B') + ((x - T0) + (y - B'))) by ring. eapply Rle_trans; [apply Rabs_triang|].
    pose proof (Rabs_triang T0 B'). pose proof (Rabs_triang (x - T0) (y - B')). lra. }
  replace (rnd (x + y) - (T0 + B')) with ((rnd (x + y) - (x + y)) + ((x - T0) + (y - B'))) by ring.
  eapply Rle_trans; [apply Rabs_triang|]. pose proof (Rabs_triang (x - T0) (y - B')) as H7.
  pose proof (Rmult_le_compat_l u _ _ U H6) as H8.
  assert (H9 : (1 + u) * e' <= (1 + u) * eb q S') by (apply Rmult_le_compat_l; lra).
  unfold eb in *. set (P := (1 + u) ^ q) in *. assert (P1 : 1 <= P) by apply pow_ge1.
  assert (EP : (1 + u) ^ (q + 2) = P * (1 + u) * (1 + u)) by (rewrite pow_add; fold P; cbn; ring). rewrite EP, plus_INR. replace (INR 2) with 2 by (cbn; ring).
  pose proof (Rabs_pos T0) as T1. pose proof (pos_INR q) as Q0.
  assert (G1 : 0 <= (P * (1 + u) * (1 + u) - (1 + u) * (1 + u)) * Rabs T0). { apply Rmult_le_pos; auto. replace (P * (1 + u) * (1 + u) - (1 + u) * (1 + u)) with ((P - 1) * ((1 + u) * (1 + u))) by ring. apply Rmult_le_pos. lra. apply Rmult_le_pos; lra. }
  assert (G2 : 0 <= P * (1 + u) * u * S'). { apply Rmult_le_pos; auto. apply Rmult_le_pos; auto. apply Rmult_le_pos; lra. }
  assert (G3 : 0 <= INR q * (P * (1 + u) * u) * eta). { apply Rmult_le_pos; auto. apply Rmult_le_pos; auto. apply Rmult_le_pos; auto. apply Rmult_le_pos; lra. }
  assert (G4 : (1 + u) * eta <= P * (1 + u) * (1 + u) * eta). { apply Rmult_le_compat_r; auto. pose proof (Rmult_le_pos (P - 1) (1 + u) ltac:(lra) ltac:(lra)). pose proof (Rmult_le_pos (P * (1 + u)) u ltac:(apply Rmult_le_pos; lra) U). lra. }
  assert (G5 : 0 <= P * (1 + u) * (1 + u) * eta). { pose proof (Rmult_le_pos (1 + u) eta ltac:(lra) E0). lra. }
  lra.
Qed.

Lemma eb_up q r s : (q <= r)%nat -> 0 <= s -> eb q s <= eb r s.
Proof.
  intros H Hs. unfold eb. pose proof (pow_up q r H) as P. pose proof (pow_ge1 q). apply le_INR in H. pose proof (pos_INR q). pose proof (rn_eta _ _ _ RN) as E0.
  assert (((1 + u) ^ q - 1) * s <= ((1 + u) ^ r - 1) * s) by (apply Rmult_le_compat_r; lra).
  assert (INR q * (1 + u) ^ q * eta <= INR r * (1 + u) ^ r * eta). { apply Rmult_le_compat_r; auto. apply Rmult_le_compat; lra. } lra.
Qed.

Lemma grad_inner m (a b : list T) p : (3 <= m)%nat -> (2 * Z.of_nat m <= zmax)%Z -> grad_steps m a b ->
  forall k, (1 <= k < m)%nat -> fin (cp p b.[k]) ->
  (forall j, used m k j -> fin (cp p a.[j])) /\ Rabs (Xv p b k - Gop m (Xv p a) k) <= eb (m - k) (Gop m (fun j => Rabs (Xv p a j)) k).
Proof.
  intros Hm Hz (Lb & B1 & B2 & B3 & B0) k. pose proof (rn_u _ _ _ RN) as [U _]. pose proof (rn_eta _ _ _ RN) as E0.
  remember (m - k)%nat as q eqn:Eq. revert k Eq. induction q as [q IH] using lt_wf_ind. intros k Eq Hk F.
  destruct (Nat.eq_dec k (m - 1)) as [->|].
  { split. intros j [H _]. lia. unfold gX at 1. rewrite B1, (ge_0 _ _ _ _ GE).
    unfold Gop. destruct (Nat.eqb_spec (m - 1) 0); [lia|]. rewrite div2_lo by lia. cbn [gs]. rewrite Rminus_0_r, Rabs_R0. unfold eb. rewrite Rmult_0_r, Rplus_0_l.
    pose proof (pow_ge1 q). apply Rmult_le_pos; auto. apply Rmult_le_pos. apply pos_INR. lra. }
  assert (QE : Gop m (Xv p a) k = 2 * INR (k + 1) * Xv p a (k + 1) + gs (Xv p a) ((m - (k + 2)) / 2) (k + 2) /\
    Gop m (fun j => Rabs (Xv p a j)) k = 2 * INR (k + 1) * Rabs (Xv p a (k + 1)) + gs (fun j => Rabs (Xv p a j)) ((m - (k + 2)) / 2) (k + 2)).
  { unfold Gop. destruct (Nat.eqb_spec k 0); [lia|]. replace (m - k)%nat with (m - (k + 2) + 2)%nat by lia. rewrite half_2. cbn [gs]. auto. }
  destruct QE as [Q1 Q2]. rewrite Q1, Q2.
  assert (TA : Rabs (2 * INR (k + 1) * Xv p a (k + 1)) = 2 * INR (k + 1) * Rabs (Xv p a (k + 1))).
  { rewrite Rabs_mult, (Rabs_pos_eq (2 * INR (k + 1))); auto. pose proof (pos_INR (k + 1)). lra. }
  destruct (Nat.eq_dec k (m - 2)) as [E|].
  - rewrite <- E in B2. unfold gX at 1. rewrite B2 in F |- *. destruct (term_err p a k ltac:(lia) F) as [Fa He]. split.
    + intros j [H1 H2]. assert (j = k + 1)%nat as -> by lia. auto.
    + rewrite div2_lo by lia. cbn [gs]. rewrite !Rplus_0_r. eapply Rle_trans; [exact He|]. rewrite <- TA. set (t := Rabs _). assert (T0 : 0 <= t) by apply Rabs_pos.
      eapply Rle_trans; [|apply (eb_up 1 q); auto; lia]. unfold eb. cbn [pow INR]. replace ((1 + u) * 1) with (1 + u) by ring. pose proof (Rmult_le_pos u eta U E0). lra.
  - rewrite B3 in F by lia. unfold gX at 1. rewrite B3 by lia. destruct (ge_add _ _ _ _ GE _ _ _ F) as (F1 & F2 & ->).
    destruct (term_err p a k ltac:(lia) F1) as [Fa He]. destruct (IH (m - (k + 2))%nat ltac:(lia) (k + 2)%nat eq_refl ltac:(lia) F2) as [Fu Hi].
    assert (GQ : Gop m (Xv p a) (k + 2) = gs (Xv p a) ((m - (k + 2)) / 2) (k + 2) /\ Gop m (fun j => Rabs (Xv p a j)) (k + 2) = gs (fun j => Rabs (Xv p a j)) ((m - (k + 2)) / 2) (k + 2)).
    { unfold Gop. destruct (Nat.eqb_spec (k + 2) 0); [lia|]. auto. }
    destruct GQ as [G1 G2]. rewrite G1, G2 in Hi.
    split.
    + intros j Hj. destruct (Nat.eq_dec j (k + 1)) as [->|]; auto. apply Fu. destruct Hj as [H1 H2]. assert (j <> k + 2)%nat.
      { intros ->. replace (k + 2 - k)%nat with 2%nat in H2 by lia. discriminate. }
      split. lia. replace (j - k)%nat with (j - (k + 2) + 2)%nat in H2 by lia. rewrite Nat.odd_add in H2. cbn in H2. destruct (Nat.odd (j - (k + 2))); auto.
    + rewrite <- TA. replace q with (m - (k + 2) + 2)%nat by lia. rewrite <- TA in He.
      eapply sum_step; [| |exact He|exact Hi| | |]; auto.
      * apply gs_abs_le.
      * eapply Rle_trans; [apply Rabs_pos|apply gs_abs_le].
      * lra.
Qed.

Lemma grad_once_err m (a b : list T) p : (3 <= m)%nat -> (2 * Z.of_nat m <= zmax)%Z -> INR m * u <= 1 -> grad_steps m a b ->
  forall k, (k < m)%nat -> fin (cp p b.[k]) ->
  (forall j, used m k j -> fin (cp p a.[j])) /\
  Rabs (Xv p b k - Gop m (Xv p a) k) <= 2 * INR m * u * Gop m (fun j => Rabs (Xv p a j)) k + 3 * INR m * eta.
Proof.
  intros Hm Hz Hu HS k Hk F. pose proof (rn_u _ _ _ RN) as [U _]. pose proof (rn_eta _ _ _ RN) as E0.
  enough (H : (forall j, used m k j -> fin (cp p a.[j])) /\ Rabs (Xv p b k - Gop m (Xv p a) k) <= eb m (Gop m (fun j => Rabs (Xv p a j)) k)).
  { destruct H as [H1 H2]. split; auto. eapply Rle_trans; [exact H2|]. unfold eb. destruct (pow_2u u m U Hu) as [P1 P2].
    pose proof (Gop_pos m (fun j => Rabs (Xv p a j)) k Hm Hk ltac:(intros; apply Rabs_pos)) as G0.
    apply Rplus_le_compat. apply Rmult_le_compat_r; auto. apply Rmult_le_compat_r; auto.
    rewrite (Rmult_comm 3). apply Rmult_le_compat_l; auto. apply pos_INR. }
  pose proof (Gop_pos m (fun j => Rabs (Xv p a j)) k Hm Hk ltac:(intros; apply Rabs_pos)) as G0.
  destruct (Nat.eq_dec k 0) as [->|].
  2: { destruct (grad_inner m a b p Hm Hz HS k ltac:(lia) F) as [H1 H2]. split; auto. eapply Rle_trans; [exact H2|]. apply eb_up; auto. lia. }
  pose proof HS as (Lb & B1 & B2 & B3 & B0). rewrite B0 in F. unfold gX at 1. rewrite B0.
  destruct (ge_add _ _ _ _ GE _ _ _ F) as (F1 & F2 & ->). destruct (ge_half _ _ _ _ GE _ _ F2) as [Fb ->].
  destruct (grad_inner m a b p Hm Hz HS 2 ltac:(lia) Fb) as [H1 H2]. split.
  { intros j Hj. destruct (Nat.eq_dec j 1) as [->|]; auto. apply H1. destruct Hj as [J1 J2]. assert (j <> 2)%nat by (intros ->; discriminate).
    split. lia. replace (j - 0)%nat with (j - 2 + 2)%nat in J2 by lia. rewrite Nat.odd_add in J2. cbn in J2. destruct (Nat.odd (j - 2)); auto. }
  change (val (cp p a.[1])) with (Xv p a 1). change (val (cp p b.[2])) with (Xv p b 2).
  assert (GQ : forall f, Gop m f 0 = f 1%nat + Gop m f 2 / 2). { intros f. unfold Gop. reflexivity. }
  rewrite !GQ. rewrite GQ in G0. set (B' := Gop m (Xv p a) 2) in *. set (S' := Gop m (fun j => Rabs (Xv p a j)) 2) in *.
  assert (BS : Rabs B' <= S'). { apply Gop_abs; auto. intros; apply Rle_refl. }
  assert (S0 : 0 <= S'). { pose proof (Rabs_pos B'). lra. }
  set (y := Xv p b 2) in *. set (h := rnd (y / 2)).
  assert (HH : Rabs (h - B' / 2) <= (1 + u) * eb (m - 2) S' / 2 + u * S' / 2 + eta).
  { replace (h - B' / 2) with ((h - y / 2) + (y - B') / 2) by field. eapply Rle_trans; [apply Rabs_triang|].
    pose proof (rn_err _ _ _ RN (y / 2)) as R1. fold h in R1. 
    assert (H2' : forall x, Rabs (x / 2) = Rabs x / 2). { intros x. unfold Rdiv. rewrite Rabs_mult, (Rabs_pos_eq (/ 2)); lra. } rewrite !H2' in *.
    assert (Y : Rabs y <= S' + eb (m - 2) S'). { replace y with (B' + (y - B')) by ring. eapply Rle_trans; [apply Rabs_triang|]. lra. }
    assert (u * Rabs y <= u * (S' + eb (m - 2) S')) by (apply Rmult_le_compat_l; auto). lra. }
  pose proof (rn_sum _ _ _ RN (Xv p a 1) h (FF _ F1) (rn_idem _ _ _ RN _)) as H5.
  set (e := (1 + u) * eb (m - 2) S' / 2 + u * S' / 2 + eta) in *.
  assert (H6 : Rabs (Xv p a 1 + h) <= Rabs (Xv p a 1) + S' / 2 + e).
  { replace (Xv p a 1 + h) with ((Xv p a 1 + B' / 2) + (h - B' / 2)) by ring. eapply Rle_trans; [apply Rabs_triang|].
    pose proof (Rabs_triang (Xv p a 1) (B' / 2)) as HT.
    assert (HB : Rabs (B' / 2) = Rabs B' / 2). { unfold Rdiv. rewrite Rabs_mult, (Rabs_pos_eq (/ 2)); lra. } lra. }
  replace (rnd (Xv p a 1 + h) - (Xv p a 1 + B' / 2)) with ((rnd (Xv p a 1 + h) - (Xv p a 1 + h)) + (h - B' / 2)) by ring.
  eapply Rle_trans; [apply Rabs_triang|]. pose proof (Rmult_le_compat_l u _ _ U H6) as H8. unfold e, eb in *.
  set (P := (1 + u) ^ (m - 2)) in *. assert (P1 : 1 <= P) by apply pow_ge1.
  assert (EP : (1 + u) ^ m = P * (1 + u) * (1 + u)). { replace m with (m - 2 + 2)%nat at 1 by lia. rewrite pow_add; fold P; cbn; ring. }
  rewrite EP. assert (EM : INR m = INR (m - 2) + 2). { rewrite minus_INR by lia. cbn. ring. } rewrite EM. pose proof (pos_INR (m - 2)) as Q0. set (q := INR (m - 2)) in *.
  pose proof (Rabs_pos (Xv p a 1)) as T1. set (t := Rabs (Xv p a 1)) in *.
  assert (Z1 : 1 + u <= P * (1 + u) * (1 + u)).
  { pose proof (Rmult_le_pos (P - 1) (1 + u) ltac:(lra) ltac:(lra)). pose proof (Rmult_le_pos (P * (1 + u)) u ltac:(apply Rmult_le_pos; lra) U). lra. }
  assert (G1 : (1 + u - 1) * t <= (P * (1 + u) * (1 + u) - 1) * t) by (apply Rmult_le_compat_r; lra).
  assert (G3 : 0 <= q * (P * (1 + u) * (1 + u)) * eta). { apply Rmult_le_pos; auto. apply Rmult_le_pos; auto. lra. }
  assert (G4 : (1 + u) * eta <= P * (1 + u) * (1 + u) * eta) by (apply Rmult_le_compat_r; auto).
  assert (G5 : 0 <= P * (1 + u) * (1 + u) * eta). { pose proof (Rmult_le_pos (1 + u) eta ltac:(lra) E0). lra. }
  lra.
Qed.
End Fl.

(** Both element types of the crate, with the scalar operations of the model. *)
Lemma vecC_elem {A} {N : Num A} {u eta : R} {rnd : R -> R} {zmax : Z} {inr : R -> Prop} {fin : A -> Prop} {val : A -> R}
  (FA : float_arith N u eta rnd zmax inr fin val) {T : Type} {V : Vec A T} (VC : VecC N T V) : grad_elem fin val rnd (cp (VecC := VC)).
Proof.
  constructor; intros p.
  - rewrite cp_0. apply (fa_0 _ _ _ _ _ _ _ _ FA).
  - intros x y F. rewrite cp_add in *. apply (fa_add _ _ _ _ _ _ _ _ FA); auto.
  - intros x a F. rewrite cp_mul in *. destruct (fa_mul _ _ _ _ _ _ _ _ FA _ _ F) as (F1 & _ & E). auto.
  - intros x F. rewrite cp_div in *. destruct (two_ok FA) as [F2 E2]. destruct (fa_div _ _ _ _ _ _ _ _ FA _ _ F F2) as [F1 E]. rewrite E2; lra. rewrite E2 in E. auto.
Qed.

(** Complex elements with the operations num_complex performs in
    ortho.rs:404-421: there [two] and [from_usize(i+1)] are complex numbers with
    imaginary part 0, and [/ two] is num_complex's division
    ((a + bi)/(c + di) = ((ac + bd)/(c^2 + d^2), (bc - ad)/(c^2 + d^2))). *)
Definition cmulc {A} {N : Num A} (x y : cplx A) : cplx A :=
  (nsub (nmul (fst x) (fst y)) (nmul (snd x) (snd y)), nadd (nmul (fst x) (snd y)) (nmul (snd x) (fst y))).
Definition cdivc {A} {N : Num A} (x y : cplx A) : cplx A :=
  let ns := nadd (nmul (fst y) (fst y)) (nmul (snd y) (snd y)) in
  (ndiv (nadd (nmul (fst x) (fst y)) (nmul (snd x) (snd y))) ns, ndiv (nsub (nmul (snd x) (fst y)) (nmul (fst x) (snd y))) ns).
Definition vec_num_complex {A} {N : Num A} : Vec A (cplx A) :=
  {| v0 := (n0, n0); vadd x y := (nadd (fst x) (fst y), nadd (snd x) (snd y)); vsub x y := (nsub (fst x) (fst y), nsub (snd x) (snd y));
     vmul x a := cmulc (a, n0) x; vdiv x a := cdivc x (a, n0) |}.
Definition re_im {A} (p : bool) (x : cplx A) : A := if p then fst x else snd x.
Lemma num_complex_elem {A} {N : Num A} {u eta : R} {rnd : R -> R} {zmax : Z} {inr : R -> Prop} {fin : A -> Prop} {val : A -> R}
  (FA : float_arith N u eta rnd zmax inr fin val) : (forall x, rnd x = x -> rnd (2 * x) = 2 * x) ->
  grad_elem (V := vec_num_complex) fin val rnd re_im.
Proof.
  intros DBL. pose proof (fa_rnd _ _ _ _ _ _ _ _ FA) as RN. pose proof (fa_float _ _ _ _ _ _ _ _ FA) as FF.
  destruct (fa_0 _ _ _ _ _ _ _ _ FA) as [F0 E0]. destruct (two_ok FA) as [F2 E2].
  assert (M0 : forall x, fin (nmul n0 x) -> fin x /\ val (nmul n0 x) = 0).
  { intros x F. destruct (fa_mul _ _ _ _ _ _ _ _ FA _ _ F) as (_ & Fx & ->). rewrite E0, Rmult_0_l, (rnd_0 RN). auto. }
  assert (M0' : forall x, fin (nmul x n0) -> fin x /\ val (nmul x n0) = 0).
  { intros x F. destruct (fa_mul _ _ _ _ _ _ _ _ FA _ _ F) as (Fx & _ & ->). rewrite E0, Rmult_0_r, (rnd_0 RN). auto. }
  constructor; intros p.
  - destruct p; auto.
  - intros x y F. destruct p; apply (fa_add _ _ _ _ _ _ _ _ FA); auto.
  - intros x a F. cbn [vmul vec_num_complex] in *. unfold cmulc in *. destruct p; cbn [re_im fst snd] in *.
    + destruct (fa_sub _ _ _ _ _ _ _ _ FA _ _ F) as (G1 & G2 & ->). destruct (M0 _ G2) as [_ ->]. destruct (fa_mul _ _ _ _ _ _ _ _ FA _ _ G1) as (_ & G3 & ->).
      split; auto. rewrite Rminus_0_r, (rn_idem _ _ _ RN). f_equal. ring.
    + destruct (fa_add _ _ _ _ _ _ _ _ FA _ _ F) as (G1 & G2 & ->). destruct (M0 _ G2) as [_ ->]. destruct (fa_mul _ _ _ _ _ _ _ _ FA _ _ G1) as (_ & G3 & ->).
      split; auto. rewrite Rplus_0_r, (rn_idem _ _ _ RN). f_equal. ring.
  - assert (I4 : (Z.abs 4 <= zmax)%Z) by (pose proof (fa_zmax _ _ _ _ _ _ _ _ FA); cbn; lia).
    assert (R4 : rnd 4 = 4). { destruct (fa_int _ _ _ _ _ _ _ _ FA 4 I4) as [F4 E4]. rewrite <- E4. auto. }
    assert (I4' : inr 4) by (apply (fa_inrz _ _ _ _ _ _ _ _ FA 4 I4)).
    assert (P1 : fin (nmul (nadd n1 n1) (nadd n1 n1)) /\ val (nmul (nadd n1 n1) (nadd n1 n1)) = 4).
    { assert (E : val (nadd n1 n1) * val (nadd n1 n1) = 4) by (rewrite E2; ring).
      assert (F : fin (nmul (nadd n1 n1) (nadd n1 n1))) by (apply (fa_mulF _ _ _ _ _ _ _ _ FA); auto; rewrite E, R4; auto).
      split; auto. destruct (fa_mul _ _ _ _ _ _ _ _ FA _ _ F) as (_ & _ & ->). rewrite E. auto. }
    assert (I0 : inr 0). { apply (fa_inr _ _ _ _ _ _ _ _ FA) with 4; auto. rewrite Rabs_R0. apply Rabs_pos. }
    assert (P2 : fin (nmul (n0 : A) n0)). { apply (fa_mulF _ _ _ _ _ _ _ _ FA); auto. rewrite E0, Rmult_0_l, (rnd_0 RN). auto. }
    destruct (M0 _ P2) as [_ P3]. destruct P1 as [P1 P4].
    assert (P5 : val (nmul (nadd n1 n1) (nadd n1 n1)) + val (nmul n0 n0) = 4) by (rewrite P3, P4; ring).
    assert (P6 : fin (nadd (nmul (nadd n1 n1) (nadd n1 n1)) (nmul n0 n0))).
    { apply (fa_addF _ _ _ _ _ _ _ _ FA); auto. rewrite P5, R4. auto. }
    assert (P7 : val (nadd (nmul (nadd n1 n1) (nadd n1 n1)) (nmul n0 n0)) = 4). { destruct (fa_add _ _ _ _ _ _ _ _ FA _ _ P6) as (_ & _ & ->). rewrite P5. auto. }
    assert (HH : forall x, fin x -> rnd (rnd (rnd (val x * 2)) / 4) = rnd (val x / 2)).
    { intros x Fx. rewrite (rn_idem _ _ _ RN). rewrite (Rmult_comm (val x)), DBL by auto. f_equal. field. }
    intros x F. cbn [vdiv vec_num_complex] in *. unfold cdivc in *. cbn [fst snd] in *. destruct p; cbn [re_im fst snd] in *.
    + destruct (fa_div _ _ _ _ _ _ _ _ FA _ _ F P6 ltac:(rewrite P7; lra)) as [G ->]. destruct (fa_add _ _ _ _ _ _ _ _ FA _ _ G) as (G1 & G2 & ->).
      destruct (M0' _ G2) as [_ ->]. destruct (fa_mul _ _ _ _ _ _ _ _ FA _ _ G1) as (G3 & _ & ->). split; auto. rewrite P7, Rplus_0_r, E2. auto.
    + destruct (fa_div _ _ _ _ _ _ _ _ FA _ _ F P6 ltac:(rewrite P7; lra)) as [G ->]. destruct (fa_sub _ _ _ _ _ _ _ _ FA _ _ G) as (G1 & G2 & ->).
      destruct (M0' _ G2) as [_ ->]. destruct (fa_mul _ _ _ _ _ _ _ _ FA _ _ G1) as (G3 & _ & ->). split; auto. rewrite P7, Rminus_0_r, E2. auto.
Qed.

(** ** Any order *)
Fixpoint Gpow (m d : nat) (a : nat -> R) : nat -> R := match d with O => a | S d => Gop m (Gpow m d a) end.
Lemma Gpow_pos m d f k : (3 <= m)%nat -> (forall j, 0 <= f j) -> (k < m)%nat -> 0 <= Gpow m d f k.
Proof.
  intros Hm Hf. revert k. induction d; intros k Hk; cbn [Gpow]; auto.
  eapply Rle_trans. 2: { apply (Gop_le m (fun _ => 0)); auto. intros j [Hj _]. apply IHd. lia. }
  apply Gop_pos; auto. intros; lra.
Qed.
Lemma Gpow_abs m d f k : (3 <= m)%nat -> (k < m)%nat -> Rabs (Gpow m d f k) <= Gpow m d (fun j => Rabs (f j)) k.
Proof.
  intros Hm. revert k. induction d; intros k Hk; cbn [Gpow]. lra. apply Gop_abs; auto. intros j [Hj _]. apply IHd. lia.
Qed.
Lemma range_S d : range 0 (S d) = range 0 d ++ [d].
Proof. unfold range. rewrite !Nat.sub_0_r, seq_S. reflexivity. Qed.

Section Any.
Context {A : Type} {N : Num A} {T : Type} {V : Vec A T}.
Lemma cheb_gradient_S c (a o : list T) d : cheb_gradient c a o (S d) = let* b := cheb_gradient c a o d in grad_once (c_m c) b.
Proof.
  unfold cheb_gradient. destruct (length o =? c_m c); cbn [assertb bind]; auto. rewrite range_S, for_each_app.
  destruct (for_each (range 0 d) _ _); cbn [bind for_each]; auto. destruct (grad_once (c_m c) a0); auto.
Qed.
Lemma cheb_gradient_0 c (a o : list T) : length a = c_m c -> length o = c_m c -> cheb_gradient c a o 0 = Ok a.
Proof. intros La Lo. unfold cheb_gradient. rewrite Lo, Nat.eqb_refl. cbn. rewrite zip_write_full by lia. auto. Qed.
End Any.

Section Fl.
Context {A : Type} {N : Num A} {u eta : R} {rnd : R -> R} {zmax : Z} {inr : R -> Prop} {fin : A -> Prop} {val : A -> R}
  (FA : float_arith N u eta rnd zmax inr fin val) {T : Type} {V : Vec A T} {I : Type} {cp : I -> T -> A} (GE : grad_elem fin val rnd cp).
Notation Xv := (gX val cp).
Definition grad_eta (m d : nat) : R := INR d * ((1 + 2 * INR m * u) * (INR m * INR m)) ^ d * (3 * INR m * eta).
Lemma cheb_gradient_err n (a o b : list T) d : (3 <= n)%nat -> (2 * Z.of_nat n <= zmax)%Z -> INR n * u <= 1 ->
  length a = n -> length o = n -> cheb_gradient (mk_cheb n n) a o d = Ok b ->
  length b = n /\ forall p k, (k < n)%nat -> fin (cp p b.[k]) ->
  Rabs (Xv p b k - Gpow n d (Xv p a) k) <= ((1 + 2 * INR n * u) ^ d - 1) * Gpow n d (fun j => Rabs (Xv p a j)) k + grad_eta n d.
Proof.
  intros Hn Hz Hu La Lo. revert b. pose proof (rn_u _ _ _ (fa_rnd _ _ _ _ _ _ _ _ FA)) as [U _]. pose proof (rn_eta _ _ _ (fa_rnd _ _ _ _ _ _ _ _ FA)) as E0.
  assert (N3 : 3 <= INR n). { apply le_INR in Hn. replace (INR 3) with 3 in Hn by (cbn; ring). auto. }
  induction d as [|d IH]; intros b E.
  - rewrite cheb_gradient_0 in E by auto. injection E as <-. split; auto. intros p k Hk F. cbn [Gpow]. rewrite Rminus_eq_0, Rabs_R0. unfold grad_eta. cbn. lra.
  - rewrite cheb_gradient_S in E. cbn [c_m] in E. destruct (cheb_gradient (mk_cheb n n) a o d) as [b'| |]; try discriminate. cbn [bind] in E.
    destruct (IH b' eq_refl) as [Lb' HB]. clear IH. pose proof (grad_once_steps n b' Hn Lb') as W. rewrite E in W. cbn [wp] in W.
    split. apply W. intros p k Hk F. destruct (grad_once_err FA GE n b' b p Hn Hz Hu W k Hk F) as [Fj HE].
    set (g := 2 * INR n * u) in *. assert (G0 : 0 <= g) by (unfold g; apply Rmult_le_pos; lra).
    set (P := (1 + g) ^ d) in *. set (S := Gpow n d (fun j => Rabs (Xv p a j))) in *. set (B := Gpow n d (Xv p a)) in *.
    assert (Sp : forall j, (j < n)%nat -> 0 <= S j). { intros j Hj. apply Gpow_pos; auto. intros; apply Rabs_pos. }
    assert (P1 : 1 <= P) by (apply pow_R1_Rle; lra).
    assert (BS : forall j, (j < n)%nat -> Rabs (B j) <= S j).
    { intros j Hj. apply Gpow_abs; auto. }
    set (f := grad_eta n d) in *.
    assert (f0 : 0 <= f). { unfold f, grad_eta. fold g. apply Rmult_le_pos. apply Rmult_le_pos. apply pos_INR. apply pow_le. apply Rmult_le_pos; [lra|]. apply Rmult_le_pos; lra. apply Rmult_le_pos; lra. }
    (* the error of the derivative taken before is differentiated, too *)
    assert (HP : Rabs (Gop n (Xv p b') k - Gop n B k) <= (P - 1) * Gop n S k + INR n * INR n * f).
    { replace (Gop n (Xv p b') k - Gop n B k) with (Gop n (fun j => -1 * B j + Xv p b' j) k) by (rewrite Gop_lin; ring).
      eapply Rle_trans. { apply (Gop_abs n _ (fun j => (P - 1) * S j + f)); auto. intros j Hj. replace (-1 * B j + Xv p b' j) with (Xv p b' j - B j) by ring. apply HB. apply Hj. auto. }
      rewrite Gop_lin. pose proof (Gop_const n f k Hn Hk f0). lra. }
    assert (HQ : Gop n (fun j => Rabs (Xv p b' j)) k <= P * Gop n S k + INR n * INR n * f).
    { eapply Rle_trans. { apply (Gop_le n _ (fun j => P * S j + f)); auto. intros j Hj. destruct (proj1 Hj) as [_ Hj'].
        replace (Xv p b' j) with (B j + (Xv p b' j - B j)) by ring. eapply Rle_trans; [apply Rabs_triang|].
        pose proof (HB p j Hj' (Fj j Hj)) as H1. pose proof (BS j Hj'). fold B S in H1. lra. }
      rewrite Gop_lin. pose proof (Gop_const n f k Hn Hk f0). lra. }
    cbn [Gpow]. fold B S. replace (Xv p b k - Gop n B k) with ((Xv p b k - Gop n (Xv p b') k) + (Gop n (Xv p b') k - Gop n B k)) by ring.
    eapply Rle_trans; [apply Rabs_triang|]. pose proof (Rmult_le_compat_l g _ _ G0 HQ) as HQ'.
    assert (HF : (1 + g) * (INR n * INR n) * f + 3 * INR n * eta <= grad_eta n (Datatypes.S d)).
    { unfold f, grad_eta. fold g. set (K := (1 + g) * (INR n * INR n)). set (e := 3 * INR n * eta). rewrite S_INR. cbn [pow].
      assert (e0 : 0 <= e) by (unfold e; apply Rmult_le_pos; lra).
      assert (K1 : 1 <= K). { unfold K. assert (9 <= INR n * INR n) by (pose proof (Rmult_le_compat 3 (INR n) 3 (INR n)); lra). pose proof (Rmult_le_pos g (INR n * INR n) G0 ltac:(lra)). lra. }
      assert (KD : 1 <= K * K ^ d). { apply (pow_R1_Rle K (Datatypes.S d)). auto. }
      assert (e <= K * K ^ d * e). { rewrite <- (Rmult_1_l e) at 1. apply Rmult_le_compat_r; auto. }
      lra. }
    cbn [pow]. fold P. lra.
Qed.
End Fl.
